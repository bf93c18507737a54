(** Facts about sums of extended reals and parameter_dot_product (C10, C16-C18). *)
From Coq Require Import String List Bool Arith Reals Lia Lra.
From Verif Require Import Base XReal Tensor TensorFacts TensorFacts2 Support Dist DictFacts Iteration Structure Spec StructFacts
  AssembleFacts ParamFacts Tools.
Import ListNotations.

(** ** the additive structure of the extended reals *)
Lemma xadd_0_l x : xadd (Fin 0) x = x.
Proof. destruct x; cbn; trivial. now rewrite Rplus_0_l. Qed.
Lemma xadd_0_r x : xadd x (Fin 0) = x.
Proof. destruct x; cbn; trivial. now rewrite Rplus_0_r. Qed.
Lemma xadd_comm x y : xadd x y = xadd y x.
Proof. destruct x, y; cbn; trivial. now rewrite Rplus_comm. Qed.
Lemma xadd_assoc x y z : xadd x (xadd y z) = xadd (xadd x y) z.
Proof. destruct x, y, z; cbn; trivial. now rewrite Rplus_assoc. Qed.
Lemma xneg_add x y : xneg (xadd x y) = xadd (xneg x) (xneg y).
Proof. destruct x, y; cbn; trivial. now rewrite Ropp_plus_distr. Qed.
Lemma xneg_neg x : xneg (xneg x) = x.
Proof. destruct x; cbn; trivial. now rewrite Ropp_involutive. Qed.
Lemma xadd_swap a b c d : xadd (xadd a b) (xadd c d) = xadd (xadd a c) (xadd b d).
Proof. rewrite <- !xadd_assoc. f_equal. rewrite !xadd_assoc. f_equal. apply xadd_comm. Qed.
Lemma xsum_app l m : xsum (l ++ m) = xadd (xsum l) (xsum m).
Proof. induction l as [|a l IH]; cbn [app xsum fold_right]; [now rewrite xadd_0_l|]. fold (xsum l) (xsum (l ++ m)). now rewrite IH, xadd_assoc. Qed.
Lemma xsum_neg l : xsum (map xneg l) = xneg (xsum l).
Proof. induction l as [|a l IH]; cbn [map xsum fold_right]; [cbn; now rewrite Ropp_0|]. fold (xsum l) (xsum (map xneg l)). now rewrite IH, xneg_add. Qed.
Lemma xsum_add {A} (f g : A -> xr) l : xsum (map (fun a => xadd (f a) (g a)) l) = xadd (xsum (map f l)) (xsum (map g l)).
Proof.
  induction l as [|a l IH]; [cbn; now rewrite Rplus_0_l|]. cbn [map xsum fold_right].
  fold (xsum (map f l)) (xsum (map g l)) (xsum (map (fun a => xadd (f a) (g a)) l)). rewrite IH. apply xadd_swap.
Qed.
Lemma xsum_concat l : xsum (map xsum l) = xsum (concat l).
Proof. induction l as [|a l IH]; [reflexivity|]. cbn [map concat]. rewrite xsum_app, <- IH. reflexivity. Qed.
Lemma fold_xadd l : forall a, fold_left xadd l a = xadd a (xsum l).
Proof. induction l as [|x l IH]; intros a; cbn [fold_left]; [cbn; symmetry; apply xadd_0_r|]. rewrite IH, <- xadd_assoc. reflexivity. Qed.
Fixpoint rsum (l : list R) : R := match l with [] => 0%R | a :: l' => (a + rsum l')%R end.
Lemma xsum_Fin l : xsum (map Fin l) = Fin (rsum l).
Proof. induction l as [|a l IH]; cbn; [reflexivity|]. fold (xsum (map Fin l)). now rewrite IH. Qed.
Lemma xsum_ext_Fin {A} (f : A -> xr) (g : A -> R) l : (forall a, In a l -> f a = Fin (g a)) -> xsum (map f l) = Fin (rsum (map g l)).
Proof. intros H. rewrite <- xsum_Fin, map_map. f_equal. now apply map_ext_in. Qed.
Lemma csum_re l : xre (csum l) = xsum (map xre l).
Proof. induction l as [|a l IH]; [reflexivity|]. cbn [map csum fold_right xsum]. fold (csum l) (xsum (map xre l)). now rewrite <- IH. Qed.
Lemma rsum_app l m : rsum (l ++ m) = (rsum l + rsum m)%R.
Proof. induction l as [|a l IH]; cbn; [lra|]. rewrite IH. lra. Qed.
Lemma rsum_add {A} (f g : A -> R) l : rsum (map (fun a => (f a + g a)%R) l) = (rsum (map f l) + rsum (map g l))%R.
Proof. induction l as [|a l IH]; cbn; [lra|]. rewrite IH. lra. Qed.
Lemma rsum_scale {A} c (f : A -> R) l : rsum (map (fun a => (c * f a)%R) l) = (c * rsum (map f l))%R.
Proof. induction l as [|a l IH]; cbn; [lra|]. rewrite IH. lra. Qed.
Lemma rsum_ext {A} (f g : A -> R) l : (forall a, In a l -> f a = g a) -> rsum (map f l) = rsum (map g l).
Proof. intros H. f_equal. now apply map_ext_in. Qed.

(** ** reduce(add) of arrays of one shape *)
Lemma foldM_add b ts : forall t0, shp t0 = b -> (forall t, In t ts -> shp t = b) ->
  exists t, foldM (tmap2 xadd) t0 ts = Ok t /\ shp t = b /\
    forall i, inb b i = true -> tget t i = xadd (tget t0 i) (xsum (map (fun u => tget u i) ts)).
Proof.
  induction ts as [|u ts IH]; intros t0 H0 H.
  - exists t0. cbn. split; [reflexivity|]. split; [exact H0|]. intros i Hi. now rewrite xadd_0_r.
  - cbn [foldM]. assert (Hu : shp u = b) by (apply H; now left). rewrite tmap2_same by congruence. cbn [bind].
    destruct (IH (tbuild (shp t0) (fun i => xadd (tget t0 i) (tget u i)))) as (t & H1 & H2 & H3);
      [exact H0|intros t Ht; apply H; now right|].
    exists t. split; [exact H1|]. split; [exact H2|]. intros i Hi. rewrite (H3 i Hi), tget_tbuild by now rewrite H0.
    cbn [map xsum fold_right]. now rewrite xadd_assoc.
Qed.
Lemma reduce_add b ts : ts <> [] -> (forall t, In t ts -> shp t = b) ->
  exists t, reduceM (tmap2 xadd) ts = Ok t /\ shp t = b /\
    forall i, inb b i = true -> tget t i = xsum (map (fun u => tget u i) ts).
Proof.
  destruct ts as [|t0 ts]; [easy|]. intros _ H. cbn [reduceM].
  apply (foldM_add b ts t0); [apply H; now left|intros t Ht; apply H; now right].
Qed.

(** ** one product *)
(** the (complex) entry of an array *)
Definition cget (a : arr) (i : list nat) : xc := match a with RA t => cofr (tget t i) | CA t => tget t i end.
Definition term_at (v w : arr) (e : list nat) (i : list nat) : xr :=
  xsum (map (fun j => xre (cmul (cget v (i ++ j)) (cget w (i ++ j)))) (indices e)).
Lemma xre_cmul_cofr a b : xre (cmul (cofr a) (cofr b)) = xmul a b.
Proof.
  unfold cmul, cofr, xsub. cbn [xre xim xmul xneg]. rewrite Rmult_0_l, Ropp_0. apply xadd_0_r.
Qed.
Lemma ashape_complex a : shp (as_complex a) = ashape a.
Proof. now destruct a. Qed.
Lemma tget_complex a i : inb (ashape a) i = true -> tget (as_complex a) i = cget a i.
Proof. destruct a; cbn [as_complex cget ashape]; intros H; [unfold tmap; now rewrite tget_tbuild|reflexivity]. Qed.
Lemma tfold_axes_at {A B} {DA : Dflt A} {DB : Dflt B} (f : list A -> B) b e (t : tensor A) i : shp t = b ++ e -> inb b i = true ->
  shp (tfold_axes f (length e) t) = b /\ tget (tfold_axes f (length e) t) i = f (map (fun j => tget t (i ++ j)) (indices e)).
Proof.
  intros Hs Hi. unfold tfold_axes, rank. rewrite Hs, app_length.
  replace (length b + length e - length e) with (length b) by lia.
  rewrite firstn_app, firstn_all, Nat.sub_diag, skipn_app, skipn_all, Nat.sub_diag. cbn [firstn skipn app]. rewrite app_nil_r.
  split; [reflexivity|]. now rewrite tget_tbuild.
Qed.
Lemma tfold_axes_shp {A B} {DA : Dflt A} (f : list A -> B) b e (t : tensor A) : shp t = b ++ e -> shp (tfold_axes f (length e) t) = b.
Proof.
  intros Hs. unfold tfold_axes, rank. rewrite Hs, app_length.
  replace (length b + length e - length e) with (length b) by lia.
  rewrite firstn_app, firstn_all, Nat.sub_diag. cbn [firstn]. now rewrite app_nil_r.
Qed.
Lemma dot1_ok b e v w : ashape v = b ++ e -> ashape w = b ++ e ->
  exists t, dot1 v w (length e) = Ok t /\ shp t = b /\ forall i, inb b i = true -> tget t i = term_at v w e i.
Proof.
  intros Hv Hw.
  assert (Hl : length (b ++ e) <? length e = false) by (apply Nat.ltb_ge; rewrite app_length; lia).
  assert (Hc : forall tv tw : tensor xc, shp tv = b ++ e -> shp tw = b ++ e ->
     (forall i, inb (b ++ e) i = true -> tget tv i = cget v i) -> (forall i, inb (b ++ e) i = true -> tget tw i = cget w i) ->
     exists t, (let* p := rmap CA (tmap2 cmul tv tw) in
                if length (ashape p) <? length e then Err ValueError else
                match p with RA t => Ok (tfold_axes xsum (length e) t) | CA t => Ok (tmap xre (tfold_axes csum (length e) t)) end) = Ok t
        /\ shp t = b /\ forall i, inb b i = true -> tget t i = term_at v w e i).
  { intros tv tw Hsv Hsw Gv Gw. rewrite tmap2_same by congruence. cbn [rmap bind ashape shp tbuild]. rewrite Hsv, Hl.
    set (p := tbuild (b ++ e) (fun i => cmul (tget tv i) (tget tw i))).
    assert (Hp : shp (tfold_axes csum (length e) p) = b) by (now apply tfold_axes_shp).
    eexists. split; [reflexivity|]. split; [exact Hp|].
    intros i Hi. unfold tmap. rewrite tget_tbuild by now rewrite Hp.
    destruct (tfold_axes_at csum b e p i eq_refl Hi) as [_ ->]. rewrite csum_re, map_map. unfold term_at. f_equal.
    apply map_ext_in. intros j Hj. apply in_indices in Hj. unfold p.
    assert (Hij : inb (b ++ e) (i ++ j) = true) by (rewrite inb_app by (now apply inb_length); now rewrite Hi, Hj).
    rewrite tget_tbuild by exact Hij. now rewrite Gv, Gw. }
  destruct v as [v|v], w as [w|w]; unfold dot1, arr_mul; cbn [ashape] in Hv, Hw.
  - rewrite tmap2_same by congruence. cbn [rmap bind ashape shp tbuild]. rewrite Hv, Hl.
    set (p := tbuild (b ++ e) (fun i => xmul (tget v i) (tget w i))).
    eexists. split; [reflexivity|]. split; [now apply tfold_axes_shp|].
    intros i Hi. destruct (tfold_axes_at xsum b e p i eq_refl Hi) as [_ ->]. unfold term_at. f_equal.
    apply map_ext_in. intros j Hj. apply in_indices in Hj. unfold p.
    assert (Hij : inb (b ++ e) (i ++ j) = true) by (rewrite inb_app by (now apply inb_length); now rewrite Hi, Hj).
    rewrite tget_tbuild by exact Hij. cbn [cget]. now rewrite xre_cmul_cofr.
  - apply (Hc (as_complex (RA v)) w); trivial; intros i Hi; try reflexivity. apply tget_complex. cbn [ashape]. now rewrite Hv.
  - apply (Hc v (as_complex (RA w))); trivial; intros i Hi; try reflexivity. apply tget_complex. cbn [ashape]. now rewrite Hw.
  - apply (Hc v w); trivial; intros i Hi; reflexivity.
Qed.

(** ** parameter_dot_product *)
(** two parameters (with their supports) that can be multiplied: the same axes, the same shape *)
Definition pair_shaped (b : list nat) (v w : arr * support) : Prop :=
  supp_axes (snd w) = supp_axes (snd v) /\
  exists e, length e = supp_axes (snd v) /\ ashape (fst v) = b ++ e /\ ashape (fst w) = b ++ e.
Definition ext_of (b : list nat) (v : arr * support) : list nat := skipn (length b) (ashape (fst v)).
Definition pair_term (b : list nat) (i : list nat) (vw : (arr * support) * (arr * support)) : xr :=
  term_at (fst (fst vw)) (fst (snd vw)) (ext_of b (fst vw)) i.
Lemma forall2_length {A B} (R : A -> B -> Prop) l m : Forall2 R l m -> length l = length m.
Proof. induction 1; cbn; auto. Qed.
Lemma zip_combine {A B} (l : list A) : forall (m : list B), length l = length m -> zip_strict l m = Ok (combine l m).
Proof. induction l as [|a l IH]; intros [|c m] H; cbn in *; try discriminate; [reflexivity|]. now rewrite IH by lia. Qed.
Lemma dot_terms b l : forall m, Forall2 (pair_shaped b) l m ->
  exists ts, mapM (fun p : (arr * support) * (arr * support) =>
                        let axes := supp_axes (snd (fst p)) in
                        if supp_axes (snd (snd p)) =? axes
                        then dot1 (fst (fst p)) (fst (snd p)) axes
                        else Err AssertionError) (combine l m) = Ok ts /\
    Forall (fun t => shp t = b) ts /\
    forall i, inb b i = true -> map (fun u => tget u i) ts = map (pair_term b i) (combine l m).
Proof.
  induction l as [|v l IH]; intros m H; inversion H as [|? w ? m' (Ha & e & He & Hv & Hw) H']; subst.
  - exists []. cbn. auto.
  - destruct (IH m' H') as (ts & H1 & H2 & H3). cbn [combine mapM fst snd]. rewrite Ha, Nat.eqb_refl, <- He.
    destruct (dot1_ok b e _ _ Hv Hw) as (t & T1 & T2 & T3). rewrite T1. cbn [bind].
    match goal with |- context [mapM ?f ?l] => replace (mapM f l) with (@Ok (list (tensor xr)) ts) by (symmetry; exact H1) end. cbn [bind].
    exists (t :: ts). split; [reflexivity|]. split; [now constructor|]. intros i Hi. cbn [map]. rewrite (H3 i Hi). f_equal.
    rewrite (T3 i Hi). unfold pair_term, ext_of. cbn [fst snd]. now rewrite Hv, skipn_app, skipn_all, Nat.sub_diag.
Qed.
Lemma dot_ok b x y X Y : parameters_s x (Some false) = Ok X -> parameters_s y (Some false) = Ok Y -> X <> [] ->
  Forall2 (pair_shaped b) (values X) (values Y) ->
  exists t, parameter_dot_product x y = Ok t /\ shp t = b /\
    forall i, inb b i = true -> tget t i = xsum (map (pair_term b i) (combine (values X) (values Y))).
Proof.
  intros HX HY Hne H. unfold parameter_dot_product. rewrite HX, HY. cbn [bind].
  rewrite zip_combine by (eapply forall2_length; eauto). cbn [bind].
  destruct (dot_terms b _ _ H) as (ts & H1 & H2 & H3).
  match goal with |- context [mapM ?f ?l] => replace (mapM f l) with (@Ok (list (tensor xr)) ts) by (symmetry; exact H1) end. cbn [bind].
  destruct (reduce_add b ts) as (t & T1 & T2 & T3).
  - intros ->. destruct X as [|[k [v s]] X]; [easy|]. inversion H as [|? ? ? ? Hp ? Eq1 Eq2]; subst. cbn [values map snd combine] in H1. rewrite <- Eq2 in H1.
    cbn [combine mapM fst snd] in H1.
    destruct (if supp_axes _ =? _ then _ else _); [|discriminate]. cbn [bind] in H1. destruct (mapM _ _); discriminate.
  - now apply Forall_forall.
  - exists t. split; [exact T1|]. split; [exact T2|]. intros i Hi. now rewrite (T3 i Hi), (H3 i Hi).
Qed.
(** a different number of variable parameters *)
Lemma zip_strict_err {A B} (l : list A) : forall (m : list B), length l <> length m -> zip_strict l m = Err ValueError.
Proof. induction l as [|a l IH]; intros [|c m] H; cbn in *; try easy; try now (exfalso; apply H). now rewrite IH by lia. Qed.
Lemma dot_count x y X Y : parameters_s x (Some false) = Ok X -> parameters_s y (Some false) = Ok Y -> length X <> length Y ->
  parameter_dot_product x y = Err ValueError.
Proof.
  intros HX HY Hne. unfold parameter_dot_product. rewrite HX, HY. cbn [bind].
  rewrite zip_strict_err by (unfold values; now rewrite !map_length). reflexivity.
Qed.
