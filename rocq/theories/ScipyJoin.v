(** Joint distributions of scipy replacements against joint distributions of exponential families; the properties and the defaults of ScipyComplexNormal (C69). *)
From Coquelicot Require Import Coquelicot.
From Coq Require Import String List Bool Arith ZArith Permutation Reals Lra Lia.
From Verif Require Import Base XReal Tensor TensorFacts TensorFacts2 BroadcastFacts DictFacts StructFacts Support Dist Iteration Structure Tools Joint Spec SumSpec DotSpec PointSpec DensSpec SpecFun Val Fam BatchFacts BatchThms JointThms JointThms2 LogPdfThms DotFacts
  Scipy ScipyShaped ScipyFacts ScipyThms ScipyAgree ScipyJoinSpec.
Import ListNotations.
Local Unset Asymmetric Patterns.
Local Open Scope string_scope.
Local Open Scope R_scope.
Local Notation C := Complex.C (only parsing).
Local Existing Instance Scipy.Dflt_C.
Local Existing Instance Scipy.Dflt_R.

(** ** the properties of ScipyComplexNormal *)
Definition filled (b : list nat) (z : C) (o : option narr) : narr := match o with Some a => a | None => NArr true (tfull b z) end.
Lemma tget_tfull (b : list nat) (z : C) i : inb b i = true -> tget (tfull b z) i = z.
Proof. intros H. unfold tfull. now rewrite tget_tbuild. Qed.
Lemma filled_shape b z o : declared b o -> shp (na_val (filled b z o)) = b.
Proof. intros H. destruct o as [a|]; [now apply H|reflexivity]. Qed.
Lemma filled_get b z o i : inb b i = true -> tget (na_val (filled b z o)) i = or_else z o i.
Proof. intros H. destruct o as [a|]; [reflexivity|]. cbn. now apply tget_tfull. Qed.
Lemma cn_array_filled b m v u : declared b m -> declared b v -> declared b u -> (m <> None \/ v <> None \/ u <> None) ->
  cn_array m v u = cn_array (Some (filled b (RtoC 0) m)) (Some (filled b (RtoC 1) v)) (Some (filled b (RtoC 0) u)).
Proof.
  intros Dm Dv Du H.
  assert (K : forall o a, declared b o -> o = Some a -> shp (na_val a) = b) by (intros o a D E; now apply D).
  destruct m as [m|], v as [v|], u as [u|]; unfold cn_array; cbn [filled na_val na_real bind].
  all: try reflexivity.
  all: try (rewrite (K _ _ Dm eq_refl)).
  all: try (rewrite (K _ _ Dv eq_refl)).
  all: try (rewrite (K _ _ Du eq_refl)).
  all: try reflexivity.
  exfalso; intuition congruence.
Qed.
Theorem cn_getters b m v u : declared b m -> declared b v -> declared b u -> (m <> None \/ v <> None \/ u <> None) -> (forall a, v = Some a -> na_real a = true) ->
  (forall i, inb b i = true -> Cmod (or_else (RtoC 0) u i) <= fst (or_else (RtoC 1) v i)) ->
  exists c, cn_array m v u = Ok c /\ shp (cn_means c) = b /\ shp (cn_variances c) = b /\ shp (cn_pseudos c) = b /\
    forall i, inb b i = true -> tget (cn_means c) i = or_else (RtoC 0) m i /\ RtoC (tget (cn_variances c) i) = or_else (RtoC 1) v i /\ tget (cn_pseudos c) i = or_else (RtoC 0) u i.
Proof.
  intros Dm Dv Du H Rv Hu. rewrite (cn_array_filled b) by assumption.
  assert (X : forall o z, filled b z o = NArr (na_real (filled b z o)) (na_val (filled b z o))) by (intros; now destruct (filled b z o)).
  assert (V : filled b (RtoC 1) v = NArr true (na_val (filled b (RtoC 1) v))). { rewrite X at 1. f_equal. destruct v as [a|]; [now apply Rv|reflexivity]. }
  assert (RR : forall o z i, declared b o -> snd z = 0 -> na_real (filled b z o) = true -> inb b i = true -> snd (or_else z o i) = 0).
  { intros [a|] z i D Z R Hi; [now apply (D a eq_refl)|exact Z]. }
  rewrite (X m), (X u), V.
  destruct (cn_array_ok b (na_val (filled b (RtoC 0) m)) (na_val (filled b (RtoC 1) v)) (na_val (filled b (RtoC 0) u)) (na_real (filled b (RtoC 0) m)) (na_real (filled b (RtoC 0) u))) as (c & C1 & C2 & C3 & C4).
  - now apply filled_shape.
  - now apply filled_shape.
  - now apply filled_shape.
  - intros i Hi. rewrite filled_get by exact Hi. apply RR; auto. rewrite V. reflexivity.
  - intros i Hi. rewrite !filled_get by exact Hi. now apply Hu.
  - exists c. split; [exact C1|]. unfold cn_means, cn_variances, cn_pseudos. rewrite C2. do 3 (split; [reflexivity|]). intros i Hi. rewrite !tget_tbuild by exact Hi. rewrite (C4 i Hi), C3. cbn [cn_mean cn_variance cn_pseudo].
    rewrite !filled_get by exact Hi. assert (W : forall z : C, snd z = 0 -> RtoC (fst z) = z) by (intros [p q] E; cbn in *; now rewrite E).
    split; [|split].
    + unfold cast. destruct (_ && _)%bool eqn:B; [|reflexivity]. apply andb_prop in B. apply W, RR; tauto.
    + apply W, RR; auto. rewrite V. reflexivity.
    + unfold cast. destruct (_ && _)%bool eqn:B; [|reflexivity]. apply andb_prop in B. apply W, RR; tauto.
Qed.

(** ** joint distributions *)
Lemma prod_perm {A} (g : A -> R) l l' : Permutation l l' -> fold_right Rmult 1 (map g l) = fold_right Rmult 1 (map g l').
Proof. induction 1; cbn; [reflexivity|now rewrite IHPermutation|ring|congruence]. Qed.
Lemma add_perm {A} (g : A -> R) l l' : Permutation l l' -> fold_right Rplus 0 (map g l) = fold_right Rplus 0 (map g l').
Proof. induction 1; cbn; [reflexivity|now rewrite IHPermutation|ring|congruence]. Qed.
Lemma xexp_sum {A} (h : A -> xr) (g : A -> R) l : (forall a, In a l -> xexp (h a) = Fin (g a)) -> xexp (xsum (map h l)) = Fin (fold_right Rmult 1 (map g l)).
Proof.
  intros H. assert (K : (exists r, xsum (map h l) = Fin r /\ exp r = fold_right Rmult 1 (map g l)) \/ xsum (map h l) = NInf /\ fold_right Rmult 1 (map g l) = 0).
  { induction l as [|a l IH]; [left; exists 0; split; [reflexivity|apply exp_0]|]. cbn [map xsum fold_right]. fold (xsum (map h l)). pose proof (H a (or_introl eq_refl)) as Ha.
    destruct IH as [(r & -> & Er)|[-> Er]]; [intros; apply H; now right| |]; rewrite ?Er; destruct (h a) as [y| | |]; cbn in Ha; try discriminate Ha; injection Ha as Ha; cbn.
    - left. exists (y + r). split; [reflexivity|]. rewrite exp_plus, Er, Ha. reflexivity.
    - right. split; [reflexivity|]. rewrite <- Ha. ring.
    - right. split; [reflexivity|]. ring.
    - right. split; [reflexivity|]. ring. }
  destruct K as [(r & -> & E)|[-> E]]; cbn; now rewrite E.
Qed.
Lemma leaves_flat q : is_joint (dcls q) = true -> (forall n s, In (n, s) (sub_distributions q) -> is_joint (dcls s) = false) -> leaves [] q = map (fun ns => ([fst ns], snd ns)) (sub_distributions q).
Proof.
  destruct q as [c mi ps subs]. cbn [dcls sub_distributions leaves]. intros -> H. induction subs as [|[n s] l IH]; [reflexivity|]. cbn [flat_map map fst snd].
  rewrite IH by (intros n0 s0 I0; apply (H n0 s0); now right). assert (J : is_joint (dcls s) = false) by (apply (H n s); now left). destruct s as [c' mi' ps' subs']. cbn [dcls leaves] in *. rewrite J. reflexivity.
Qed.
Lemma joint_names q : is_joint (dcls q) = true -> well_formed q = true -> sub_distributions q <> [] /\ NoDup (map fst (sub_distributions q)).
Proof.
  destruct q as [c mi ps subs]. cbn [dcls sub_distributions well_formed]. intros ->. intros H. apply andb_prop in H. destruct H as [H _]. apply andb_prop in H. destruct H as [_ H]. apply andb_prop in H. destruct H as [H1 H2].
  split; [now destruct subs|now apply nodupb_NoDup].
Qed.
Section Joint.
  Context {G : Type} (solve : minimizer -> dist -> nat -> xr).
  Let L := fam_methods solve.
  Definition joined (ds : dict string (sdist G)) : dict string (sjobj G) := map (fun kd => (fst kd, of_shaped (snd kd))) ds.
  Lemma joined_keys ds : map fst (joined ds) = map fst ds.
  Proof. unfold joined. rewrite map_map. reflexivity. Qed.
  Lemma in_joined ds k d : In (k, d) (joined ds) -> exists d0, In (k, d0) ds /\ d = of_shaped d0.
  Proof. intros H. apply in_map_iff in H. destruct H as ([k0 d0] & E & H). cbn in E. injection E as <- <-. eauto. Qed.
  Lemma same_keys_nodup (l l' : list string) : NoDup l -> NoDup l' -> (forall n, In n l <-> In n l') -> Permutation l l'.
  Proof. intros. now apply NoDup_Permutation. Qed.

  Theorem joint_pdf_agrees b q x (ds : dict string (sdist G)) z : is_joint (dcls q) = true -> (forall n s, In (n, s) (sub_distributions q) -> is_joint (dcls s) = false) ->
    well_formed q = true -> nat_tree q = true -> shaped b q = true -> obs_matches q x -> obs_shaped b q x ->
    NoDup (map fst ds) -> NoDup (map fst z) -> (forall n, In n (map fst ds) <-> In n (map fst (sub_distributions q))) -> (forall n, In n (map fst z) <-> In n (map fst (sub_distributions q))) ->
    (forall n s d a y, In (n, s) (sub_distributions q) -> In (n, d) ds -> nested_get x [n] = Some a -> In (n, y) z -> exists r, sd_pdf d y = Ok r /\ shp r = b /\ forall i, inb b i = true -> density L b i s a (tget r i)) ->
    exists r p, sj_pdf (joined ds) z = Ok r /\ pdf L q x = Ok p /\ shp r = b /\ shp p = b /\ forall i, inb b i = true -> tget p i = Fin (tget r i).
  Proof.
    intros J Jl W Nt Sh Om Os Nd Nz Kd Kz H. destruct (joint_names q J W) as [Ne Nq].
    set (v := fun k => match dget ds k, dget z k with Some d, Some y => match sd_pdf d y with Ok r => r | Err _ => tscalar 0 end | _, _ => tscalar 0 end).
    destruct (log_pdf_sum L (fam_good solve) b q x W Nt Sh Om Os) as (S1 & t & T1 & T2 & T3). rewrite leaves_flat in S1, T3 by assumption.
    assert (Hv : forall n s, In (n, s) (sub_distributions q) -> exists d y a r, In (n, d) ds /\ In (n, y) z /\ nested_get x [n] = Some a /\ sd_pdf d y = Ok r /\ v n = r /\ shp r = b /\ forall i, inb b i = true -> density L b i s a (tget r i)).
    { intros n s I. assert (In n (map fst (sub_distributions q))) as In0 by (apply in_map_iff; exists (n, s); auto).
      destruct (dget ds n) as [d|] eqn:Ed; [|apply dget_None in Ed; exfalso; apply Ed; now apply Kd]. destruct (dget z n) as [y|] eqn:Ey; [|apply dget_None in Ey; exfalso; apply Ey; now apply Kz].
      assert (I' : In ([n], s) (map (fun ns : string * dist => ([fst ns], snd ns)) (sub_distributions q))) by (apply in_map_iff; exists (n, s); auto).
      destruct (S1 _ I') as (t0 & Q1 & _). unfold LogPdfThms.obs_at in Q1. cbn [fst snd] in Q1. destruct (nested_get x [n]) as [a|] eqn:Ea; [|discriminate Q1].
      pose proof (dget_In _ _ _ Ed) as Id. pose proof (dget_In _ _ _ Ey) as Iy. destruct (H n s d a y I Id Ea Iy) as (r & R1 & R2 & R3). exists d, y, a, r. unfold v. rewrite Ed, Ey, R1. auto 8. }
    destruct (joint_pdf_spec b (joined ds) z v) as (r & R1 & R2 & R3).
    - now rewrite joined_keys.
    - exact Nz.
    - intros n. rewrite joined_keys. now rewrite Kz, Kd.
    - destruct (sub_distributions q) as [|[n s] l] eqn:E; [congruence|]. intros E0. assert (map fst (joined ds) = []) as E1 by now rewrite E0. rewrite joined_keys in E1. assert (In n (map fst ds)) as X by (apply Kd; now left). rewrite E1 in X. destruct X.
    - intros k d0 y I Iy. destruct (in_joined _ _ _ I) as (d & Id & ->). assert (In k (map fst (sub_distributions q))) as X by (apply Kd; apply in_map_iff; exists (k, d); auto). apply in_map_iff in X. destruct X as ([k' s] & E & Is). cbn in E. subst k'.
      destruct (Hv k s Is) as (d' & y' & a & r & Id' & Iy' & _ & P1 & -> & P3 & _). assert (d' = d) as -> by (apply In_dget in Id; [|exact Nd]; apply In_dget in Id'; [|exact Nd]; congruence).
      assert (y' = y) as -> by (apply In_dget in Iy; [|exact Nz]; apply In_dget in Iy'; [|exact Nz]; congruence). auto.
    - exists r, (tmap xexp t). split; [exact R1|]. split; [unfold pdf; now rewrite T1|]. split; [exact R2|]. split; [exact T2|]. intros i Hi. rewrite tget_tmap by now rewrite T2. rewrite (T3 i Hi), R3 by exact Hi. rewrite map_map.
      rewrite (xexp_sum _ (fun ns => tget (v (fst ns)) i)).
      + f_equal. rewrite <- !(map_map fst (fun n => tget (v n) i)), joined_keys. apply prod_perm. apply same_keys_nodup; auto. intros n. symmetry. apply Kd.
      + intros [n s] I. unfold LogPdfThms.obs_at. cbn [fst snd]. destruct (Hv n s I) as (d & y & a & r0 & _ & _ & -> & _ & -> & _ & D). destruct (D i Hi) as (p & P1 & P2 & P3). unfold pdf in P1. destruct (log_pdf L s (Leaf a)) as [lp|] eqn:El; [|discriminate P1]. cbn in P1. injection P1 as <-.
        cbn [entry]. rewrite tget_tmap in P3 by (cbn in P2; now rewrite P2). exact P3.
  Qed.
  Theorem joint_entropy_agrees b q (ds : dict string (sdist G)) : is_joint (dcls q) = true -> (forall n s, In (n, s) (sub_distributions q) -> is_joint (dcls s) = false) ->
    well_formed q = true -> nat_tree q = true -> shaped b q = true -> (forall n s f, In (n, s) (sub_distributions q) -> dcls s = NP f -> has_entropy_ep (EP f) = true) ->
    NoDup (map fst ds) -> (forall n, In n (map fst ds) <-> In n (map fst (sub_distributions q))) ->
    (forall n s d, In (n, s) (sub_distributions q) -> In (n, d) ds -> exists r t, sd_entropy d = Ok r /\ shp r = b /\ entropy_nat L s = Ok t /\ forall i, inb b i = true -> tget t i = Fin (tget r i)) ->
    exists r t, sj_entropy (joined ds) = Ok r /\ entropy_nat L q = Ok t /\ shp r = b /\ shp t = b /\ forall i, inb b i = true -> tget t i = Fin (tget r i).
  Proof.
    intros J Jl W Nt Sh He Nd Kd H. destruct (joint_names q J W) as [Ne Nq].
    set (v := fun k => match dget ds k with Some d => match sd_entropy d with Ok r => r | Err _ => tscalar 0 end | _ => tscalar 0 end).
    destruct (entropy_nat_sum L (fam_good solve) b q W Nt Sh) as (S1 & t & T1 & T2 & T3). { rewrite leaves_flat by assumption. intros p l f I. apply in_map_iff in I. destruct I as ([n s] & E & I). injection E as <- <-. now apply He with (n := n). }
    rewrite leaves_flat in S1, T3 by assumption.
    assert (Hv : forall n s, In (n, s) (sub_distributions q) -> exists d r u, In (n, d) ds /\ sd_entropy d = Ok r /\ v n = r /\ shp r = b /\ entropy_nat L s = Ok u /\ forall i, inb b i = true -> tget u i = Fin (tget r i)).
    { intros n s I. assert (In n (map fst (sub_distributions q))) as In0 by (apply in_map_iff; exists (n, s); auto).
      destruct (dget ds n) as [d|] eqn:Ed; [|apply dget_None in Ed; exfalso; apply Ed; now apply Kd].
      pose proof (dget_In _ _ _ Ed) as Id. destruct (H n s d I Id) as (r & u & R1 & R2 & R3 & R4). exists d, r, u. unfold v. rewrite Ed, R1. auto 8. }
    destruct (joint_entropy_spec b (joined ds) v) as (r & R1 & R2 & R3).
    - destruct (sub_distributions q) as [|[n s] l] eqn:E; [congruence|]. intros E0. assert (map fst (joined ds) = []) as E1 by now rewrite E0. rewrite joined_keys in E1. assert (In n (map fst ds)) as X by (apply Kd; now left). rewrite E1 in X. destruct X.
    - intros k d0 I. destruct (in_joined _ _ _ I) as (d & Id & ->). assert (In k (map fst (sub_distributions q))) as X by (apply Kd; apply in_map_iff; exists (k, d); auto). apply in_map_iff in X. destruct X as ([k' s] & E & Is). cbn in E. subst k'.
      destruct (Hv k s Is) as (d' & r & u & Id' & P1 & -> & P3 & _). assert (d' = d) as -> by (apply In_dget in Id; [|exact Nd]; apply In_dget in Id'; [|exact Nd]; congruence). auto.
    - exists r, t. split; [exact R1|]. split; [exact T1|]. split; [exact R2|]. split; [exact T2|]. intros i Hi. rewrite (T3 i Hi), R3 by exact Hi. rewrite map_map.
      erewrite xsum_ext_Fin with (g := fun ns => tget (v (fst ns)) i).
      + f_equal. rewrite <- !(map_map fst (fun n => tget (v n) i)), joined_keys. apply add_perm. apply same_keys_nodup; auto. intros n. symmetry. apply Kd.
      + intros [n s] I. cbn [fst snd]. destruct (Hv n s I) as (d & r0 & u & _ & _ & -> & _ & -> & D). cbn [entry]. now apply D.
  Qed.
End Joint.
