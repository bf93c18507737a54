(** Sums over leaves: log_normalizer, expected_carrier_measure, parameter_dot_product. *)
From Coq Require Import FinFun String List Bool Arith Lia Reals.
From Verif Require Import Base XReal Tensor TensorFacts Support Dist DictFacts Iteration Structure Spec StructFacts AssembleFacts SumSpec
  Tools Joint DotFacts.
Import ListNotations.

Lemma entry_ok t i : entry (Ok t) i = tget t i. Proof. reflexivity. Qed.
Lemma sums_one {A} (g : A -> result (tensor xr)) b a t : g a = Ok t -> shp t = b -> sums_to g b [a] (g a).
Proof.
  intros H1 H2. split; [intros a' [<-|[]]; eauto|]. exists t. split; [exact H1|]. split; [exact H2|]. intros i Hi. cbn. rewrite H1. cbn. now rewrite xadd_0_r.
Qed.
Lemma sums_concat {A B} (g : A -> result (tensor xr)) (f : B -> result (tensor xr)) b (k : B -> list A) (l : list B) : l <> [] ->
  (forall x, In x l -> sums_to g b (k x) (f x)) -> sums_to g b (flat_map k l) (bind (mapM f l) (reduceM (tmap2 xadd))).
Proof.
  intros Hne H. split.
  - intros a Ha. apply in_flat_map in Ha as (x & Hx & Ha). destruct (H x Hx) as [H1 _]. auto.
  - assert (Hm : exists ts, mapM f l = Ok ts /\ Forall (fun t => shp t = b) ts /\ length ts = length l /\
      forall i, inb b i = true -> map (fun u => tget u i) ts = map (fun x => xsum (map (fun a => entry (g a) i) (k x))) l).
    { clear Hne. induction l as [|x l IH]; [exists []; cbn; auto|].
      destruct IH as (ts & M1 & M2 & M3 & M4); [intros; apply H; now right|]. destruct (H x (or_introl eq_refl)) as [_ (t & T1 & T2 & T3)].
      exists (t :: ts). cbn [mapM]. rewrite T1. cbn [bind]. rewrite M1. cbn [bind]. split; [reflexivity|]. split; [now constructor|]. split; [cbn; lia|].
      intros i Hi. cbn [map]. now rewrite (M4 i Hi), (T3 i Hi). }
    destruct Hm as (ts & M1 & M2 & M3 & M4). rewrite M1. cbn [bind]. rewrite Forall_forall in M2.
    destruct (reduce_add b ts) as (t & T1 & T2 & T3); [|exact M2|].
    { intros ->. destruct l; [easy|discriminate]. }
    exists t. split; [exact T1|]. split; [exact T2|]. intros i Hi. rewrite (T3 i Hi), (M4 i Hi). clear. induction l as [|x l IH]; [reflexivity|].
    cbn [flat_map map]. rewrite map_app, xsum_app, <- IH. reflexivity.
Qed.
Lemma sums_map {A B} (h : B -> A) (g : A -> result (tensor xr)) b l r : sums_to (fun x => g (h x)) b l r <-> sums_to g b (map h l) r.
Proof.
  unfold sums_to. split; intros [H1 (t & T1 & T2 & T3)]; split.
  - intros a Ha. apply in_map_iff in Ha as (x & <- & Hx). auto.
  - exists t. split; [exact T1|]. split; [exact T2|]. intros i Hi. rewrite (T3 i Hi). now rewrite map_map.
  - intros x Hx. apply H1. now apply in_map.
  - exists t. split; [exact T1|]. split; [exact T2|]. intros i Hi. rewrite (T3 i Hi). now rewrite map_map.
Qed.
Lemma sums_ext {A} (g h : A -> result (tensor xr)) b l r : (forall a, In a l -> g a = h a) -> sums_to g b l r -> sums_to h b l r.
Proof.
  intros E [H1 (t & T1 & T2 & T3)]. split; [intros a Ha; rewrite <- (E a Ha); auto|]. exists t. split; [exact T1|]. split; [exact T2|].
  intros i Hi. rewrite (T3 i Hi). f_equal. apply map_ext_in. intros a Ha. now rewrite (E a Ha).
Qed.
(** pointwise combination of two sums *)
Lemma sums_op2 {A} (op : xr -> xr -> xr) (g h : A -> result (tensor xr)) b l r s :
  (forall f1 f2 : A -> xr, xsum (map (fun a => op (f1 a) (f2 a)) l) = op (xsum (map f1 l)) (xsum (map f2 l))) ->
  sums_to g b l r -> sums_to h b l s -> sums_to (fun a => let* x := g a in let* y := h a in tmap2 op x y) b l (let* x := r in let* y := s in tmap2 op x y).
Proof.
  intros Hop [G1 (t & T1 & T2 & T3)] [H1 (u & U1 & U2 & U3)]. split.
  - intros a Ha. destruct (G1 a Ha) as (x & -> & Hx). destruct (H1 a Ha) as (y & -> & Hy). cbn [bind]. rewrite tmap2_same by congruence. eauto.
  - rewrite T1, U1. cbn [bind]. rewrite tmap2_same by congruence. eexists. split; [reflexivity|]. split; [exact T2|]. intros i Hi.
    rewrite tget_tbuild by now rewrite T2. rewrite (T3 i Hi), (U3 i Hi), <- Hop. f_equal. apply map_ext_in. intros a Ha.
    destruct (G1 a Ha) as (x & Gx & Hx). destruct (H1 a Ha) as (y & Hy' & Hy). rewrite Gx, Hy'. cbn [bind entry]. rewrite tmap2_same by congruence. cbn [entry].
    now rewrite tget_tbuild by now rewrite Hx.
Qed.
Lemma sums_op1 {A} (op : xr -> xr) (g : A -> result (tensor xr)) b l r :
  (forall f1 : A -> xr, xsum (map (fun a => op (f1 a)) l) = op (xsum (map f1 l))) ->
  sums_to g b l r -> sums_to (fun a => let* x := g a in Ok (tmap op x)) b l (let* x := r in Ok (tmap op x)).
Proof.
  intros Hop [G1 (t & T1 & T2 & T3)]. split.
  - intros a Ha. destruct (G1 a Ha) as (x & -> & Hx). cbn [bind]. eauto.
  - rewrite T1. cbn [bind]. eexists. split; [reflexivity|]. split; [exact T2|]. intros i Hi.
    unfold tmap at 1. rewrite tget_tbuild by now rewrite T2. rewrite (T3 i Hi), <- Hop. f_equal. apply map_ext_in. intros a Ha.
    destruct (G1 a Ha) as (x & Gx & Hx). rewrite Gx. cbn [bind entry]. unfold tmap. now rewrite tget_tbuild by now rewrite Hx.
Qed.
Lemma xsum_sub {A} (f g : A -> xr) l : xsum (map (fun a => xsub (f a) (g a)) l) = xsub (xsum (map f l)) (xsum (map g l)).
Proof.
  assert (E : forall x y, xsub x y = xadd x (xneg y)) by (intros [] []; cbn; try reflexivity).
  rewrite E, <- xsum_neg, map_map, <- xsum_add. reflexivity.
Qed.
Lemma xsum_neg' {A} (f : A -> xr) l : xsum (map (fun a => xneg (f a)) l) = xneg (xsum (map f l)).
Proof. now rewrite <- xsum_neg, map_map. Qed.

(** ** log_normalizer and expected_carrier_measure *)
Section Sums.
  Variable L : leaf_methods.
  Lemma log_normalizer_unfold m ps subs : log_normalizer L (Dist JointDistributionN m ps subs) =
    bind (mapM (fun ns => log_normalizer L (snd ns)) subs) (reduceM (tmap2 xadd)).
  Proof.
    cbn [log_normalizer]. f_equal. induction subs as [|[n s] subs IH]; [reflexivity|]. cbn [mapM fst snd]. rewrite IH. reflexivity.
  Qed.
  Lemma log_normalizer_sum b d : forall base, well_formed d = true -> nat_tree d = true ->
    (forall p q, In (p, q) (leaves base d) -> exists t, l_log_normalizer L q = Ok t /\ shp t = b) ->
    sums_to (fun pq : path * dist => l_log_normalizer L (snd pq)) b (leaves base d) (log_normalizer L d).
  Proof.
    induction d as [c m ps subs IH] using dist_rect'. intros base Hwf Hn Hl. apply wf_inv in Hwf as (_ & Hj & Hsb & Hsub).
    cbn [nat_tree all_nodes] in Hn. apply andb_prop in Hn as [Hc Hn]. destruct c as [f|f| | | | | | |]; try discriminate Hc.
    - cbn [leaves is_joint log_normalizer] in *. destruct (Hl base (Dist (NP f) m ps subs) (or_introl eq_refl)) as (t & T1 & T2).
      exact (sums_one (fun pq : path * dist => l_log_normalizer L (snd pq)) b (base, Dist (NP f) m ps subs) t T1 T2).
    - rewrite log_normalizer_unfold. cbn [leaves is_joint] in *. apply sums_concat; [now apply Hj|]. intros [n s] Hi. rewrite Forall_forall in IH, Hsub. rewrite forallb_forall in Hn.
      apply (IH _ Hi); [exact (Hsub _ Hi)|exact (Hn _ Hi)|]. intros p q Hq. apply (Hl p q). apply in_flat_map. exists (n, s). auto.
  Qed.
  Lemma ecm_unfold m ps subs : expected_carrier_measure L (Dist JointDistributionE m ps subs) =
    bind (mapM (fun ns => if has_entropy_ep (dcls (snd ns)) then expected_carrier_measure L (snd ns) else Err AssertionError) subs) (reduceM (tmap2 xadd)).
  Proof.
    cbn [expected_carrier_measure]. f_equal. induction subs as [|[n s] subs IH]; [reflexivity|]. cbn [mapM fst snd]. rewrite IH. reflexivity.
  Qed.
  Lemma ecm_sum b d : forall base, well_formed d = true -> all_nodes has_entropy_ep d = true ->
    (forall p q, In (p, q) (leaves base d) -> exists t, l_expected_carrier_measure L q = Ok t /\ shp t = b) ->
    sums_to (fun pq : path * dist => l_expected_carrier_measure L (snd pq)) b (leaves base d) (expected_carrier_measure L d).
  Proof.
    induction d as [c m ps subs IH] using dist_rect'. intros base Hwf Hn Hl. apply wf_inv in Hwf as (_ & Hj & Hsb & Hsub).
    cbn [all_nodes] in Hn. apply andb_prop in Hn as [Hc Hn]. destruct c as [f|f| | | | | | |]; try discriminate Hc.
    - cbn [leaves is_joint expected_carrier_measure] in *. rewrite Hc. destruct (Hl base (Dist (EP f) m ps subs) (or_introl eq_refl)) as (t & T1 & T2).
      exact (sums_one (fun pq : path * dist => l_expected_carrier_measure L (snd pq)) b (base, Dist (EP f) m ps subs) t T1 T2).
    - rewrite ecm_unfold. cbn [leaves is_joint] in *. apply sums_concat; [now apply Hj|]. intros [n s] Hi. rewrite Forall_forall in IH, Hsub. rewrite forallb_forall in Hn.
      pose proof (Hn _ Hi) as Hs. cbn [snd fst] in *. assert (He : has_entropy_ep (dcls s) = true) by (destruct s; cbn in Hs; now apply andb_prop in Hs). rewrite He.
      apply (IH _ Hi); [exact (Hsub _ Hi)|exact Hs|]. intros p q Hq. apply (Hl p q). apply in_flat_map. exists (n, s). auto.
  Qed.
End Sums.

(** ** parameter_dot_product *)
Definition vars (q : dist) : list (arr * support) := map snd (own_list (Some false) q).
Lemma values_leaf_items ls : values (flat_map (leaf_items (Some false)) ls) = flat_map (fun pq => vars (snd pq)) ls.
Proof.
  unfold values. induction ls as [|[p q] ls IH]; [reflexivity|]. cbn [flat_map snd]. rewrite map_app, IH. f_equal. unfold leaf_items, vars. cbn [fst snd]. now rewrite map_map.
Qed.
Lemma leaf_leaves q base : is_joint (dcls q) = false -> leaves base q = [(base, q)].
Proof. destruct q. cbn. now intros ->. Qed.
Lemma combine_flat {A B C D} (f : A -> list C) (g : B -> list D) l : forall m, Forall2 (fun a b => length (f a) = length (g b)) l m ->
  combine (flat_map f l) (flat_map g m) = flat_map (fun ab => combine (f (fst ab)) (g (snd ab))) (combine l m).
Proof.
  induction 1 as [|a b l m H _ IH]; [reflexivity|]. cbn [flat_map combine fst snd]. rewrite <- IH. clear IH. revert H. generalize (f a) (g b). clear.
  induction l0 as [|x l0 IH]; intros [|y l1] H; try discriminate; [reflexivity|]. cbn. f_equal. apply IH. cbn in H. lia.
Qed.
Definition leaf_pair (b : list nat) (q r : dist) : Prop :=
  well_formed q = true /\ well_formed r = true /\ is_joint (dcls q) = false /\ is_joint (dcls r) = false /\ vars q <> [] /\ Forall2 (pair_shaped b) (vars q) (vars r).
Lemma dot_leaf b q r : leaf_pair b q r ->
  exists t, parameter_dot_product q r = Ok t /\ shp t = b /\
    forall i, inb b i = true -> tget t i = xsum (map (pair_term b i) (combine (vars q) (vars r))).
Proof.
  intros (H1 & H2 & J1 & J2 & Hne & H).
  assert (E : forall q, well_formed q = true -> is_joint (dcls q) = false -> parameters_s q (Some false) = Ok (leaf_items (Some false) ([], q))).
  { intros d W J. rewrite parameters_s_ok by exact W. rewrite leaf_leaves by exact J. cbn. now rewrite app_nil_r. }
  assert (V : forall q, values (leaf_items (Some false) ([], q)) = vars q) by (intros d; unfold values, leaf_items, vars; now rewrite map_map).
  destruct (dot_ok b q r _ _ (E q H1 J1) (E r H2 J2)) as (t & T).
  - intros E0. apply Hne. rewrite <- V. now rewrite E0.
  - now rewrite !V.
  - rewrite !V in T. exists t. exact T.
Qed.
Lemma dot_sum b x y : well_formed x = true -> well_formed y = true -> leaves [] x <> [] ->
  Forall2 (fun p q => leaf_pair b (snd p) (snd q)) (leaves [] x) (leaves [] y) ->
  sums_to (fun pq : (path * dist) * (path * dist) => parameter_dot_product (snd (fst pq)) (snd (snd pq))) b (combine (leaves [] x) (leaves [] y)) (parameter_dot_product x y).
Proof.
  intros Wx Wy Hne H.
  destruct (dot_ok b x y _ _ (parameters_s_ok x (Some false) Wx) (parameters_s_ok y (Some false) Wy)) as (t & T1 & T2 & T3).
  - destruct H as [|p q l m Hp _]; [easy|]. intros E. apply (f_equal values) in E. rewrite values_leaf_items in E. cbn in E. destruct Hp as (_ & _ & _ & _ & Hp & _). now destruct (vars (snd p)).
  - rewrite !values_leaf_items. clear Hne. induction H as [|p q l m Hp _ IH]; [constructor|]. cbn [flat_map]. apply Forall2_app; [apply Hp|exact IH].
  - split.
    + intros [p q] Hi. assert (Hl : leaf_pair b (snd p) (snd q)).
      { clear -H Hi. revert Hi. induction H as [|p' q' l m Hp _ IH]; [intros []|]. intros [E|Hi]; [injection E as <- <-; exact Hp|auto]. }
      destruct (dot_leaf b _ _ Hl) as (u & U1 & U2 & _). eauto.
    + exists t. split; [exact T1|]. split; [exact T2|]. intros i Hi. rewrite (T3 i Hi). rewrite !values_leaf_items, combine_flat.
      2:{ clear -H. induction H as [|p q l m Hp _ IH]; constructor; [|exact IH]. destruct Hp as (_ & _ & _ & _ & _ & Hp). eapply forall2_length; eauto. }
      clear T1 T2 T3 Hne t. induction H as [|p q l m Hp _ IH]; [reflexivity|]. cbn [combine flat_map map fst snd]. rewrite map_app, xsum_app, IH. cbn [xsum fold_right]. f_equal.
      destruct (dot_leaf b _ _ Hp) as (u & U1 & U2 & U3). rewrite U1. cbn [entry]. now rewrite (U3 i Hi).
Qed.

(** matching leaves can be multiplied *)
Lemma fam_vars c c' f : family_of c = Some f -> family_of c' = Some f ->
  Forall2 (fun x y => supp_axes (fd_support y) = supp_axes (fd_support x) /\ forall n, supp_shape (fd_support x) n = supp_shape (fd_support y) n)
    (filter (fixed_ok (Some false)) (fields c)) (filter (fixed_ok (Some false)) (fields c')).
Proof.
  intros H H'. destruct c as [[]|[]| | | | | | |]; cbn in H; try discriminate H; injection H as <-;
  destruct c' as [[]|[]| | | | | | |]; cbn in H'; try discriminate H'; cbn; repeat constructor; intros; cbn; lia.
Qed.
Lemma leaf_vars q : well_formed q = true -> vars q = map (fun f => (match dget (dparams q) (fd_name f) with Some a => a | None => RA (tscalar NaN) end, fd_support f))
  (filter (fixed_ok (Some false)) (fields (dcls q))).
Proof.
  destruct q as [c m ps subs]. intros Hwf. apply wf_inv in Hwf as (Hps & _). unfold vars, own_list. cbn [dparams dcls].
  assert (Hs : forall f, In f (filter (fixed_ok (Some false)) (fields c)) -> In (fd_name f) (map fst ps)).
  { intros f Hf. rewrite Hps. apply in_map. now apply filter_In in Hf. }
  revert Hs. generalize (filter (fixed_ok (Some false)) (fields c)) as fs. induction fs as [|f fs IH]; intros Hs; [reflexivity|].
  destruct (dget_combine_ok ps (fd_name f)) as [v Hv]; [apply Hs; now left|]. cbn [flat_map map]. rewrite Hv. cbn. f_equal. apply IH. intros; apply Hs; now right.
Qed.
Lemma supp_shape_axes s n : length (supp_shape s n) = supp_axes s.
Proof. destruct s; reflexivity. Qed.
Lemma match_pair b q r : leaf_match b q r -> leaf_pair b q r.
Proof.
  intros (W1 & W2 & S1 & S2 & D & f & F1 & F2).
  assert (J : forall c, family_of c = Some f -> is_joint c = false) by (intros [| | | | | | | |]; cbn; congruence).
  split; [exact W1|]. split; [exact W2|]. split; [now apply J|]. split; [now apply J|]. rewrite !leaf_vars by assumption.
  assert (A : forall d, well_formed d = true -> leaf_shaped b d = true -> exists n, dims_of d = Ok n /\
     forall g, In g (fields (dcls d)) -> exists a, dget (dparams d) (fd_name g) = Some a /\ ashape a = b ++ supp_shape (fd_support g) n).
  { intros d Wd Sd. unfold leaf_shaped in Sd. destruct (dims_of d) as [n|]; [|discriminate]. exists n. split; [reflexivity|]. apply andb_prop in Sd as [_ Sd]. rewrite forallb_forall in Sd. intros g Hg.
    specialize (Sd g Hg). destruct (dget (dparams d) (fd_name g)) as [a|]; [|discriminate]. apply andb_prop in Sd as [Sd _]. apply shape_eqb_eq in Sd. eauto. }
  destruct (A q W1 S1) as (n & N1 & A1). destruct (A r W2 S2) as (n' & N2 & A2). assert (n' = n) as -> by congruence.
  pose proof (fam_vars _ _ f F1 F2) as HF.
  split.
  - clear -F1. destruct (dcls q) as [[]|[]| | | | | | |]; cbn in *; congruence.
  - assert (I1 : forall g, In g (filter (fixed_ok (Some false)) (fields (dcls q))) -> In g (fields (dcls q))) by (intros g Hg; now apply filter_In in Hg).
    assert (I2 : forall g, In g (filter (fixed_ok (Some false)) (fields (dcls r))) -> In g (fields (dcls r))) by (intros g Hg; now apply filter_In in Hg).
    revert HF I1 I2. generalize (filter (fixed_ok (Some false)) (fields (dcls q))) (filter (fixed_ok (Some false)) (fields (dcls r))). intros l m HF.
    induction HF as [|x y l m (X1 & X2) _ IH]; intros I1 I2; [constructor|]. cbn [map]. constructor.
    + destruct (A1 x (I1 x (or_introl eq_refl))) as (a & -> & Ha). destruct (A2 y (I2 y (or_introl eq_refl))) as (a' & -> & Ha').
      split; [exact X1|]. exists (supp_shape (fd_support x) n). cbn [fst snd]. split; [apply supp_shape_axes|]. split; [exact Ha|]. now rewrite Ha', X2.
    + apply IH; intros g Hg; [apply I1|apply I2]; now right.
Qed.
Lemma leaves_ne d : forall base, well_formed d = true -> leaves base d <> [].
Proof.
  induction d as [c m ps subs IH] using dist_rect'. intros base Hwf. apply wf_inv in Hwf as (_ & Hj & _ & Hsub). cbn [leaves]. destruct (is_joint c); [|discriminate].
  destruct (Hj eq_refl) as [Hne _]. destruct subs as [|[n s] subs]; [easy|]. cbn [flat_map fst snd]. inversion IH; subst. inversion Hsub; subst. intros E. apply app_eq_nil in E as [E _]. now apply (H1 (base ++ [n])).
Qed.
Lemma dot_sum_match b x y : well_formed x = true -> well_formed y = true -> tree_match b x y ->
  sums_to (fun pq : (path * dist) * (path * dist) => parameter_dot_product (snd (fst pq)) (snd (snd pq))) b (combine (leaves [] x) (leaves [] y)) (parameter_dot_product x y).
Proof.
  intros Wx Wy H. apply dot_sum; auto; [now apply leaves_ne|]. unfold tree_match in H. induction H as [|p q l m [_ H] _ IH]; constructor; auto. now apply match_pair.
Qed.
