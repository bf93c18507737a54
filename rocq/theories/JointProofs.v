(** Proofs behind PropJoint.v: the generic lemmas instantiated with the methods of the families. *)
From Coq Require Import String List Bool Arith Reals Lia Lra.
From Verif Require Import Base XReal Tensor TensorFacts Support Dist DictFacts Iteration Structure Spec StructFacts AssembleFacts ParamFacts ReplaceFacts FlattenThms Tools ToolThms
  Joint SpecFun Expr Fam StructThms SumSpec SumFacts MapFacts JointThms JointThms2 LogPdfThms DotSpec DotFacts DotLaws KlThms BatchFacts Examples.
Import ListNotations.
Local Open Scope list_scope.

Lemma at_leafat {T} y p q (k : dist -> result T) : well_formed y = true -> In (p, q) (leaves [] y) -> at_path y p k = k (leafat y p).
Proof. intros W Hi. apply (leaf_in y p q W) in Hi as [Hi _]. unfold at_path, leafat. now rewrite Hi. Qed.
Lemma sums_at (k : dist -> dist -> result (tensor xr)) b x y r : well_formed x = true -> well_formed y = true -> tree_match b x y ->
  sums_to (fun pl : path * dist => k (snd pl) (leafat y (fst pl))) b (leaves [] x) r -> sums_to (fun pl : path * dist => at_path y (fst pl) (k (snd pl))) b (leaves [] x) r.
Proof.
  intros Wx Wy T. apply sums_ext. intros [p q] Hi. cbn [fst snd]. destruct (tm_leaf b x y p q Wx Wy T Hi) as [_ Hy]. symmetry. exact (at_leafat y p _ _ Wy Hy).
Qed.

(** ** C12 *)
Lemma s2e_s2n infos : forall j, struct_to_exp infos = Ok j -> struct_to_nat j = Ok infos.
Proof.
  unfold struct_to_exp, struct_to_nat. induction infos as [|i l IH]; intros j H; cbn [mapM] in H; [injection H as <-; reflexivity|].
  destruct (is_nat (i_type i)) eqn:E; [|discriminate]. cbn [bind] in H. apply bind_Ok in H as (r & Hr & H). injection H as <-.
  destruct i as [p c n s]. cbn [i_path i_type i_dims i_subs mapM] in *. rewrite (IH _ Hr). destruct c; try discriminate E; reflexivity.
Qed.
Lemma s2n_s2e infos : forall j, struct_to_nat infos = Ok j -> struct_to_exp j = Ok infos.
Proof.
  unfold struct_to_exp, struct_to_nat. induction infos as [|i l IH]; intros j H; cbn [mapM] in H; [injection H as <-; reflexivity|].
  destruct (is_exp (i_type i)) eqn:E; [|discriminate]. cbn [bind] in H. apply bind_Ok in H as (r & Hr & H). injection H as <-.
  destruct i as [p c n s]. cbn [i_path i_type i_dims i_subs mapM] in *. rewrite (IH _ Hr). destruct c; try discriminate E; reflexivity.
Qed.

Section P.
  Variable solve : minimizer -> dist -> nat -> xr.
  Notation L := (fam_methods solve).
  Let G : good L := fam_good solve.

  Lemma to_exp_struct b d : forall base, well_formed d = true -> nat_tree d = true -> shaped b d = true ->
    exists e infos, to_exp L d = Ok e /\ walk make_info d base = Ok infos /\ walk make_info e base = Ok (map info_to_exp infos) /\ map fst (sub_distributions e) = map fst (sub_distributions d).
  Proof.
    induction d as [c m ps subs IH] using dist_rect'. intros base W N S. pose proof (wf_inv _ _ _ _ W) as (_ & Hj & Hs & Hsub). cbn [nat_tree all_nodes] in N. apply andb_prop in N as [Nc N].
    cbn [shaped] in S. apply andb_prop in S as [S1 S2]. destruct c as [f|f| | | | | | |]; try discriminate Nc.
    - cbn [is_joint] in S1. rewrite (Hs eq_refl) in *. destruct (g_exp L G b _ f (eq_refl : dcls (Dist (NP f) m ps []) = _) W S1) as (e & E1 & E2 & (_ & W2 & _ & S' & D & _) & _ & _).
      assert (Dn : exists n, dims_of (Dist (NP f) m ps []) = Ok n) by (unfold leaf_shaped in S1; destruct (dims_of (Dist (NP f) m ps [])); [eauto|discriminate]).
      destruct Dn as [n Dn]. exists e, [Info base (NP f) n []]. split; [exact E1|]. rewrite walk_unfold. cbn [mapM bind concat app]. unfold make_info at 1. rewrite Dn. cbn [bind dcls sub_distributions map app].
      split; [reflexivity|]. destruct e as [ce me pe se]. cbn [dcls] in E2. subst ce. pose proof (wf_inv _ _ _ _ W2) as (_ & _ & Hs2 & _). rewrite (Hs2 eq_refl) in *.
      rewrite walk_unfold. cbn [mapM bind concat app]. unfold make_info. rewrite <- D, Dn. cbn. auto.
    - rewrite to_exp_unfold_joint, walk_unfold. clear Hs W Hj S1 Nc.
      assert (Hm : exists es infs, mapM (fun ns => let* e := to_exp L (snd ns) in Ok (fst ns, e)) subs = Ok es /\ mapM (fun ns => walk make_info (snd ns) (base ++ [fst ns])) subs = Ok infs /\
        mapM (fun ns => walk make_info (snd ns) (base ++ [fst ns])) es = Ok (map (map info_to_exp) infs) /\ map fst es = map fst subs).
      { induction subs as [|[n s] l IHl]; [exists [], []; cbn; auto|]. inversion IH as [|? ? I1 I2]. inversion Hsub as [|? ? W1 W2]. subst. cbn [forallb fst snd] in N, S2. apply andb_prop in N as [N1 N2]. apply andb_prop in S2 as [S1 S2].
        cbn [snd] in *. destruct (I1 (base ++ [n]) W1 N1 S1) as (e & i & A1 & A2 & A3 & _). destruct (IHl I2 N2 S2 W2) as (es & is & B1 & B2 & B3 & B4).
        exists ((n, e) :: es), (i :: is). cbn [mapM fst snd map]. rewrite A1, A2, A3. cbn [bind]. rewrite B1, B2, B3, B4. cbn [bind]. auto. }
      destruct Hm as (es & is & B1 & B2 & B3 & B4). rewrite B1, B2. cbn [bind]. eexists _, _. split; [reflexivity|]. unfold make_info at 1. cbn [dims_of dimensions_field dcls dparams sub_distributions].
      split; [reflexivity|]. rewrite walk_unfold, B3. cbn. rewrite B4. split; [|reflexivity]. rewrite map_app, concat_map. reflexivity.
  Qed.
  Definition info_to_nat (i : info) : info := Info (i_path i) (nat_cls (i_type i)) (i_dims i) (i_subs i).
  Lemma to_nat_struct b d : forall base, well_formed d = true -> exp_tree d = true -> shaped b d = true ->
    exists e infos, to_nat L d = Ok e /\ walk make_info d base = Ok infos /\ walk make_info e base = Ok (map info_to_nat infos) /\ map fst (sub_distributions e) = map fst (sub_distributions d) /\
      struct_to_nat infos = Ok (map info_to_nat infos).
  Proof.
    induction d as [c m ps subs IH] using dist_rect'. intros base W N S. pose proof (wf_inv _ _ _ _ W) as (_ & Hj & Hs & Hsub). cbn [exp_tree all_nodes] in N. apply andb_prop in N as [Nc N].
    cbn [shaped] in S. apply andb_prop in S as [S1 S2]. destruct c as [f|f| | | | | | |]; try discriminate Nc.
    - cbn [is_joint] in S1. rewrite (Hs eq_refl) in *. destruct (g_nat L G b _ f (eq_refl : dcls (Dist (EP f) m ps []) = _) W S1) as (e & E1 & E2 & (_ & W2 & _ & S' & D & _) & _ & _).
      assert (Dn : exists n, dims_of (Dist (EP f) m ps []) = Ok n) by (unfold leaf_shaped in S1; destruct (dims_of (Dist (EP f) m ps [])); [eauto|discriminate]).
      destruct Dn as [n Dn]. exists e, [Info base (EP f) n []]. split; [exact E1|]. rewrite walk_unfold. cbn [mapM bind concat app]. unfold make_info at 1. rewrite Dn. cbn [bind dcls sub_distributions map app].
      split; [reflexivity|]. destruct e as [ce me pe se]. cbn [dcls] in E2. subst ce. pose proof (wf_inv _ _ _ _ W2) as (_ & _ & Hs2 & _). rewrite (Hs2 eq_refl) in *.
      rewrite walk_unfold. cbn [mapM bind concat app]. unfold make_info. rewrite <- D, Dn. cbn. auto.
    - rewrite to_nat_unfold_joint, walk_unfold. clear Hs W Hj S1 Nc.
      assert (Hm : exists es infs, mapM (fun ns => let* e := to_nat L (snd ns) in Ok (fst ns, e)) subs = Ok es /\ mapM (fun ns => walk make_info (snd ns) (base ++ [fst ns])) subs = Ok infs /\
        mapM (fun ns => walk make_info (snd ns) (base ++ [fst ns])) es = Ok (map (map info_to_nat) infs) /\ map fst es = map fst subs /\ struct_to_nat (concat infs) = Ok (map info_to_nat (concat infs))).
      { induction subs as [|[n s] l IHl]; [exists [], []; cbn; auto|]. inversion IH as [|? ? I1 I2]. inversion Hsub as [|? ? W1 W2]. subst. cbn [forallb fst snd] in N, S2. apply andb_prop in N as [N1 N2]. apply andb_prop in S2 as [S1 S2].
        cbn [snd] in *. destruct (I1 (base ++ [n]) W1 N1 S1) as (e & i & A1 & A2 & A3 & _ & A4). destruct (IHl I2 N2 S2 W2) as (es & is & B1 & B2 & B3 & B4 & B5).
        exists ((n, e) :: es), (i :: is). cbn [mapM fst snd map concat]. rewrite A1, A2, A3. cbn [bind]. rewrite B1, B2, B3, B4. cbn [bind]. repeat (split; [reflexivity|]).
        unfold struct_to_nat in *. rewrite mapM_app, A4, B5, map_app. reflexivity. }
      destruct Hm as (es & is & B1 & B2 & B3 & B4 & B5). rewrite B1, B2. cbn [bind]. eexists _, _. split; [reflexivity|]. unfold make_info at 1. cbn [dims_of dimensions_field dcls dparams sub_distributions].
      split; [reflexivity|]. rewrite walk_unfold, B3. cbn. rewrite B4. split; [|split; [reflexivity|]]. { rewrite map_app, concat_map. reflexivity. }
      unfold struct_to_nat in *. rewrite mapM_app, B5, map_app. reflexivity.
  Qed.
  Lemma p_C12_exp b d : well_formed d = true -> nat_tree d = true -> shaped b d = true ->
    exists e infos einfos, to_exp L d = Ok e /\ create d = Ok infos /\ create e = Ok einfos /\ struct_to_exp infos = Ok einfos /\ struct_to_nat einfos = Ok infos.
  Proof.
    intros W N S. destruct (to_exp_struct b d [] W N S) as (e & i & A1 & A2 & A3 & _). exists e, i, (map info_to_exp i). repeat (split; [assumption|]).
    pose proof (struct_to_exp_map d [] i N A2) as E. split; [exact E|]. exact (s2e_s2n _ _ E).
  Qed.
  Lemma p_C12_nat b d : well_formed d = true -> exp_tree d = true -> shaped b d = true ->
    exists e infos ninfos, to_nat L d = Ok e /\ create d = Ok infos /\ create e = Ok ninfos /\ struct_to_nat infos = Ok ninfos /\ struct_to_exp ninfos = Ok infos.
  Proof.
    intros W N S. destruct (to_nat_struct b d [] W N S) as (e & i & A1 & A2 & A3 & _ & E). exists e, i, (map info_to_nat i). repeat (split; [assumption|]).
    exact (s2n_s2e _ _ E).
  Qed.

  (** ** C40 *)
  Lemma fixed_same (x y : dist) : well_formed x = true -> well_formed y = true ->
    Forall2 (fun a c : path * dist => fst a = fst c /\ fixed_params (snd c) = fixed_params (snd a)) (leaves [] x) (leaves [] y) -> parameters y (Some true) = parameters x (Some true).
  Proof.
    intros Wx Wy F. rewrite !parameters_ok by assumption. f_equal. unfold drop_support. induction F as [|[p a] [p' c] l m [E1 E2] _ IH]; [reflexivity|]. cbn [fst snd] in *. subst p'.
    cbn [flat_map]. rewrite !map_app, IH. f_equal. unfold leaf_items. cbn [fst snd]. rewrite !map_map. cbn [fst snd].
    unfold fixed_params in E2. transitivity (map (fun nv => (p ++ [fst nv], snd nv)) (map (fun nv => (fst nv, fst (snd nv))) (own_list (Some true) c))); [now rewrite map_map|].
    rewrite E2, map_map. reflexivity.
  Qed.
  Lemma p_C40_to_exp b d : well_formed d = true -> nat_tree d = true -> shaped b d = true -> exists e, to_exp L d = Ok e /\ parameters e (Some true) = parameters d (Some true).
  Proof.
    intros W N S. destruct (g_exp_tree L G b d W N S) as (e & E1 & E2 & _ & _ & _ & E6). exists e. split; [exact E1|]. apply fixed_same; auto.
    assert (H : forall a, In a (leaves [] d) -> forall e', l_to_exp L (snd a) = Ok e' -> fixed_params e' = fixed_params (snd a)).
    { intros [p q] Hi e' He. destruct (nat_leaf d [] p q W N Hi) as [f Hf]. destruct (leaf_wf d [] p q W Hi) as [Wq _].
      destruct (g_exp L G b q f Hf Wq (shaped_in b d p q S Hi)) as (e2 & A1 & _ & _ & _ & A5). cbn [snd] in *. rewrite He in A1. injection A1 as <-. exact A5. }
    clear E1 E2. induction E6 as [|a c l m [F1 F2] _ IH]; constructor; [|apply IH; intros; apply (H a0); auto; now right]. split; [exact F1|]. apply H; [now left|exact F2].
  Qed.
  Lemma p_C40_to_nat b d : well_formed d = true -> exp_tree d = true -> shaped b d = true -> exists e, to_nat L d = Ok e /\ parameters e (Some true) = parameters d (Some true).
  Proof.
    intros W N S. destruct (g_nat_tree L G b d W N S) as (e & E1 & E2 & _ & _ & _ & E6). exists e. split; [exact E1|]. apply fixed_same; auto.
    assert (H : forall a, In a (leaves [] d) -> forall e', l_to_nat L (snd a) = Ok e' -> fixed_params e' = fixed_params (snd a)).
    { intros [p q] Hi e' He. destruct (exp_leaf d [] p q W N Hi) as [f Hf]. destruct (leaf_wf d [] p q W Hi) as [Wq _].
      destruct (g_nat L G b q f Hf Wq (shaped_in b d p q S Hi)) as (e2 & A1 & _ & _ & _ & A5). cbn [snd] in *. rewrite He in A1. injection A1 as <-. exact A5. }
    clear E1 E2. induction E6 as [|a c l m [F1 F2] _ IH]; constructor; [|apply IH; intros; apply (H a0); auto; now right]. split; [exact F1|]. apply H; [now left|exact F2].
  Qed.
  Lemma p_C40_stats b q x : well_formed q = true -> nat_tree q = true -> shaped b q = true -> obs_matches q x -> obs_shaped b q x ->
    exists est tx, create_estimator_from_natural q = Ok est /\ mle_sufficient_statistics L est x = Ok tx /\ parameters tx (Some true) = parameters q (Some true).
  Proof.
    intros W N S H Ho. destruct (mle_tree L G b q x W N S H Ho) as (est & tx & E1 & E2 & E3 & E4 & E5 & E6). exists est, tx. split; [exact E1|]. split; [exact E2|]. apply fixed_same; auto.
    rewrite (leaves_by_path q tx E3 (F2_paths _ _ _ E5)).
    assert (K : forall a, In a (leaves [] q) -> fixed_params (leafat tx (fst a)) = fixed_params (snd a)).
    { intros [p l] Hi. destruct (nat_leaf q [] p l W N Hi) as [f Hf]. destruct (leaf_wf q [] p l W Hi) as [Wq _]. destruct (obs_get q x [] p l W H Hi) as (r & a & Hp & Ha). cbn [app] in Hp. subst r.
      destruct (g_ss L G b l f a Hf Wq (shaped_in b q p l S Hi) (Ho p l a Hi Ha)) as (e & A1 & _ & _ & _ & A5). rewrite (E6 p l f a Hi Hf Ha) in A1. injection A1 as <-. exact A5. }
    revert K. generalize (leaves [] q). induction l as [|a l IH]; intros K; constructor; [|apply IH; intros; apply K; now right]. split; [reflexivity|]. apply K. now left.
  Qed.

  (** ** C16, C17 *)
  Lemma p_C16_order b q x y : well_formed q = true -> nat_tree q = true -> shaped b q = true -> obs_matches q x -> obs_matches q y -> obs_shaped b q x ->
    (forall p, nested_get x p = nested_get y p) -> log_pdf L q x = log_pdf L q y.
  Proof.
    intros W N S Hx Hy Ho E. assert (Ho' : obs_shaped b q y) by (intros p l a Hi Ha; apply (Ho p l a Hi); now rewrite E).
    destruct (log_pdf_sum L G b q x W N S Hx Ho) as [_ (t & T1 & T2 & T3)]. destruct (log_pdf_sum L G b q y W N S Hy Ho') as [_ (u & U1 & U2 & U3)]. rewrite T1, U1. f_equal.
    apply tensor_ext; [congruence|]. intros i Hi. rewrite T2 in Hi. rewrite (T3 i Hi), (U3 i Hi). f_equal. apply map_ext. intros pl. unfold obs_at. now rewrite E.
  Qed.
  Lemma p_C17_kl b p q : well_formed p = true -> well_formed q = true -> nat_tree p = true -> nat_tree q = true -> same_skeleton p q -> tree_match b p q ->
    sums_to (fun pl => at_path q (fst pl) (fun ql => kl_divergence_nat L (snd pl) ql)) b (leaves [] p) (kl_divergence_nat L p q).
  Proof. intros. apply sums_at; auto. now apply (kl_sum L G). Qed.
  Lemma p_C17_kl_exp b p q n : well_formed p = true -> well_formed q = true -> exp_tree p = true -> nat_tree q = true -> to_nat L p = Ok n -> same_skeleton n q -> tree_match b p q ->
    sums_to (fun pl => at_path q (fst pl) (fun ql => kl_divergence_exp L (snd pl) ql None)) b (leaves [] p) (kl_divergence_exp L p q None).
  Proof. intros. apply (sums_at (fun x y => kl_divergence_exp L x y None)); auto. now apply (kl_exp_sum L G b p q n). Qed.
  Lemma p_C17_ce b p q : well_formed p = true -> well_formed q = true -> all_nodes has_entropy_ep p = true -> nat_tree q = true -> tree_match b p q ->
    sums_to (fun pl => at_path q (fst pl) (fun ql => cross_entropy L (snd pl) ql)) b (leaves [] p) (cross_entropy L p q).
  Proof. intros. apply sums_at; auto. now apply (ce_sum L G). Qed.
End P.
