(** C27: the methods of the simple classes act on each batch element alone; they satisfy what the generic code needs. *)
From Coq Require Import String List Bool Arith Reals Lia.
From Verif Require Import Base XReal Tensor TensorFacts TensorFacts2 Support Dist DictFacts Iteration Structure Spec StructFacts AssembleFacts SumSpec Tools
  ToolThms Joint StructThms MapFacts SpecFun Expr Fam ExprFacts FamTy FamFacts SearchFacts.
Import ListNotations.
Local Unset Asymmetric Patterns.
Local Open Scope string_scope.
Local Open Scope list_scope.
Local Open Scope nat_scope.

Lemma leaf_setup b q f c : well_formed q = true -> dcls q = c -> is_joint c = false -> family_of c = Some f -> leaf_shaped b q = true ->
  exists n, dims_of q = Ok n /\ dims_ok c n = true /\ env_ok b (ctx_of c n) (dparams q) /\ (dimensions_field c = None -> n = 1).
Proof.
  intros W C J F S. destruct (leaf_dims _ _ S) as (n & D & K). exists n. rewrite C in K. pose proof (leaf_env b q n S D) as HE. rewrite C in HE.
  repeat (split; [assumption|]). intros X. rewrite <- C in X. exact (dims_none _ _ D X).
Qed.
(** an array of shape b whose elements come from the batch elements *)
Definition yields (b : list nat) (F : list nat -> result (tensor xr)) (r : result (tensor xr)) : Prop :=
  exists t, r = Ok t /\ shp t = b /\ forall i, inb b i = true -> F i = Ok (tsub t i).
Lemma eval_yields b G env e d : env_ok b G env -> ty G KR e (Ev []) d -> yields b (fun i => eval (slice i env) e) (eval env e).
Proof.
  intros H T. destruct (ty_sound b G env H _ _ _ _ T) as (t & T1 & T2 & _). cbn [full] in T2. rewrite app_nil_r in T2. exists t. split; [exact T1|]. split; [exact T2|].
  intros i Hi. destruct (slice_eval b G env i KR e [] d H Hi T) as (t' & T1' & _ & T3). rewrite T1 in T1'. now injection T1' as <-.
Qed.

Section B.
  Variable solve : minimizer -> dist -> nat -> xr.
  Notation L := (fam_methods solve).

  Theorem ln_yields b q f : dcls q = NP f -> well_formed q = true -> leaf_shaped b q = true ->
    yields b (fun i => l_log_normalizer L (sliced i q)) (l_log_normalizer L q).
  Proof.
    intros C W S. destruct (leaf_setup b q f _ W C eq_refl eq_refl S) as (n & D & K & HE & _). destruct (ln_ty f n K) as (d & T).
    cbn [l_log_normalizer fam_methods]. unfold fam_log_normalizer. cbn [sliced dcls dparams]. rewrite C. eapply eval_yields; eauto.
  Qed.
  Theorem exp_builds b q f n : dcls q = NP f -> well_formed q = true -> leaf_shaped b q = true -> dims_of q = Ok n ->
    builds b (EP f) n (fun i => l_to_exp L (sliced i q)) (l_to_exp L q).
  Proof.
    intros C W S D'. destruct (leaf_setup b q f _ W C eq_refl eq_refl S) as (n' & D & K & HE & D1). assert (n' = n) by congruence. subst n'.
    cbn [l_to_exp fam_methods]. unfold fam_to_exp. cbn [sliced dcls]. rewrite C. apply (mk_slices b (EP f) n q _ _ HE).
    - now apply exp_ty.
    - reflexivity.
    - intros X. apply D1. now apply dims_np.
    - now rewrite <- dims_ok_np_ep.
  Qed.
  Theorem cm_yields b q f x : dcls q = NP f -> well_formed q = true -> leaf_shaped b q = true -> obs_leaf b q x ->
    yields b (fun i => l_carrier_measure L (sliced i q) (asub i x)) (l_carrier_measure L q x).
  Proof.
    intros C W S O. destruct (leaf_setup b q f _ W C eq_refl eq_refl S) as (n & D & K & HE & _). destruct (cm_ty f n K) as (d & T).
    cbn [l_carrier_measure fam_methods]. unfold fam_carrier_measure. cbn [sliced dcls dparams]. rewrite C.
    pose proof (obs_env b q x _ _ n HE D O) as HE2. rewrite C in HE2. exact (eval_yields b _ _ _ d HE2 T).
  Qed.
  Lemma fixed_slice i q : fixed_params (sliced i q) = slice i (fixed_params q).
  Proof.
    unfold fixed_params, own_list. cbn [sliced dcls dparams]. induction (fields (dcls q)) as [|f fs IH]; [reflexivity|]. destruct (fixed_ok (Some true) f) eqn:E; cbn [filter]; rewrite E; [|exact IH].
    cbn [flat_map]. rewrite dget_slice. destruct (dget (dparams q) (fd_name f)) as [a|]; cbn [option_map app map fst snd slice]; [|exact IH]. f_equal. exact IH.
  Qed.
  Theorem ss_builds b q f x n : dcls q = NP f -> well_formed q = true -> leaf_shaped b q = true -> obs_leaf b q x -> dims_of q = Ok n ->
    builds b (EP f) n (fun i => l_sufficient_statistics L f (asub i x) (fixed_params (sliced i q))) (l_sufficient_statistics L f x (fixed_params q)).
  Proof.
    intros C W S O D'. destruct (leaf_setup b q f _ W C eq_refl eq_refl S) as (n' & D & K & HE & D1). assert (n' = n) by congruence. subst n'.
    cbn [l_sufficient_statistics fam_methods]. unfold fam_sufficient_statistics.
    assert (J : is_joint (dcls q) = false) by now rewrite C.
    pose proof (obs_env b q x _ _ n (fixed_env b q n W J S D) D O) as HE2. rewrite C in HE2.
    destruct (make_ok b _ _ _ (EP f) n HE2 (ss_ty f n K) eq_refl) as (ps & P1 & P2 & P3 & P4 & P5 & _).
    { intros X. apply D1. now apply dims_np. }
    { now rewrite <- dims_ok_np_ep. }
    exists ps. repeat (split; [assumption|]). intros i Hi. rewrite fixed_slice. exact (P5 i Hi).
  Qed.
  Theorem nat_builds b q f n : dcls q = EP f -> well_formed q = true -> leaf_shaped b q = true -> dims_of q = Ok n ->
    builds b (NP f) n (fun i => l_to_nat L (sliced i q)) (l_to_nat L q).
  Proof. intros C W S D. now apply to_nat_builds. Qed.
  Theorem ecm_yields b q f : dcls q = EP f -> has_entropy_ep (EP f) = true -> well_formed q = true -> leaf_shaped b q = true ->
    yields b (fun i => l_expected_carrier_measure L (sliced i q)) (l_expected_carrier_measure L q).
  Proof.
    intros C H W S. destruct (leaf_setup b q f _ W C eq_refl eq_refl S) as (n & D & K & HE & _).
    cbn [l_expected_carrier_measure fam_methods]. unfold fam_expected_carrier_measure. cbn [sliced dcls dparams]. rewrite C.
    assert (A : forall f', f = f' -> f' = Chi \/ f' = ChiSquare -> yields b (fun i => let* q0 := fam_to_nat solve (sliced i q) in eval (dparams q0) (ecm_e f')) (let* q0 := fam_to_nat solve q in eval (dparams q0) (ecm_e f'))).
    { intros f' <- F. destruct (to_nat_builds solve f b q n W C S D) as (ps & P1 & P2 & P3 & P4 & P5). rewrite P1. cbn [bind dparams].
      destruct (ecm_ty' f n F) as (d & T). pose proof (leaf_env _ _ _ P3 P4) as HK. cbn [dcls dparams] in HK.
      destruct (eval_yields b _ _ _ d HK T) as (t & T1 & T2 & T3). exists t. split; [exact T1|]. split; [exact T2|]. intros i Hi. rewrite (P5 i Hi). cbn [bind dparams]. exact (T3 i Hi). }
    assert (B : f <> Chi -> f <> ChiSquare -> yields b (fun i => eval (slice i (dparams q)) (ecm_e f)) (eval (dparams q) (ecm_e f))).
    { intros N1 N2. destruct (ecm_ty f n K H N1 N2) as (d & T). eapply eval_yields; eauto. }
    destruct f; first [apply A; [reflexivity|auto] | apply B; discriminate].
  Qed.

  (** ** the fixed parameters are carried over *)
  Definition has_fixed (f : family) : bool := match f with MultivariateFixedVarianceNormal | NegativeBinomial | Weibull => true | _ => false end.
  Lemma no_fixed q f : has_fixed f = false -> family_of (dcls q) = Some f -> fixed_params q = [].
  Proof. destruct q as [c m ps subs]. cbn [dcls]. intros H F. unfold fixed_params, own_list. cbn [dcls dparams]. destruct c; try discriminate F; injection F as ->; destruct f; try discriminate H; reflexivity. Qed.
  Definition fixed_name (f : family) : string := match f with MultivariateFixedVarianceNormal => "variance" | NegativeBinomial => "failures" | _ => "concentration" end.
  Lemma one_fixed q f : has_fixed f = true -> dcls q = EP f \/ dcls q = NP f ->
    fixed_params q = match dget (dparams q) (fixed_name f) with Some a => [(fixed_name f, a)] | None => [] end.
  Proof.
    destruct q as [c m ps subs]. cbn [dcls]. intros H F. unfold fixed_params, own_list. cbn [dcls dparams].
    destruct f; try discriminate H; destruct F as [-> | ->]; cbn [fields filter fixed_ok fixd var fd_fixed Bool.eqb eqb flat_map fd_name fixed_name];
      match goal with |- context [dget ?l ?n] => destruct (dget l n) end; reflexivity.
  Qed.
  Lemma arg_kept env l ps nm u : dget env nm = Some (RA u) -> In (ra nm (self nm)) l -> NoDup (map fst l) ->
    Forall2 (fun (a : arg) p => fst a = fst p /\ exists t, eval env (projT2 (snd a)) = Ok t /\ snd p = pack (projT1 (snd a)) t) l ps -> dget ps nm = Some (RA u).
  Proof.
    intros E I N H. induction H as [|a [n v] l ps (H1 & t & H2 & H3) H IH]; [destruct I|]. cbn [fst snd] in *. subst n. cbn [dget]. inversion N as [|? ? N1 N2]; subst.
    destruct I as [->|I].
    - cbn [ra fst snd projT1 projT2] in *. destruct (keq nm nm) as [_|X]; [|now destruct X]. unfold self in H2. cbn [eval] in H2. rewrite E in H2. cbn in H2. injection H2 as <-. reflexivity.
    - destruct (keq nm (fst a)) as [X|_]; [|now apply IH]. destruct N1. rewrite <- X. change nm with (fst (ra nm (self nm))). now apply in_map.
  Qed.
  Lemma fixed_value b q n f c : env_ok b (ctx_of c n) (dparams q) -> has_fixed f = true -> (c = EP f \/ c = NP f) -> exists u, dget (dparams q) (fixed_name f) = Some (RA u).
  Proof. intros H F C. destruct f; try discriminate F; destruct C as [-> | ->]; cbn [fixed_name]; match goal with |- context [dget _ ?nm] => destruct (H nm KR _ eq_refl) as (u & U & _) end; exists u; exact U. Qed.
  Lemma exp_fixed b q f e : dcls q = NP f -> well_formed q = true -> leaf_shaped b q = true -> l_to_exp L q = Ok e -> fixed_params e = fixed_params q.
  Proof.
    intros C W S E. destruct (leaf_setup b q f _ W C eq_refl eq_refl S) as (n & D & K & HE & D1). destruct (has_fixed f) eqn:F.
    - cbn [l_to_exp fam_methods] in E. unfold fam_to_exp in E. rewrite C in E.
      destruct (make_ok b _ _ _ (EP f) n HE (exp_ty f n K) eq_refl) as (ps & P1 & _ & _ & _ & _ & P6); [intros X; apply D1; now apply dims_np|now rewrite <- dims_ok_np_ep|].
      rewrite P1 in E. injection E as <-. destruct (fixed_value b q n f _ HE F (or_intror eq_refl)) as (u & U).
      rewrite (one_fixed (Dist (EP f) DefaultMinimizer ps []) f F (or_introl eq_refl)), (one_fixed q f F (or_intror C)). cbn [dparams]. rewrite U.
      rewrite (arg_kept (dparams q) (exp_args f) ps (fixed_name f) u U); [reflexivity| | |exact P6]; destruct f; try discriminate F; cbn; try tauto; repeat constructor; cbn; intuition discriminate.
    - destruct (exp_builds b q f n C W S D) as (ps & P1 & _). rewrite P1 in E. injection E as <-. rewrite (no_fixed (Dist _ DefaultMinimizer ps []) f F), (no_fixed q f F); [reflexivity|now rewrite C|reflexivity].
  Qed.
  Lemma nat_fixed b q f e : dcls q = EP f -> well_formed q = true -> leaf_shaped b q = true -> l_to_nat L q = Ok e -> fixed_params e = fixed_params q.
  Proof.
    intros C W S E. destruct (leaf_setup b q f _ W C eq_refl eq_refl S) as (n & D & K & HE & D1). destruct (has_fixed f) eqn:F.
    - cbn [l_to_nat fam_methods] in E. unfold fam_to_nat in E. rewrite C in E. destruct (nat_args f) as [l|] eqn:A; [|destruct f; discriminate].
      destruct (make_ok b _ _ _ (NP f) n HE (nat_ty f n l K A) eq_refl) as (ps & P1 & _ & _ & _ & _ & P6); [intros X; apply D1; now apply dims_np|now rewrite dims_ok_np_ep|].
      rewrite P1 in E. injection E as <-. destruct (fixed_value b q n f _ HE F (or_introl eq_refl)) as (u & U).
      rewrite (one_fixed (Dist (NP f) DefaultMinimizer ps []) f F (or_intror eq_refl)), (one_fixed q f F (or_introl C)). cbn [dparams]. rewrite U.
      rewrite (arg_kept (dparams q) l ps (fixed_name f) u U); [reflexivity| | |exact P6]; destruct f; try discriminate F; injection A as <-; cbn; try tauto; repeat constructor; cbn; intuition discriminate.
    - destruct (nat_builds b q f n C W S D) as (ps & P1 & _). rewrite P1 in E. injection E as <-. rewrite (no_fixed (Dist _ DefaultMinimizer ps []) f F), (no_fixed q f F); [reflexivity|now rewrite C|reflexivity].
  Qed.
  Lemma broadcast_id env nm x u (t : tensor xr) : dget env nm = Some (RA u) -> dget env "x" = Some (RA x) -> shp u = shp x -> eval env (EBroadcast (self nm) X) = Ok t -> t = u.
  Proof.
    intros E1 E2 S H. unfold self, X in H. cbn [eval] in H. rewrite E1, E2 in H. cbn [opt_err bind get_kind as_real] in H. change (tbroadcast_to (shp x) u = Ok t) in H. rewrite <- S in H. 
    unfold tbroadcast_to in H. cbn [elt] in H. rewrite bshape_same in H. destruct (list_eq_dec Nat.eq_dec (shp u) (shp u)) as [_|N]; [|now destruct N].
    injection H as <-. apply tensor_ext; [reflexivity|]. intros i Hi. cbn [shp tbuild] in Hi. rewrite tget_tbuild by exact Hi. now rewrite bidx_id.
  Qed.
  Lemma arg_of env (l : list arg) ps nm (e : aexp KR) : In (ra nm e) l -> NoDup (map fst l) ->
    Forall2 (fun (a : arg) p => fst a = fst p /\ exists t, eval env (projT2 (snd a)) = Ok t /\ snd p = pack (projT1 (snd a)) t) l ps -> exists t, eval env e = Ok t /\ dget ps nm = Some (RA t).
  Proof.
    intros I N H. induction H as [|a [n v] l ps (H1 & t & H2 & H3) H IH]; [destruct I|]. cbn [fst snd] in *. subst n. cbn [dget]. inversion N as [|? ? N1 N2]; subst.
    destruct I as [->|I].
    - cbn [ra fst snd projT1 projT2] in *. destruct (keq nm nm) as [_|X]; [|now destruct X]. exists t. split; [exact H2|reflexivity].
    - destruct (keq nm (fst a)) as [X|_]; [|now apply IH]. destruct N1. rewrite <- X. change nm with (fst (ra nm e)). now apply in_map.
  Qed.
  Lemma ss_fixed b q f x e : dcls q = NP f -> well_formed q = true -> leaf_shaped b q = true -> obs_leaf b q x -> l_sufficient_statistics L f x (fixed_params q) = Ok e -> fixed_params e = fixed_params q.
  Proof.
    intros C W S O E. destruct (leaf_setup b q f _ W C eq_refl eq_refl S) as (n & D & K & HE & D1). destruct (has_fixed f) eqn:F.
    - cbn [l_sufficient_statistics fam_methods] in E. unfold fam_sufficient_statistics in E. assert (J : is_joint (dcls q) = false) by now rewrite C.
      pose proof (obs_env b q x _ _ n (fixed_env b q n W J S D) D O) as HE2. rewrite C in HE2.
      destruct (make_ok b _ _ _ (EP f) n HE2 (ss_ty f n K) eq_refl) as (ps & P1 & _ & _ & _ & _ & P6); [intros X; apply D1; now apply dims_np|now rewrite <- dims_ok_np_ep|].
      rewrite P1 in E. injection E as <-. destruct (fixed_value b q n f _ HE F (or_intror eq_refl)) as (u & U).
      rewrite (one_fixed (Dist (EP f) DefaultMinimizer ps []) f F (or_introl eq_refl)). rewrite (one_fixed q f F (or_intror C)) in *. cbn [dparams]. rewrite U in *.
      assert (Su : f <> MultivariateFixedVarianceNormal -> exists xt, x = RA xt /\ shp u = shp xt).
      { intros NF. destruct O as (n' & s & D' & Ds & Sx & Kx). rewrite C in Ds. destruct f; try discriminate F; try congruence; injection Ds as <-; destruct x as [xt|]; try discriminate Kx; exists xt; (split; [reflexivity|]);
          cbn [ashape supp_shape] in Sx; rewrite Sx; cbn [fixed_name] in U; match type of U with dget _ ?nm = _ => destruct (HE nm KR _ eq_refl) as (u' & U1 & U2) end; cbn in U1; rewrite U in U1; injection U1 as <-; exact U2. }
      destruct f; try discriminate F; cbn [fixed_name] in *.
      + assert (I : In (ra "variance" (self "variance")) (ss_args MultivariateFixedVarianceNormal)) by (cbn; tauto).
        assert (N : NoDup (map fst (ss_args MultivariateFixedVarianceNormal))) by (repeat constructor; cbn; intuition discriminate).
        rewrite (arg_kept (("x", x) :: [("variance", RA u)]) _ ps "variance" u eq_refl I N P6). reflexivity.
      + destruct (Su ltac:(discriminate)) as (xt & -> & Sx). assert (I : In (ra "failures" (EBroadcast (self "failures") X)) (ss_args NegativeBinomial)) by (cbn; tauto).
        assert (N : NoDup (map fst (ss_args NegativeBinomial))) by (repeat constructor; cbn; intuition discriminate).
        destruct (arg_of _ _ ps _ _ I N P6) as (t & T1 & T2).
        rewrite T2. rewrite (broadcast_id [("x", RA xt); ("failures", RA u)] "failures" xt u t eq_refl eq_refl Sx T1). reflexivity.
      + destruct (Su ltac:(discriminate)) as (xt & -> & Sx). assert (I : In (ra "concentration" (EBroadcast (self "concentration") X)) (ss_args Weibull)) by (cbn; tauto).
        assert (N : NoDup (map fst (ss_args Weibull))) by (repeat constructor; cbn; intuition discriminate).
        destruct (arg_of _ _ ps _ _ I N P6) as (t & T1 & T2).
        rewrite T2. rewrite (broadcast_id [("x", RA xt); ("concentration", RA u)] "concentration" xt u t eq_refl eq_refl Sx T1). reflexivity.
    - destruct (ss_builds b q f x n C W S O D) as (ps & P1 & _). rewrite P1 in E. injection E as <-. rewrite (no_fixed (Dist (EP f) DefaultMinimizer ps []) f F), (no_fixed q f F); [reflexivity|now rewrite C|reflexivity].
  Qed.

  Lemma built_match b q f n c F r : well_formed q = true -> leaf_shaped b q = true -> dims_of q = Ok n -> family_of (dcls q) = Some f -> family_of c = Some f -> builds b c n F r ->
    exists e, r = Ok e /\ dcls e = c /\ leaf_match b q e /\ no_custom_minimizer e = true.
  Proof.
    intros W S D Fq Fc (ps & P1 & P2 & P3 & P4 & P5). eexists. split; [exact P1|]. split; [reflexivity|]. split; [|reflexivity].
    split; [exact W|]. split; [exact P2|]. split; [exact S|]. split; [exact P3|]. split; [congruence|]. exists f. auto.
  Qed.
  Theorem fam_good : good L.
  Proof.
    constructor.
    - intros b q f C W S. destruct (ln_yields b q f C W S) as (t & T1 & T2 & _). eauto.
    - intros b q f C W S. destruct (leaf_dims _ _ S) as (n & D & _).
      destruct (built_match b q f n (EP f) _ _ W S D ltac:(now rewrite C) eq_refl (exp_builds b q f n C W S D)) as (e & E1 & E2 & E3 & E4).
      exists e. repeat (split; [assumption|]). exact (exp_fixed b q f e C W S E1).
    - intros b q f C W S. destruct (leaf_dims _ _ S) as (n & D & _).
      destruct (built_match b q f n (NP f) _ _ W S D ltac:(now rewrite C) eq_refl (nat_builds b q f n C W S D)) as (e & E1 & E2 & E3 & E4).
      exists e. repeat (split; [assumption|]). exact (nat_fixed b q f e C W S E1).
    - intros b q f x C W S O. destruct (cm_yields b q f x C W S O) as (t & T1 & T2 & _). eauto.
    - intros b q f x C W S O. destruct (leaf_dims _ _ S) as (n & D & _).
      destruct (built_match b q f n (EP f) _ _ W S D ltac:(now rewrite C) eq_refl (ss_builds b q f x n C W S O D)) as (e & E1 & E2 & E3 & E4).
      exists e. repeat (split; [assumption|]). exact (ss_fixed b q f x e C W S O E1).
    - intros b q f C H W S. destruct (ecm_yields b q f C H W S) as (t & T1 & T2 & _). eauto.
  Qed.
End B.
