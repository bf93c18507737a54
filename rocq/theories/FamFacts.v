(** The methods of the distribution classes return, with the expected shapes, and act on each batch element alone. *)
From Coq Require Import String List Bool Arith Reals Lia.
From Verif Require Import Base XReal Tensor TensorFacts TensorFacts2 Support Dist DictFacts Iteration Structure Spec StructFacts AssembleFacts SumSpec Tools
  ToolThms Joint StructThms MapFacts SpecFun Expr Fam ExprFacts FamTy.
Import ListNotations.
Local Unset Asymmetric Patterns.

(** ** the context of an object *)
Lemma shape_eqb_eq s s' : shape_eqb s s' = true -> s = s'.
Proof.
  unfold shape_eqb. revert s'. induction s as [|a s IH]; intros [|a' s'] H; cbn in H; try discriminate; [reflexivity|].
  apply andb_prop in H as [H1 H2]. apply Nat.eqb_eq in H1. subst. f_equal. now apply IH.
Qed.
Lemma shape_eqb_refl s : shape_eqb s s = true.
Proof. unfold shape_eqb. induction s; cbn; [reflexivity|]. now rewrite Nat.eqb_refl. Qed.
Lemma kind_ok_pack s a : kind_ok s a = true -> exists t, a = pack (kind_of s) t /\ shp t = ashape a.
Proof. unfold kind_ok, kind_of. destruct (supp_ring s), a as [t|t]; intros H; try discriminate; exists t; auto. Qed.
Lemma pack_kind_ok s t : kind_ok s (pack (kind_of s) t) = true.
Proof. unfold kind_ok, kind_of in *. revert t. destruct (supp_ring s); reflexivity. Qed.
Lemma ashape_pack k (t : tensor (elt k)) : ashape (pack k t) = shp t.
Proof. destruct k; reflexivity. Qed.

Lemma ctx_field c n m k s : dget (ctx_of c n) m = Some (k, s) -> exists f, In f (fields c) /\ fd_name f = m /\ k = kind_of (fd_support f) /\ s = supp_shape (fd_support f) n.
Proof.
  unfold ctx_of. induction (fields c) as [|f fs IH]; [discriminate|]. cbn [map dget fd_ctx]. destruct (keq m (fd_name f)) as [E|].
  - intros H. injection H as <- <-. exists f. repeat split; auto. now left.
  - intros H. destruct (IH H) as (g & A & B). exists g. split; [now right|exact B].
Qed.
Lemma leaf_env b q n : leaf_shaped b q = true -> dims_of q = Ok n -> env_ok b (ctx_of (dcls q) n) (dparams q).
Proof.
  intros H D m k s E. unfold leaf_shaped in H. rewrite D in H. apply andb_prop in H as [_ H]. rewrite forallb_forall in H.
  destruct (ctx_field _ _ _ _ _ E) as (f & I & <- & -> & ->). specialize (H f I). destruct (dget (dparams q) (fd_name f)) as [a|]; [|discriminate].
  apply andb_prop in H as [H1 H2]. destruct (kind_ok_pack _ _ H2) as (t & -> & St). exists t. split; [reflexivity|]. rewrite St. now apply shape_eqb_eq.
Qed.
Lemma leaf_dims b q : leaf_shaped b q = true -> exists n, dims_of q = Ok n /\ dims_ok (dcls q) n = true.
Proof. unfold leaf_shaped. destruct (dims_of q) as [n|]; [|discriminate]. intros H. apply andb_prop in H as [H _]. eauto. Qed.
Lemma env_cons b G env n k s (t : tensor (elt k)) : env_ok b G env -> shp t = b ++ s -> env_ok b ((n, (k, s)) :: G) ((n, pack k t) :: env).
Proof.
  intros H Hs m k' s' E. cbn [dget] in *. destruct (keq m n) as [_|_]; [injection E as <- <-; eauto|]. now apply H.
Qed.
Lemma obs_env b q x G env n : env_ok b G env -> dims_of q = Ok n -> obs_leaf b q x -> env_ok b (obs_ctx (dcls q) n ++ G) (("x"%string, x) :: env).
Proof.
  intros H D (n' & s & D' & Ds & Sx & Kx). rewrite D in D'. injection D' as <-. unfold obs_ctx. rewrite Ds. destruct (kind_ok_pack _ _ Kx) as (t & -> & St). cbn [app].
  apply env_cons; [exact H|]. now rewrite St.
Qed.
Lemma fixed_env b q n : well_formed q = true -> is_joint (dcls q) = false -> leaf_shaped b q = true -> dims_of q = Ok n -> env_ok b (fixed_ctx (dcls q) n) (fixed_params q).
Proof.
  intros W J S D. pose proof (leaf_env b q n S D) as E. clear W S D. intros m k s. unfold fixed_ctx, fixed_params, own_list, fixed_ok.
  assert (F : forall f, In f (fields (dcls q)) -> exists t, dget (dparams q) (fd_name f) = Some (pack (kind_of (fd_support f)) t) /\ shp t = b ++ supp_shape (fd_support f) n).
  { intros f I. apply (E (fd_name f)). assert (N : NoDup (map fd_name (fields (dcls q)))) by apply nodup_fields. unfold ctx_of.
    revert I N. induction (fields (dcls q)) as [|g gs IH]; [intros []|]. intros [->|I] N; cbn [map dget fd_ctx].
    - destruct (keq (fd_name f) (fd_name f)) as [_|X]; [reflexivity|now destruct X].
    - inversion N; subst. destruct (keq (fd_name f) (fd_name g)) as [X|_]; [|now apply IH]. destruct H1. rewrite <- X. now apply in_map. }
  induction (fields (dcls q)) as [|f fs IH]; [discriminate|]. destruct (fd_fixed f) eqn:Ef; cbn [filter map flat_map]; rewrite Ef; cbn [filter map flat_map eqb Bool.eqb dget fd_ctx].
  - destruct (F f (or_introl eq_refl)) as (t & T1 & T2). rewrite T1. cbn [app map dget fst snd]. destruct (keq m (fd_name f)) as [->|]; [|apply IH; intros; apply F; now right].
    intros X. injection X as <- <-. eauto.
  - apply IH. intros; apply F; now right.
Qed.

(** ** constructing an object from evaluated arguments *)
Definition params_hold (b : list nat) (ps : dict string arr) (C : ctx) : Prop :=
  Forall2 (fun p o => fst p = fst o /\ exists t, snd p = pack (fst (snd o)) t /\ shp t = b ++ snd (snd o)) ps C.
Lemma params_env b ps C : params_hold b ps C -> env_ok b C ps.
Proof.
  induction 1 as [|[n a] [n' [k' s']] ps C (E & t & T1 & T2) _ IH]; intros m k s H; [discriminate|]. cbn [fst snd] in *. subst. cbn [dget] in *.
  destruct (keq m n'); [injection H as <- <-; eauto|now apply IH].
Qed.
Lemma evals_ok b G env l C : env_ok b G env -> args_ty G l C -> exists ps, evals env l = Ok ps /\ params_hold b ps C /\
  (forall i, inb b i = true -> evals (slice i env) l = Ok (slice i ps)) /\
  Forall2 (fun a p => fst a = fst p /\ exists t, eval env (projT2 (snd a)) = Ok t /\ snd p = pack (projT1 (snd a)) t) l ps.
Proof.
  intros H T. induction T as [|[n [k e]] [n' [k' s]] l C (E1 & E2 & d & Ht) _ (ps & P1 & P2 & P3 & P4)]; [exists []; repeat split; constructor|].
  cbn [fst snd projT1 projT2] in *. subst n' k'. destruct (ty_sound b G env H _ _ _ _ Ht) as (t & T1 & T2 & _). cbn [full] in T2.
  exists ((n, pack k t) :: ps). unfold evals in *. cbn [mapM]. rewrite T1. cbn [bind]. rewrite P1. cbn [bind]. split; [reflexivity|]. split; [constructor; [cbn; eauto|exact P2]|].
  split; [|constructor; [cbn; eauto|exact P4]].
  intros i Hi. destruct (slice_eval b G env i k e s d H Hi Ht) as (t' & T1' & _ & T3). rewrite T1 in T1'. injection T1' as <-. rewrite T3. cbn [bind]. rewrite (P3 i Hi). cbn [bind slice map fst snd].
  now rewrite asub_pack.
Qed.
Lemma params_names b ps c n : params_hold b ps (ctx_of c n) -> map fst ps = map fd_name (fields c).
Proof. unfold params_hold, ctx_of. revert ps. induction (fields c) as [|f fs IH]; intros ps H; inversion H as [|p o ps' C' Hp Hr]; subst; [reflexivity|]. cbn [map]. destruct Hp as (E & _). rewrite E. cbn [fd_ctx fst]. f_equal. now apply IH. Qed.
Lemma dims_field_ctx c n m : dimensions_field c = Some m -> exists k s, dget (ctx_of c n) m = Some (k, s) /\ last_dim s = Some n.
Proof. destruct c as [[]|[]| | | | | | |]; cbn; intros E; try discriminate E; injection E as <-; cbn; eauto. Qed.
Lemma ctx_shaped b c m ps n : params_hold b ps (ctx_of c n) -> (dimensions_field c = None -> n = 1) -> dims_ok c n = true ->
  dims_of (Dist c m ps []) = Ok n /\ leaf_shaped b (Dist c m ps []) = true.
Proof.
  intros H D1 D2. pose proof (params_env _ _ _ H) as E. assert (D : dims_of (Dist c m ps []) = Ok n).
  { unfold dims_of. cbn [dcls]. destruct (dimensions_field c) as [nm|] eqn:Df; [|now rewrite (D1 eq_refl)].
    destruct (dims_field_ctx c n nm Df) as (k & s & C1 & C2). destruct (E _ _ _ C1) as (t & T1 & T2). unfold attr. cbn [dparams]. rewrite T1. cbn [opt_err bind]. rewrite ashape_pack, T2.
    unfold last_dim in *. rewrite rev_app_distr. destruct (rev s); [discriminate|]. cbn [app]. now rewrite C2. }
  split; [exact D|]. unfold leaf_shaped. rewrite D. cbn [dcls dparams]. rewrite D2. cbn [andb]. apply forallb_forall. intros f Hf.
  assert (N : NoDup (map fd_name (fields c))) by apply nodup_fields.
  assert (C : dget (ctx_of c n) (fd_name f) = Some (kind_of (fd_support f), supp_shape (fd_support f) n)).
  { unfold ctx_of. clear -Hf N. revert Hf N. induction (fields c) as [|g gs IH]; [intros []|]. intros [->|I] N; cbn [map dget fd_ctx].
    - destruct (keq (fd_name f) (fd_name f)) as [_|X]; [reflexivity|now destruct X].
    - inversion N; subst. destruct (keq (fd_name f) (fd_name g)) as [X|_]; [|now apply IH]. destruct H1. rewrite <- X. now apply in_map. }
  destruct (E _ _ _ C) as (t & T1 & T2). rewrite T1, ashape_pack, T2, shape_eqb_refl, pack_kind_ok. reflexivity.
Qed.
Lemma wf_leaf c m ps : is_joint c = false -> map fst ps = map fd_name (fields c) -> well_formed (Dist c m ps []) = true.
Proof.
  intros J H. cbn [well_formed]. rewrite J, H. cbn. rewrite !andb_true_r. clear H. induction (map fd_name (fields c)) as [|a l IH]; [reflexivity|]. cbn [list_eqb]. rewrite String.eqb_refl. exact IH.
Qed.
Lemma make_ok b G env l c n : env_ok b G env -> args_ty G l (ctx_of c n) -> is_joint c = false -> (dimensions_field c = None -> n = 1) -> dims_ok c n = true ->
  exists ps, let r := Dist c DefaultMinimizer ps [] in make c env l = Ok r /\ well_formed r = true /\ leaf_shaped b r = true /\ dims_of r = Ok n /\
    (forall i, inb b i = true -> make c (slice i env) l = Ok (Dist c DefaultMinimizer (slice i ps) [])) /\
    Forall2 (fun a p => fst a = fst p /\ exists t, eval env (projT2 (snd a)) = Ok t /\ snd p = pack (projT1 (snd a)) t) l ps.
Proof.
  intros H T J D1 D2. destruct (evals_ok b G env l _ H T) as (ps & P1 & P2 & P3 & P4). exists ps. cbv zeta. pose proof (params_names _ _ _ _ P2) as N.
  unfold make. rewrite P1. cbn [bind]. rewrite (construct_leaf c ps J N). split; [reflexivity|]. split; [now apply wf_leaf|]. destruct (ctx_shaped b c DefaultMinimizer ps n P2 D1 D2) as [Q1 Q2].
  split; [exact Q2|]. split; [exact Q1|]. split; [|exact P4]. intros i Hi. rewrite (P3 i Hi). cbn [bind]. apply construct_leaf; [exact J|]. unfold slice. rewrite map_map. exact N.
Qed.
