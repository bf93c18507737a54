(** Proofs for C67: the ways of making an estimator agree; the domain support of a structure; densities of the variance parametrizations. *)
From Coquelicot Require Import Coquelicot.
From Coq Require Import String List Bool Arith Reals Lra Lia.
From Verif Require Import Base XReal Tensor Support Dist Iteration Structure Spec Tools DictFacts StructThms StructFacts AssembleFacts MapFacts FlatLin Joint SumSpec JointThms JointProofs LogPdfThms DotSpec PointSpec DensSpec
  Fam FamR FamVal LeafVal BatchFacts Var VarSpec VarThms TextSpec TextFacts TextThms IntFam MleThms DensThms PointFacts ConvFacts.
Import ListNotations.
Local Unset Asymmetric Patterns.
Local Open Scope string_scope.
Local Open Scope list_scope.

Lemma fixed_leaves l m : Forall2 (fun pq pe : path * dist => fst pq = fst pe /\ fixed_params (snd pe) = fixed_params (snd pq)) l m ->
  drop_support (flat_map (leaf_items (Some true)) m) = drop_support (flat_map (leaf_items (Some true)) l).
Proof.
  induction 1 as [|[p q] [p' q'] l m [H1 H2] _ IH]; [reflexivity|]. cbn [flat_map fst snd] in *. subst p'. unfold drop_support in *. rewrite !map_app, IH. f_equal.
  unfold leaf_items. rewrite !map_map. cbn [fst snd]. unfold fixed_params in H2. apply (f_equal (map (fun nv : string * arr => (p ++ [fst nv], snd nv)))) in H2. rewrite !map_map in H2. exact H2.
Qed.
Section T.
  Variable solve : minimizer -> dist -> nat -> xr.
  Notation L := (fam_methods solve).
  Lemma t_from_natural b q e : well_formed q = true -> nat_tree q = true -> shaped b q = true -> to_exp L q = Ok e ->
    exists est, create_estimator_from_natural q = Ok est /\ create_estimator e = Ok est.
  Proof.
    intros W N S E. destruct (p_C12_exp solve b q W N S) as (e' & is & es & E1 & E2 & E3 & E4 & _). rewrite E in E1. injection E1 as <-.
    destruct (g_exp_tree L (fam_good solve) b q W N S) as (e' & G1 & G2 & G3 & _ & _ & G6). rewrite E in G1. injection G1 as <-.
    unfold create_estimator_from_natural, create_estimator. rewrite E2, E3. cbn [bind]. rewrite E4. cbn [bind]. rewrite !parameters_ok by assumption. cbn [bind].
    assert (X : is_exp (dcls e) = true) by (destruct e as [c m ps subs]; cbn [exp_tree all_nodes] in G3; now apply andb_prop in G3 as [G3 _]). rewrite X.
    eexists. split; [reflexivity|]. do 2 f_equal. apply fixed_leaves.
    assert (HI : forall pq, In pq (leaves [] q) -> In pq (leaves [] q)) by auto. remember (leaves [] q) as l eqn:El in G6, HI at 1 |- *. clear El.
    induction G6 as [|[p r] [p' r'] l m [H1 H2] _ IH]; constructor; [|apply IH; intros; apply HI; now right]. split; [exact H1|]. cbn [fst snd] in *.
    assert (Hi : In (p, r) (leaves [] q)) by (apply HI; now left). destruct (nat_leaf q [] p r W N Hi) as [f Hf]. destruct (leaf_wf q [] p r W Hi) as [Wr _].
    exact (exp_fixed solve b r f r' Hf Wr (shaped_in b q p r S Hi) H2).
  Qed.
  Lemma t_from_expectation b e q : well_formed e = true -> exp_tree e = true -> shaped b e = true -> to_nat L e = Ok q ->
    exists est, create_estimator e = Ok est /\ create_estimator_from_natural q = Ok est.
  Proof.
    intros W N S E. destruct (p_C12_nat solve b e W N S) as (q' & is & es & E1 & E2 & E3 & E4 & E5). rewrite E in E1. injection E1 as <-.
    destruct (g_nat_tree L (fam_good solve) b e W N S) as (q' & G1 & G2 & G3 & _ & _ & G6). rewrite E in G1. injection G1 as <-.
    unfold create_estimator_from_natural, create_estimator. rewrite E2, E3. cbn [bind]. rewrite E5. cbn [bind]. rewrite !parameters_ok by assumption. cbn [bind].
    assert (X : is_exp (dcls e) = true) by (destruct e as [c m ps subs]; cbn [exp_tree all_nodes] in N; now apply andb_prop in N as [N _]). rewrite X.
    eexists. split; [reflexivity|]. do 2 f_equal. apply fixed_leaves.
    assert (HI : forall pq, In pq (leaves [] e) -> In pq (leaves [] e)) by auto. remember (leaves [] e) as l eqn:El in G6, HI at 1 |- *. clear El.
    induction G6 as [|[p r] [p' r'] l m [H1 H2] _ IH]; constructor; [|apply IH; intros; apply HI; now right]. split; [exact H1|]. cbn [fst snd] in *.
    assert (Hi : In (p, r) (leaves [] e)) by (apply HI; now left). destruct (exp_leaf e [] p r W N Hi) as [f Hf]. destruct (leaf_wf e [] p r W Hi) as [Wr _].
    exact (nat_fixed solve b r f r' Hf Wr (shaped_in b e p r S Hi) H2).
  Qed.

  (** ** create_simple_estimator with the fixed parameters as keyword arguments *)
  Lemma dget_lift (d : dict string arr) n : dget (map (fun kv => ([fst kv], snd kv)) d) [n] = dget d n.
  Proof.
    induction d as [|[k v] d IH]; [reflexivity|]. cbn [map dget fst snd]. destruct (keq [n] [k]) as [E|E], (keq n k) as [E'|E']; try exact IH; try reflexivity; [injection E as E; contradiction|subst; now destruct E].
  Qed.
  Lemma t_simple_fixed b f q0 fixed a : dcls q0 = NP f -> well_formed q0 = true -> leaf_shaped b q0 = true ->
    (forall g, In g (fields (NP f)) -> fd_fixed g = true -> dget fixed (fd_name g) = dget (dparams q0) (fd_name g)) ->
    exists est est', create_estimator_from_natural q0 = Ok est /\ create_simple_estimator (EP f) fixed = Ok est' /\
      mle_sufficient_statistics L est' (Leaf a) = mle_sufficient_statistics L est (Leaf a).
  Proof.
    intros C W S Hf. assert (J : is_joint (dcls q0) = false) by now rewrite C. assert (N : nat_tree q0 = true).
    { destruct q0 as [c m ps subs]. cbn [dcls] in C. subst c. pose proof (wf_inv _ _ _ _ W) as (_ & _ & Hs & _). rewrite (Hs eq_refl). reflexivity. }
    destruct (create_shaped b q0 W (shaped_of_leaf b q0 W J S)) as [infos Hc].
    unfold create_estimator_from_natural. rewrite Hc. cbn [bind]. rewrite (struct_to_exp_map q0 [] infos N Hc). cbn [bind]. rewrite parameters_ok by exact W. cbn [bind]. eexists _, _. split; [reflexivity|]. split; [reflexivity|].
    destruct q0 as [c m ps subs]. cbn [dcls] in C. subst c. pose proof (wf_inv _ _ _ _ W) as (_ & _ & Hs & _). specialize (Hs eq_refl). subst subs. unfold create in Hc. rewrite walk_unfold in Hc. cbn [sub_distributions map mapM bind] in Hc.
    apply bind_Ok in Hc as (i & Hi & Hc). cbn in Hc. injection Hc as <-. apply make_info_ok in Hi as (Hp & Ht & Hs). cbn [dcls sub_distributions map] in Ht, Hs.
    unfold mle_sufficient_statistics. cbn [e_infos map]. unfold mle_leaf, info_to_exp. cbn [i_subs i_type i_path]. rewrite Hp, Ht, Hs. cbn [map exp_cls app e_fixed].
    set (q0 := Dist (NP f) m ps []) in *.
    assert (Hx : forall F : dict path arr, (forall n v, In (n, v) (fixed_params q0) -> dget F [n] = Some v) ->
      mapM (fun n => let* v := dindex F [n] in Ok (n, v)) (keys (class_support (NP f) (Some true))) = Ok (fixed_params q0)).
    { intros F HF. exact (fixed_lookup F [] q0 W HF). }
    rewrite !Hx; [reflexivity| |].
    - intros n v I. change (leaves [] q0) with [([] : path, q0)]. cbn [flat_map]. rewrite app_nil_r. unfold leaf_items, drop_support. rewrite map_map. cbn [fst snd app].
      replace (map _ (own_list (Some true) q0)) with (map (fun kv : string * arr => ([fst kv], snd kv)) (fixed_params q0)) by (unfold fixed_params; rewrite map_map; reflexivity).
      rewrite dget_lift. apply In_dget; [|exact I]. clear - f. unfold keys, fixed_params. rewrite map_map. cbn [fst]. unfold own_list. cbn [dparams dcls q0]. 
      destruct f; cbn ; repeat match goal with |- context [dget ps ?k] => destruct (dget ps k) end; cbn; first [apply NoDup_nil | apply NoDup_cons; [intros [] | apply NoDup_nil]].
    - intros n v I. rewrite dget_lift. unfold fixed_params in I. apply in_map_iff in I as ([n' [v' s]] & E & I). cbn [fst snd] in E. injection E as -> ->. unfold own_list in I. cbn [dcls dparams q0] in I.
      apply in_flat_map in I as (g & Ig & I). apply filter_In in Ig as [Ig Fg]. destruct (dget ps (fd_name g)) as [w|] eqn:Eg; [|destruct I]. destruct I as [I|[]]. injection I as <- <- _.
      rewrite (Hf g Ig); [exact Eg|]. unfold fixed_ok in Fg. now destruct (fd_fixed g).
  Qed.
End T.

(** ** the domain support of a structure *)
Lemma joint_domain c : is_joint c = true -> domain_support c = None.
Proof. destruct c; cbn; congruence. Qed.
Lemma domain_dual f : domain_support (NP f) = domain_support (EP f).
Proof. now destruct f. Qed.
Lemma dict_of_unique {V} (l : list (path * V)) k v : In (k, v) l -> (forall v', In (k, v') l -> v' = v) -> dget (dict_of l) k = Some v.
Proof.
  intros I U. unfold dict_of. rewrite dget_fold_dset. cbn [dget]. destruct (dget (rev l) k) as [w|] eqn:E.
  - apply dget_In, in_rev in E. now rewrite (U w E).
  - exfalso. apply dget_None in E. apply E. unfold keys. change k with (fst (k, v)). apply in_map. now apply -> in_rev.
Qed.
Lemma dict_of_absent {V} (l : list (path * V)) k : (forall v, ~ In (k, v) l) -> dget (dict_of l) k = None.
Proof.
  intros U. unfold dict_of. rewrite dget_fold_dset. cbn [dget]. destruct (dget (rev l) k) as [w|] eqn:E; [|reflexivity]. apply dget_In, in_rev in E. now destruct (U w).
Qed.
Lemma t_domain_support d infos p : well_formed d = true -> create d = Ok infos ->
  dget (struct_domain_support infos) p = match dist_at d p with Some x => domain_support (dcls x) | None => None end.
Proof.
  intros W H. destruct (walk_nodes d [] infos W H) as [A B]. unfold struct_domain_support.
  assert (U : forall s, In (p, s) (flat_map (fun i => match domain_support (i_type i) with Some s => [(i_path i, s)] | None => [] end) infos) -> exists x, dist_at d p = Some x /\ domain_support (dcls x) = Some s).
  { intros s I. apply in_flat_map in I as (i & Ii & I). destruct (B i Ii) as (p' & x & P1 & P2 & P3 & _). cbn [app] in P1. rewrite P3 in I. destruct (domain_support (dcls x)) as [s'|] eqn:E; [|destruct I].
    destruct I as [I|[]]. injection I as I1 I2. exists x. split; [rewrite <- I1, P1; exact P2|congruence]. }
  destruct (dist_at d p) as [x|] eqn:D; [destruct (domain_support (dcls x)) as [s|] eqn:E|].
  - apply dict_of_unique.
    + destruct (A p x D) as (i & I1 & I2 & I3 & _). apply in_flat_map. exists i. split; [exact I1|]. rewrite I3, E, I2. now left.
    + intros s' I. destruct (U s' I) as (y & Y1 & Y2). congruence.
  - apply dict_of_absent. intros s I. destruct (U s I) as (y & Y1 & Y2). congruence.
  - apply dict_of_absent. intros s I. destruct (U s I) as (y & Y1 & Y2). congruence.
Qed.
Lemma t_domain_dual solve b q e infos einfos : well_formed q = true -> nat_tree q = true -> shaped b q = true -> to_exp (fam_methods solve) q = Ok e ->
  create q = Ok infos -> create e = Ok einfos -> struct_domain_support einfos = struct_domain_support infos.
Proof.
  intros W N S E H1 H2. destruct (p_C12_exp solve b q W N S) as (e' & is & es & E1 & E2 & E3 & E4 & _). rewrite E in E1. injection E1 as <-. rewrite H1 in E2. rewrite H2 in E3. injection E2 as <-. injection E3 as <-.
  rewrite (struct_to_exp_map q [] infos N H1) in E4. injection E4 as <-. unfold struct_domain_support. f_equal. clear. induction infos as [|i l IH]; [reflexivity|]. cbn [map flat_map]. rewrite IH. f_equal.
  unfold info_to_exp. cbn [i_type i_path]. destruct (i_type i); cbn [exp_cls]; try reflexivity; now rewrite domain_dual.
Qed.

(** ** densities of the variance parametrizations *)
Section V.
  Variable solve : minimizer -> dist -> nat -> xr.
  Notation L := (fam_methods solve).
  Variables (b i : list nat) (Hi : inb b i = true).
  Local Open Scope R_scope.
  Lemma obs_vp d q x xv : domain_support (dcls d) = domain_support (dcls q) -> dims_of d = dims_of q -> observed b i d x xv -> observed b i q x xv.
  Proof. intros C D. unfold observed, obs_leaf. now rewrite C, D. Qed.
  Lemma text_log f q n x xv d : proper b i f q -> dims_of q = Ok n -> observed b i q x xv -> sample_space f n xv -> classical f n (point_of q i) d -> log_density L b i q x (ln (d xv)).
  Proof.
    intros Pq D O X K. destruct (proper_dims b i f q Pq) as (n' & D1 & _ & D3 & D4 & _). assert (n' = n) by congruence. subst n'. rewrite <- (text_all f n _ xv d D4 D3 X K). unfold dens. rewrite ln_exp.
    exact (log_density_at solve b i f q n x xv Pq D O X).
  Qed.
  Lemma vp_setup d : well_formed d = true -> leaf_shaped b d = true -> vp_domain d i -> dcls d = NormalVP \/ dcls d = MultivariateDiagonalNormalVP ->
    exists n q f d', dims_of d = Ok n /\ vp_to_nat d = Ok q /\ proper b i f q /\ dims_of q = Ok n /\ domain_support (dcls d) = domain_support (dcls q) /\ (forall xv, sample_space f n xv) /\ classical f n (point_of q i) d' /\
      (dcls d = NormalVP -> forall o, d' o = normal_pdf (par d i "mean" []) (par d i "variance" []) (o false [])) /\
      (dcls d = MultivariateDiagonalNormalVP -> forall o, d' o = prodR n (fun k => normal_pdf (par d i "mean" [k]) (par d i "variance" [k]) (o false [k]))).
  Proof.
    intros W S H C. destruct (vp_dom_at b i d Hi W S H) as (n & A & (n' & D & F & P)). assert (n' = n) by (pose proof (ap_dims _ _ _ _ _ _ A); congruence). subst n'. exists n.
    destruct C as [C|C]; rewrite C in A, P; cbn iota in P; set (p := point_of d i) in *; change (point_of d i) with p in P.
    - destruct (normal_vp_nat_at b i Hi d n p A P) as (q & Q1 & Q2). pose proof (at_pt_pt b i q (NP Normal) n _ Hi Q2) as E.
      exists q, Normal, (fun o => normal_pdf (p false "mean" []) (p false "variance" []) (o false [])). split; [exact D|]. split; [exact Q1|]. split.
      { split; [exact (ap_cls _ _ _ _ _ _ Q2)|]. split; [exact (ap_wf _ _ _ _ _ _ Q2)|]. split; [exact (ap_shaped _ _ _ _ _ _ Q2)|]. split; [exact Hi|]. apply (at_pt_nat_dom b i q Normal n _ Hi Q2). cbn [nat_dom]. mkv.
        pose proof (Rdiv_lt_0_compat 1 _ ltac:(lra) P). lra. }
      split; [exact (ap_dims _ _ _ _ _ _ Q2)|]. split; [now rewrite C, (ap_cls _ _ _ _ _ _ Q2)|]. split; [intros xv; exact Logic.I|]. split; [|split; [reflexivity|congruence]].
      exists (p false "mean" []), (p false "variance" []). split; [exact P|].
      cbv zeta. ptrw E (var "mean_times_precision" (ScalarS real_field)) (@nil nat). ptrw E (var "negative_half_precision" (ScalarS negative_support)) (@nil nat). mkv. split; [field; lra|]. split; [field; lra|reflexivity].
    - destruct (diag_vp_nat_at b i Hi d n p A P) as (q & Q1 & Q2). pose proof (at_pt_pt b i q (NP MultivariateDiagonalNormal) n _ Hi Q2) as E.
      exists q, MultivariateDiagonalNormal, (fun o => prodR n (fun k => normal_pdf (p false "mean" [k]) (p false "variance" [k]) (o false [k]))). split; [exact D|]. split; [exact Q1|]. split.
      { split; [exact (ap_cls _ _ _ _ _ _ Q2)|]. split; [exact (ap_wf _ _ _ _ _ _ Q2)|]. split; [exact (ap_shaped _ _ _ _ _ _ Q2)|]. split; [exact Hi|]. apply (at_pt_nat_dom b i q MultivariateDiagonalNormal n _ Hi Q2). cbn [nat_dom]. intros k Hk. mkv.
        pose proof (Rdiv_lt_0_compat 1 _ ltac:(lra) (P k Hk)). lra. }
      split; [exact (ap_dims _ _ _ _ _ _ Q2)|]. split; [now rewrite C, (ap_cls _ _ _ _ _ _ Q2)|]. split; [intros xv; exact Logic.I|]. split; [|split; [congruence|reflexivity]].
      exists (fun k => p false "mean" [k]), (fun k => p false "variance" [k]). split; [|reflexivity]. intros k Hk. specialize (P k Hk). split; [exact P|].
      rewrite <- (pt_re1 _ _ _ _ (var "mean_times_precision" (VectorS real_field)) "mean_times_precision" k n E (or_introl eq_refl) eq_refl eq_refl Hk).
      rewrite <- (pt_re1 _ _ _ _ (var "negative_half_precision" (VectorS negative_support)) "negative_half_precision" k n E (or_intror (or_introl eq_refl)) eq_refl eq_refl Hk). mkv. split; field; lra.
  Qed.
  Lemma t_normal_vp d x xv : well_formed d = true -> leaf_shaped b d = true -> vp_domain d i -> dcls d = NormalVP -> observed b i d x xv ->
    (exists t, vp_pdf L d (Leaf x) = Ok t /\ shp t = b /\ tget t i = Fin (normal_pdf (par d i "mean" []) (par d i "variance" []) (xv false []))) /\
    (exists t, vp_log_pdf L d (Leaf x) = Ok t /\ shp t = b /\ tget t i = Fin (ln (normal_pdf (par d i "mean" []) (par d i "variance" []) (xv false [])))).
  Proof.
    intros W S H C O. destruct (vp_setup d W S H (or_introl C)) as (n & q & f & d' & D & Q & Pq & Dq & Ds & X & K & V & _). rewrite <- (V C).
    assert (O' : observed b i q x xv) by (apply (obs_vp d q); [exact Ds|congruence|exact O]). split.
    - unfold vp_pdf. rewrite C, Q. exact (textbook solve b i f q n x xv d' Pq Dq O' (X xv) K).
    - unfold vp_log_pdf. rewrite C, Q. exact (text_log f q n x xv d' Pq Dq O' (X xv) K).
  Qed.
  Lemma t_diag_vp d n x xv : well_formed d = true -> leaf_shaped b d = true -> vp_domain d i -> dcls d = MultivariateDiagonalNormalVP -> dims_of d = Ok n -> observed b i d x xv ->
    exists t, vp_pdf L d (Leaf x) = Ok t /\ shp t = b /\ tget t i = Fin (prodR n (fun k => normal_pdf (par d i "mean" [k]) (par d i "variance" [k]) (xv false [k]))).
  Proof.
    intros W S H C Dn O. destruct (vp_setup d W S H (or_intror C)) as (n' & q & f & d' & D & Q & Pq & Dq & Ds & X & K & _ & V). assert (n' = n) by congruence. subst n'. rewrite <- (V C).
    assert (O' : observed b i q x xv) by (apply (obs_vp d q); [exact Ds|congruence|exact O]).
    unfold vp_pdf. rewrite C, Q. exact (textbook solve b i f q n x xv d' Pq Dq O' (X xv) K).
  Qed.
End V.
