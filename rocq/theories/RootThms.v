(** C28: a root of search_gradient gives the natural parameters of the expectation parameters. *)
From Coquelicot Require Import Coquelicot.
From Coq Require Import String List Bool Arith Reals Lia Lra.
From Verif Require Import Base XReal Tensor TensorFacts TensorFacts2 Support PlaneFacts Dist DictFacts Iteration Structure Spec StructFacts AssembleFacts SumSpec DotSpec FlattenSpec Tools
  ToolThms Joint StructThms MapFacts SpecFun GammaFn BesselFn Expr Fam ExprFacts FamTy FamFacts SearchFacts DotFacts DotLaws BatchFacts PointSpec PointFacts Val FamR FamVal ConvFacts LeafVal VarSpec DensSpec FlattenThms Var VarThms RootSpec RootVal.
Import ListNotations.
Local Unset Asymmetric Patterns.
Local Open Scope string_scope.
Local Open Scope R_scope.

Lemma zero_get b i g m k : shp g = (b ++ [m])%list -> zero_at b i g -> (k < m)%nat -> tget g (i ++ [k])%list = Fin 0.
Proof.
  intros S Z K. apply Z. rewrite S, skipn_app, skipn_all, Nat.sub_diag. cbn [app]. now apply (inb_snoc_intro [] m [] k).
Qed.
Lemma search_env b i e c n p sp s m : at_pt b i e c n p -> shp sp = (b ++ [m])%list -> (forall k, (k < m)%nat -> tget sp (i ++ [k])%list = Fin (s k)) ->
  env_ok b (("search", (KR, [m])) :: ctx_of c n) (("search", RA sp) :: dparams e) /\
  vals_eq (("search", (KR, [m])) :: ctx_of c n) (vals_of (("search", RA sp) :: dparams e) i) (pvals (ps p s)).
Proof.
  intros [C W S D V] Sp Sv. pose proof (env_cons b _ _ "search" KR [m] sp (leaf_env _ _ _ S D) Sp) as HE. rewrite C in HE. cbn [pack] in HE. split; [exact HE|].
  intros m' k t j X Hj. unfold vals_of. cbn [dget] in X |- *. destruct (keq m' "search") as [->|Nm].
  - injection X as <- <-. cbn [get_kind pvals]. destruct (inb1 _ _ Hj) as (k & -> & Hk). etransitivity; [exact (Sv k Hk)|reflexivity].
  - specialize (V m' k t j X Hj). unfold vals_of in V. rewrite V. unfold pvals, ps. destruct k; (destruct (String.eqb_spec m' "search"); [contradiction|reflexivity]).
Qed.
Section M.
Variable solve : minimizer -> dist -> nat -> xr.
Notation L := (fam_methods solve).
Lemma default_root b i e f n p sp s g : inb b i = true -> default_search f = true -> at_pt b i e (EP f) n p -> exp_dom f n p -> shp sp = (b ++ [search_dim f n])%list ->
  (forall k, (k < search_dim f n)%nat -> tget sp (i ++ [k])%list = Fin (s k)) -> search_gradient e f sp = Ok g -> zero_at b i g ->
  exists q e', search_to_natural e f sp = Ok q /\ at_pt b i q (NP f) n (snR n p s f) /\ l_to_exp L q = Ok e' /\ at_pt b i e' (EP f) n p.
Proof.
  intros Hi E A H Sp Sv G Z. assert (E2 : e2n f = true) by (destruct f; auto; discriminate).
  destruct (s2n_at b i e f n p sp s Hi E2 A H Sp Sv) as (q & Q1 & Q2). pose proof Q2 as [C W S D V].
  destruct (exp_builds solve b q f n C W S D) as (ps & B1 & B2 & B3 & B4 & _). 
  exists q, (Dist (EP f) DefaultMinimizer ps []). repeat (split; [assumption|]). unfold search_gradient in G. replace (search_gradient_e f) with (@None (aexp KR)) in G by (destruct f; try discriminate E; reflexivity).
  rewrite Q1 in G. cbn [bind] in G. change (fam_to_exp q) with (l_to_exp L q) in G. rewrite B1 in G. cbn [bind] in G.
  destruct (leaf_inv (Dist (EP f) DefaultMinimizer ps []) B2 eq_refl) as [_ N']. cbn [dcls dparams] in N'. destruct (flat_raw f b _ ps n E N' B3 B4) as (F' & u' & U1 & U2 & U3).
  pose proof A as [Ce We Se De Ve]. assert (J : is_joint (dcls e) = false) by now rewrite Ce. destruct (leaf_inv e We J) as [Qe Ne]. rewrite Ce in Qe, Ne. rewrite Qe in Se, De.
  destruct (flat_raw f b _ _ n E Ne Se De) as (F & u & W1 & W2 & W3). rewrite <- Qe in W1. rewrite W1, U1 in G. cbn [bind] in G. rewrite tmap2_same in G by congruence. injection G as <-.
  split; [reflexivity|assumption..|]. intros nm k t j X Hj. destruct (ctx_field _ _ _ _ _ X) as (g & Ig & <- & -> & ->).
  destruct (W3 g Ig) as (t & T1 & T2). destruct (U3 g Ig) as (t' & T1' & T2'). destruct (T2 i j Hi Hj) as [K K2]. destruct (T2' i j Hi Hj) as [_ K2'].
  rewrite <- (Ve _ _ _ j X Hj). unfold vals_of. cbn [dparams]. rewrite T1, T1'. assert (Kr : kind_of (fd_support g) = KR) by (clear -E Ig; destruct f; try discriminate E; cbn in Ig; intuition subst; reflexivity).
  specialize (Ve _ _ _ j X Hj). unfold vals_of in Ve. rewrite T1, Kr in Ve. change (tget t (i ++ j)%list = Fin (p false (fd_name g) j)) in Ve. rewrite Kr. change (tget t' (i ++ j)%list = tget t (i ++ j)%list).
  pose proof (fun SS => zero_get b i _ (search_dim f n) _ SS Z K) as Zk. specialize (Zk U2). rewrite tget_tbuild in Zk by (rewrite U2; now apply inb_snoc_intro). 
  change (xsub (tget u' (i ++ [fpos n (fd_name g) j])%list) (tget u (i ++ [fpos n (fd_name g) j])%list) = Fin 0) in Zk. rewrite K2, K2', Ve in Zk. rewrite Ve. exact (xsub_zero _ _ Zk).
Qed.
End M.
Lemma sub_1_0 (t u g : tensor xr) : shp t = [1%nat] -> shp u = [] -> tmap2 xsub t u = Ok g -> shp g = [1%nat] /\ tget g [0%nat] = xsub (tget t [0%nat]) (tget u []).
Proof. intros T U G. unfold tmap2 in G. rewrite T, U in G. cbn in G. injection G as <-. split; [reflexivity|]. rewrite tget_tbuild by reflexivity. reflexivity. Qed.
Section M2.
Variable solve : minimizer -> dist -> nat -> xr.
Notation L := (fam_methods solve).
Lemma gamma_root b i e n p sp s g : inb b i = true -> at_pt b i e (EP Gamma) n p -> exp_dom Gamma n p -> shp sp = (b ++ [1%nat])%list ->
  tget sp (i ++ [0%nat])%list = Fin (s 0%nat) -> search_gradient e Gamma sp = Ok g -> zero_at b i g ->
  exists q e', search_to_natural e Gamma sp = Ok q /\ at_pt b i q (NP Gamma) n (snR n p s Gamma) /\ l_to_exp L q = Ok e' /\ at_pt b i e' (EP Gamma) n p.
Proof.
  intros Hi A H Sp Sv G Z. assert (Sv' : forall k, (k < 1)%nat -> tget sp (i ++ [k])%list = Fin (s k)) by (intros k K; replace k with 0%nat by lia; exact Sv).
  destruct (s2n_at b i e Gamma n p sp s Hi eq_refl A H Sp Sv') as (q & Q1 & Q2).
  assert (Hn : nat_dom Gamma n (snR n p s Gamma)) by (apply search_dom; auto).
  destruct (exp_at solve b i q Gamma n _ Hi Q2 Hn Logic.I) as (e' & E1 & E2). exists q, e'. repeat (split; [assumption|]).
  apply (at_pt_eq _ _ _ _ _ _ _ E2). destruct (search_env b i e (EP Gamma) n p sp s 1 A Sp Sv') as [HE HV].
  unfold search_gradient in G. cbn [search_gradient_e] in G. pose proof (sps_pos (s 0%nat)) as P. cbn [exp_dom] in H. destruct H as [H1 H2].
  set (e0 := ENewaxis _) in G. assert (T : VR (("search", (KR, [1%nat])) :: ctx_of (EP Gamma) n) (ps p s) e0 (Ev [1%nat]) (fun _ => ln (p false "mean" []) - p false "mean_log" [] - ln (sps (s 0%nat)) + digamma (sps (s 0%nat)))).
  { unfold e0. change [1%nat] with ([] ++ [1%nat])%list. eapply VR_ext.
    { apply VR_newaxis. eapply VR_add; [eapply VR_sub; [eapply VR_sub; [vr|vr|alt_]|eapply VR_log; [eapply VR_softplus; eapply VR_at; [vr|lia]|]|alt_]|eapply VR_digamma; [eapply VR_softplus; eapply VR_at; [vr|lia]|]|alt_]; jj; pss; try exact P; lra. }
    intros j Hj. destruct (inb1 _ _ Hj) as (k & -> & Hk). pss. reflexivity. }
  destruct (eval_at b _ _ i _ e0 [1%nat] _ HE Hi HV T) as (t & T1 & T2 & T3). rewrite T1 in G. injection G as ->.
  pose proof (zero_get b i g 1 0 T2 Z Nat.lt_0_1) as Z0. specialize (T3 [0%nat] eq_refl). assert (Z1 := eq_trans (eq_sym T3) Z0). injection Z1 as Z1.
  apply pt_intro. cbn [fields]. ptf. all: split; [|discriminate]. all: mk; unfold snR; mk.
  - field. lra.
  - rewrite Ropp_involutive. replace (sps (s 0%nat) - 1 + 1) with (sps (s 0%nat)) by ring. rewrite ln_div by assumption. lra.
Qed.
Lemma vmf_root e n p sp s g : at_pt [] [] e (EP VonMisesFisher) n p -> exp_dom VonMisesFisher n p -> shp sp = [1%nat] ->
  tget sp [0%nat] = Fin (s 0%nat) -> search_gradient e VonMisesFisher sp = Ok g -> zero_at [] [] g ->
  exists q e', search_to_natural e VonMisesFisher sp = Ok q /\ at_pt [] [] q (NP VonMisesFisher) n (snR n p s VonMisesFisher) /\ l_to_exp L q = Ok e' /\ at_pt [] [] e' (EP VonMisesFisher) n p.
Proof.
  intros A H Sp Sv G Z. assert (Sv' : forall k, (k < 1)%nat -> tget sp ([] ++ [k])%list = Fin (s k)) by (intros k K; replace k with 0%nat by lia; exact Sv).
  destruct (s2n_at [] [] e VonMisesFisher n p sp s eq_refl eq_refl A H Sp Sv') as (q & Q1 & Q2).
  assert (Hn : nat_dom VonMisesFisher n (snR n p s VonMisesFisher)) by (apply search_dom; auto).
  destruct (exp_at solve [] [] q VonMisesFisher n _ eq_refl Q2 Hn Logic.I) as (e' & E1 & E2). exists q, e'. repeat (split; [assumption|]).
  apply (at_pt_eq _ _ _ _ _ _ _ E2). destruct (search_env [] [] e (EP VonMisesFisher) n p sp s 1 A Sp Sv') as [HE HV].
  unfold search_gradient in G. cbn [search_gradient_e] in G. pose proof (sps_pos (s 0%nat)) as P. cbn [exp_dom] in H. destruct H as [H1 H2].
  set (N2 := sumR n (fun k => p false "mean" [k] * p false "mean" [k])) in *.
  assert (T : VR (("search", (KR, [1%nat])) :: ctx_of (EP VonMisesFisher) n) (ps p s) (r2 xiv_ratio (emul (EDim "mean") (ENum (1/2))) (softplus (self "search"))) (Ev [1%nat])
    (fun _ => bessel_i (INR n * (1 / 2)) (sps (s 0%nat)) / bessel_i (INR n * (1 / 2) - 1) (sps (s 0%nat)))).
  { eapply VR_ext; [eapply VR_iv_ratio; [vr|vr|alt_|]|]; jj; pss; replace k with 0%nat by lia; [exact P|reflexivity]. }
  assert (T' : VR (("search", (KR, [1%nat])) :: ctx_of (EP VonMisesFisher) n) (ps p s) (jnorm (self "mean")) (Ev []) (fun _ => sqrt N2)).
  { vx. jj. pss. reflexivity. }
  destruct (eval_at [] _ _ [] _ _ [1%nat] _ HE eq_refl HV T) as (t & T1 & T2 & T3). destruct (eval_at [] _ _ [] _ _ [] _ HE eq_refl HV T') as (t' & T1' & T2' & T3').
  assert (G' : (let* t := eval (("search", RA sp) :: dparams e) (r2 xiv_ratio (emul (EDim "mean") (ENum (1/2))) (softplus (self "search"))) in
                let* u := eval (("search", RA sp) :: dparams e) (jnorm (self "mean")) in tmap2 xsub t u) = Ok g) by exact G. clear G.
  rewrite T1, T1' in G'. cbn [bind] in G'. destruct (sub_1_0 t t' g T2 T2' G') as [G1 G2].
  pose proof (zero_get [] [] _ 1 0 G1 Z Nat.lt_0_1) as Z0. cbn [app] in Z0. specialize (T3 [0%nat] eq_refl). specialize (T3' [] eq_refl). cbn [app] in T3, T3'.
  assert (Z1 := eq_trans (eq_sym G2) Z0). clear G2 Z0. change (@tget xr Dflt_xr t [0%nat]) with (@tget (elt KR) (Dflt_elt KR) t [0%nat]) in Z1. change (@tget xr Dflt_xr t' []) with (@tget (elt KR) (Dflt_elt KR) t' []) in Z1.
  rewrite T3, T3' in Z1. apply xsub_zero in Z1. injection Z1 as Z1.
  assert (S0 : 0 < sqrt N2) by now apply sqrt_lt_R0. assert (SS : sqrt N2 * sqrt N2 = N2) by (apply sqrt_sqrt; lra).
  apply pt_intro. cbn [fields]. ptf. all: split; [|discriminate]. unfold snR. unfold expR, norm2. mk. fold N2.
  replace (sumR n (fun k0 => p false "mean" [k0] * (sps (s 0%nat) / sqrt N2) * (p false "mean" [k0] * (sps (s 0%nat) / sqrt N2)))) with (Rsqr (sps (s 0%nat))).
  { rewrite sqrt_Rsqr by lra. rewrite Z1. field. lra. }
  transitivity (sumR n (fun k0 => Rsqr (sps (s 0%nat) / sqrt N2) * (p false "mean" [k0] * p false "mean" [k0]))).
  - rewrite sumR_scal. fold N2. unfold Rsqr. rewrite <- SS at 3. field. lra.
  - apply sumR_ext. intros m Hm. unfold Rsqr. ring.
Qed.
End M2.
Lemma count_dim f n m : search_count f n = Some m -> dims_ok (EP f) n = true -> e2n f = true /\ m = search_dim f n.
Proof. destruct f; cbn; try discriminate; intros E _; injection E as <-; split; auto; lia. Qed.
Section M3.
Variable solve : minimizer -> dist -> nat -> xr.
Notation L := (fam_methods solve).
Lemma root_at b i e f n p sp s g m : inb b i = true -> at_pt b i e (EP f) n p -> exp_dom f n p -> search_count f n = Some m -> match f with VonMisesFisher => b = [] | _ => True end ->
  shp sp = (b ++ [m])%list -> (forall k, (k < m)%nat -> tget sp (i ++ [k])%list = Fin (s k)) -> search_gradient e f sp = Ok g -> zero_at b i g ->
  exists q e', search_to_natural e f sp = Ok q /\ at_pt b i q (NP f) n (snR n p s f) /\ l_to_exp L q = Ok e' /\ at_pt b i e' (EP f) n p.
Proof.
  intros Hi A H M Vb Sp Sv G Z. destruct (leaf_dims _ _ (ap_shaped _ _ _ _ _ _ A)) as (n' & D' & K). rewrite (ap_dims _ _ _ _ _ _ A) in D'. injection D' as <-. rewrite (ap_cls _ _ _ _ _ _ A) in K.
  destruct (count_dim f n m M K) as [E ->]. destruct (default_search f) eqn:Ed; [now apply (default_root solve b i e f n p sp s g)|].
  destruct f; try discriminate E; try discriminate Ed.
  - apply (gamma_root solve b i e n p sp s g); auto; exact (Sv 0%nat Nat.lt_0_1).
  - subst b. destruct i; [|discriminate]. apply (vmf_root solve e n p sp s g); auto; exact (Sv 0%nat Nat.lt_0_1).
Qed.
Lemma t_root b i f e n m sp g : proper_e b i f e -> dims_of e = Ok n -> search_count f n = Some m -> (f = Dirichlet -> (2 <= n)%nat) -> (f = VonMisesFisher -> b = []) ->
  finite_search b i m sp -> search_gradient e f sp = Ok g -> zero_at b i g ->
  exists q e', search_to_natural e f sp = Ok q /\ proper b i f q /\ to_exp L q = Ok e' /\ same_params_at b i e e'.
Proof.
  intros (C & W & S & Hi & Dom) D M Hd Hv [Sp Sf] G Z. destruct (exp_dom_at b i e f Hi C W S Dom) as (n' & A & H). assert (n' = n) by (rewrite (ap_dims _ _ _ _ _ _ A) in D; congruence). subst n'.
  assert (Sv : forall k, (k < m)%nat -> tget sp (i ++ [k])%list = Fin ((fun k => toR (tget sp (i ++ [k])%list)) k)) by (intros k K; destruct (Sf k K) as (v & ->); reflexivity).
  destruct (root_at b i e f n (point_of e i) sp (fun k => toR (tget sp (i ++ [k])%list)) g m Hi A H M) as (q & e' & Q1 & Q2 & Q3 & Q4); auto. { destruct f; auto. }
  destruct (leaf_dims _ _ S) as (n' & D' & K). assert (n' = n) by congruence. subst n'. rewrite C in K. destruct (count_dim f n m M K) as [E ->].
  exists q, e'. split; [exact Q1|]. split; [|split].
  - pose proof Q2 as [C' W' S' D2 V']. repeat (split; [assumption|]). apply (at_pt_nat_dom b i q f n _ Hi Q2). apply search_dom; auto. destruct f; auto.
  - rewrite (api_exp_leaf _ _ f); [exact Q3|exact (ap_cls _ _ _ _ _ _ Q2)].
  - now apply (at_pt_params b i e e' (EP f) n (point_of e i)).
Qed.
Lemma params_solution f e n : e2n f = true -> dcls e = EP f -> well_formed e = true -> leaf_shaped [] e = true -> dims_of e = Ok n -> dist_vals true [] e ->
  search_parameters solve e f = Ok (solution solve (dmin e) (default_minimizers e) (search_dim f n)).
Proof.
  intros E C W S D V. destruct (leaf_dims _ _ S) as (n' & D' & K). assert (n' = n) by congruence. subst n'. rewrite C in K.
  assert (J : is_joint (dcls e) = false) by now rewrite C. destruct (leaf_inv e W J) as [Q N]. rewrite C in Q, N.
  destruct (flatten_round_trip true [] e W V) as (F & t & A1 & A2 & A3 & _). unfold search_parameters. rewrite A1. cbn [bind]. cbn [app] in A2. rewrite A2. cbn [removelast indices mapM].
  assert (TT : tsub t [] = t) by (apply tensor_ext; [reflexivity|]; intros j Hj; apply (get_tsub [] [flat_size e]); [reflexivity|exact A2|]; cbn [tsub tbuild shp length skipn] in Hj; now rewrite <- A2).
  rewrite TT, A3. cbn [bind app ravel nth]. f_equal. unfold solution. rewrite <- (search_size_eq f (dmin e) (dparams e) n E N) by (rewrite <- ?Q; assumption). rewrite <- Q.
  replace (search_size f t) with (search_size f (tbuild [flat_size e] (fun _ => NaN))) by (unfold search_size; rewrite A2; reflexivity). apply tbuild_ext. intros j Hj. destruct (inb1 _ _ Hj) as (k & -> & _). reflexivity.
Qed.
Lemma leaf_default e f : dcls e = EP f -> well_formed e = true -> default_minimizers e = Dist (EP f) DefaultMinimizer (dparams e) [].
Proof. intros C W. assert (J : is_joint (dcls e) = false) by now rewrite C. destruct (leaf_inv e W J) as [Q _]. rewrite C in Q. rewrite Q. reflexivity. Qed.
Lemma proper_e_min m b i f e : proper_e b i f e -> proper_e b i f (Dist (EP f) m (dparams e) []).
Proof.
  intros (C & W & S & Hi & Dom). assert (J : is_joint (dcls e) = false) by now rewrite C. destruct (leaf_inv e W J) as [Q N]. rewrite C in Q, N.
  split; [reflexivity|]. split; [now apply wf_leaf|]. rewrite Q in S, Dom. split; [exact S|]. split; [exact Hi|exact Dom].
Qed.
Lemma s2n_min f m e sp : dcls e = EP f -> well_formed e = true -> e2n f = true -> forall n, dims_of e = Ok n -> shp sp = [search_dim f n] -> search_to_natural (Dist (EP f) m (dparams e) []) f sp = search_to_natural e f sp.
Proof.
  intros C W E n D Sp. assert (J : is_joint (dcls e) = false) by now rewrite C. destruct (leaf_inv e W J) as [Q N]. rewrite C in Q, N. 
  assert (D2 : dims_of (Dist (EP f) m (dparams e) []) = Ok n) by (rewrite Q in D; exact D). rewrite (s2n_eq f [] m _ n sp E N D2 Sp). rewrite Q. cbn [dparams]. rewrite (s2n_eq f [] (dmin e) (dparams e) n sp E N); [reflexivity| |exact Sp]. now rewrite <- Q.
Qed.
Lemma e2n_root f e : proper_e [] [] f e -> dist_vals true [] e -> (forall n, f = Dirichlet -> dims_of e = Ok n -> (2 <= n)%nat) -> root_found solve f e ->
  exists q e', exp_to_nat solve e f = Ok q /\ proper [] [] f q /\ to_exp L q = Ok e' /\ same_params_at [] [] e e'.
Proof.
  intros P V Hd (n & k & g & D & K & Fs & G & Z). pose proof P as (C & W & S & Hi & Dom). destruct (leaf_dims _ _ S) as (n' & D' & Kn). assert (n' = n) by congruence. subst n'. rewrite C in Kn.
  destruct (count_dim f n k K Kn) as [E ->]. rewrite (leaf_default e f C W) in *. set (sp := solution _ _ _ _) in *. pose proof (proper_e_min DefaultMinimizer [] [] f e P) as P'.
  assert (D2 : dims_of (Dist (EP f) DefaultMinimizer (dparams e) []) = Ok n) by (rewrite <- D; assert (J : is_joint (dcls e) = false) by (now rewrite C); destruct (leaf_inv e W J) as [Q _]; rewrite C in Q; rewrite Q at 2; reflexivity).
  destruct (t_root [] [] f _ n _ sp g P' D2 K ltac:(intros E0; exact (Hd n E0 D)) (fun _ => eq_refl) Fs G Z) as (q & e' & Q1 & Q2 & Q3 & Q4).
  exists q, e'. unfold exp_to_nat. rewrite (params_solution f e n E C W S D V). cbn [bind]. rewrite (leaf_default e f C W). fold sp. rewrite (s2n_min f DefaultMinimizer e sp C W E n D (proj1 Fs)) in Q1.
  split; [exact Q1|]. split; [exact Q2|]. split; [exact Q3|]. destruct Q4 as (X1 & X2 & X3 & X4 & X5 & X6 & X7). cbn [dcls dparams] in *.
  split; [congruence|]. split; [exact W|]. split; [exact X3|]. split; [exact S|]. split; [exact X5|]. split; [rewrite <- X6; congruence|]. rewrite C. exact X7.
Qed.
End M3.
Lemma scalar_same c nm s n p q r : fields c = [var nm (ScalarS s)] -> is_joint c = false -> at_pt [] [] q c n p -> at_pt [] [] r c n p -> kind_of (ScalarS s) = KR -> dmin q = dmin r -> q = r.
Proof.
  intros Fc J [C W S D V] [C' W' S' D' V'] K M. assert (J1 : is_joint (dcls q) = false) by now rewrite C. assert (J2 : is_joint (dcls r) = false) by now rewrite C'.
  destruct (leaf_inv q W J1) as [Q N]. destruct (leaf_inv r W' J2) as [Q' N']. rewrite C, Fc in N. rewrite C', Fc in N'. cbn in N, N'. destruct (names_inv1 _ _ N) as (v & E). destruct (names_inv1 _ _ N') as (v' & E').
  assert (X : dget (ctx_of c n) nm = Some (KR, [])). { unfold ctx_of. rewrite Fc. cbn [map dget fd_ctx var fd_name fd_support supp_shape]. rewrite K. destruct (keq nm nm); [reflexivity|congruence]. }
  pose proof (leaf_env _ _ _ S D) as HE. pose proof (leaf_env _ _ _ S' D') as HE'. rewrite C in HE. rewrite C' in HE'. destruct (HE _ _ _ X) as (t & T1 & T2). destruct (HE' _ _ _ X) as (t' & T1' & T2').
  pose proof (V _ _ _ [] X eq_refl) as A. pose proof (V' _ _ _ [] X eq_refl) as A'. unfold vals_of in A, A'. rewrite T1 in A. rewrite T1' in A'. rewrite get_pack in A, A'. rewrite <- A' in A.
  rewrite E in T1. rewrite E' in T1'. cbn in T1, T1'. destruct (keq nm nm); [|congruence]. injection T1 as ->. injection T1' as ->.
  rewrite Q, Q', C, C', M, E, E'. repeat f_equal. cbn [app] in *. apply tensor_ext; [congruence|]. intros j Hj. rewrite T2 in Hj. apply inb0 in Hj. subst j. exact A.
Qed.
Section M4.
Variable solve : minimizer -> dist -> nat -> xr.
Notation L := (fam_methods solve).
Lemma log_to_nat e q : proper_e [] [] Logarithmic e -> exp_to_nat solve e Logarithmic = Ok q -> proper [] [] Logarithmic q -> fam_to_nat solve e = Ok q.
Proof.
  intros (C & W & S & Hi & Dom) Eq (Cq & Wq & Sq & _ & Domq). destruct (exp_dom_at [] [] e Logarithmic Hi C W S Dom) as (n & A & H). destruct (nat_dom_at [] [] q Logarithmic Hi Cq Wq Sq Domq) as (n1 & Aq & Hq).
  assert (n1 = 1%nat). { apply (dims_none _ _ (ap_dims _ _ _ _ _ _ Aq)). now rewrite Cq. } assert (n = 1%nat). { apply (dims_none _ _ (ap_dims _ _ _ _ _ _ A)). now rewrite C. } subst n n1.
  assert (J : is_joint (dcls e) = false) by now rewrite C. destruct (leaf_inv e W J) as [Q N]. rewrite C in Q, N.
  assert (Mq : dmin q = DefaultMinimizer). { destruct A. rewrite Q in S, ap_dims. destruct (exp_to_nat_ok solve Logarithmic [] (dmin e) (dparams e) 1 eq_refl N S ap_dims) as (ps & P1 & _). rewrite <- Q in P1. rewrite P1 in Eq. injection Eq as <-. reflexivity. }
  destruct (to_nat_builds solve Logarithmic [] e 1 W C S (ap_dims _ _ _ _ _ _ A)) as (ps & P1 & P2 & P3 & P4 & _). rewrite P1. f_equal.
  apply (scalar_same (NP Logarithmic) "log_probability" negative_support 1 (point_of q [])); try reflexivity; [|exact Aq|now rewrite Mq].
  unfold fam_to_nat in P1. rewrite C in P1. cbn [nat_args] in P1. rewrite Eq in P1. cbn [bind] in P1. assert (Jq : is_joint (dcls q) = false) by now rewrite Cq. destruct (leaf_inv q Wq Jq) as [Qq Nq]. rewrite Cq in Nq. cbn in Nq. destruct (names_inv1 _ _ Nq) as (v & Vq).
  pose proof (leaf_env _ _ _ Sq (ap_dims _ _ _ _ _ _ Aq)) as HEq. rewrite Cq in HEq. destruct (HEq "log_probability" KR [] eq_refl) as (w & W1 & W2). unfold attr in P1. rewrite W1 in P1. cbn [opt_err bind] in P1.
  pose proof (env_cons [] _ _ "z" KR [] w (leaf_env _ _ _ S (ap_dims _ _ _ _ _ _ A)) W2) as HE. rewrite C in HE. cbn [pack] in HE.
  set (pz := fun c nm j => if String.eqb nm "z" then point_of q [] c "log_probability" j else point_of e [] c nm j : R).
  assert (V' : vals_eq (("z", (KR, [])) :: ctx_of (EP Logarithmic) 1) (vals_of (("z", RA w) :: dparams e) []) (pvals pz)).
  { intros m k t j X Hj. unfold vals_of. cbn [dget] in X |- *. destruct (keq m "z") as [->|Nm].
    - injection X as <- <-. pose proof (ap_vals _ _ _ _ _ _ Aq "log_probability" KR [] j eq_refl Hj) as Y. unfold vals_of in Y. rewrite W1 in Y. exact Y.
    - pose proof (ap_vals _ _ _ _ _ _ A m k t j X Hj) as V. unfold vals_of in V. rewrite V. unfold pvals, pz. destruct k; (destruct (String.eqb_spec m "z"); [contradiction|reflexivity]). }
  cbn [exp_dom] in H.
  match type of P1 with make _ _ ?l = _ => assert (T : args_at (("z", (KR, [])) :: ctx_of (EP Logarithmic) 1) pz (point_of q []) l (ctx_of (NP Logarithmic) 1)) end.
  { unfold args_at, ctx_of; cbn [map fields fd_name fd_support var supp_ring]; argv. eapply VR_ext.
    - eapply VR_where0; [eapply VR_test; [vr|]| |right; eexists; eapply (V_map (k1 := KR) (k2 := KR) _ _ (fun _ => NaN)); [eapply VR_self; reflexivity|]; reflexivity].
      { jj. unfold pz; cbn [String.eqb Ascii.eqb Bool.eqb]. unfold xltb, rltb. destruct (Rlt_dec _ _); [lra|reflexivity]. }
      eapply VR_where0; [eapply VR_test; [vr|]|vr|right; eexists; eapply (V_map (k1 := KR) (k2 := KR) _ _ (fun _ => PInf)); [eapply VR_self; reflexivity|]; reflexivity].
      jj. unfold pz; cbn [String.eqb Ascii.eqb Bool.eqb]. unfold xeqb, reqb. destruct (Req_EM_T _ _); [lra|reflexivity].
    - jj. reflexivity. }
  destruct (make_at [] _ _ _ (NP Logarithmic) 1 [] _ _ HE eq_refl V' T eq_refl (fun _ => eq_refl) eq_refl) as (r & E1 & E2 & E3 & E4 & E5 & E6 & E7).
  cbn [pack] in P1. rewrite E1 in P1. injection P1 as ->. apply (at_pt_eq _ _ _ _ _ (point_of (Dist (NP Logarithmic) DefaultMinimizer ps []) [])); [now apply at_pt_self|exact E7].
Qed.
End M4.
Lemma params_at_pt b i q r c n p : inb b i = true -> at_pt b i q c n p -> same_params_at b i q r -> at_pt b i r c n p.
Proof.
  intros Hi A (E1 & _ & W & _ & S & D & V). pose proof A as [C Wq Sq Dq Vq]. split; [congruence|assumption|assumption|congruence|].
  intros m k t j X Hj. destruct (ctx_field _ _ _ _ _ X) as (g & Ig & <- & -> & ->). 
  destruct (leaf_env b q n Sq Dq (fd_name g) _ _ ltac:(rewrite C; exact X)) as (u & U1 & U2). assert (Dr : dims_of r = Ok n) by congruence.
  destruct (leaf_env b r n S Dr (fd_name g) _ _ ltac:(rewrite <- E1, C; exact X)) as (w & W1 & W2).
  assert (Hj' : inb (skipn (length b) (ashape (pack (kind_of (fd_support g)) u))) j = true). { rewrite ashape_pack, U2, skipn_app, skipn_all, Nat.sub_diag. exact Hj. }
  specialize (V g _ _ j ltac:(now rewrite C) U1 W1 Hj'). specialize (Vq _ _ _ j X Hj). unfold vals_of in *. rewrite U1, get_pack in Vq. rewrite W1, get_pack. rewrite <- Vq. clear -V.
  destruct (kind_of (fd_support g)); cbn [pack entry_c] in V; [|symmetry; exact V]. unfold cofr in V. injection V as V. symmetry. exact V.
Qed.
Section M5.
Variable solve : minimizer -> dist -> nat -> xr.
Notation L := (fam_methods solve).
Lemma t_to_nat f e : proper_e [] [] f e -> (forall n, f = Dirichlet -> dims_of e = Ok n -> (2 <= n)%nat) ->
  dist_vals true [] (snd (searched f e)) -> root_found solve (fst (searched f e)) (snd (searched f e)) ->
  exists q e', to_nat L e = Ok q /\ proper [] [] f q /\ to_exp L q = Ok e' /\ same_params_at [] [] e e'.
Proof.
  intros P Hd V R. pose proof P as (C & W & S & Hi & Dom). rewrite (api_nat_leaf L e f C). cbn [l_to_nat fam_methods].
  assert (Cs : f = Chi \/ searched f e = (f, e)) by (destruct f; auto). destruct Cs as [->|Cs].
  - cbn [searched fst snd] in V, R. set (e0 := Dist (EP ChiSquare) DefaultMinimizer (dparams e) []) in *.
    destruct (exp_dom_at [] [] e Chi Hi C W S Dom) as (n & A & _). assert (n = 1%nat) by (apply (dims_none _ _ (ap_dims _ _ _ _ _ _ A)); now rewrite C). subst n.
    assert (J : is_joint (dcls e) = false) by now rewrite C. destruct (leaf_inv e W J) as [Q N]. rewrite C in Q, N.
    destruct (leaf_env _ _ _ S (ap_dims _ _ _ _ _ _ A) "mean_log" KR [] ltac:(rewrite C; reflexivity)) as (u & U1 & U2).
    cbn [fields map fd_name var] in N. destruct (names_inv1 _ _ N) as (v & Ev). rewrite Ev in U1. cbn in U1. injection U1 as ->. cbn [pack] in Ev.
    assert (PH : params_hold [] (dparams e) (ctx_of (EP ChiSquare) 1)). { rewrite Ev. repeat constructor. cbn. exists u. split; [reflexivity|exact U2]. }
    destruct (ctx_shaped [] (EP ChiSquare) DefaultMinimizer _ 1 PH (fun _ => eq_refl) eq_refl) as [D3 S3]. fold e0 in D3, S3.
    assert (A0 : at_pt [] [] e0 (EP ChiSquare) 1 (point_of e [])). { split; [reflexivity|now apply wf_leaf|exact S3|exact D3|]. exact (ap_vals _ _ _ _ _ _ A). }
    assert (P0 : proper_e [] [] ChiSquare e0). { split; [reflexivity|]. split; [now apply wf_leaf|]. split; [exact S3|]. split; [reflexivity|]. apply (at_pt_exp_dom [] [] e0 ChiSquare 1 (point_of e []) eq_refl A0 Logic.I). }
    destruct (e2n_root solve ChiSquare e0 P0 V ltac:(discriminate) R) as (q0 & e0' & Q1 & (Cq & Wq & Sq & _ & Dq) & Q3 & Q4).
    destruct (nat_dom_at [] [] q0 ChiSquare eq_refl Cq Wq Sq Dq) as (n1 & B & HB). assert (n1 = 1%nat) by (apply (dims_none _ _ (ap_dims _ _ _ _ _ _ B)); now rewrite Cq). subst n1.
    rewrite (api_exp_leaf L q0 ChiSquare Cq) in Q3. destruct (exp_at solve [] [] q0 ChiSquare 1 _ eq_refl B HB Logic.I) as (x & X1 & X2). rewrite X1 in Q3. injection Q3 as ->.
    pose proof (params_at_pt [] [] e0 e0' _ _ _ eq_refl A0 Q4) as A0'.
    assert (PE : pt_eq (EP ChiSquare) 1 (point_of e []) (expR 1 (point_of q0 []) ChiSquare)) by (apply (pt_trans _ _ _ (point_of e0' [])); [exact (at_pt_pt [] [] _ _ _ _ eq_refl A0')|apply pt_sym; exact (at_pt_pt [] [] _ _ _ _ eq_refl X2)]).
    assert (Jq : is_joint (dcls q0) = false) by now rewrite Cq. destruct (leaf_inv q0 Wq Jq) as [Qq Nq]. rewrite Cq in Nq, Qq. cbn in Nq. destruct (names_inv1 _ _ Nq) as (k & Ek).
    set (q := Dist (NP Chi) DefaultMinimizer [("k_over_two_minus_one", k)] []).
    assert (T : fam_to_nat solve e = Ok q). { unfold fam_to_nat. rewrite C. cbn [nat_args]. unfold attr. rewrite Ev. cbn [dget opt_err bind]. change (keq "mean_log" "mean_log") with (@left ("mean_log" = "mean_log") ("mean_log" <> "mean_log") eq_refl). cbn [opt_err bind].
      rewrite <- Ev. fold e0. rewrite Q1. cbn [bind]. rewrite Ek. cbn. reflexivity. }
    destruct (leaf_env _ _ _ Sq (ap_dims _ _ _ _ _ _ B) "k_over_two_minus_one" KR [] ltac:(rewrite Cq; reflexivity)) as (w & W1 & W2). rewrite Ek in W1. cbn in W1. injection W1 as ->. cbn [pack] in *.
    assert (PH' : params_hold [] [("k_over_two_minus_one", RA w)] (ctx_of (NP Chi) 1)). { repeat constructor. cbn. exists w. split; [reflexivity|exact W2]. }
    destruct (ctx_shaped [] (NP Chi) DefaultMinimizer _ 1 PH' (fun _ => eq_refl) eq_refl) as [D4 S4]. fold q in D4, S4.
    assert (B' : at_pt [] [] q (NP Chi) 1 (point_of q0 [])). { split; [reflexivity|reflexivity|exact S4|exact D4|]. pose proof (ap_vals _ _ _ _ _ _ B) as Z. rewrite Ek in Z. exact Z. }
    destruct (exp_at solve [] [] q Chi 1 _ eq_refl B' HB Logic.I) as (e' & E1 & E2).
    exists q, e'. split; [exact T|]. split; [|split].
    + split; [reflexivity|]. split; [reflexivity|]. split; [exact S4|]. split; [reflexivity|]. exact (at_pt_nat_dom [] [] q Chi 1 _ eq_refl B' HB).
    + exact E1.
    + apply (at_pt_params [] [] e e' (EP Chi) 1 (point_of e [])); [exact A|]. apply (at_pt_eq _ _ _ _ _ _ _ E2). apply pt_sym. exact PE.
  - rewrite Cs in V, R. cbn [fst snd] in V, R. destruct (e2n_root solve f e P V Hd R) as (q & e' & Q1 & Q2 & Q3 & Q4). exists q, e'. split; [|auto]. destruct R as (n & k & g & D & K & _).
    destruct f; try discriminate K; try (unfold fam_to_nat; rewrite C; exact Q1). exact (log_to_nat solve e q P Q1 Q2).
Qed.
End M5.
