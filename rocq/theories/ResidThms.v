(** C54: a point where search_gradient is small gives natural parameters whose expectation parameters are as close. *)
From Coquelicot Require Import Coquelicot.
From Coq Require Import String List Bool Arith Reals Lia Lra.
From Verif Require Import Base XReal Tensor TensorFacts TensorFacts2 Support PlaneFacts Dist DictFacts Iteration Structure Spec StructFacts AssembleFacts SumSpec DotSpec FlattenSpec Tools
  ToolThms Joint StructThms MapFacts SpecFun GammaFn BesselFn Expr Fam ExprFacts FamTy FamFacts SearchFacts DotFacts DotLaws BatchFacts PointSpec PointFacts Val FamR FamVal ConvFacts LeafVal VarSpec DensSpec FlattenThms Var VarThms RootSpec RootVal RootThms ResidSpec.
Import ListNotations.
Local Unset Asymmetric Patterns.
Local Open Scope string_scope.
Local Open Scope R_scope.

(** the entries of two points of expectation parameters of a family that searches differ by at most eps *)
Definition near_pt (f : family) (n : nat) (eps : R) (p p' : point) : Prop :=
  forall g j, In g (fields (EP f)) -> inb (supp_shape (fd_support g) n) j = true -> Rabs (p' false (fd_name g) j - p false (fd_name g) j) <= eps.
Lemma real_fields f g : e2n f = true -> In g (fields (EP f)) -> kind_of (fd_support g) = KR.
Proof. destruct f; try discriminate; intros _ I; cbn in I; intuition subst; reflexivity. Qed.
Lemma near_params b i e e' f n eps p p' : e2n f = true -> at_pt b i e (EP f) n p -> at_pt b i e' (EP f) n p' -> near_pt f n eps p p' -> near_params_at b i eps e e'.
Proof.
  intros E A B H. pose proof A as [C W S D V]. pose proof B as [C' W' S' D' V']. split; [congruence|]. do 4 (split; [assumption|]). split; [congruence|].
  intros g v w j I E1 E2 Hj. rewrite C in I. assert (Hj' : inb (supp_shape (fd_support g) n) j = true).
  { rewrite (leaf_fields b e n g v S D) in Hj by (congruence || assumption). now rewrite skipn_app, skipn_all, Nat.sub_diag in Hj. }
  rewrite (entry_eq b i e (EP f) n p g v j A I E1 Hj'), (entry_eq b i e' (EP f) n p' g w j B I E2 Hj'), (real_fields f g E I). exists (p false (fd_name g) j), (p' false (fd_name g) j). split; [reflexivity|]. split; [reflexivity|]. now apply H.
Qed.
Lemma resid_get b i g eps m k : shp g = (b ++ [m])%list -> residual_at b i eps g -> (k < m)%nat -> exists r, tget g (i ++ [k])%list = Fin r /\ Rabs r <= eps.
Proof. intros S Z K. apply Z. rewrite S, skipn_app, skipn_all, Nat.sub_diag. cbn [app]. now apply (inb_snoc_intro [] m [] k). Qed.
Lemma xsub_fin a v r : xsub a (Fin v) = Fin r -> a = Fin (v + r).
Proof. destruct a; cbn; try discriminate. intros H. injection H as H. f_equal. lra. Qed.

Section M.
Variable solve : minimizer -> dist -> nat -> xr.
Notation L := (fam_methods solve).
Lemma default_resid eps b i e f n p sp s g : inb b i = true -> default_search f = true -> at_pt b i e (EP f) n p -> exp_dom f n p -> shp sp = (b ++ [search_dim f n])%list ->
  (forall k, (k < search_dim f n)%nat -> tget sp (i ++ [k])%list = Fin (s k)) -> search_gradient e f sp = Ok g -> residual_at b i eps g ->
  exists q e' p', search_to_natural e f sp = Ok q /\ at_pt b i q (NP f) n (snR n p s f) /\ l_to_exp L q = Ok e' /\ at_pt b i e' (EP f) n p' /\ near_pt f n eps p p'.
Proof.
  intros Hi E A H Sp Sv G Z. assert (E2 : e2n f = true) by (destruct f; auto; discriminate).
  destruct (s2n_at b i e f n p sp s Hi E2 A H Sp Sv) as (q & Q1 & Q2). pose proof Q2 as [C W S D V].
  destruct (exp_builds solve b q f n C W S D) as (ps & B1 & B2 & B3 & B4 & _). 
  exists q, (Dist (EP f) DefaultMinimizer ps []), (point_of (Dist (EP f) DefaultMinimizer ps []) i). do 3 (split; [assumption|]). unfold search_gradient in G. replace (search_gradient_e f) with (@None (aexp KR)) in G by (destruct f; try discriminate E; reflexivity).
  rewrite Q1 in G. cbn [bind] in G. change (fam_to_exp q) with (l_to_exp L q) in G. rewrite B1 in G. cbn [bind] in G.
  destruct (leaf_inv (Dist (EP f) DefaultMinimizer ps []) B2 eq_refl) as [_ N']. cbn [dcls dparams] in N'. destruct (flat_raw f b _ ps n E N' B3 B4) as (F' & u' & U1 & U2 & U3).
  pose proof A as [Ce We Se De Ve]. assert (J : is_joint (dcls e) = false) by now rewrite Ce. destruct (leaf_inv e We J) as [Qe Ne]. rewrite Ce in Qe, Ne. rewrite Qe in Se, De.
  destruct (flat_raw f b _ _ n E Ne Se De) as (F & u & W1 & W2 & W3). rewrite <- Qe in W1. rewrite W1, U1 in G. cbn [bind] in G. rewrite tmap2_same in G by congruence. injection G as <-.
  assert (K : forall g j, In g (fields (EP f)) -> inb (supp_shape (fd_support g) n) j = true -> exists t' r, dget ps (fd_name g) = Some (RA t') /\ tget t' (i ++ j)%list = Fin (p false (fd_name g) j + r) /\ Rabs r <= eps).
  { intros g j Ig Hj. pose proof (fields_in_ctx _ n g Ig) as X. destruct (W3 g Ig) as (t & T1 & T2). destruct (U3 g Ig) as (t' & T1' & T2'). destruct (T2 i j Hi Hj) as [K K2]. destruct (T2' i j Hi Hj) as [_ K2'].
    pose proof (real_fields f g E2 Ig) as Kr. specialize (Ve _ _ _ j X Hj). unfold vals_of in Ve. rewrite T1, Kr in Ve. change (tget t (i ++ j)%list = Fin (p false (fd_name g) j)) in Ve.
    destruct (fun SS => resid_get b i _ eps (search_dim f n) _ SS Z K) as (r & Zk & Zr); [exact U2|]. rewrite tget_tbuild in Zk by (rewrite U2; now apply inb_snoc_intro).
    change (xsub (tget u' (i ++ [fpos n (fd_name g) j])%list) (tget u (i ++ [fpos n (fd_name g) j])%list) = Fin r) in Zk. rewrite K2, K2', Ve in Zk. exists t', r. split; [exact T1'|]. split; [exact (xsub_fin _ _ _ Zk)|exact Zr]. }
  split.
  - split; [reflexivity|assumption..|]. intros nm k t j X Hj. destruct (ctx_field _ _ _ _ _ X) as (g & Ig & <- & -> & ->). destruct (K g j Ig Hj) as (t' & r & T1 & T2 & _).
    assert (Pe : point_of (Dist (EP f) DefaultMinimizer ps []) i false (fd_name g) j = p false (fd_name g) j + r) by (unfold point_of; cbn [dparams]; rewrite T1; cbn [comp entry_c cofr xre]; rewrite T2; reflexivity).
    unfold vals_of. cbn [dparams]. rewrite T1, (real_fields f g E2 Ig). cbn [pvals]. rewrite Pe. exact T2.
  - intros g j Ig Hj. destruct (K g j Ig Hj) as (t' & r & T1 & T2 & T3). unfold point_of. cbn [dparams]. rewrite T1. cbn [comp entry_c cofr xre]. rewrite T2. cbn [toR]. replace (_ - _) with r by ring. exact T3.
Qed.
Lemma gamma_resid eps b i e n p sp s g : inb b i = true -> at_pt b i e (EP Gamma) n p -> exp_dom Gamma n p -> shp sp = (b ++ [1%nat])%list ->
  tget sp (i ++ [0%nat])%list = Fin (s 0%nat) -> search_gradient e Gamma sp = Ok g -> residual_at b i eps g ->
  exists q e' p', search_to_natural e Gamma sp = Ok q /\ at_pt b i q (NP Gamma) n (snR n p s Gamma) /\ l_to_exp L q = Ok e' /\ at_pt b i e' (EP Gamma) n p' /\ near_pt Gamma n eps p p'.
Proof.
  intros Hi A H Sp Sv G Z. assert (Sv' : forall k, (k < 1)%nat -> tget sp (i ++ [k])%list = Fin (s k)) by (intros k K; replace k with 0%nat by lia; exact Sv).
  destruct (s2n_at b i e Gamma n p sp s Hi eq_refl A H Sp Sv') as (q & Q1 & Q2).
  assert (Hn : nat_dom Gamma n (snR n p s Gamma)) by (apply search_dom; auto).
  destruct (exp_at solve b i q Gamma n _ Hi Q2 Hn Logic.I) as (e' & E1 & E2). exists q, e', (expR n (snR n p s Gamma) Gamma). do 4 (split; [assumption|]).
  destruct (search_env b i e (EP Gamma) n p sp s 1 A Sp Sv') as [HE HV].
  unfold search_gradient in G. cbn [search_gradient_e] in G. pose proof (sps_pos (s 0%nat)) as P. cbn [exp_dom] in H. destruct H as [H1 H2].
  set (e0 := ENewaxis _) in G. assert (T : VR (("search", (KR, [1%nat])) :: ctx_of (EP Gamma) n) (ps p s) e0 (Ev [1%nat]) (fun _ => ln (p false "mean" []) - p false "mean_log" [] - ln (sps (s 0%nat)) + digamma (sps (s 0%nat)))).
  { unfold e0. change [1%nat] with ([] ++ [1%nat])%list. eapply VR_ext.
    { apply VR_newaxis. eapply VR_add; [eapply VR_sub; [eapply VR_sub; [vr|vr|alt_]|eapply VR_log; [eapply VR_softplus; eapply VR_at; [vr|lia]|]|alt_]|eapply VR_digamma; [eapply VR_softplus; eapply VR_at; [vr|lia]|]|alt_]; jj; pss; try exact P; lra. }
    intros j Hj. destruct (inb1 _ _ Hj) as (k & -> & Hk). pss. reflexivity. }
  destruct (eval_at b _ _ i _ e0 [1%nat] _ HE Hi HV T) as (t & T1 & T2 & T3). rewrite T1 in G. injection G as ->.
  destruct (resid_get b i g eps 1 0 T2 Z Nat.lt_0_1) as (r & Z0 & Zr). specialize (T3 [0%nat] eq_refl). assert (Z1 := eq_trans (eq_sym T3) Z0). injection Z1 as Z1.
  intros g0 j Ig Hj. cbn in Ig. destruct Ig as [<-|[<-|[]]]; cbn [fd_support fd_name var supp_shape] in *; apply inb0 in Hj; subst j; mk; unfold snR; mk.
  - replace (_ - _) with 0 by (field; lra). rewrite Rabs_R0. apply (Rle_trans _ (Rabs r)); [apply Rabs_pos|exact Zr].
  - rewrite Ropp_involutive. replace (sps (s 0%nat) - 1 + 1) with (sps (s 0%nat)) by ring. rewrite ln_div by assumption. replace (_ - _) with r by lra. exact Zr.
Qed.
Lemma vmf_resid eps e n p sp s g : at_pt [] [] e (EP VonMisesFisher) n p -> exp_dom VonMisesFisher n p -> shp sp = [1%nat] ->
  tget sp [0%nat] = Fin (s 0%nat) -> search_gradient e VonMisesFisher sp = Ok g -> residual_at [] [] eps g ->
  exists q e' p', search_to_natural e VonMisesFisher sp = Ok q /\ at_pt [] [] q (NP VonMisesFisher) n (snR n p s VonMisesFisher) /\ l_to_exp L q = Ok e' /\ at_pt [] [] e' (EP VonMisesFisher) n p' /\ near_pt VonMisesFisher n eps p p'.
Proof.
  intros A H Sp Sv G Z. assert (Sv' : forall k, (k < 1)%nat -> tget sp ([] ++ [k])%list = Fin (s k)) by (intros k K; replace k with 0%nat by lia; exact Sv).
  destruct (s2n_at [] [] e VonMisesFisher n p sp s eq_refl eq_refl A H Sp Sv') as (q & Q1 & Q2).
  assert (Hn : nat_dom VonMisesFisher n (snR n p s VonMisesFisher)) by (apply search_dom; auto).
  destruct (exp_at solve [] [] q VonMisesFisher n _ eq_refl Q2 Hn Logic.I) as (e' & E1 & E2). exists q, e', (expR n (snR n p s VonMisesFisher) VonMisesFisher). do 4 (split; [assumption|]).
  destruct (search_env [] [] e (EP VonMisesFisher) n p sp s 1 A Sp Sv') as [HE HV].
  unfold search_gradient in G. cbn [search_gradient_e] in G. pose proof (sps_pos (s 0%nat)) as P. cbn [exp_dom] in H. destruct H as [H1 H2].
  set (N2 := sumR n (fun k => p false "mean" [k] * p false "mean" [k])) in *.
  assert (T : VR (("search", (KR, [1%nat])) :: ctx_of (EP VonMisesFisher) n) (ps p s) (r2 xiv_ratio (emul (EDim "mean") (ENum (1/2))) (softplus (self "search"))) (Ev [1%nat])
    (fun _ => bessel_i (INR n * (1 / 2)) (sps (s 0%nat)) / bessel_i (INR n * (1 / 2) - 1) (sps (s 0%nat)))).
  { eapply VR_ext; [eapply VR_iv_ratio; [vr|vr|alt_|]|]; jj; pss; replace k with 0%nat by lia; [exact P|reflexivity]. }
  assert (T' : VR (("search", (KR, [1%nat])) :: ctx_of (EP VonMisesFisher) n) (ps p s) (jnorm (self "mean")) (Ev []) (fun _ => sqrt N2)).
  { vx. jj. pss. reflexivity. }
  destruct (eval_at [] _ _ [] _ _ [1%nat] _ HE eq_refl HV T) as (t & T1 & T2 & T3). destruct (eval_at [] _ _ [] _ _ [] _ HE eq_refl HV T') as (t' & T1' & T2' & T3').
  assert (G' : (let* t := eval (("search", RA sp) :: dparams e) (r2 xiv_ratio (emul (EDim "mean") (ENum (1/2))) (softplus (self "search"))) in
                let* u := eval (("search", RA sp) :: dparams e) (jnorm (self "mean")) in tmap2 xsub t u) = Ok g) by exact G. clear G.
  rewrite T1, T1' in G'. cbn [bind] in G'. destruct (sub_1_0 t t' g T2 T2' G') as [G1 G2].
  destruct (resid_get [] [] _ eps 1 0 G1 Z Nat.lt_0_1) as (r & Z0 & Zr). cbn [app] in Z0. specialize (T3 [0%nat] eq_refl). specialize (T3' [] eq_refl). cbn [app] in T3, T3'.
  assert (Z1 := eq_trans (eq_sym G2) Z0). clear G2 Z0. change (@tget xr Dflt_xr t [0%nat]) with (@tget (elt KR) (Dflt_elt KR) t [0%nat]) in Z1. change (@tget xr Dflt_xr t' []) with (@tget (elt KR) (Dflt_elt KR) t' []) in Z1.
  rewrite T3, T3' in Z1. apply xsub_fin in Z1. injection Z1 as Z1.
  assert (S0 : 0 < sqrt N2) by now apply sqrt_lt_R0. assert (SS : sqrt N2 * sqrt N2 = N2) by (apply sqrt_sqrt; lra).
  intros g0 j Ig Hj. cbn in Ig. destruct Ig as [<-|[]]. cbn [fd_support fd_name var supp_shape] in *. destruct (inb1 _ _ Hj) as (k & -> & Hk). unfold snR. unfold expR, norm2. mk. fold N2.
  replace (sumR n (fun k0 => p false "mean" [k0] * (sps (s 0%nat) / sqrt N2) * (p false "mean" [k0] * (sps (s 0%nat) / sqrt N2)))) with (Rsqr (sps (s 0%nat))).
  2: { transitivity (sumR n (fun k0 => Rsqr (sps (s 0%nat) / sqrt N2) * (p false "mean" [k0] * p false "mean" [k0]))).
       - rewrite sumR_scal. fold N2. unfold Rsqr. rewrite <- SS at 3. field. lra.
       - apply sumR_ext. intros m Hm. unfold Rsqr. ring. }
  rewrite sqrt_Rsqr by lra. rewrite Z1. replace (_ - _) with (r * (p false "mean" [k] / sqrt N2)) by (field; lra). rewrite Rabs_mult.
  assert (Hp : Rabs (p false "mean" [k] / sqrt N2) <= 1).
  { unfold Rdiv. rewrite Rabs_mult, (Rabs_pos_eq (/ sqrt N2)) by (left; now apply Rinv_0_lt_compat). apply (Rmult_le_reg_r (sqrt N2)); [exact S0|]. rewrite Rmult_assoc, Rinv_l, Rmult_1_r, Rmult_1_l by lra.
    rewrite <- sqrt_Rsqr_abs. apply sqrt_le_1; [apply Rle_0_sqr|lra|]. exact (sumR_term n (fun k => p false "mean" [k] * p false "mean" [k]) k (fun m _ => Rle_0_sqr _) Hk). }
  pose proof (Rabs_pos r). nra.
Qed.
End M.
Section M3.
Variable solve : minimizer -> dist -> nat -> xr.
Notation L := (fam_methods solve).
Lemma resid_at eps b i e f n p sp s g m : inb b i = true -> at_pt b i e (EP f) n p -> exp_dom f n p -> search_count f n = Some m -> match f with VonMisesFisher => b = [] | _ => True end ->
  shp sp = (b ++ [m])%list -> (forall k, (k < m)%nat -> tget sp (i ++ [k])%list = Fin (s k)) -> search_gradient e f sp = Ok g -> residual_at b i eps g ->
  exists q e' p', search_to_natural e f sp = Ok q /\ at_pt b i q (NP f) n (snR n p s f) /\ l_to_exp L q = Ok e' /\ at_pt b i e' (EP f) n p' /\ near_pt f n eps p p'.
Proof.
  intros Hi A H M Vb Sp Sv G Z. destruct (leaf_dims _ _ (ap_shaped _ _ _ _ _ _ A)) as (n' & D' & K). rewrite (ap_dims _ _ _ _ _ _ A) in D'. injection D' as <-. rewrite (ap_cls _ _ _ _ _ _ A) in K.
  destruct (count_dim f n m M K) as [E ->]. destruct (default_search f) eqn:Ed; [now apply (default_resid solve eps b i e f n p sp s g)|].
  destruct f; try discriminate E; try discriminate Ed.
  - apply (gamma_resid solve eps b i e n p sp s g); auto; exact (Sv 0%nat Nat.lt_0_1).
  - subst b. destruct i; [|discriminate]. apply (vmf_resid solve eps e n p sp s g); auto; exact (Sv 0%nat Nat.lt_0_1).
Qed.
Lemma t_resid eps b i f e n m sp g : proper_e b i f e -> dims_of e = Ok n -> search_count f n = Some m -> (f = Dirichlet -> (2 <= n)%nat) -> (f = VonMisesFisher -> b = []) ->
  finite_search b i m sp -> search_gradient e f sp = Ok g -> residual_at b i eps g ->
  exists q e', search_to_natural e f sp = Ok q /\ proper b i f q /\ to_exp L q = Ok e' /\ near_params_at b i eps e e'.
Proof.
  intros (C & W & S & Hi & Dom) D M Hd Hv [Sp Sf] G Z. destruct (exp_dom_at b i e f Hi C W S Dom) as (n' & A & H). assert (n' = n) by (rewrite (ap_dims _ _ _ _ _ _ A) in D; congruence). subst n'.
  assert (Sv : forall k, (k < m)%nat -> tget sp (i ++ [k])%list = Fin ((fun k => toR (tget sp (i ++ [k])%list)) k)) by (intros k K; destruct (Sf k K) as (v & ->); reflexivity).
  destruct (resid_at eps b i e f n (point_of e i) sp (fun k => toR (tget sp (i ++ [k])%list)) g m Hi A H M) as (q & e' & p' & Q1 & Q2 & Q3 & Q4 & Q5); auto. { destruct f; auto. }
  destruct (leaf_dims _ _ S) as (n' & D' & K). assert (n' = n) by congruence. subst n'. rewrite C in K. destruct (count_dim f n m M K) as [E ->].
  exists q, e'. split; [exact Q1|]. split; [|split].
  - pose proof Q2 as [C' W' S' D2 V']. repeat (split; [assumption|]). apply (at_pt_nat_dom b i q f n _ Hi Q2). apply search_dom; auto. destruct f; auto.
  - rewrite (api_exp_leaf _ _ f); [exact Q3|exact (ap_cls _ _ _ _ _ _ Q2)].
  - now apply (near_params b i e e' f n eps (point_of e i) p').
Qed.
Lemma e2n_resid eps f e : proper_e [] [] f e -> dist_vals true [] e -> (forall n, f = Dirichlet -> dims_of e = Ok n -> (2 <= n)%nat) -> residual_found solve eps f e ->
  exists q e', exp_to_nat solve e f = Ok q /\ proper [] [] f q /\ to_exp L q = Ok e' /\ near_params_at [] [] eps e e'.
Proof.
  intros P V Hd (n & k & g & D & K & Fs & G & Z). pose proof P as (C & W & S & Hi & Dom). destruct (leaf_dims _ _ S) as (n' & D' & Kn). assert (n' = n) by congruence. subst n'. rewrite C in Kn.
  destruct (count_dim f n k K Kn) as [E ->]. rewrite (leaf_default e f C W) in *. set (sp := solution _ _ _ _) in *. pose proof (proper_e_min DefaultMinimizer [] [] f e P) as P'.
  assert (D2 : dims_of (Dist (EP f) DefaultMinimizer (dparams e) []) = Ok n) by (rewrite <- D; assert (J : is_joint (dcls e) = false) by (now rewrite C); destruct (leaf_inv e W J) as [Q _]; rewrite C in Q; rewrite Q at 2; reflexivity).
  destruct (t_resid eps [] [] f _ n _ sp g P' D2 K ltac:(intros E0; exact (Hd n E0 D)) (fun _ => eq_refl) Fs G Z) as (q & e' & Q1 & Q2 & Q3 & Q4).
  exists q, e'. unfold exp_to_nat. rewrite (params_solution solve f e n E C W S D V). cbn [bind]. rewrite (leaf_default e f C W). fold sp. rewrite (s2n_min f DefaultMinimizer e sp C W E n D (proj1 Fs)) in Q1.
  split; [exact Q1|]. split; [exact Q2|]. split; [exact Q3|]. destruct Q4 as (X1 & X2 & X3 & X4 & X5 & X6 & X7). cbn [dcls dparams] in *.
  split; [congruence|]. split; [exact W|]. split; [exact X3|]. split; [exact S|]. split; [exact X5|]. split; [rewrite <- X6; congruence|]. rewrite C. exact X7.
Qed.
Lemma t_to_nat_resid eps f e : proper_e [] [] f e -> (forall n, f = Dirichlet -> dims_of e = Ok n -> (2 <= n)%nat) ->
  dist_vals true [] (snd (searched f e)) -> residual_found solve eps (fst (searched f e)) (snd (searched f e)) ->
  exists q e', to_nat L e = Ok q /\ proper [] [] f q /\ to_exp L q = Ok e' /\ near_params_at [] [] eps e e'.
Proof.
  intros P Hd V R. pose proof P as (C & W & S & Hi & Dom). rewrite (api_nat_leaf L e f C). cbn [l_to_nat fam_methods].
  assert (Cs : f = Chi \/ searched f e = (f, e)) by (destruct f; auto). destruct Cs as [->|Cs].
  - cbn [searched fst snd] in V, R. set (e0 := Dist (EP ChiSquare) DefaultMinimizer (dparams e) []) in *.
    destruct (exp_dom_at [] [] e Chi Hi C W S Dom) as (n & A & _). assert (n = 1%nat) by (apply (dims_none _ _ (ap_dims _ _ _ _ _ _ A)); now rewrite C). subst n.
    assert (J : is_joint (dcls e) = false) by now rewrite C. destruct (leaf_inv e W J) as [Q N]. rewrite C in Q, N.
    destruct (leaf_env _ _ _ S (ap_dims _ _ _ _ _ _ A) "mean_log" KR [] ltac:(rewrite C; reflexivity)) as (u & U1 & U2).
    cbn [fields map fd_name var] in N. destruct (names_inv1 _ _ N) as (v & Ev). rewrite Ev in U1. cbn in U1. injection U1 as ->. cbn [pack] in Ev.
    assert (PH : params_hold [] (dparams e) (ctx_of (EP ChiSquare) 1)). { rewrite Ev. repeat constructor. cbn. exists u. split; [reflexivity|exact U2]. }
    destruct (ctx_shaped [] (EP ChiSquare) DefaultMinimizer _ 1 PH (fun _ => eq_refl) eq_refl) as [D3 S3]. fold e0 in D3, S3.
    assert (A0 : at_pt [] [] e0 (EP ChiSquare) 1 (point_of e [])). { split; [reflexivity|now apply wf_leaf|exact S3|exact D3|]. exact (ap_vals _ _ _ _ _ _ A). }
    assert (P0 : proper_e [] [] ChiSquare e0). { split; [reflexivity|]. split; [now apply wf_leaf|]. split; [exact S3|]. split; [reflexivity|]. apply (at_pt_exp_dom [] [] e0 ChiSquare 1 (point_of e []) eq_refl A0 Logic.I). }
    destruct (e2n_resid eps ChiSquare e0 P0 V ltac:(discriminate) R) as (q0 & e0' & Q1 & (Cq & Wq & Sq & _ & Dq) & Q3 & Q4).
    destruct (nat_dom_at [] [] q0 ChiSquare eq_refl Cq Wq Sq Dq) as (n1 & B & HB). assert (n1 = 1%nat) by (apply (dims_none _ _ (ap_dims _ _ _ _ _ _ B)); now rewrite Cq). subst n1.
    rewrite (api_exp_leaf L q0 ChiSquare Cq) in Q3. destruct (exp_at solve [] [] q0 ChiSquare 1 _ eq_refl B HB Logic.I) as (x & X1 & X2). rewrite X1 in Q3. injection Q3 as ->.
    assert (NE : Rabs (expR 1 (point_of q0 []) ChiSquare false "mean_log" [] - point_of e [] false "mean_log" []) <= eps).
    { destruct Q4 as (_ & _ & _ & _ & _ & _ & X7). destruct (leaf_env _ _ _ (ap_shaped _ _ _ _ _ _ X2) (ap_dims _ _ _ _ _ _ X2) "mean_log" KR [] ltac:(rewrite (ap_cls _ _ _ _ _ _ X2); reflexivity)) as (y & Y1 & Y2). cbn [pack] in Y1.
      assert (F0 : dget (dparams e0) "mean_log" = Some (RA u)) by (cbn [e0 dparams]; rewrite Ev; reflexivity).
      destruct (X7 (var "mean_log" (ScalarS real_field)) (RA u) (RA y) [] (or_introl eq_refl) F0 Y1) as (x1 & x2 & K1 & K2 & K3). { assert (U3 : @shp xr u = []) by exact U2. cbn [ashape]. rewrite U3. reflexivity. }
      pose proof (ap_vals _ _ _ _ _ _ X2 "mean_log" KR [] [] eq_refl eq_refl) as Z2. unfold vals_of in Z2. rewrite Y1 in Z2. pose proof (ap_vals _ _ _ _ _ _ A0 "mean_log" KR [] [] eq_refl eq_refl) as Z1. unfold vals_of in Z1. rewrite F0 in Z1.
      cbn [pvals] in Z1, Z2. change (@tget xr Dflt_xr u [] = Fin (point_of e [] false "mean_log" [])) in Z1. change (@tget xr Dflt_xr y [] = Fin (expR 1 (point_of q0 []) ChiSquare false "mean_log" [])) in Z2.
      change (XC (@tget xr Dflt_xr u []) (Fin 0) = XC (Fin x1) (Fin 0)) in K1. change (XC (@tget xr Dflt_xr y []) (Fin 0) = XC (Fin x2) (Fin 0)) in K2. rewrite Z1 in K1. rewrite Z2 in K2. injection K1 as <-. injection K2 as <-. exact K3. }
    assert (Jq : is_joint (dcls q0) = false) by now rewrite Cq. destruct (leaf_inv q0 Wq Jq) as [Qq Nq]. rewrite Cq in Nq, Qq. cbn in Nq. destruct (names_inv1 _ _ Nq) as (k & Ek).
    set (q := Dist (NP Chi) DefaultMinimizer [("k_over_two_minus_one", k)] []).
    assert (T : fam_to_nat solve e = Ok q). { unfold fam_to_nat. rewrite C. cbn [nat_args]. unfold attr. rewrite Ev. cbn [dget opt_err bind]. change (keq "mean_log" "mean_log") with (@left ("mean_log" = "mean_log") ("mean_log" <> "mean_log") eq_refl). cbn [opt_err bind].
      rewrite <- Ev. fold e0. rewrite Q1. cbn [bind]. rewrite Ek. cbn. reflexivity. }
    destruct (leaf_env _ _ _ Sq (ap_dims _ _ _ _ _ _ B) "k_over_two_minus_one" KR [] ltac:(rewrite Cq; reflexivity)) as (w & W1 & W2). rewrite Ek in W1. cbn in W1. injection W1 as ->. cbn [pack] in *.
    assert (PH' : params_hold [] [("k_over_two_minus_one", RA w)] (ctx_of (NP Chi) 1)). { repeat constructor. cbn. exists w. split; [reflexivity|exact W2]. }
    destruct (ctx_shaped [] (NP Chi) DefaultMinimizer _ 1 PH' (fun _ => eq_refl) eq_refl) as [D4 S4]. fold q in D4, S4.
    assert (B' : at_pt [] [] q (NP Chi) 1 (point_of q0 [])). { split; [reflexivity|reflexivity|exact S4|exact D4|]. pose proof (ap_vals _ _ _ _ _ _ B) as Z. rewrite Ek in Z. exact Z. }
    destruct (exp_at solve [] [] q Chi 1 _ eq_refl B' HB Logic.I) as (e' & E1 & E2).
    exists q, e'. split; [exact T|]. split; [|split].
    + split; [reflexivity|]. split; [reflexivity|]. split; [exact S4|]. split; [reflexivity|]. exact (at_pt_nat_dom [] [] q Chi 1 _ eq_refl B' HB).
    + exact E1.
    + pose proof E2 as [C2 W2' S2 D2 V2]. split; [congruence|]. do 4 (split; [assumption|]). split; [rewrite (ap_dims _ _ _ _ _ _ A), D2; reflexivity|].
      intros g v1 v2 j I G1 G2 Hj. rewrite C in I. cbn in I. destruct I as [<-|[]]. cbn [fd_name var] in G1, G2.
      assert (Hj' : inb [] j = true). { rewrite (leaf_fields [] e 1 (var "mean_log" (ScalarS real_field)) v1 S (ap_dims _ _ _ _ _ _ A) ltac:(rewrite C; now left) G1) in Hj. exact Hj. }
      rewrite (entry_eq [] [] e (EP Chi) 1 _ (var "mean_log" (ScalarS real_field)) v1 j A (or_introl eq_refl) G1 Hj'), (entry_eq [] [] e' (EP Chi) 1 _ (var "mean_log" (ScalarS real_field)) v2 j E2 (or_introl eq_refl) G2 Hj').
      apply inb0 in Hj'. subst j. cbn [fd_support fd_name var kind_of]. eexists _, _. split; [reflexivity|]. split; [reflexivity|]. exact NE.
  - rewrite Cs in V, R. cbn [fst snd] in V, R. destruct (e2n_resid eps f e P V Hd R) as (q & e' & Q1 & Q2 & Q3 & Q4). exists q, e'. split; [|auto]. destruct R as (n & k & g & D & K & _).
    destruct f; try discriminate K; try (unfold fam_to_nat; rewrite C; exact Q1). exact (log_to_nat solve e q P Q1 Q2).
Qed.
End M3.
