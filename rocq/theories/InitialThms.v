(** C75: the searches start from a finite point, and the bisection from there. *)
From Coquelicot Require Import Coquelicot.
From Coq Require Import String List Bool Arith Reals Lia Lra.
From Verif Require Import Base XReal Tensor TensorFacts TensorFacts2 Support PlaneFacts Dist DictFacts Iteration Structure Spec StructFacts AssembleFacts SumSpec DotSpec FlattenSpec Tools
  ToolThms Joint StructThms MapFacts SpecFun GammaFn BesselFn Expr Fam ExprFacts FamTy FamFacts SearchFacts DotFacts DotLaws BatchFacts PointSpec PointFacts Val FamR FamVal ConvFacts LeafVal VarSpec DensSpec FlattenThms Var VarThms RootSpec RootVal RootThms ResidSpec ResidThms
  MeanSpec MeanFacts MeanThms Bisect Initial BisectThms.
Import ListNotations.
Local Unset Asymmetric Patterns.
Local Open Scope string_scope.
Local Open Scope R_scope.

(** the closed forms of the two overrides *)
Definition gamma_start (l : R) : R := (3 - l + sqrt ((l - 3) * (l - 3) + 24 * l)) / (12 * l).
Definition vmf_start (n : nat) (mu : R) : R := (mu * INR n - mu * (mu * mu)) / (1 - mu * mu).
Lemma gamma_start_spec l : 0 < l -> 0 < gamma_start l /\ l = (3 * gamma_start l + 1) / (gamma_start l * (6 * gamma_start l + 1)).
Proof.
  intros L. unfold gamma_start. set (w := (l - 3) * (l - 3) + 24 * l). pose proof (Rle_0_sqr (l - 3)) as Q. unfold Rsqr in Q. assert (W : 0 <= w) by (unfold w; lra).
  assert (SS : sqrt w * sqrt w = w) by (now apply sqrt_sqrt). pose proof (sqrt_pos w) as S0. assert (B : l - 3 < sqrt w). { destruct (Rle_or_lt (l - 3) 0) as [H|H]; [apply Rle_lt_trans with 0; [exact H|apply sqrt_lt_R0; unfold w; lra]|]. rewrite <- (sqrt_square (l - 3)) by lra. apply sqrt_lt_1_alt. unfold w. lra. }
  set (x := (3 - l + sqrt w) / (12 * l)). assert (X : 0 < x) by (apply Rdiv_lt_0_compat; lra). split; [exact X|].
  assert (E : 6 * l * (x * x) = (3 - l) * x + 1).
  { assert (E1 : 12 * l * x = 3 - l + sqrt w) by (unfold x; field; lra). assert (E2 : (12 * l * x - (3 - l)) * (12 * l * x - (3 - l)) = w) by (rewrite E1; replace (3 - l + sqrt w - (3 - l)) with (sqrt w) by ring; exact SS). unfold w in E2. nra. }
  apply Rmult_eq_reg_r with (x * (6 * x + 1)); [|nra]. replace ((3 * x + 1) / (x * (6 * x + 1)) * (x * (6 * x + 1))) with (3 * x + 1) by (field; split; lra). lra.
Qed.
Lemma vmf_start_pos n mu : (1 <= n)%nat -> 0 < mu < 1 -> 0 < vmf_start n mu.
Proof. intros N M. apply le_INR in N. cbn in N. assert (0 < 1 - mu * mu) by nra. unfold vmf_start. apply Rdiv_lt_0_compat; [|lra]. nra. Qed.
Lemma VR_sqrt G p e τ r : VR G p e τ r -> (forall j, inb (evs τ) j = true -> 0 <= r j) -> VR G p (jsqrt e) τ (fun j => sqrt (r j)).
Proof. intros. unfold jsqrt. eapply (VR_1 _ _ xsqrt sqrt (fun x => 0 <= x)); eauto. intros x Hx. cbn. destruct (Rle_dec 0 x); [reflexivity|contradiction]. Qed.
Lemma VR_isp G p e τ r : VR G p e τ r -> (forall j, inb (evs τ) j = true -> 0 < r j) -> VR G p (r1 xinv_softplus e) τ (fun j => inv_softplus (r j)).
Proof. intros. eapply (VR_1 _ _ xinv_softplus inv_softplus (fun x => 0 < x)); eauto. intros x Hx. now apply xinv_softplus_Fin. Qed.
Lemma VR_one G p e1 e2 τ1 τ2 τ a1 a2 r1 r2' : VR G p e1 τ1 r1 -> VR G p e2 τ2 r2' -> al τ1 τ2 τ a1 a2 -> (forall j, inb (evs τ) j = true -> r1 (a1 j) <> 1) -> VR G p (r2 inf_at_one e1 e2) τ (fun j => r2' (a2 j)).
Proof.
  intros. eapply VR_ext; [eapply (VR_2 _ _ inf_at_one (fun _ y => y) (fun x _ => x <> 1)); eauto|reflexivity]. intros x y N. unfold inf_at_one, xeqb, reqb. destruct (Req_EM_T x 1); [contradiction|reflexivity].
Qed.
Lemma pt_env b i e c n p : at_pt b i e c n p -> env_ok b (ctx_of c n) (dparams e) /\ vals_eq (ctx_of c n) (vals_of (dparams e) i) (pvals p).
Proof. intros [C W S D V]. split; [|exact V]. rewrite <- C. exact (leaf_env _ _ _ S D). Qed.
Lemma gamma_initial b i e n p : inb b i = true -> at_pt b i e (EP Gamma) n p -> exp_dom Gamma n p ->
  exists t, initial_search_parameters e Gamma = Ok t /\ shp t = (b ++ [1%nat])%list /\ tget t (i ++ [0%nat])%list = Fin (inv_softplus (gamma_start (ln (p false "mean" []) - p false "mean_log" []))).
Proof.
  intros Hi A [H1 H2]. destruct (pt_env _ _ _ _ _ _ A) as [HE HV]. cbv beta in H1, H2. unfold initial_search_parameters. cbn [initial_search_e]. set (l := ln (p false "mean" []) - p false "mean_log" []). assert (L : 0 < l) by (unfold l; lra).
  pose proof (Rle_0_sqr (l - 3)) as Q. unfold Rsqr in Q.
  set (e0 := ENewaxis _). assert (T : VR (ctx_of (EP Gamma) n) p e0 (Ev [1%nat]) (fun _ => inv_softplus (gamma_start l))).
  { unfold e0. change [1%nat] with ([] ++ [1%nat])%list. eapply VR_ext.
    { apply VR_newaxis. apply VR_isp; [eapply VR_div; [eapply VR_add; [vr|eapply VR_sqrt; [vr|]|alt_]|vr|alt_|]|]; jj; fold l; try exact H1; try lra. apply (gamma_start_spec l L). }
    intros j Hj. destruct (inb1 _ _ Hj) as (k & -> & Hk). reflexivity. }
  destruct (eval_at b _ _ i _ e0 [1%nat] _ HE Hi HV T) as (t & T1 & T2 & T3). exists t. split; [exact T1|]. split; [exact T2|]. exact (T3 [0%nat] eq_refl).
Qed.
Lemma vmf_initial b i e n p : inb b i = true -> at_pt b i e (EP VonMisesFisher) n p -> exp_dom VonMisesFisher n p ->
  exists t, initial_search_parameters e VonMisesFisher = Ok t /\ shp t = (b ++ [1%nat])%list /\ tget t (i ++ [0%nat])%list = Fin (inv_softplus (vmf_start n (sqrt (sumR n (fun k => p false "mean" [k] * p false "mean" [k]))))).
Proof.
  intros Hi A H. destruct (pt_env _ _ _ _ _ _ A) as [HE HV]. unfold initial_search_parameters. cbn [initial_search_e]. assert (N : (1 <= n)%nat) by (destruct n; [cbn in H; lra|lia]). cbn [exp_dom] in H. cbv beta zeta in H.
  set (m := sumR n (fun k => p false "mean" [k] * p false "mean" [k])) in *. set (mu := sqrt m). assert (M : 0 < mu < 1). { split; [apply sqrt_lt_R0; lra|]. unfold mu. rewrite <- sqrt_1. apply sqrt_lt_1_alt. lra. }
  set (e0 := ENewaxis _). assert (T : VR (ctx_of (EP VonMisesFisher) n) p e0 (Ev [1%nat]) (fun _ => inv_softplus (vmf_start n mu))).
  { unfold e0. change [1%nat] with ([] ++ [1%nat])%list. eapply VR_ext.
    { apply VR_newaxis. apply VR_isp; [eapply VR_one; [vr|vr|alt_|]|]; jj; fold m mu; try nra; try lra. now apply vmf_start_pos. }
    intros j Hj. destruct (inb1 _ _ Hj) as (k & -> & Hk). reflexivity. }
  destruct (eval_at b _ _ i _ e0 [1%nat] _ HE Hi HV T) as (t & T1 & T2 & T3). exists t. split; [exact T1|]. split; [exact T2|]. exact (T3 [0%nat] eq_refl).
Qed.
Lemma default_initial b i f e n k : initial_search_e f = None -> dcls e = EP f -> well_formed e = true -> leaf_shaped b e = true -> dims_of e = Ok n -> search_count f n = Some k -> dist_vals true b e -> inb b i = true ->
  exists t, initial_search_parameters e f = Ok t /\ shp t = (b ++ [k])%list /\ forall m, (m < k)%nat -> tget t (i ++ [m])%list = Fin 0.
Proof.
  intros F C W S D M V Hi. destruct (leaf_dims _ _ S) as (n' & D' & Kn). assert (n' = n) by congruence. subst n'. rewrite C in Kn. destruct (count_dim f n k M Kn) as [E Ek].
  assert (J : is_joint (dcls e) = false) by now rewrite C. destruct (leaf_inv e W J) as [Q N]. rewrite C in Q, N.
  destruct (flatten_round_trip true b e W V) as (G & t & A1 & A2 & _). unfold initial_search_parameters. rewrite F, A1. cbn [bind].
  assert (Z : flat_size e = k). { rewrite Ek, <- (search_size_eq f (dmin e) (dparams e) n E N) by (rewrite <- ?Q; assumption). rewrite <- Q. destruct f; try discriminate E; try discriminate F; reflexivity. }
  eexists. split; [reflexivity|]. cbn [tbuild shp]. rewrite A2, Z. split; [reflexivity|]. intros m Hm. rewrite tget_tbuild; [reflexivity|]. now apply inb_snoc_intro.
Qed.
Theorem t_initial b i f e n k : proper_e b i f e -> dims_of e = Ok n -> search_count f n = Some k -> dist_vals true b e -> exists t, initial_search_parameters e f = Ok t /\ finite_search b i k t.
Proof.
  intros P D M V. pose proof P as (C & W & S & Hi & Dom). destruct (initial_search_e f) as [x|] eqn:F.
  - destruct (exp_dom_at b i e f Hi C W S Dom) as (n' & A & H). assert (n' = n) by (rewrite (ap_dims _ _ _ _ _ _ A) in D; congruence). subst n'.
    destruct f; try discriminate F; cbn in M; injection M as <-; [destruct (gamma_initial b i e n _ Hi A H) as (t & T1 & T2 & T3)|destruct (vmf_initial b i e n _ Hi A H) as (t & T1 & T2 & T3)];
      (exists t; split; [exact T1|]; split; [exact T2|]; intros k Hk; replace k with 0%nat by lia; eexists; exact T3).
  - destruct (default_initial b i f e n k F C W S D M V Hi) as (t & T1 & T2 & T3). exists t. split; [exact T1|]. split; [exact T2|]. intros m Hm. eexists. now apply T3.
Qed.
Theorem t_gamma_start b i e : proper_e b i Gamma e -> exists t x s, initial_search_parameters e Gamma = Ok t /\ tget t (i ++ [0%nat])%list = Fin x /\ s = ln (1 + exp x) /\ 0 < s /\
  ln (par e i "mean" []) - par e i "mean_log" [] = (3 * s + 1) / (s * (6 * s + 1)).
Proof.
  intros (C & W & S & Hi & Dom). destruct (exp_dom_at b i e Gamma Hi C W S Dom) as (n & A & H). destruct (gamma_initial b i e n _ Hi A H) as (t & T1 & T2 & T3). destruct H as [H1 H2]. cbv beta in H1, H2.
  destruct (gamma_start_spec (ln (point_of e i false "mean" []) - point_of e i false "mean_log" []) ltac:(lra)) as [G1 G2]. eexists t, _, (gamma_start _). split; [exact T1|]. split; [exact T3|].
  split; [symmetry; exact (softplus_inv _ G1)|]. split; [exact G1|]. exact G2.
Qed.
Theorem t_vmf_start b i e n : proper_e b i VonMisesFisher e -> dims_of e = Ok n -> exists t x mu, initial_search_parameters e VonMisesFisher = Ok t /\ tget t (i ++ [0%nat])%list = Fin x /\
  mu = sqrt (sumR n (fun k => par e i "mean" [k] ^ 2)) /\ ln (1 + exp x) = mu * (INR n - mu ^ 2) / (1 - mu ^ 2) /\ 0 < ln (1 + exp x).
Proof.
  intros (C & W & S & Hi & Dom) D. destruct (exp_dom_at b i e VonMisesFisher Hi C W S Dom) as (n' & A & H). assert (n' = n) by (rewrite (ap_dims _ _ _ _ _ _ A) in D; congruence). subst n'. destruct (vmf_initial b i e n _ Hi A H) as (t & T1 & T2 & T3).
  assert (N : (1 <= n)%nat) by (destruct n; [cbn in H; lra|lia]). cbn [exp_dom] in H. cbv beta zeta in H. set (m := sumR n (fun k => point_of e i false "mean" [k] * point_of e i false "mean" [k])) in *.
  assert (M : 0 < sqrt m < 1). { split; [apply sqrt_lt_R0; lra|]. rewrite <- sqrt_1. apply sqrt_lt_1_alt. lra. } pose proof (vmf_start_pos n _ N M) as G1.
  eexists t, _, (sqrt m). split; [exact T1|]. split; [exact T3|]. split; [f_equal; apply sumR_ext; intros k Hk; unfold par; ring|]. rewrite (softplus_inv _ G1 : ln (1 + exp _) = _). split; [unfold vmf_start; f_equal; ring|exact G1].
Qed.
Lemma vals_min b f e : dcls e = EP f -> well_formed e = true -> dist_vals true b e -> dist_vals true b (Dist (EP f) DefaultMinimizer (dparams e) []).
Proof.
  intros C W V. assert (J : is_joint (dcls e) = false) by now rewrite C. destruct (leaf_inv e W J) as [Q _]. rewrite C in Q. rewrite Q in V.
  intros p q Hq. cbn in Hq. destruct Hq as [Hq|[]]. injection Hq as <- <-. exact (V [] _ (or_introl eq_refl)).
Qed.
Theorem t_default_bisection f e eps : 0 < eps -> proper_e [] [] f e -> dist_vals true [] (snd (searched f e)) ->
  f = Gamma \/ f = VonMisesFisher \/ ((f = ChiSquare \/ f = Chi) /\ exists sp, search_root [] [] ChiSquare 1 (snd (searched f e)) sp) ->
  exists K N, forall k m, (K <= k)%nat -> (N <= m)%nat -> let L := fam_methods (default_bisection k m) in
    exists q e', to_nat L e = Ok q /\ proper [] [] f q /\ to_exp L q = Ok e' /\ near_params_at [] [] eps e e'.
Proof.
  intros Ep P V F. set (f' := fst (searched f e)) in *. set (e' := snd (searched f e)) in *.
  assert (X : bisected f' = true /\ proper_e [] [] f' e' /\ exists sp, search_root [] [] f' 1 e' sp).
  { pose proof P as (C & W & S & Hi & Dom). destruct (leaf_dims _ _ S) as (n & D & _). unfold f', e' in *. destruct F as [->|[->|[[->| ->] X]]]; cbn [searched fst snd] in *; (split; [reflexivity|]); (split; [first [exact P|now apply chi_square_of]|]); try exact X.
    - apply (t_always (default_bisection 0 0) [] [] Gamma e n); auto.
    - apply (t_always (default_bisection 0 0) [] [] VonMisesFisher e n); auto. }
  destruct X as (B & P' & Sr). pose proof P' as (C & W & S & Hi & Dom). destruct (leaf_dims _ _ S) as (n & D & _).
  set (e1 := Dist (EP f') DefaultMinimizer (dparams e') []). pose proof (proper_e_min DefaultMinimizer [] [] f' e' P') as P1. fold e1 in P1.
  assert (D1 : dims_of e1 = Ok n). { rewrite <- D. assert (J : is_joint (dcls e') = false) by (now rewrite C). destruct (leaf_inv e' W J) as [Q _]. rewrite C in Q. symmetry. rewrite Q. reflexivity. }
  destruct (t_initial [] [] f' e1 n 1 P1 D1 (count1 f' n B) (vals_min [] f' e' C W V)) as (t & T1 & T2 & T3). destruct (T3 0%nat Nat.lt_0_1) as (x & Tx). cbn [app] in Tx.
  destruct (found (fun _ => x) f' e' eps B Ep P' Sr) as (K & N & H). exists K, N. intros k m Kk Nm. cbv zeta. apply t_to_nat_resid; [exact P| |exact V|].
  - intros n0 ->. destruct F as [?|[?|[[?|?] _]]]; discriminate.
  - fold f' e'. destruct (H k m Kk Nm) as (n1 & k1 & g & R1 & R2 & R3). exists n1, k1, g. split; [exact R1|]. split; [exact R2|].
    assert (E : solution (default_bisection k m) (dmin e') (default_minimizers e') k1 = solution (bis_solve (fun _ => x) k m) (dmin e') (default_minimizers e') k1).
    { unfold solution. apply tbuild_ext. intros j Hj. rewrite (leaf_default e' f' C W). fold e1. unfold default_bisection, bis_solve. cbn [dcls e1]. fold e1. rewrite T1, Tx. reflexivity. }
    rewrite E. exact R3.
Qed.
