(** C52: the expectation parameters a family attains, and the roots of the search gradient. *)
From Coquelicot Require Import Coquelicot.
From Coq Require Import String List Bool Arith Reals Lia Lra.
From Verif Require Import Base XReal Tensor TensorFacts TensorFacts2 Support PlaneFacts Dist DictFacts Iteration Structure Spec StructFacts AssembleFacts SumSpec DotSpec FlattenSpec Tools
  ToolThms Joint StructThms MapFacts SpecFun GammaFn BesselFn BesselFn2 TrigammaFn Expr Fam ExprFacts FamTy FamFacts SearchFacts DotFacts DotLaws BatchFacts PointSpec PointFacts Val FamR FamVal ConvFacts LeafVal VarSpec DensSpec FlattenThms Var VarThms RootSpec RootVal RootThms InjThms MeanFacts MeanSpec.
Import ListNotations.
Local Unset Asymmetric Patterns.
Local Open Scope string_scope.
Local Open Scope R_scope.

(** ** the softplus map *)
Lemma sps_incr s t : s < t -> sps s < sps t.
Proof. intros H. unfold sps. pose proof (exp_pos s). pose proof (exp_increasing s t H). apply ln_increasing; lra. Qed.
Lemma sps_inj s t : sps s = sps t -> s = t.
Proof. intros H. destruct (Rtotal_order s t) as [L|[E|G]]; [pose proof (sps_incr s t L); lra|exact E|pose proof (sps_incr t s G); lra]. Qed.
Definition spi (y : R) : R := ln (exp y - 1).
Lemma sps_spi y : 0 < y -> sps (spi y) = y.
Proof. intros H. assert (1 < exp y) by (rewrite <- exp_0; now apply exp_increasing). unfold sps, spi. rewrite exp_ln by lra. replace (1 + (exp y - 1)) with (exp y) by ring. apply ln_exp. Qed.
Lemma adj_min_1 : adj_min (-1) = -1 + / 2 ^ 23.
Proof. unfold adj_min, feps, copysign. pose proof (Rinv_0_lt_compat (2 ^ 23) ltac:(lra)) as P. rewrite Rabs_right by lra. unfold Rmax. repeat destruct (Rle_dec _ _); destruct (Rlt_dec _ _); lra. Qed.
Lemma adj_max_0 : adj_max 0 = - / 2 ^ 23.
Proof. unfold adj_max, feps. rewrite Rmult_0_l. pose proof (Rinv_0_lt_compat (2 ^ 23) ltac:(lra)) as P. unfold Rmin. destruct (Rle_dec _ _); lra. Qed.

(** ** every representable natural parameter is a value of the search map, once *)
Lemma vmf_mean_norm n p : nat_dom VonMisesFisher n p -> let k := sqrt (sumR n (fun a => p false "mean_times_concentration" [a] * p false "mean_times_concentration" [a])) in
  let m := expR n p VonMisesFisher in 0 < k /\ - (1 / 2) <= INR n * (1 / 2) - 1 /\ sqrt (sumR n (fun a => m false "mean" [a] * m false "mean" [a])) = brat (INR n * (1 / 2) - 1) k /\
  0 < brat (INR n * (1 / 2) - 1) k /\ forall a, (a < n)%nat -> m false "mean" [a] = p false "mean_times_concentration" [a] * (brat (INR n * (1 / 2) - 1) k / k).
Proof.
  intros (a & Ha & Na) k m. assert (V : - (1 / 2) <= INR n * (1 / 2) - 1). { assert (1 <= INR n) by (apply (le_INR 1); lia). lra. }
  assert (K : 0 < k). { unfold k. apply sqrt_lt_R0. eapply Rlt_le_trans; [|apply (sumR_ge1 n (fun a => p false "mean_times_concentration" [a] * p false "mean_times_concentration" [a]) a Ha); intros; nra]. nra. }
  assert (B : 0 < brat (INR n * (1 / 2) - 1) k). { eapply Rlt_trans; [|apply brat_large; [exact V|exact K]]. apply Rdiv_lt_0_compat; lra. }
  assert (M : forall a, m false "mean" [a] = p false "mean_times_concentration" [a] * (brat (INR n * (1 / 2) - 1) k / k)).
  { intros c. unfold m. mk. unfold norm2. fold k. unfold brat. replace (INR n * (1 / 2) - 1 + 1) with (INR n * (1 / 2)) by ring. reflexivity. }
  split; [exact K|]. split; [exact V|]. split; [|split; [exact B|intros c _; apply M]].
  replace (sumR n (fun c => m false "mean" [c] * m false "mean" [c])) with (Rsqr (brat (INR n * (1 / 2) - 1) k)); [rewrite sqrt_Rsqr; lra|].
  transitivity (sumR n (fun c => Rsqr (brat (INR n * (1 / 2) - 1) k / k) * (p false "mean_times_concentration" [c] * p false "mean_times_concentration" [c]))).
  - rewrite sumR_scal. assert (E : k * k = sumR n (fun a => p false "mean_times_concentration" [a] * p false "mean_times_concentration" [a])). { unfold k. apply sqrt_sqrt. apply Rlt_le, sqrt_lt_0_alt. rewrite sqrt_0. exact K. } rewrite <- E. unfold Rsqr. field. lra.
  - apply sumR_ext. intros c _. rewrite M. unfold Rsqr. ring.
Qed.
Lemma search_onto f n p q : e2n f = true -> nat_dom f n q -> representable f n q -> pt_eq (EP f) n (expR n q f) p -> exists s, pt_eq (NP f) n (snR n p s f) q.
Proof.
  intros E H R P. pose proof adj_min_1 as M1. pose proof adj_max_0 as M0. destruct f; try discriminate E; cbn [nat_dom representable] in H, R.
  - exists (fun k => spi (q false "alpha_minus_one" [k] - adj_min (-1))). apply pt_intro. cbn [fields]. ptf. split; [|discriminate]. unfold snR. mk. specialize (R k Hk). rewrite sps_spi by lra. lra.
  - exists (fun k => spi (q false "k_over_two_minus_one" [] - adj_min (-1))). apply pt_intro. cbn [fields]. ptf. split; [|discriminate]. unfold snR. mk. rewrite sps_spi by lra. lra.
  - exists (fun k => spi (q false "alpha_minus_one" [k] - adj_min (-1))). apply pt_intro. cbn [fields]. ptf. split; [|discriminate]. unfold snR. mk. specialize (R k Hk). rewrite sps_spi by lra. lra.
  - exists (fun k => spi (q false "shape_minus_one" [] + 1)). pts P. apply pt_intro. cbn [fields]. ptf; (split; [|discriminate]); unfold snR; mk; rewrite sps_spi by lra; [|lra].
    rewrite <- (proj1 (P0 [] eq_refl)). mk. field. lra.
  - exists (fun k => if (k <? n)%nat then spi (q false "alpha_minus_one" [k] + 1) else spi (q false "gamma" [(k - n)%nat])). apply pt_intro. cbn [fields]. ptf; (split; [|discriminate]); unfold snR; mk; destruct (H k Hk).
    + destruct (Nat.ltb_spec k n); [|lia]. rewrite sps_spi by lra. lra.
    + destruct (Nat.ltb_spec (n + k) n); [lia|]. replace (n + k - n)%nat with k by lia. now rewrite sps_spi.
  - exists (fun k => - spi (adj_max 0 - q false "log_probability" [])). apply pt_intro. cbn [fields]. ptf. split; [|discriminate]. unfold snR. mk. rewrite Ropp_involutive, sps_spi by lra. lra.
  - destruct (vmf_mean_norm n q H) as (K & _ & E1 & B & M). set (kk := sqrt _) in *. set (r := brat _ kk) in *. exists (fun _ => spi kk). pts P. apply pt_intro. cbn [fields]. ptf; (split; [|discriminate]). unfold snR. mk. rewrite sps_spi by exact K.
    assert (Pm : forall a, (a < n)%nat -> p false "mean" [a] = expR n q VonMisesFisher false "mean" [a]) by (intros a Ha; symmetry; exact (proj1 (P0 [a] ltac:(now apply inb1_intro)))).
    rewrite (sumR_ext n (fun a => p false "mean" [a] * p false "mean" [a]) (fun a => expR n q VonMisesFisher false "mean" [a] * expR n q VonMisesFisher false "mean" [a])) by (intros a Ha; now rewrite Pm). rewrite E1, Pm, M by assumption. field. lra.
Qed.
Lemma search_inj f n p s t : e2n f = true -> dims_ok (EP f) n = true -> exp_dom f n p -> pt_eq (NP f) n (snR n p s f) (snR n p t f) -> forall k, (k < search_dim f n)%nat -> s k = t k.
Proof.
  intros E D H P k K. destruct f; try discriminate E; cbn [search_dim exp_dom dims_ok] in *.
  all: pts P.
  - apply Nat.eqb_eq in D. assert (K' : (k < n)%nat) by lia. pose proof (proj1 (P0 [k] ltac:(now apply inb1_intro))) as Q. unfold snR in Q. cbv beta iota zeta delta [mkpt re] in Q. cbn [slook String.eqb Ascii.eqb Bool.eqb fst snd hd] in Q. apply sps_inj. lra.
  - replace k with 0%nat by lia. pose proof (proj1 (P0 [] eq_refl)) as Q. unfold snR in Q. cbv beta iota zeta delta [mkpt re] in Q. cbn [slook String.eqb Ascii.eqb Bool.eqb fst snd hd] in Q. apply sps_inj. lra.
  - pose proof (proj1 (P0 [k] ltac:(now apply inb1_intro))) as Q. unfold snR in Q. cbv beta iota zeta delta [mkpt re] in Q. cbn [slook String.eqb Ascii.eqb Bool.eqb fst snd hd] in Q. apply sps_inj. lra.
  - replace k with 0%nat by lia. pose proof (proj1 (P1 [] eq_refl)) as Q. unfold snR in Q. cbv beta iota zeta delta [mkpt re] in Q. cbn [slook String.eqb Ascii.eqb Bool.eqb fst snd hd] in Q. apply sps_inj. lra.
  - destruct (Nat.lt_ge_cases k n) as [L|G].
    + pose proof (proj1 (P0 [k] ltac:(now apply inb1_intro))) as Q. unfold snR in Q. cbv beta iota zeta delta [mkpt re] in Q. cbn [slook String.eqb Ascii.eqb Bool.eqb fst snd hd] in Q. apply sps_inj. lra.
    + pose proof (proj1 (P1 [(k - n)%nat] ltac:(apply inb1_intro; lia))) as Q. unfold snR in Q. cbv beta iota zeta delta [mkpt re] in Q. cbn [slook String.eqb Ascii.eqb Bool.eqb fst snd hd] in Q. replace (n + (k - n))%nat with k in Q by lia. apply sps_inj. lra.
  - replace k with 0%nat by lia. pose proof (proj1 (P0 [] eq_refl)) as Q. unfold snR in Q. cbv beta iota zeta delta [mkpt re] in Q. cbn [slook String.eqb Ascii.eqb Bool.eqb fst snd hd] in Q. assert (- s 0%nat = - t 0%nat) by (apply sps_inj; lra). lra.
  - replace k with 0%nat by lia. assert (S0 : 0 < sqrt (sumR n (fun k => p false "mean" [k] * p false "mean" [k]))) by (apply sqrt_lt_R0; tauto). set (N2 := sqrt _) in *.
    assert (X : exists a, (a < n)%nat /\ p false "mean" [a] <> 0).
    { destruct H as [H _]. clear - H. induction n as [|m IH]; [cbn in H; lra|]. rewrite sumR_S in H. destruct (Req_dec (p false "mean" [m]) 0) as [Z|Z]; [|exists m; split; [lia|exact Z]]. destruct IH as (a & A & Q); [rewrite Z in H; lra|]. exists a. split; [lia|exact Q]. }
    destruct X as (a & A & Z). pose proof (proj1 (P0 [a] ltac:(now apply inb1_intro))) as Q. unfold snR in Q. cbv beta iota zeta delta [mkpt re] in Q. cbn [slook String.eqb Ascii.eqb Bool.eqb fst snd hd] in Q. fold N2 in Q.
    apply Rmult_eq_reg_l in Q; [|exact Z]. apply sps_inj. apply (Rmult_eq_reg_r (/ N2)); [exact Q|]. apply Rgt_not_eq, Rinv_0_lt_compat. exact S0.
Qed.

(** ** the value of search_gradient *)
Definition gradR (f : family) (n : nat) (p : point) (s : nat -> R) (k : nat) : R :=
  let e := expR n (snR n p s f) f in
  match f with
  | Gamma => ln (p false "mean" []) - p false "mean_log" [] - ln (sps (s 0%nat)) + digamma (sps (s 0%nat))
  | VonMisesFisher => brat (INR n * (1 / 2) - 1) (sps (s 0%nat)) - sqrt (sumR n (fun k => p false "mean" [k] * p false "mean" [k]))
  | Beta | Dirichlet => e false "mean_log_probability" [k] - p false "mean_log_probability" [k]
  | ChiSquare => e false "mean_log" [] - p false "mean_log" []
  | Logarithmic => e false "chi" [] - p false "chi" []
  | GeneralizedDirichlet => if (k <? n)%nat then e false "mean_log_probability" [k] - p false "mean_log_probability" [k]
                            else e false "mean_log_cumulative_probability" [(k - n)%nat] - p false "mean_log_cumulative_probability" [(k - n)%nat]
  | _ => 0
  end.
Lemma sub_1_0_ok (t u : tensor xr) : shp t = [1%nat] -> shp u = [] -> exists g, tmap2 xsub t u = Ok g.
Proof. intros T U. unfold tmap2. rewrite T, U. cbn. eexists. reflexivity. Qed.
Section G.
Variable solve : minimizer -> dist -> nat -> xr.
Notation L := (fam_methods solve).
Lemma default_field f n p s k : default_search f = true -> dims_ok (EP f) n = true -> (k < search_dim f n)%nat ->
  exists g j, In g (fields (EP f)) /\ inb (supp_shape (fd_support g) n) j = true /\ fpos n (fd_name g) j = k /\ kind_of (fd_support g) = KR /\
    gradR f n p s k = expR n (snR n p s f) f false (fd_name g) j - p false (fd_name g) j.
Proof.
  intros E D K. destruct f; try discriminate E; cbn [search_dim dims_ok fields] in *.
  - apply Nat.eqb_eq in D. exists (var "mean_log_probability" (VectorS negative_support)), [k]. split; [now left|]. split; [apply inb1_intro; lia|]. repeat (split; [reflexivity|]). reflexivity.
  - eexists _, []. split; [now left|]. split; [reflexivity|]. split; [cbn; lia|]. split; reflexivity.
  - eexists _, [k]. split; [now left|]. split; [now apply inb1_intro|]. repeat (split; [reflexivity|]). reflexivity.
  - destruct (Nat.ltb_spec k n) as [Lt|Ge].
    + eexists _, [k]. split; [now left|]. split; [now apply inb1_intro|]. repeat (split; [reflexivity|]). unfold gradR. destruct (Nat.ltb_spec k n); [reflexivity|lia].
    + eexists _, [(k - n)%nat]. split; [right; now left|]. split; [apply inb1_intro; lia|]. split; [cbn; lia|]. split; [reflexivity|]. unfold gradR. destruct (Nat.ltb_spec k n); [lia|reflexivity].
  - eexists _, []. split; [now left|]. split; [reflexivity|]. split; [cbn; lia|]. split; reflexivity.
Qed.
Lemma default_grad b i e f n p sp s : inb b i = true -> default_search f = true -> at_pt b i e (EP f) n p -> exp_dom f n p -> shp sp = (b ++ [search_dim f n])%list ->
  (forall k, (k < search_dim f n)%nat -> tget sp (i ++ [k])%list = Fin (s k)) -> nat_dom f n (snR n p s f) ->
  exists g, search_gradient e f sp = Ok g /\ shp g = (b ++ [search_dim f n])%list /\ (unclipped f (snR n p s f) -> forall k, (k < search_dim f n)%nat -> tget g (i ++ [k])%list = Fin (gradR f n p s k)).
Proof.
  intros Hi E A H Sp Sv Hn. assert (E2 : e2n f = true) by (destruct f; auto; discriminate).
  destruct (s2n_at b i e f n p sp s Hi E2 A H Sp Sv) as (q & Q1 & Q2). pose proof Q2 as [C W S D V].
  destruct (exp_builds solve b q f n C W S D) as (ps & B1 & B2 & B3 & B4 & _).
  destruct (leaf_inv (Dist (EP f) DefaultMinimizer ps []) B2 eq_refl) as [_ N']. cbn [dcls dparams] in N'. destruct (flat_raw f b _ ps n E N' B3 B4) as (F' & u' & U1 & U2 & U3).
  pose proof A as [Ce We Se De Ve]. assert (J : is_joint (dcls e) = false) by now rewrite Ce. destruct (leaf_inv e We J) as [Qe Ne]. rewrite Ce in Qe, Ne. rewrite Qe in Se, De.
  destruct (flat_raw f b _ _ n E Ne Se De) as (F & u & W1 & W2 & W3). rewrite <- Qe in W1.
  assert (G : search_gradient e f sp = Ok (tbuild (shp u') (fun i => xsub (tget u' i) (tget u i)))).
  { unfold search_gradient. replace (search_gradient_e f) with (@None (aexp KR)) by (destruct f; try discriminate E; reflexivity).
    rewrite Q1. cbn [bind]. change (fam_to_exp q) with (l_to_exp L q). rewrite B1. cbn [bind]. rewrite W1, U1. cbn [bind]. rewrite tmap2_same by congruence. reflexivity. }
  eexists. split; [exact G|]. split; [exact U2|]. intros Un k K. rewrite tget_tbuild by (rewrite U2; now apply inb_snoc_intro).
  assert (Kd : dims_ok (EP f) n = true). { rewrite <- Qe in Se, De. destruct (leaf_dims _ _ Se) as (n' & D' & Kd). rewrite De in D'. injection D' as <-. now rewrite Ce in Kd. }
  destruct (exp_at solve b i q f n _ Hi Q2 Hn Un) as (e' & E1' & E3). rewrite B1 in E1'. injection E1' as <-.
  destruct (default_field f n p s k E Kd K) as (fd & j & Ig & Hj & Fk & Kr & ->). destruct (W3 fd Ig) as (t & T1 & T2). destruct (U3 fd Ig) as (t' & T1' & T2'). destruct (T2 i j Hi Hj) as [_ K2]. destruct (T2' i j Hi Hj) as [_ K2']. rewrite Fk in K2, K2'.
  assert (X : dget (ctx_of (EP f) n) (fd_name fd) = Some (KR, supp_shape (fd_support fd) n)). { rewrite <- Kr. clear -E Ig. destruct f; try discriminate E; cbn in Ig; intuition subst; reflexivity. }
  pose proof (Ve _ _ _ j X Hj) as Y. pose proof (ap_vals _ _ _ _ _ _ E3 _ _ _ j X Hj) as Y'. unfold vals_of in Y, Y'. cbn [dparams] in Y'. rewrite T1 in Y. rewrite T1' in Y'.
  change (tget t (i ++ j)%list = Fin (p false (fd_name fd) j)) in Y. change (tget t' (i ++ j)%list = Fin (expR n (snR n p s f) f false (fd_name fd) j)) in Y'.
  rewrite Y in K2. rewrite Y' in K2'. change (@tget xr Dflt_xr u' (i ++ [k])%list = Fin (expR n (snR n p s f) f false (fd_name fd) j)) in K2'. change (@tget xr Dflt_xr u (i ++ [k])%list = Fin (p false (fd_name fd) j)) in K2.
  rewrite K2, K2'. reflexivity.
Qed.
Lemma gamma_grad b i e n p sp s : inb b i = true -> at_pt b i e (EP Gamma) n p -> exp_dom Gamma n p -> shp sp = (b ++ [1%nat])%list -> tget sp (i ++ [0%nat])%list = Fin (s 0%nat) ->
  exists g, search_gradient e Gamma sp = Ok g /\ shp g = (b ++ [1%nat])%list /\ tget g (i ++ [0%nat])%list = Fin (gradR Gamma n p s 0).
Proof.
  intros Hi A H Sp Sv. assert (Sv' : forall k, (k < 1)%nat -> tget sp (i ++ [k])%list = Fin (s k)) by (intros k K; replace k with 0%nat by lia; exact Sv).
  destruct (search_env b i e (EP Gamma) n p sp s 1 A Sp Sv') as [HE HV].
  unfold search_gradient. cbn [search_gradient_e]. pose proof (sps_pos (s 0%nat)) as P. cbn [exp_dom] in H. destruct H as [H1 H2].
  set (e0 := ENewaxis _). assert (T : VR (("search", (KR, [1%nat])) :: ctx_of (EP Gamma) n) (ps p s) e0 (Ev [1%nat]) (fun _ => ln (p false "mean" []) - p false "mean_log" [] - ln (sps (s 0%nat)) + digamma (sps (s 0%nat)))).
  { unfold e0. change [1%nat] with ([] ++ [1%nat])%list. eapply VR_ext.
    { apply VR_newaxis. eapply VR_add; [eapply VR_sub; [eapply VR_sub; [vr|vr|alt_]|eapply VR_log; [eapply VR_softplus; eapply VR_at; [vr|lia]|]|alt_]|eapply VR_digamma; [eapply VR_softplus; eapply VR_at; [vr|lia]|]|alt_]; jj; pss; try exact P; lra. }
    intros j Hj. destruct (inb1 _ _ Hj) as (k & -> & Hk). pss. reflexivity. }
  destruct (eval_at b _ _ i _ e0 [1%nat] _ HE Hi HV T) as (t & T1 & T2 & T3). exists t. split; [exact T1|]. split; [exact T2|]. exact (T3 [0%nat] eq_refl).
Qed.
Lemma vmf_grad e n p sp s : at_pt [] [] e (EP VonMisesFisher) n p -> exp_dom VonMisesFisher n p -> shp sp = [1%nat] -> tget sp [0%nat] = Fin (s 0%nat) ->
  exists g, search_gradient e VonMisesFisher sp = Ok g /\ shp g = [1%nat] /\ tget g [0%nat] = Fin (gradR VonMisesFisher n p s 0).
Proof.
  intros A H Sp Sv. assert (Sv' : forall k, (k < 1)%nat -> tget sp ([] ++ [k])%list = Fin (s k)) by (intros k K; replace k with 0%nat by lia; exact Sv).
  destruct (search_env [] [] e (EP VonMisesFisher) n p sp s 1 A Sp Sv') as [HE HV]. pose proof (sps_pos (s 0%nat)) as P.
  set (N2 := sumR n (fun k => p false "mean" [k] * p false "mean" [k])) in *.
  assert (T : VR (("search", (KR, [1%nat])) :: ctx_of (EP VonMisesFisher) n) (ps p s) (r2 xiv_ratio (emul (EDim "mean") (ENum (1/2))) (softplus (self "search"))) (Ev [1%nat])
    (fun _ => bessel_i (INR n * (1 / 2)) (sps (s 0%nat)) / bessel_i (INR n * (1 / 2) - 1) (sps (s 0%nat)))).
  { eapply VR_ext; [eapply VR_iv_ratio; [vr|vr|alt_|]|]; jj; pss; replace k with 0%nat by lia; [exact P|reflexivity]. }
  assert (T' : VR (("search", (KR, [1%nat])) :: ctx_of (EP VonMisesFisher) n) (ps p s) (jnorm (self "mean")) (Ev []) (fun _ => sqrt N2)).
  { vx. jj. pss. reflexivity. }
  destruct (eval_at [] _ _ [] _ _ [1%nat] _ HE eq_refl HV T) as (t & T1 & T2 & T3). destruct (eval_at [] _ _ [] _ _ [] _ HE eq_refl HV T') as (t' & T1' & T2' & T3').
  assert (G : search_gradient e VonMisesFisher sp = (let* t := eval (("search", RA sp) :: dparams e) (r2 xiv_ratio (emul (EDim "mean") (ENum (1/2))) (softplus (self "search"))) in
                let* u := eval (("search", RA sp) :: dparams e) (jnorm (self "mean")) in tmap2 xsub t u)) by reflexivity.
  rewrite T1, T1' in G. cbn [bind] in G. destruct (sub_1_0_ok t t' T2 T2') as (g & Eg).
  destruct (sub_1_0 t t' g T2 T2' Eg) as [G1 G2]. exists g. split; [exact (eq_trans G Eg)|]. split; [exact G1|]. specialize (T3 [0%nat] eq_refl). specialize (T3' [] eq_refl). cbn [app] in T3, T3'.
  change (@tget xr Dflt_xr t [0%nat]) with (@tget (elt KR) (Dflt_elt KR) t [0%nat]) in G2. change (@tget xr Dflt_xr t' []) with (@tget (elt KR) (Dflt_elt KR) t' []) in G2.
  rewrite T3, T3' in G2. etransitivity; [exact G2|]. unfold gradR, brat. replace (INR n * (1 / 2) - 1 + 1) with (INR n * (1 / 2)) by ring. reflexivity.
Qed.
Lemma grad_at b i e f n p sp s m : inb b i = true -> at_pt b i e (EP f) n p -> exp_dom f n p -> search_count f n = Some m -> (f = VonMisesFisher -> b = []) -> nat_dom f n (snR n p s f) ->
  shp sp = (b ++ [m])%list -> (forall k, (k < m)%nat -> tget sp (i ++ [k])%list = Fin (s k)) ->
  exists g, search_gradient e f sp = Ok g /\ shp g = (b ++ [m])%list /\ (unclipped f (snR n p s f) -> forall k, (k < m)%nat -> tget g (i ++ [k])%list = Fin (gradR f n p s k)).
Proof.
  intros Hi A H M Vb Hn Sp Sv. destruct (leaf_dims _ _ (ap_shaped _ _ _ _ _ _ A)) as (n' & D' & K). rewrite (ap_dims _ _ _ _ _ _ A) in D'. injection D' as <-. rewrite (ap_cls _ _ _ _ _ _ A) in K.
  destruct (count_dim f n m M K) as [E ->]. destruct (default_search f) eqn:Ed; [now apply default_grad|].
  destruct f; try discriminate E; try discriminate Ed.
  - destruct (gamma_grad b i e n p sp s Hi A H Sp (Sv 0%nat Nat.lt_0_1)) as (g & G1 & G2 & G3). exists g. split; [exact G1|]. split; [exact G2|]. intros _ k Kk. cbn in Kk. replace k with 0%nat by lia. exact G3.
  - rewrite (Vb eq_refl) in *. destruct i; [|discriminate]. destruct (vmf_grad e n p sp s A H Sp (Sv 0%nat Nat.lt_0_1)) as (g & G1 & G2 & G3). exists g. split; [exact G1|]. split; [exact G2|]. intros _ k Kk. cbn in Kk. replace k with 0%nat by lia. exact G3.
Qed.
End G.

(** ** roots *)
Lemma sps_norm n p s : exp_dom VonMisesFisher n p -> sqrt (sumR n (fun k => snR n p s VonMisesFisher false "mean_times_concentration" [k] * snR n p s VonMisesFisher false "mean_times_concentration" [k])) = sps (s 0%nat).
Proof.
  cbn [exp_dom]. intros H. pose proof (sps_pos (s 0%nat)) as P. set (N2 := sumR n (fun k => p false "mean" [k] * p false "mean" [k])) in *.
  assert (S0 : 0 < sqrt N2) by (apply sqrt_lt_R0; tauto). assert (SS : sqrt N2 * sqrt N2 = N2) by (apply sqrt_sqrt; lra).
  replace (sumR n _) with (Rsqr (sps (s 0%nat))); [rewrite sqrt_Rsqr; lra|].
  transitivity (sumR n (fun k0 => Rsqr (sps (s 0%nat) / sqrt N2) * (p false "mean" [k0] * p false "mean" [k0]))).
  - rewrite sumR_scal. fold N2. unfold Rsqr. rewrite <- SS at 3. field. lra.
  - apply sumR_ext. intros m Hm. unfold snR. mk. fold N2. unfold Rsqr. ring.
Qed.
Lemma grad_zero f n p s k : e2n f = true -> dims_ok (EP f) n = true -> exp_dom f n p -> nat_dom f n (snR n p s f) -> pt_eq (EP f) n (expR n (snR n p s f) f) p -> (k < search_dim f n)%nat -> gradR f n p s k = 0.
Proof.
  intros E D H Hn P K. destruct (default_search f) eqn:Ed.
  - destruct (default_field f n p s k Ed D K) as (g & j & Ig & Hj & _ & _ & ->). rewrite (pt_re (EP f) n _ p g j P Ig Hj). ring.
  - destruct f; try discriminate E; try discriminate Ed.
    + pts P. pose proof (proj1 (P1 [] eq_refl)) as Q. cbn [exp_dom] in H. pose proof (sps_pos (s 0%nat)) as Sp. unfold gradR. rewrite <- Q. unfold snR. mk. rewrite Ropp_involutive. replace (sps (s 0%nat) - 1 + 1) with (sps (s 0%nat)) by ring. rewrite ln_div by tauto. ring.
    + destruct (vmf_mean_norm n _ Hn) as (_ & _ & E1 & _). rewrite (sps_norm n p s H) in E1. unfold gradR. rewrite <- E1. pts P.
      rewrite (sumR_ext n (fun a => p false "mean" [a] * p false "mean" [a]) (fun a => expR n (snR n p s VonMisesFisher) VonMisesFisher false "mean" [a] * expR n (snR n p s VonMisesFisher) VonMisesFisher false "mean" [a])); [ring|].
      intros a Ha. now rewrite (proj1 (P0 [a] ltac:(now apply inb1_intro))).
Qed.
Lemma repr_pt f n p q : e2n f = true -> dims_ok (NP f) n = true -> pt_eq (NP f) n p q -> representable f n p -> representable f n q.
Proof.
  intros E D P. destruct f; try discriminate E; cbn [representable dims_ok] in *; try tauto; pts P.
  - intros H k K. rewrite <- (proj1 (P0 [k] ltac:(now apply inb1_intro))). now apply H.
  - intros H. now rewrite <- (proj1 (P0 [] eq_refl)).
  - intros H k K. rewrite <- (proj1 (P0 [k] ltac:(now apply inb1_intro))). now apply H.
  - intros H. now rewrite <- (proj1 (P0 [] eq_refl)).
Qed.
Lemma snR_repr f n p s : e2n f = true -> representable f n (snR n p s f).
Proof.
  intros E. pose proof adj_min_1. pose proof adj_max_0. destruct f; try discriminate E; cbn [representable]; trivial; unfold snR; mk; intros; try (pose proof (sps_pos (s k))); pose proof (sps_pos (s 0%nat)); pose proof (sps_pos (- s 0%nat)); lra.
Qed.
Lemma snR_ceiling n p s : snR n p s Logarithmic false "log_probability" [] <= log_probability_ceiling.
Proof. unfold snR. mk. pose proof (sps_pos (- s 0%nat)). pose proof adj_max_0. unfold log_probability_ceiling. lra. Qed.
Section H.
Variable solve : minimizer -> dist -> nat -> xr.
Notation L := (fam_methods solve).
Lemma mean_pt b i f n q e : at_pt b i e (EP f) n (point_of e i) -> exp_dom f n (point_of e i) -> mean_of L b i f q e ->
  at_pt b i q (NP f) n (point_of q i) /\ nat_dom f n (point_of q i) /\ unclipped f (point_of q i) /\ pt_eq (EP f) n (expR n (point_of q i) f) (point_of e i).
Proof.
  intros A H ((C & W & S & Hi & Dom) & e' & E1 & E2). destruct (nat_dom_at b i q f Hi C W S Dom) as (n1 & B & K). rewrite (api_exp_leaf L q f C) in E1.
  assert (n1 = n). { destruct (exp_builds solve b q f n1 C W S (ap_dims _ _ _ _ _ _ B)) as (ps & P1 & _ & _ & P4 & _). rewrite E1 in P1. injection P1 as ->. destruct E2 as (_ & _ & _ & _ & _ & D4 & _). rewrite (ap_dims _ _ _ _ _ _ A), P4 in D4. congruence. }
  subst n1. split; [exact B|]. split; [exact K|]. pose proof (params_at_pt b i e e' (EP f) n _ Hi A E2) as A'.
  assert (U : unclipped f (point_of q i)).
  { destruct f; try exact Logic.I. assert (n = 1%nat) by (apply (dims_none _ _ (ap_dims _ _ _ _ _ _ B)); now rewrite C). subst n. exact (log_unclipped b i q e' _ _ Hi B K E1 A' H). }
  split; [exact U|]. destruct (exp_at solve b i q f n _ Hi B K U) as (x & X1 & X2). rewrite E1 in X1. injection X1 as <-.
  apply (pt_trans _ _ _ (point_of e' i)); [exact (at_pt_pt b i _ _ _ _ Hi X2)|apply pt_sym; exact (at_pt_pt b i _ _ _ _ Hi A')].
Qed.
Lemma root_of_mean b i f n m e q : e2n f = true -> at_pt b i e (EP f) n (point_of e i) -> exp_dom f n (point_of e i) -> search_count f n = Some m -> (f = VonMisesFisher -> b = []) ->
  mean_of L b i f q e -> representable f n (point_of q i) -> exists sp, search_root b i f m e sp.
Proof.
  intros E A H M Vb Mq Rq. destruct (mean_pt b i f n q e A H Mq) as (B & K & U & P). assert (Hi : inb b i = true) by (destruct Mq as ((_ & _ & _ & Hi & _) & _); exact Hi).
  destruct (leaf_dims _ _ (ap_shaped _ _ _ _ _ _ A)) as (n' & D' & Kd). rewrite (ap_dims _ _ _ _ _ _ A) in D'. injection D' as <-. rewrite (ap_cls _ _ _ _ _ _ A) in Kd.
  destruct (count_dim f n m M Kd) as [_ ->]. set (p := point_of e i) in *. destruct (search_onto f n p (point_of q i) E K Rq P) as (s & Ps).
  set (sp := tbuild (b ++ [search_dim f n]) (fun ix => Fin (s (last ix 0%nat)))).
  assert (Sv : forall k, (k < search_dim f n)%nat -> tget sp (i ++ [k])%list = Fin (s k)). { intros k Kk. unfold sp. rewrite tget_tbuild by now apply inb_snoc_intro. now rewrite last_last. }
  assert (Hn : nat_dom f n (snR n p s f)) by (apply (nat_dom_pt f n (point_of q i)); [exact K|now apply pt_sym]).
  destruct (s2n_at b i e f n p sp s Hi E A H eq_refl Sv) as (r & R1 & R2). pose proof (at_pt_eq _ _ _ _ _ _ _ R2 Ps) as R3.
  assert (U2 : unclipped f (snR n p s f)). { destruct f; try exact Logic.I. cbn [unclipped] in U |- *. pts Ps. pose proof (proj1 (P0 [] eq_refl)) as Q. rewrite Q. exact U. }
  destruct (exp_at solve b i r f n _ Hi R2 Hn U2) as (x & X1 & X2). destruct (exp_at solve b i r f n _ Hi R3 K U) as (y & Y1 & Y2). rewrite X1 in Y1. injection Y1 as <-.
  assert (Pe : pt_eq (EP f) n (expR n (snR n p s f) f) p). { apply (pt_trans _ _ _ (point_of x i)); [exact (at_pt_pt b i _ _ _ _ Hi X2)|]. apply (pt_trans _ _ _ (expR n (point_of q i) f)); [apply pt_sym; exact (at_pt_pt b i _ _ _ _ Hi Y2)|exact P]. }
  destruct (grad_at solve b i e f n p sp s _ Hi A H M Vb Hn eq_refl Sv) as (g & G1 & G2 & G3).
  exists sp. split; [split; [reflexivity|intros k Kk; exists (s k); now apply Sv]|]. exists g. split; [exact G1|]. intros j Hj. rewrite G2, skipn_app, skipn_all, Nat.sub_diag in Hj. cbn [app] in Hj.
  destruct (inb1 _ _ Hj) as (k & -> & Hk). etransitivity; [exact (G3 U2 k Hk)|]. now rewrite (grad_zero f n p s k E Kd H Hn Pe Hk).
Qed.
Lemma root_pt b i f n m e sp : at_pt b i e (EP f) n (point_of e i) -> exp_dom f n (point_of e i) -> inb b i = true -> search_count f n = Some m -> (f = VonMisesFisher -> b = []) -> search_root b i f m e sp ->
  let s := fun k => toR (tget sp (i ++ [k])%list) in (forall k, (k < m)%nat -> tget sp (i ++ [k])%list = Fin (s k)) /\
  exists q e', search_to_natural e f sp = Ok q /\ at_pt b i q (NP f) n (snR n (point_of e i) s f) /\ l_to_exp L q = Ok e' /\ at_pt b i e' (EP f) n (point_of e i).
Proof.
  intros A H Hi M Vb ([Sp Sf] & g & G & Z) s. assert (Sv : forall k, (k < m)%nat -> tget sp (i ++ [k])%list = Fin (s k)) by (intros k K; destruct (Sf k K) as (v & Ev); unfold s; rewrite Ev; reflexivity).
  split; [exact Sv|]. apply (root_at solve b i e f n (point_of e i) sp s g m); auto. destruct f; auto.
Qed.
Theorem t_root_iff b i f e n m : proper_e b i f e -> dims_of e = Ok n -> search_count f n = Some m -> (f = Dirichlet -> (2 <= n)%nat) -> (f = VonMisesFisher -> b = []) ->
  ((exists sp, search_root b i f m e sp) <-> exists q, mean_of L b i f q e /\ representable f n (point_of q i)).
Proof.
  intros (C & W & S & Hi & Dom) D M Hd Vb. destruct (exp_dom_at b i e f Hi C W S Dom) as (n' & A & H). assert (n' = n) by (rewrite (ap_dims _ _ _ _ _ _ A) in D; congruence). subst n'.
  destruct (leaf_dims _ _ S) as (n' & D' & K). assert (n' = n) by congruence. subst n'. rewrite C in K. pose proof (count_dim f n m M K) as [E Em].
  split.
  - intros (sp & R). destruct (root_pt b i f n m e sp A H Hi M Vb R) as (Sv & q & e' & Q1 & Q2 & Q3 & Q4). exists q. split; [split|].
    + pose proof Q2 as [C' W' S' D2 V']. repeat (split; [assumption|]). apply (at_pt_nat_dom b i q f n _ Hi Q2). apply search_dom; auto. destruct f; auto.
    + exists e'. split; [rewrite (api_exp_leaf _ _ f); [exact Q3|exact (ap_cls _ _ _ _ _ _ Q2)]|]. now apply (at_pt_params b i e e' (EP f) n (point_of e i)).
    + refine (repr_pt f n _ _ E _ (at_pt_pt b i _ _ _ _ Hi Q2) _); [now rewrite dims_ok_np_ep|now apply snR_repr].
  - intros (q & Mq & Rq). exact (root_of_mean b i f n m e q E A H M Vb Mq Rq).
Qed.
Theorem t_root_unique b i f e n m sp sp' : proper_e b i f e -> dims_of e = Ok n -> search_count f n = Some m -> (f = Dirichlet -> (2 <= n)%nat) -> (f = VonMisesFisher -> b = []) ->
  search_root b i f m e sp -> search_root b i f m e sp' -> forall k, (k < m)%nat -> tget sp (i ++ [k])%list = tget sp' (i ++ [k])%list.
Proof.
  intros (C & W & S & Hi & Dom) D M Hd Vb R R'. destruct (exp_dom_at b i e f Hi C W S Dom) as (n' & A & H). assert (n' = n) by (rewrite (ap_dims _ _ _ _ _ _ A) in D; congruence). subst n'.
  destruct (leaf_dims _ _ S) as (n' & D' & K). assert (n' = n) by congruence. subst n'. rewrite C in K. pose proof (count_dim f n m M K) as [E ->].
  destruct (root_pt b i f n _ e sp A H Hi M Vb R) as (Sv & q & e1 & Q1 & Q2 & Q3 & Q4). destruct (root_pt b i f n _ e sp' A H Hi M Vb R') as (Sv' & q' & e1' & Q1' & Q2' & Q3' & Q4').
  set (s := fun k => toR (tget sp (i ++ [k])%list)) in *. set (s' := fun k => toR (tget sp' (i ++ [k])%list)) in *. set (p := point_of e i) in *.
  assert (Hn : forall t, nat_dom f n (snR n p t f)) by (intros t; apply search_dom; auto; destruct f; auto).
  assert (Pq := at_pt_pt b i _ _ _ _ Hi Q2). assert (Pq' := at_pt_pt b i _ _ _ _ Hi Q2').
  pose proof (nat_dom_pt f n _ _ (Hn s) Pq) as Nq. pose proof (nat_dom_pt f n _ _ (Hn s') Pq') as Nq'. pose proof (at_pt_eq _ _ _ _ _ _ _ Q2 Pq) as Aq. pose proof (at_pt_eq _ _ _ _ _ _ _ Q2' Pq') as Aq'.
  assert (U : unclipped f (point_of q i)).
  { destruct f; try exact Logic.I. assert (n = 1%nat) by (apply (dims_none _ _ D); now rewrite C). subst n. exact (log_unclipped b i q e1 _ _ Hi Aq Nq Q3 Q4 H). }
  pose proof (leaf_exp_inj solve b i f n q q' e1 e1' Hi Aq Nq Aq' Nq' U Q3 Q3') as X. assert (Y : at_pt b i q' (NP f) n (point_of q i)).
  { apply X. intros pe Z. apply (at_pt_eq _ _ _ _ _ _ _ Q4'). apply (pt_trans _ _ _ (point_of e1 i)); [exact (at_pt_pt b i _ _ _ _ Hi Q4)|apply pt_sym; exact (at_pt_pt b i _ _ _ _ Hi Z)]. }
  intros k Kk. rewrite (Sv k Kk), (Sv' k Kk). f_equal. apply (search_inj f n p s s' E K H); [|exact Kk].
  apply (pt_trans _ _ _ (point_of q i)); [exact Pq|]. apply (pt_trans _ _ _ (point_of q' i)); [exact (at_pt_pt b i _ _ _ _ Hi Y)|now apply pt_sym].
Qed.
End H.

(** ** attained expectation parameters *)
Definition mkd (b : list nat) (c : cls) (n : nat) (p : point) : dist :=
  Dist c DefaultMinimizer (map (fun g => (fd_name g, RA (tbuild (b ++ supp_shape (fd_support g) n) (fun ix => Fin (p false (fd_name g) (skipn (length b) ix)))))) (fields c)) [].
Lemma mkd_get b n p m k t l : dget (map (fd_ctx n) l) m = Some (k, t) -> (forall g, In g l -> kind_of (fd_support g) = KR) ->
  k = KR /\ dget (map (fun g => (fd_name g, RA (tbuild (b ++ supp_shape (fd_support g) n) (fun ix => Fin (p false (fd_name g) (skipn (length b) ix)))))) l) m =
    Some (RA (tbuild (b ++ t) (fun ix => Fin (p false m (skipn (length b) ix))))).
Proof.
  induction l as [|g l IH]; [discriminate|]. intros X H. cbn [map dget fd_ctx] in X |- *. destruct (keq m (fd_name g)) as [->|N]; [|apply IH; [exact X|intros; apply H; now right]].
  injection X as <- <-. rewrite (H g (or_introl eq_refl)). split; reflexivity.
Qed.
Lemma mkd_at b i c n p : inb b i = true -> (forall g, In g (fields c) -> kind_of (fd_support g) = KR) -> is_joint c = false -> (dimensions_field c = None -> n = 1%nat) -> dims_ok c n = true -> at_pt b i (mkd b c n p) c n p.
Proof.
  intros Hi K J D1 D2. assert (PH : params_hold b (dparams (mkd b c n p)) (ctx_of c n)).
  { unfold params_hold, mkd, ctx_of. cbn [dparams]. clear J D1 D2. induction (fields c) as [|g l IH]; [constructor|]. cbn [map]. constructor; [|apply IH; intros; apply K; now right].
    cbn [fst snd fd_ctx]. split; [reflexivity|]. rewrite (K g (or_introl eq_refl)). eexists. split; reflexivity. }
  destruct (ctx_shaped b c DefaultMinimizer _ n PH D1 D2) as [D S]. split; [reflexivity| |exact S|exact D|].
  - apply wf_leaf; [exact J|]. unfold mkd. cbn [dparams]. rewrite map_map. reflexivity.
  - intros m k t j X Hj. destruct (mkd_get b n p m k t (fields c) X K) as [-> E]. unfold vals_of. unfold mkd. cbn [dparams]. rewrite E. cbn [get_kind pvals]. change (tget (tbuild (b ++ t) (fun ix => Fin (p false m (skipn (length b) ix)))) (i ++ j)%list = Fin (p false m j)).
    rewrite tget_tbuild by (rewrite inb_app by (now apply inb_length); now rewrite Hi, Hj). f_equal. f_equal. rewrite <- (inb_length _ _ Hi). now rewrite skipn_app, skipn_all, Nat.sub_diag.
Qed.

Lemma attain_pt f n p : closed_nat f = false -> f <> GeneralizedDirichlet -> dims_ok (EP f) n = true -> exp_dom f n p -> attainable f n p -> exists q, nat_dom f n q /\ unclipped f q /\ pt_eq (EP f) n (expR n q f) p.
Proof.
  intros C Ng D H T. destruct f; try discriminate C; try congruence; cbn [exp_dom attainable] in *.
  1, 4: destruct T as [N T]; destruct (dirichlet_onto n (fun k => p false "mean_log_probability" [k]) N T) as (al & Al);
    exists (mkpt [("alpha_minus_one", re (fun j => al (hd 0%nat j) - 1))]); cbn [nat_dom unclipped]; (split; [split; [exact N|]|split; [exact Logic.I|]]);
    [intros k K; mk; pose proof (proj1 (Al k K)); lra|apply pt_intro; cbn [fields]; ptf; (split; [|discriminate]); mk; rewrite <- (proj2 (Al k Hk)); f_equal; [f_equal; ring|];
     f_equal; f_equal; rewrite <- (Rmult_1_r (INR n)), <- sumR_const, <- sumR_plus; apply sumR_ext; intros a _; ring].
  1, 2: destruct (digamma_onto (p false "mean_log" [] + ln (1 / 2))) as (a & A1 & A2); exists (mkpt [("k_over_two_minus_one", re (fun _ => a - 1))]); cbn [nat_dom unclipped];
    (split; [mk; lra|split; [exact Logic.I|]]); apply pt_intro; cbn [fields]; ptf; (split; [|discriminate]); mk; replace (a - 1 + 1) with a by ring; lra.
  - destruct H as [H1 H2]. destruct (ln_digamma_onto (ln (p false "mean" []) - p false "mean_log" []) ltac:(lra)) as (a & A1 & A2). exists (mkpt [("negative_rate", re (fun _ => - (a / p false "mean" []))); ("shape_minus_one", re (fun _ => a - 1))]).
    assert (Q : 0 < a / p false "mean" []) by now apply Rdiv_lt_0_compat. cbn [nat_dom unclipped]. split; [mk; split; lra|]. split; [exact Logic.I|]. apply pt_intro; cbn [fields]; ptf; (split; [|discriminate]); mk.
    + field. lra.
    + rewrite Ropp_involutive. replace (a - 1 + 1) with a by ring. rewrite ln_div by assumption. lra.
  - destruct (chi_onto (-50) (-1 / 10000000) (p false "chi" []) ltac:(lra) ltac:(lra) T) as (l & L1 & L2). exists (mkpt [("log_probability", re (fun _ => l))]). cbn [nat_dom unclipped]. split; [mk; lra|]. split; [mk; unfold log_probability_floor, log_probability_ceiling; lra|].
    apply pt_intro; cbn [fields]; ptf; (split; [|discriminate]); mk. exact L2.
  - assert (V : - (1 / 2) <= INR n * (1 / 2) - 1). { assert (1 <= INR n); [|lra]. apply (le_INR 1). destruct n; [cbn in H; lra|lia]. }
    set (N2 := sumR n (fun k => p false "mean" [k] * p false "mean" [k])) in *. assert (S0 : 0 < sqrt N2) by (apply sqrt_lt_R0; tauto). assert (S1 : sqrt N2 < 1) by (rewrite <- sqrt_1; apply sqrt_lt_1_alt; lra).
    destruct (brat_onto _ (sqrt N2) V (conj S0 S1)) as (z & Z1 & Z2). exists (snR n p (fun _ => spi z) VonMisesFisher). assert (Hd : nat_dom VonMisesFisher n (snR n p (fun _ => spi z) VonMisesFisher)) by (apply search_dom; auto; exact Logic.I).
    split; [exact Hd|]. split; [exact Logic.I|]. destruct (vmf_mean_norm n _ Hd) as (_ & _ & _ & _ & E). rewrite (sps_norm n p _ H), sps_spi, Z2 in E by exact Z1.
    apply pt_intro; cbn [fields]; ptf; (split; [|discriminate]). rewrite (E k Hk). unfold snR. mk. fold N2. rewrite sps_spi by exact Z1. field. lra.
Qed.
Lemma attain_nec f n p q : nat_dom f n q -> unclipped f q -> dims_ok (EP f) n = true -> pt_eq (EP f) n (expR n q f) p -> attainable f n p.
Proof.
  intros H U D P. destruct f; try exact Logic.I; cbn [nat_dom unclipped attainable] in *.
  1, 2: destruct H as [N H]; split; [exact N|]; pts P; rewrite (sumR_ext n _ (fun k => exp (digamma (q false "alpha_minus_one" [k] + 1) - digamma (sumR n (fun k => q false "alpha_minus_one" [k] + 1)))));
    [apply (dirichlet_range n (fun k => q false "alpha_minus_one" [k] + 1) N); intros k K; pose proof (H k K); lra|];
    intros k K; rewrite <- (proj1 (P0 [k] ltac:(now apply inb1_intro))); mk; rewrite sumR_shift, Rmult_1_r; reflexivity.
  pts P. rewrite <- (proj1 (P0 [] eq_refl)). mk. set (l := q false "log_probability" []) in *. change (chi_of (-50) <= chi_of l <= chi_of (-1 / 10000000)). unfold log_probability_floor, log_probability_ceiling in U.
  split; [destruct (Req_dec (-50) l) as [<-|Ne]; [lra|]; left; apply chi_incr; lra|destruct (Req_dec l (-1 / 10000000)) as [->|Ne]; [lra|]; left; apply chi_incr; lra].
Qed.
Section A.
Variable solve : minimizer -> dist -> nat -> xr.
Notation L := (fam_methods solve).
Theorem t_attained b i f e n : f <> GeneralizedDirichlet -> proper_e b i f e -> dims_of e = Ok n -> ((exists q, mean_of L b i f q e) <-> attainable f n (point_of e i)).
Proof.
  intros Ng (C & W & S & Hi & Dom) D. destruct (exp_dom_at b i e f Hi C W S Dom) as (n' & A & H). assert (n' = n) by (rewrite (ap_dims _ _ _ _ _ _ A) in D; congruence). subst n'.
  destruct (leaf_dims _ _ S) as (n' & D' & K). assert (n' = n) by congruence. subst n'. rewrite C in K. split.
  - intros (q & Mq). destruct (e2n f) eqn:E; [|destruct f; try discriminate E; exact Logic.I]. destruct (mean_pt solve b i f n q e A H Mq) as (B & Kn & U & P). exact (attain_nec f n _ _ Kn U K P).
  - intros T. destruct (closed_nat f) eqn:Cn.
    + destruct (nat_at solve b i e f n _ Hi A H Cn) as (q & Q1 & Q2). pose proof (nat_ok f n _ Cn H) as Hn. destruct (exp_at solve b i q f n _ Hi Q2 Hn ltac:(destruct f; try discriminate Cn; exact Logic.I)) as (e' & E1 & E2).
      exists q. pose proof Q2 as [C' W' S' D2 V']. split; [repeat (split; [assumption|]); exact (at_pt_nat_dom b i q f n _ Hi Q2 Hn)|]. exists e'. split; [now rewrite (api_exp_leaf _ _ f)|].
      apply (at_pt_params b i e e' (EP f) n _ A). apply (at_pt_eq _ _ _ _ _ _ _ E2). now apply exp_nat.
    + destruct (attain_pt f n _ Cn Ng K H T) as (q & Q1 & Q2 & Q3).
      assert (B : at_pt b i (mkd b (NP f) n q) (NP f) n q).
      { apply mkd_at; [exact Hi| |reflexivity| |now rewrite dims_ok_np_ep]; [intros g Ig; destruct f; try discriminate Cn; cbn in Ig; intuition subst; reflexivity|]. intros X. apply dims_np in X. rewrite <- C in X. exact (dims_none _ _ D X). }
      destruct (exp_at solve b i _ f n _ Hi B Q1 Q2) as (e' & E1 & E2). exists (mkd b (NP f) n q). pose proof B as [C' W' S' D2 V']. split; [repeat (split; [assumption|]); exact (at_pt_nat_dom b i _ f n _ Hi B Q1)|].
      exists e'. split; [now rewrite (api_exp_leaf _ _ f)|]. apply (at_pt_params b i e e' (EP f) n _ A). exact (at_pt_eq _ _ _ _ _ _ _ E2 Q3).
Qed.
(** ** one search parameter: the gradient increases *)
Definition one_search (f : family) : bool := match f with Gamma | ChiSquare | VonMisesFisher | Logarithmic => true | _ => false end.
Lemma grad_incr f n p s t : one_search f = true -> exp_dom f n p -> s 0%nat < t 0%nat -> gradR f n p s 0 < gradR f n p t 0.
Proof.
  intros E H Lt. pose proof (sps_incr _ _ Lt) as Q. pose proof (sps_pos (s 0%nat)) as P. destruct f; try discriminate E; unfold gradR.
  - unfold snR. mk. pose proof (adj_min_gt (-1)). pose proof (digamma_incr (sps (s 0%nat) + adj_min (-1) + 1) (sps (t 0%nat) + adj_min (-1) + 1) ltac:(lra) ltac:(lra)). lra.
  - pose proof (digamma_ln_incr _ _ P Q). lra.
  - unfold snR. mk. assert (Q' : sps (- t 0%nat) < sps (- s 0%nat)) by (apply sps_incr; lra). pose proof (sps_pos (- t 0%nat)). pose proof (adj_max_lt 0).
    pose proof (chi_incr (adj_max 0 - sps (- s 0%nat)) (adj_max 0 - sps (- t 0%nat)) ltac:(lra) ltac:(lra)) as X. unfold chi_of in X. lra.
  - assert (V : - (1 / 2) <= INR n * (1 / 2) - 1). { assert (1 <= INR n); [|lra]. apply (le_INR 1). destruct n; [cbn in H; lra|lia]. }
    assert (brat (INR n * (1 / 2) - 1) (sps (s 0%nat)) < brat (INR n * (1 / 2) - 1) (sps (t 0%nat))); [|lra]. unfold brat. apply bessel_ratio_incr; lra.
Qed.
Theorem t_grad_incr b i f e n sp sp' : one_search f = true -> proper_e b i f e -> dims_of e = Ok n -> (f = VonMisesFisher -> b = []) -> 
  finite_search b i 1 sp -> finite_search b i 1 sp' -> xltb (tget sp (i ++ [0%nat])%list) (tget sp' (i ++ [0%nat])%list) = true ->
  (f = Logarithmic -> forall q, search_to_natural e f sp = Ok q -> -50 <= par q i "log_probability" []) ->
  exists g g' x x', search_gradient e f sp = Ok g /\ search_gradient e f sp' = Ok g' /\ tget g (i ++ [0%nat])%list = Fin x /\ tget g' (i ++ [0%nat])%list = Fin x' /\ x < x'.
Proof.
  intros E (C & W & S & Hi & Dom) D Vb [Sp Sf] [Sp' Sf'] Lt Hl. destruct (exp_dom_at b i e f Hi C W S Dom) as (n' & A & H). assert (n' = n) by (rewrite (ap_dims _ _ _ _ _ _ A) in D; congruence). subst n'. set (p := point_of e i) in *.
  destruct (leaf_dims _ _ S) as (n' & D' & K). assert (n' = n) by congruence. subst n'. rewrite C in K.
  destruct (Sf 0%nat Nat.lt_0_1) as (v & Ev). destruct (Sf' 0%nat Nat.lt_0_1) as (v' & Ev'). rewrite Ev, Ev' in Lt. assert (Vv : v < v'). { unfold xltb, rltb in Lt. destruct (Rlt_dec v v'); [assumption|discriminate]. }
  assert (M : search_count f n = Some 1%nat) by (destruct f; try discriminate E; reflexivity). destruct (count_dim f n 1 M K) as [E2 Em].
  assert (Sv : forall k, (k < 1)%nat -> tget sp (i ++ [k])%list = Fin ((fun _ => v) k)) by (intros k Kk; replace k with 0%nat by lia; exact Ev). assert (Sv' : forall k, (k < 1)%nat -> tget sp' (i ++ [k])%list = Fin ((fun _ => v') k)) by (intros k Kk; replace k with 0%nat by lia; exact Ev').
  assert (Hn : forall t, nat_dom f n (snR n p t f)) by (intros t; apply search_dom; auto; destruct f; try discriminate E; exact Logic.I).
  destruct (grad_at solve b i e f n p sp _ 1 Hi A H M Vb (Hn _) Sp Sv) as (g & G1 & _ & G3). destruct (grad_at solve b i e f n p sp' _ 1 Hi A H M Vb (Hn _) Sp' Sv') as (g' & G1' & _ & G3').
  assert (U : unclipped f (snR n p (fun _ => v) f)).
  { destruct f; try exact Logic.I. split; [|apply snR_ceiling]. rewrite Em in Sp. destruct (s2n_at b i e Logarithmic n p sp (fun _ => v) Hi eq_refl A H Sp Sv) as (q & Q1 & Q2). specialize (Hl eq_refl q Q1).
    pose proof (at_pt_pt b i _ _ _ _ Hi Q2) as Pq. pts Pq. rewrite (proj1 (P [] eq_refl)). exact Hl. }
  assert (U' : unclipped f (snR n p (fun _ => v') f)).
  { destruct f; try exact Logic.I. split; [|apply snR_ceiling]. cbn [unclipped] in U. eapply Rle_trans; [exact (proj1 U)|]. unfold snR. mk. pose proof (sps_incr (- v') (- v) ltac:(lra)). lra. }
  exists g, g', (gradR f n p (fun _ => v) 0), (gradR f n p (fun _ => v') 0). split; [exact G1|]. split; [exact G1'|]. split; [exact (G3 U 0%nat Nat.lt_0_1)|]. split; [exact (G3' U' 0%nat Nat.lt_0_1)|]. now apply grad_incr.
Qed.
End A.
Section B.
Variable solve : minimizer -> dist -> nat -> xr.
Notation L := (fam_methods solve).
Theorem t_always b i f e n : f = Gamma \/ (f = VonMisesFisher /\ b = []) -> proper_e b i f e -> dims_of e = Ok n -> exists sp, search_root b i f 1 e sp.
Proof.
  intros F P D. assert (M : search_count f n = Some 1%nat) by (destruct F as [->|[-> _]]; reflexivity).
  apply (t_root_iff solve b i f e n 1 P D M); [destruct F as [->|[-> _]]; discriminate|destruct F as [->|[-> Eb]]; [discriminate|auto]|].
  destruct (proj2 (t_attained solve b i f e n ltac:(destruct F as [->|[-> _]]; discriminate) P D)) as (q & Q); [destruct F as [->|[-> _]]; exact Logic.I|]. exists q. split; [exact Q|]. destruct F as [->|[-> _]]; exact Logic.I.
Qed.
End B.
