(** Facts about the concentration and angle of von Mises-Fisher distributions (C44). *)
From Coquelicot Require Import Coquelicot.
From Coq Require Import String List Bool Arith Reals Lia Lra.
From Verif Require Import Base XReal Tensor TensorFacts Support Dist DictFacts Iteration Structure Spec SumSpec DotSpec Tools Joint SpecFun GammaFn Expr Fam ExprFacts FamTy FamFacts SearchFacts DotFacts StructThms SumFacts MapFacts
  JointThms JointThms2 DotLaws BatchFacts PlaneFacts PointSpec PointFacts Val FamR FamVal ConvFacts LeafVal ConvThms DensSpec DensVal DensThms KlSpec MethodSpec Kappa.
Import ListNotations.
Local Unset Asymmetric Patterns.
Local Open Scope string_scope.
Local Open Scope R_scope.

Lemma hyp_pos x y : x <> 0 -> sqrt (x * x + y * y) = Rabs x * sqrt (1 + Rsqr (y / x)).
Proof.
  intros X. replace (x * x + y * y) with (Rsqr x * (1 + Rsqr (y / x))) by (unfold Rsqr; field; exact X).
  rewrite sqrt_mult; [now rewrite sqrt_Rsqr_abs|apply Rle_0_sqr|pose proof (Rle_0_sqr (y / x)); lra].
Qed.
Lemma hyp1 t : 0 < sqrt (1 + Rsqr t).
Proof. apply sqrt_lt_R0. pose proof (Rle_0_sqr t). lra. Qed.
Lemma arctan2_polar x y : sqrt (x * x + y * y) * cos (arctan2 y x) = x /\ sqrt (x * x + y * y) * sin (arctan2 y x) = y.
Proof.
  unfold arctan2. destruct (Rlt_dec 0 x) as [H|H].
  - rewrite (hyp_pos x y) by lra. rewrite Rabs_pos_eq by lra. rewrite cos_atan, sin_atan. pose proof (hyp1 (y / x)). split; field; lra.
  - destruct (Rlt_dec x 0) as [H'|H'].
    + rewrite (hyp_pos x y) by lra. rewrite Rabs_left by lra. pose proof (hyp1 (y / x)) as Q.
      assert (C1 : cos (atan (y / x) + PI) = - cos (atan (y / x))) by apply neg_cos. assert (S1 : sin (atan (y / x) + PI) = - sin (atan (y / x))) by apply neg_sin.
      assert (C2 : cos (atan (y / x) - PI) = - cos (atan (y / x))). { rewrite <- (cos_period _ 1). rewrite <- C1. f_equal. cbn [INR]. ring. }
      assert (S2 : sin (atan (y / x) - PI) = - sin (atan (y / x))). { rewrite <- (sin_period _ 1). rewrite <- S1. f_equal. cbn [INR]. ring. }
      destruct (Rle_dec 0 y); [rewrite C1, S1|rewrite C2, S2]; rewrite cos_atan, sin_atan; split; field; lra.
    + assert (x = 0) by lra. subst x. replace (0 * 0 + y * y) with (Rsqr y) by (unfold Rsqr; ring). rewrite sqrt_Rsqr_abs.
      destruct (Rlt_dec 0 y) as [Y|Y]; [rewrite cos_PI2, sin_PI2, Rabs_pos_eq by lra; lra|]. destruct (Rlt_dec y 0) as [Y'|Y'].
      * rewrite cos_neg, sin_neg, cos_PI2, sin_PI2, Rabs_left by lra. lra.
      * assert (y = 0) by lra. subst y. rewrite Rabs_R0. lra.
Qed.
Lemma arctan2_range x y : - PI < arctan2 y x <= PI.
Proof.
  pose proof PI_RGT_0. pose proof (atan_bound (y / x)). unfold arctan2. destruct (Rlt_dec 0 x) as [H1|H1]; [lra|]. destruct (Rlt_dec x 0) as [H2|H2].
  - destruct (Rle_dec 0 y) as [Y|Y].
    + split; [lra|]. assert (y / x <= 0). { unfold Rdiv. pose proof (Rinv_lt_0_compat _ H2). nra. }
      destruct (Req_dec (y / x) 0) as [E|E]; [rewrite E, atan_0; lra|]. assert (atan (y / x) < atan 0) by (apply atan_increasing; lra). rewrite atan_0 in *. lra.
    + split; [|lra]. assert (0 < y / x). { unfold Rdiv. pose proof (Rinv_lt_0_compat _ H2). nra. } assert (atan 0 < atan (y / x)) by (apply atan_increasing; lra). rewrite atan_0 in *. lra.
  - destruct (Rlt_dec 0 y); [lra|]. destruct (Rlt_dec y 0); lra.
Qed.
Definition angR (p : point) : R :=
  let x := p false "mean_times_concentration" [0%nat] in let y := p false "mean_times_concentration" [1%nat] in
  if reqb (sqrt (x * x + y * y)) 0 then 0 else arctan2 y x.
Lemma kappa_val n p : VR (ctx_of (NP VonMisesFisher) n) p kappa_e (Ev []) (fun _ => sqrt (sumR n (fun k => p false "mean_times_concentration" [k] * p false "mean_times_concentration" [k]))).
Proof. unfold kappa_e. eapply VR_ext; [eapply VR_norm; vr|]. reflexivity. Qed.
Lemma angle_val p : VR (ctx_of (NP VonMisesFisher) 2) p angle_e (Ev []) (fun _ => angR p).
Proof.
  unfold angle_e. eapply VR_ext.
  - eapply (VR_2 _ _ _ (fun k a => if reqb k 0 then 0 else a) (fun _ _ => True)); [|exact (kappa_val 2 p)| |alt_|auto].
    + intros k a _. cbn [xeqb]. now destruct (reqb k 0).
    + eapply (VR_2 _ _ xatan2 arctan2 (fun _ _ => True)); [reflexivity|eapply VR_at; [vr|lia]|eapply VR_at; [vr|lia]|alt_|auto].
  - intros j Hj. cbv beta. unfold angR. rewrite !sumR_S, sumR_0. now rewrite Rplus_0_l.
Qed.
Lemma t_kappa b i q m : plain b i VonMisesFisher q m ->
  exists t, kappa q = Ok t /\ shp t = b /\ tget t i = Fin (sqrt (sumR m (fun k => par q i "mean_times_concentration" [k] * par q i "mean_times_concentration" [k]))).
Proof.
  intros (C & W & S & Hi & D & D2).
  pose proof (at_pt_self b i q _ m C W S D Hi D2) as [_ _ _ _ V]. pose proof (leaf_env _ _ _ S D) as HE. rewrite C in HE.
  destruct (eval_at b _ _ i _ _ [] _ HE Hi V (kappa_val m _)) as (t & T1 & T2 & T3). exists t. unfold kappa. rewrite C. split; [exact T1|]. rewrite app_nil_r in T2. split; [exact T2|]. specialize (T3 [] eq_refl). now rewrite app_nil_r in T3.
Qed.
Lemma t_kappa_angle b i q : plain b i VonMisesFisher q 2 ->
  exists k a r t, to_kappa_angle q = Ok (k, a) /\ shp k = b /\ shp a = b /\ tget k i = Fin r /\ tget a i = Fin t /\ 0 <= r /\ - PI < t <= PI /\ (r = 0 -> t = 0) /\
    r * cos t = par q i "mean_times_concentration" [0%nat] /\ r * sin t = par q i "mean_times_concentration" [1%nat].
Proof.
  intros P. destruct (t_kappa b i q 2 P) as (t & T1 & T2 & T3). destruct P as (C & W & S & Hi & D & D2).
  pose proof (at_pt_self b i q _ 2 C W S D Hi D2) as [_ _ _ _ V]. pose proof (leaf_env _ _ _ S D) as HE. rewrite C in HE.
  destruct (eval_at b _ _ i _ _ [] _ HE Hi V (angle_val _)) as (u & U1 & U2 & U3). rewrite app_nil_r in U2. specialize (U3 [] eq_refl). rewrite app_nil_r in U3.
  rewrite !sumR_S, sumR_0, Rplus_0_l in T3. exists t, u. do 2 eexists. split; [unfold to_kappa_angle; rewrite D; cbn [bind]; change (negb (2 =? 2)%nat) with false; cbv iota; rewrite T1; cbn [bind]; rewrite U1; reflexivity|].
  do 2 (split; [assumption|]). split; [exact T3|]. split; [exact U3|]. split; [apply sqrt_pos|].
  unfold angR, par, reqb. set (x := point_of q i false _ [0%nat]). set (y := point_of q i false _ [1%nat]). destruct (arctan2_polar x y) as [E1 E2]. destruct (Req_EM_T (sqrt (x * x + y * y)) 0) as [Z|Z].
  - split; [pose proof PI_RGT_0; lra|]. split; [auto|]. rewrite Z in *. lra.
  - split; [apply arctan2_range|]. split; [intros; contradiction|]. now split.
Qed.
Lemma t_kappa_dims q m : dims_of q = Ok m -> m <> 2%nat -> to_kappa_angle q = Err ValueError.
Proof. intros D N. unfold to_kappa_angle. rewrite D. cbn [bind]. now rewrite (proj2 (Nat.eqb_neq m 2) N). Qed.
