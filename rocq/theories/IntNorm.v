(** Every density of a one-dimensional family sums or integrates to one. *)
From Coquelicot Require Import Coquelicot.
From Coq Require Import String List Bool Arith Reals Lia Lra.
From Verif Require Import Base XReal Tensor TensorFacts Support Dist Iteration Structure Spec SumSpec DotSpec Tools Joint SpecFun GammaFn Expr Fam DotFacts BatchFacts
  PointSpec PointFacts Val FamR FamVal ConvFacts LeafVal DerivFacts DensSpec DensVal DensThms IntSpec IntFacts GammaInt.
Import ListNotations.
Local Unset Asymmetric Patterns.
Local Open Scope string_scope.
Local Open Scope R_scope.

Lemma nint_norm lo hi F a g : nint lo hi F (exp a) -> (forall t, inside lo hi t -> g t = exp (- a) * F t) -> nint lo hi g 1.
Proof.
  intros N E. replace 1 with (exp (- a) * exp a) by (rewrite <- exp_plus; replace (- a + a) with 0 by ring; apply exp_0).
  eapply nint_ext; [|exact (nint_scal _ _ _ _ (exp (- a)) (Rlt_le _ _ (exp_pos _)) N)]. intros t Ht. symmetry. now apply E.
Qed.
Lemma gamma_rate a r : 0 < a -> 0 < r -> nint 0 p_infty (fun x => exp ((a - 1) * ln x - r * x)) (exp (lngamma a - a * ln r)).
Proof.
  intros Ha Hr. pose proof (nint_subst 0 p_infty 0 p_infty _ _ (fun x => r * x) (fun _ => r) (gamma_int a Ha)) as K.
  replace (lngamma a - a * ln r) with (- (a * ln r) + lngamma a) by ring. rewrite exp_plus. eapply nint_ext; [|eapply nint_scal; [apply Rlt_le, exp_pos|apply K]].
  - intros t Ht. apply in0p in Ht. cbv beta. unfold Rpower. rewrite ln_mult by assumption. rewrite <- (exp_ln r) at 4 by exact Hr. rewrite <- !exp_plus. f_equal. ring.
  - intros t Ht. apply in0p in Ht. split; [|exact Logic.I]. cbn. now apply Rmult_lt_0_compat.
  - intros s Hs. apply in0p in Hs. exists (s / r). split; [split; [|exact Logic.I]; cbn; now apply Rdiv_lt_0_compat|field; lra].
  - intros t _. auto_derive; [auto|ring].
  - intros t _. apply continuous_const.
  - intros; exact Hr.
Qed.
Ltac lpe := lps; unfold scalar_obs; cbv iota.
Lemma norm_gamma n p : nat_dom Gamma n p -> nint 0 p_infty (fun t => exp (lpR n p (scalar_obs t) Gamma)) 1.
Proof.
  cbn [nat_dom]. intros [H1 H2]. eapply nint_norm; [exact (gamma_rate (p false "shape_minus_one" [] + 1) (- p false "negative_rate" []) ltac:(lra) ltac:(lra))|].
  intros t Ht. cbv beta. rewrite <- exp_plus. f_equal. lpe. ring.
Qed.
Lemma norm_exponential n p : nat_dom Exponential n p -> nint 0 p_infty (fun t => exp (lpR n p (scalar_obs t) Exponential)) 1.
Proof.
  cbn [nat_dom]. intros H. eapply nint_norm; [exact (gamma_rate 1 (- p false "negative_rate" []) ltac:(lra) ltac:(lra))|].
  intros t Ht. cbv beta. rewrite <- exp_plus. f_equal. lpe. rewrite lngamma_1. ring.
Qed.
Lemma norm_chisquare n p : nat_dom ChiSquare n p -> nint 0 p_infty (fun t => exp (lpR n p (scalar_obs t) ChiSquare)) 1.
Proof.
  cbn [nat_dom]. intros H. eapply nint_norm; [exact (gamma_rate (p false "k_over_two_minus_one" [] + 1) (1 / 2) ltac:(lra) ltac:(lra))|].
  intros t Ht. cbv beta. rewrite <- exp_plus. f_equal. lpe. field.
Qed.
(** x |-> x * x and x |-> x ^ k as changes of variable of (0, oo) *)
Lemma nint_square F v : nint 0 p_infty F v -> nint 0 p_infty (fun t => F (t * t) * (2 * t)) v.
Proof.
  intros N. apply (nint_subst 0 p_infty 0 p_infty _ _ (fun x => x * x) (fun x => 2 * x) N).
  - intros t Ht. apply in0p in Ht. split; [|exact Logic.I]. cbn. now apply Rmult_lt_0_compat.
  - intros s Hs. apply in0p in Hs. exists (sqrt s). split; [split; [|exact Logic.I]; cbn; now apply sqrt_lt_R0|apply sqrt_sqrt; lra].
  - intros t _. auto_derive; [auto|ring].
  - intros t _. apply (ex_derive_continuous (fun x => 2 * x)). auto_derive. auto.
  - intros t Ht. apply in0p in Ht. lra.
Qed.
Lemma nint_power k F v : 0 < k -> nint 0 p_infty F v -> nint 0 p_infty (fun t => F (Rpower t k) * (k * Rpower t (k - 1))) v.
Proof.
  intros Hk N. apply (nint_subst 0 p_infty 0 p_infty _ _ (fun x => Rpower x k) (fun x => k * Rpower x (k - 1)) N).
  - intros t Ht. split; [|exact Logic.I]. cbn. apply pow_pos'.
  - intros s Hs. apply in0p in Hs. exists (Rpower s (/ k)). split; [split; [|exact Logic.I]; cbn; apply pow_pos'|]. rewrite Rpower_mult, Rinv_l, Rpower_1; lra.
  - intros t Ht. apply in0p in Ht. now apply der_pw.
  - intros t Ht. apply in0p in Ht. apply (continuous_scal_r k (fun x => Rpower x (k - 1))), cont_pw, Ht.
  - intros t Ht. apply Rmult_lt_0_compat; [exact Hk|apply pow_pos'].
Qed.
Lemma norm_chi n p : nat_dom Chi n p -> nint 0 p_infty (fun t => exp (lpR n p (scalar_obs t) Chi)) 1.
Proof.
  intros H. eapply nint_ext; [|exact (nint_square _ _ (norm_chisquare n p H))]. intros t Ht. apply in0p in Ht. cbv beta. rewrite <- (exp_ln (2 * t)) by lra. rewrite <- exp_plus. f_equal. lpe. ring.
Qed.
Definition one_par (nm : string) (t : R) : point := fun c m j => if String.eqb m nm then t else 0.
Lemma norm_rayleigh n p : nat_dom Rayleigh n p -> nint 0 p_infty (fun t => exp (lpR n p (scalar_obs t) Rayleigh)) 1.
Proof.
  cbn [nat_dom]. intros H. assert (N := norm_exponential n (one_par "negative_rate" (p false "eta" [])) H).
  eapply nint_ext; [|exact (nint_square _ _ N)]. intros t Ht. apply in0p in Ht. cbv beta. rewrite <- (exp_ln (2 * t)) by lra. rewrite <- exp_plus. f_equal. lpe. cbv beta delta [one_par]. cbn [String.eqb Ascii.eqb Bool.eqb]. rewrite ln_mult by lra. ring.
Qed.
Lemma norm_weibull n p : nat_dom Weibull n p -> nint 0 p_infty (fun t => exp (lpR n p (scalar_obs t) Weibull)) 1.
Proof.
  cbn [nat_dom]. intros [Hk H]. assert (N := norm_exponential n (one_par "negative_rate" (p false "eta" [])) H).
  eapply nint_ext; [|exact (nint_power _ _ _ Hk N)]. intros t Ht. apply in0p in Ht. cbv beta. rewrite <- (exp_ln (p false "concentration" [] * Rpower t (p false "concentration" [] - 1))) by (apply Rmult_lt_0_compat; [exact Hk|apply pow_pos']).
  rewrite <- exp_plus. f_equal. lpe. cbv beta delta [one_par]. cbn [String.eqb Ascii.eqb Bool.eqb]. rewrite ln_mult by (try exact Hk; apply pow_pos'). unfold Rpower at 2. rewrite ln_exp. ring.
Qed.
Lemma sumR2 g : sumR 2 g = g 0%nat + g 1%nat. Proof. unfold sumR. cbn. ring. Qed.
Lemma norm_beta p : nat_dom Beta 2 p -> nint 0 1 (fun t => exp (lpR 2 p (scalar_obs t) Beta)) 1.
Proof.
  cbn [nat_dom]. intros [_ H]. pose proof (H 0%nat ltac:(lia)) as H0. pose proof (H 1%nat ltac:(lia)) as H1.
  eapply nint_norm; [exact (beta_int (p false "alpha_minus_one" [0%nat] + 1) (p false "alpha_minus_one" [1%nat] + 1) ltac:(lra) ltac:(lra))|].
  intros t Ht. unfold bk, Rpower. rewrite <- !exp_plus. f_equal. lpe. rewrite !sumR2. cbn [Nat.eqb]. change (INR 2) with (1 + 1).
  replace (p false "alpha_minus_one" [0%nat] + p false "alpha_minus_one" [1%nat] + (1 + 1)) with (p false "alpha_minus_one" [0%nat] + 1 + (p false "alpha_minus_one" [1%nat] + 1)) by ring. unfold Rminus. ring.
Qed.
(** exp of a quadratic *)
Lemma quad_int a b c : a < 0 -> nint m_infty p_infty (fun x => exp (a * (x * x) + b * x + c)) (exp (- (b * b) / (4 * a) + 1 / 2 * ln (- PI / a) + c)).
Proof.
  intros Ha. pose proof PI_RGT_0 as Pp. assert (Q : 0 < - PI / a) by (replace (- PI / a) with (PI / - a) by (field; lra); apply Rdiv_lt_0_compat; lra).
  pose proof (gauss_int (- b / (2 * a)) (- 1 / (2 * a)) ltac:(replace (- 1 / (2 * a)) with (1 / (2 * - a)) by (field; lra); apply Rdiv_lt_0_compat; lra)) as N.
  replace (2 * PI * (- 1 / (2 * a))) with (- PI / a) in N by (field; lra).
  replace (sqrt (- PI / a)) with (exp (1 / 2 * ln (- PI / a))) in N. 2:{ rewrite <- Rpower_sqrt by exact Q. unfold Rpower. f_equal. field. }
  replace (- (b * b) / (4 * a) + 1 / 2 * ln (- PI / a) + c) with ((- (b * b) / (4 * a) + c) + 1 / 2 * ln (- PI / a)) by ring. rewrite exp_plus.
  eapply nint_ext; [|eapply nint_scal; [apply Rlt_le, exp_pos|exact N]]. intros t _. cbv beta. rewrite <- exp_plus. f_equal. field. lra.
Qed.
Lemma norm_normal n p : nat_dom Normal n p -> nint m_infty p_infty (fun t => exp (lpR n p (scalar_obs t) Normal)) 1.
Proof.
  cbn [nat_dom]. intros H. set (a := p false "negative_half_precision" []) in *. set (b := p false "mean_times_precision" []).
  pose proof (quad_int a b 0 H) as N. eapply nint_norm; [exact N|]. intros t _. cbv beta. rewrite <- exp_plus. f_equal. lpe. fold a b. ring.
Qed.
Lemma norm_unit_normal n p : nint m_infty p_infty (fun t => exp (lpR n p (scalar_obs t) UnitNormal)) 1.
Proof.
  pose proof (quad_int (- (1 / 2)) (p false "mean" []) 0 ltac:(lra)) as N. eapply nint_norm; [exact N|]. intros t _. cbv beta. rewrite <- exp_plus. f_equal. lpe. replace (- PI / - (1 / 2)) with (PI * 2) by field. field.
Qed.
(** ** discrete families *)
Lemma nser_1 a : (forall k, 0 <= a k) -> is_series a 1 -> nser a 1. Proof. now split. Qed.
Lemma fact_lngamma k : exp (- lngamma (INR k + 1)) = / INR (fact k).
Proof. rewrite lngamma_fact, exp_Ropp, exp_ln; [reflexivity|apply INR_fact_lt_0]. Qed.
Lemma exp_series x : is_series (fun k => / INR (fact k) * x ^ k) (exp x).
Proof. pose proof (is_exp_Reals x) as H. unfold is_pseries in H. apply (is_series_ext_R (fun k => scal (pow_n x k) (/ INR (fact k)))); [|exact H]. intros k. rewrite pow_n_pow. unfold scal; cbn. unfold mult; cbn. ring. Qed.
Lemma norm_poisson n p : nser (fun k => exp (lpR n p (scalar_obs (INR k)) Poisson)) 1.
Proof.
  split; [intros; apply Rlt_le, exp_pos|]. set (th := p false "log_mean" []).
  apply (is_series_ext_R (fun k => exp (- exp th) * (/ INR (fact k) * exp th ^ k))).
  - intros k. rewrite exp_pow, <- fact_lngamma, <- !exp_plus. f_equal. lpe. fold th. ring.
  - replace 1 with (exp (- exp th) * exp (exp th)) by (rewrite <- exp_plus; replace (- exp th + exp th) with 0 by ring; apply exp_0). apply (is_series_scal_l (exp (- exp th)) _ _ (exp_series (exp th))).
Qed.
Lemma series_to (a : nat -> R) (v w : R) : v = w -> is_series a v -> is_series a w. Proof. now intros ->. Qed.
Lemma exp_lt1 t : t < 0 -> 0 < exp t < 1. Proof. intros H. split; [apply exp_pos|]. rewrite <- exp_0. now apply exp_increasing. Qed.
Lemma geom_series q : 0 < q < 1 -> is_series (fun k => q ^ k) (/ (1 - q)).
Proof. intros H. apply is_series_geom. rewrite Rabs_pos_eq; lra. Qed.
Lemma norm_geometric n p : nat_dom Geometric n p -> nser (fun k => exp (lpR n p (scalar_obs (INR k)) Geometric)) 1.
Proof.
  cbn [nat_dom]. intros H. split; [intros; apply Rlt_le, exp_pos|]. set (th := p false "log_not_p" []) in *. pose proof (exp_lt1 th H) as E.
  apply (is_series_ext_R (fun k => (1 - exp th) * exp th ^ k)).
  - intros k. rewrite exp_pow. rewrite <- (exp_ln (1 - exp th)) at 1 by lra. rewrite <- exp_plus. f_equal. lpe. fold th. replace (INR k + 1 - 1 + 1) with (INR k + 1) by ring. replace (INR k + 1 - 1 - INR k + 1) with 1 by ring. rewrite lngamma_1. unfold Rminus. ring.
  - apply (series_to _ ((1 - exp th) * / (1 - exp th)) 1); [field; lra|]. apply (is_series_scal_l (1 - exp th) _ _ (geom_series _ E)).
Qed.
