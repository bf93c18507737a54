(** The families over the real line and over the integers (C23, C25). *)
From Coquelicot Require Import Coquelicot.
From Coq Require Import String List Bool Arith ZArith Reals Lra Lia.
From Verif Require Import Base XReal Tensor Support Dist Iteration Structure Tools Joint Spec SumSpec DotSpec PointSpec DensSpec SpecFun GammaFn BesselFn Val FamR FamVal DerivFacts DensVal DensThms ConvFacts IntSpec IntFacts GammaInt IntNorm IntGen IntMulti IntFam IntSimplex.
Import ListNotations.
Local Unset Asymmetric Patterns.
Local Open Scope string_scope.
Local Open Scope R_scope.

Lemma line_mean lo hi f n p : mat f = false -> (forall p, nat_dom f n p -> nint lo hi (fun t => exp (lpR n p (scalar_obs t) f)) 1) -> nat_dom f n p ->
  (forall v t, inside lo hi t -> ex_derive (fun t => exp (lpR n p (scalar_obs t) f) * dotP (NP f) (EP f) n v (ssR n p (scalar_obs t) f)) t) ->
  improper lo hi (fun t => dens f n p (scalar_obs t)) 1 /\
  forall v, improper lo hi (fun t => dens f n p (scalar_obs t) * dotP (NP f) (EP f) n v (ssR n p (scalar_obs t) f)) (dotP (NP f) (EP f) n v (expR n p f)).
Proof.
  intros M N H D. split; [apply nint_gen; now apply N|]. intros v. apply sg_improper. apply (gen_expect (line lo hi) scalar_obs f n p v M N H). intros t Ht. apply (ex_derive_continuous (fun t => exp (lpR n p (scalar_obs t) f) * dotP (NP f) (EP f) n v (ssR n p (scalar_obs t) f))). now apply D.
Qed.
Lemma sums_mean (emb : nat -> obs) f n p : mat f = false -> (forall p, nat_dom f n p -> nser (fun k => exp (lpR n p (emb k) f)) 1) -> nat_dom f n p ->
  is_series (fun k => dens f n p (emb k)) 1 /\
  forall v, is_series (fun k => dens f n p (emb k) * dotP (NP f) (EP f) n v (ssR n p (emb k) f)) (dotP (NP f) (EP f) n v (expR n p f)).
Proof.
  intros M N H. split; [apply N; assumption|]. intros v. apply sg_series. apply (gen_expect sums emb f n p v M N H). exact Logic.I.
Qed.
Ltac ders := intros v t Ht; unfold lpR; dots; vals; unfold Rpower; auto_derive.
Lemma gamma_mean n p : nat_dom Gamma n p -> norm_ok Gamma n p /\ mean_ok Gamma n p.
Proof. intros H. apply (line_mean 0 p_infty); [reflexivity|intros; now apply norm_gamma|exact H|]. ders. destruct Ht as [H1 _]. cbn in H1. repeat split; lra. Qed.
Lemma exponential_mean n p : nat_dom Exponential n p -> norm_ok Exponential n p /\ mean_ok Exponential n p.
Proof. intros H. apply (line_mean 0 p_infty); [reflexivity|intros; now apply norm_exponential|exact H|]. ders. auto. Qed.
Lemma chisquare_mean n p : nat_dom ChiSquare n p -> norm_ok ChiSquare n p /\ mean_ok ChiSquare n p.
Proof. intros H. apply (line_mean 0 p_infty); [reflexivity|intros; now apply norm_chisquare|exact H|]. ders. destruct Ht as [H1 _]. cbn in H1. repeat split; lra. Qed.
Lemma chi_mean n p : nat_dom Chi n p -> norm_ok Chi n p /\ mean_ok Chi n p.
Proof. intros H. apply (line_mean 0 p_infty); [reflexivity|intros; now apply norm_chi|exact H|]. ders. destruct Ht as [H1 _]. cbn in H1. repeat split; nra. Qed.
Lemma rayleigh_mean n p : nat_dom Rayleigh n p -> norm_ok Rayleigh n p /\ mean_ok Rayleigh n p.
Proof. intros H. apply (line_mean 0 p_infty); [reflexivity|intros; now apply norm_rayleigh|exact H|]. ders. destruct Ht as [H1 _]. cbn in H1. repeat split; nra. Qed.
Lemma weibull_mean n p : nat_dom Weibull n p -> norm_ok Weibull n p /\ mean_ok Weibull n p.
Proof. intros H. apply (line_mean 0 p_infty); [reflexivity|intros; now apply norm_weibull|exact H|]. ders. destruct Ht as [H1 _]. cbn in H1. repeat split; nra. Qed.
Lemma beta_dot v w : dotP (NP Beta) (EP Beta) 2 v w = v false "alpha_minus_one" [0%nat] * w false "mean_log_probability" [0%nat] - v true "alpha_minus_one" [0%nat] * w true "mean_log_probability" [0%nat] +
  (v false "alpha_minus_one" [1%nat] * w false "mean_log_probability" [1%nat] - v true "alpha_minus_one" [1%nat] * w true "mean_log_probability" [1%nat]).
Proof. dots. rewrite sumR2. ring. Qed.
Lemma beta_mean p : nat_dom Beta 2 p -> norm_ok Beta 2 p /\ mean_ok Beta 2 p.
Proof.
  intros H. apply (line_mean 0 1); [reflexivity|intros; now apply norm_beta|exact H|]. intros v t Ht.
  apply (ex_derive_ext (fun t => exp (p false "alpha_minus_one" [0%nat] * ln t + p false "alpha_minus_one" [1%nat] * ln (1 + - t) - lnR 2 p Beta) * (v false "alpha_minus_one" [0%nat] * ln t + v false "alpha_minus_one" [1%nat] * ln (1 + - t)))).
  - intros x. cbv beta. unfold lpR. rewrite !beta_dot. cbv beta iota zeta delta [ssR mkpt re cx slook cmR]. cbn [String.eqb Ascii.eqb Bool.eqb hd Nat.eqb]. unfold scalar_obs. match goal with |- ?a = ?b => enough (X : a = b :> R) by exact X end. f_equal; [f_equal|]; ring.
  - auto_derive. destruct Ht as [H1 H2]. cbn in H1, H2. repeat split; lra.
Qed.
Lemma normal_mean n p : nat_dom Normal n p -> norm_ok Normal n p /\ mean_ok Normal n p.
Proof. intros H. apply (line_mean m_infty p_infty); [reflexivity|intros; now apply norm_normal|exact H|]. ders. auto. Qed.
Lemma unit_normal_mean n p : norm_ok UnitNormal n p /\ mean_ok UnitNormal n p.
Proof. apply (line_mean m_infty p_infty); [reflexivity|intros; apply norm_unit_normal|exact Logic.I|]. ders. auto. Qed.
Lemma poisson_mean n p : norm_ok Poisson n p /\ mean_ok Poisson n p.
Proof. apply (sums_mean (fun k => scalar_obs (INR k))); [reflexivity|intros; apply norm_poisson|exact Logic.I]. Qed.
Lemma geometric_mean n p : nat_dom Geometric n p -> norm_ok Geometric n p /\ mean_ok Geometric n p.
Proof. intros H. apply (sums_mean (fun k => scalar_obs (INR k))); [reflexivity|intros; now apply norm_geometric|exact H]. Qed.
Lemma nb_mean n p : nat_dom NegativeBinomial n p -> norm_ok NegativeBinomial n p /\ mean_ok NegativeBinomial n p.
Proof. intros H. apply (sums_mean (fun k => scalar_obs (INR k))); [reflexivity|intros; now apply norm_nb|exact H]. Qed.
Lemma log_mean n p : nat_dom Logarithmic n p -> norm_ok Logarithmic n p /\ mean_ok Logarithmic n p.
Proof. intros H. apply (sums_mean (fun k => scalar_obs (INR (S k)))); [reflexivity|intros; now apply norm_log|exact H]. Qed.
Lemma bernoulli_int n p : norm_ok Bernoulli n p /\ mean_ok Bernoulli n p /\ cm_ok Bernoulli n p.
Proof.
  assert (Q : forall x, dens Bernoulli n p (scalar_obs x) = exp (p false "log_odds" [] * x) / (exp (p false "log_odds" []) + 1)).
  { intros x. unfold dens, lpR. dots. vals. pose proof (exp_pos (p false "log_odds" [])). rewrite exp_0. set (o := p false "log_odds" []) in *. replace (o * x - p true "log_odds" [] * 0 + 0 + 0 - ln (exp o + 1) + 0) with (o * x + - ln (exp o + 1)) by ring.
    rewrite exp_plus, exp_Ropp, exp_ln by lra. reflexivity. }
  pose proof (exp_pos (p false "log_odds" [])). unfold norm_ok, mean_ok, cm_ok. cbn [integral_over]. rewrite !Q, !Rmult_0_r, !Rmult_1_r, exp_0. split; [field; lra|]. split; [|vals; ring].
  intros v. dots. vals. rewrite ?Rmult_0_r, ?Rmult_1_r. unfold expit. rewrite exp_Ropp. field. lra.
Qed.
(** *** Multinomial *)
Lemma onehot_nth k j : nth j (repeat 0 k ++ [1])%list 0 = if (j =? k)%nat then 1 else 0.
Proof.
  revert j. induction k as [|k IH]; intros [|j]; cbn; try reflexivity; [destruct j; reflexivity|apply IH].
Qed.
Lemma sumR_pick n k g : (k < n)%nat -> sumR n (fun j => if (j =? k)%nat then g j else 0) = g k.
Proof.
  intros K. induction n as [|n IH]; [lia|]. rewrite sumR_S. destruct (Nat.eqb_spec n k) as [->|Ne].
  - rewrite sumR_zero; [ring|]. intros j Hj. destruct (Nat.eqb_spec j k); [lia|reflexivity].
  - rewrite IH by lia. ring.
Qed.
Lemma multinomial_int n p : norm_ok Multinomial n p /\ mean_ok Multinomial n p /\ cm_ok Multinomial n p.
Proof.
  set (o k := p false "log_odds" [k]). set (Z := 1 + sumR n (fun k => exp (o k))).
  assert (HZ : 0 < Z). { unfold Z. assert (0 <= sumR n (fun k => exp (o k))); [|lra]. apply sumR_nonneg. intros k _. left. apply exp_pos. }
  assert (L : lnR n p Multinomial = ln Z) by reflexivity.
  assert (Dt : forall v x, dotP (NP Multinomial) (EP Multinomial) n v (ssR n p x Multinomial) = sumR n (fun k => v false "log_odds" [k] * x false [k])).
  { intros v x. dots. vals. rewrite Rplus_0_r. apply sumR_ext. intros; ring. }
  assert (D0 : forall v, dotP (NP Multinomial) (EP Multinomial) n v (ssR n p (vector_obs []) Multinomial) = 0).
  { intros v. rewrite Dt. apply sumR_zero. intros k _. unfold vector_obs. cbn [hd]. destruct k; cbn; ring. }
  assert (D1 : forall v k, (k < n)%nat -> dotP (NP Multinomial) (EP Multinomial) n v (ssR n p (vector_obs (repeat 0 k ++ [1])%list) Multinomial) = v false "log_odds" [k]).
  { intros v k K. rewrite Dt. rewrite <- (sumR_pick n k (fun j => v false "log_odds" [j]) K). apply sumR_ext. intros j _. unfold vector_obs. cbn [hd]. rewrite onehot_nth. destruct (j =? k)%nat; ring. }
  assert (Q0 : dens Multinomial n p (vector_obs []) = 1 / Z).
  { unfold dens, lpR. rewrite D0, L. change (cmR n p (vector_obs []) Multinomial) with 0. replace (0 - ln Z + 0) with (- ln Z) by ring. rewrite exp_Ropp, exp_ln by exact HZ. field. lra. }
  assert (Q1 : forall k, (k < n)%nat -> dens Multinomial n p (vector_obs (repeat 0 k ++ [1])%list) = exp (o k) / Z).
  { intros k K. unfold dens, lpR. rewrite D1, L by exact K. change (cmR n p (vector_obs (repeat 0 k ++ [1])%list) Multinomial) with 0. fold (o k). replace (o k - ln Z + 0) with (o k + - ln Z) by ring. rewrite exp_plus, exp_Ropp, exp_ln by exact HZ. reflexivity. }
  split; [|split].
  - unfold norm_ok. cbn [integral_over]. rewrite Q0. rewrite (sumR_ext n _ (fun k => / Z * exp (o k))) by (intros k K; rewrite Q1 by exact K; unfold Rdiv; ring). rewrite sumR_scal. replace (sumR n (fun k => exp (o k))) with (Z - 1) by (unfold Z; ring). field. lra.
  - intros v. cbn [integral_over]. rewrite D0, Rmult_0_r, Rplus_0_l. transitivity (sumR n (fun k => v false "log_odds" [k] * (exp (o k) / Z))).
    + dots. vals. rewrite Rplus_0_r. apply sumR_ext. intros k K. change (1 + sumR n (fun k0 => exp (p false "log_odds" [k0]))) with Z. fold (o k). ring.
    + apply sumR_ext. intros k K. rewrite Q1, D1 by exact K. ring.
  - unfold cm_ok. cbn [integral_over]. vals. rewrite sumR_zero by (intros; ring). ring.
Qed.
(** *** the expected carrier measure *)
Lemma zero_cm f n p : (forall x, cmR n p x f = 0) -> norm_ok f n p -> (forall F v c, integral_over f n F v -> integral_over f n (fun x => c * F x) (c * v)) -> integral_over f n (fun x => dens f n p x * cmR n p x f) 0.
Proof.
  intros Z N S. apply (S _ _ 0) in N. rewrite Rmult_0_l in N. replace (fun x => dens f n p x * cmR n p x f) with (fun x => 0 * dens f n p x); [exact N|]. apply FunctionalExtensionality.functional_extensionality. intros x. rewrite Z. ring.
Qed.
Lemma line_scal lo hi f n (E : obs -> R) v c : (forall F v, integral_over f n F v = improper lo hi (fun t => F (scalar_obs t)) v) -> integral_over f n E v -> integral_over f n (fun x => c * E x) (c * v).
Proof. intros Q. rewrite !Q. apply improper_scal. Qed.
Lemma zero_line_cm lo hi f n p : (forall F v, integral_over f n F v = improper lo hi (fun t => F (scalar_obs t)) v) -> (forall x, cmR n p x f = 0) -> ecmR n p f = 0 -> norm_ok f n p -> cm_ok f n p.
Proof. intros Q Z E N. unfold cm_ok. rewrite E. apply zero_cm; [exact Z|exact N|]. intros F v c. exact (line_scal lo hi f n F v c Q). Qed.
Lemma gamma_cm n p : nat_dom Gamma n p -> cm_ok Gamma n p.
Proof. intros H. apply (zero_line_cm 0 p_infty); [reflexivity|reflexivity|reflexivity|exact (proj1 (gamma_mean n p H))]. Qed.
Lemma exponential_cm n p : nat_dom Exponential n p -> cm_ok Exponential n p.
Proof. intros H. apply (zero_line_cm 0 p_infty); [reflexivity|reflexivity|reflexivity|exact (proj1 (exponential_mean n p H))]. Qed.
Lemma beta_cm p : nat_dom Beta 2 p -> cm_ok Beta 2 p.
Proof. intros H. apply (zero_line_cm 0 1); [reflexivity|reflexivity|reflexivity|exact (proj1 (beta_mean p H))]. Qed.
Lemma normal_cm n p : nat_dom Normal n p -> cm_ok Normal n p.
Proof. intros H. apply (zero_line_cm m_infty p_infty); [reflexivity|reflexivity|reflexivity|exact (proj1 (normal_mean n p H))]. Qed.
Lemma geometric_cm n p : nat_dom Geometric n p -> cm_ok Geometric n p.
Proof.
  intros H. destruct (geometric_mean n p H) as [N _]. unfold cm_ok, norm_ok in *. cbn [integral_over] in *. change (ecmR n p Geometric) with 0. pose proof (is_series_scal 0 _ _ N) as K. change (scal 0 1) with (0 * 1) in K. rewrite Rmult_0_l in K.
  eapply is_series_ext_R; [|exact K]. intros k. cbv beta. change (scal 0 ?a) with (0 * a). rewrite Rmult_0_l. cbv beta iota delta [cmR]. unfold nbcmR, scalar_obs. replace (INR k + 1 - 1 + 1) with (INR k + 1) by ring. replace (INR k + 1 - 1 - INR k + 1) with 1 by ring. rewrite lngamma_1. ring.
Qed.
Lemma unit_normal_cm n p : cm_ok UnitNormal n p.
Proof.
  unfold cm_ok. cbn [integral_over]. eapply improper_ext; [apply (inmp 0)| |eapply improper_to; [|exact (gd_quad (- (1 / 2)) (p false "mean" []) 0 (- (1 / 2)) 0 ltac:(lra))]].
  - intros t _. cbv beta. f_equal; [|vals; field]. unfold dens, gd, ga. f_equal. lpe. replace (- PI / - (1 / 2)) with (PI * 2) by field. field.
  - unfold gs, gm. vals. field.
Qed.
(** gamma variables, and the families that are transformed gamma variables *)
Lemma gamma_sg a r c u w : 0 < a -> 0 < r -> sg (line 0 p_infty) (fun t => exp ((a - 1) * ln t - r * t - (lngamma a - a * ln r)) * (c + u * t + w * ln t)) (c + u * (a / r) + w * (digamma a - ln r)).
Proof.
  intros Ha Hr. set (p := two_par "negative_rate" (- r) "shape_minus_one" (a - 1)). assert (D : nat_dom Gamma 1 p) by (split; unfold p; two; lra).
  assert (E : forall t, exp (lpR 1 p (scalar_obs t) Gamma) = exp ((a - 1) * ln t - r * t - (lngamma a - a * ln r))).
  { intros t. f_equal. lpe. unfold p. two. replace (a - 1 + 1) with a by ring. rewrite Ropp_involutive. ring. }
  assert (Dt : forall t, dotP (NP Gamma) (EP Gamma) 1 (two_par "negative_rate" u "shape_minus_one" w) (ssR 1 p (scalar_obs t) Gamma) = u * t + w * ln t).
  { intros t. dots. vals. two. ring. }
  pose proof (int_sg _ _ _ (norm_gamma 1 p D : int (line 0 p_infty) _ 1)) as M0.
  pose proof (gen_expect (line 0 p_infty) scalar_obs Gamma 1 p (two_par "negative_rate" u "shape_minus_one" w) eq_refl (norm_gamma 1) D) as M1.
  assert (C1 : good (line 0 p_infty) (fun t : R => exp (lpR 1 p (scalar_obs t) Gamma) * dotP (NP Gamma) (EP Gamma) 1 (two_par "negative_rate" u "shape_minus_one" w) (ssR 1 p (scalar_obs t) Gamma))).
  { intros t [H1 H2]. cbn in H1. apply (cont_eq (fun t => exp ((a - 1) * ln t - r * t - (lngamma a - a * ln r)) * (u * t + w * ln t))); [intros s; now rewrite E, Dt|].
    apply (ex_derive_continuous (fun t => exp ((a - 1) * ln t - r * t - (lngamma a - a * ln r)) * (u * t + w * ln t))). auto_derive. repeat split; lra. }
  eapply sg_ext; [|eapply sg_to; [|exact (sg_plus _ _ _ _ _ (sg_scal _ _ _ c M0) (M1 C1))]].
  - intros t _. cbv beta. rewrite E, Dt. ring.
  - dots. vals. unfold p. two. replace (a - 1 + 1) with a by ring. rewrite Ropp_involutive. field. lra.
Qed.
Lemma sg_lift lo hi lo' hi' (Tr : (R -> R) -> R -> R) F v : (forall G g, nint lo' hi' G g -> nint lo hi (Tr G) g) -> (forall A B, (forall t, inside lo' hi' t -> F t = A t - B t) -> forall t, inside lo hi t -> Tr F t = Tr A t - Tr B t) ->
  sg (line lo' hi') F v -> sg (line lo hi) (Tr F) v.
Proof. intros S Li (A & B & a & b & HA & HB & E & ->). exists (Tr A), (Tr B), a, b. split; [now apply S|]. split; [now apply S|]. split; [|reflexivity]. now apply Li. Qed.
Lemma sg_square F v : sg (line 0 p_infty) F v -> sg (line 0 p_infty) (fun t => F (t * t) * (2 * t)) v.
Proof.
  apply (sg_lift 0 p_infty 0 p_infty (fun F t => F (t * t) * (2 * t))); [intros; now apply nint_square|]. intros A B E t [H1 _]. cbn in H1. rewrite E; [ring|]. split; cbn; [nra|exact Logic.I].
Qed.
Lemma sg_power k F v : 0 < k -> sg (line 0 p_infty) F v -> sg (line 0 p_infty) (fun t => F (Rpower t k) * (k * Rpower t (k - 1))) v.
Proof.
  intros Hk. apply (sg_lift 0 p_infty 0 p_infty (fun F t => F (Rpower t k) * (k * Rpower t (k - 1)))); [intros; now apply nint_power|]. intros A B E t [H1 _]. cbn in H1. rewrite E; [ring|]. split; cbn; [apply exp_pos|exact Logic.I].
Qed.
Lemma in0 : inside 0 p_infty 1. Proof. split; cbn; [lra|exact Logic.I]. Qed.
Lemma chisquare_cm n p : nat_dom ChiSquare n p -> cm_ok ChiSquare n p.
Proof.
  cbn [nat_dom]. intros H. unfold cm_ok. cbn [integral_over]. apply sg_improper. eapply sg_ext; [|eapply sg_to; [|exact (gamma_sg (p false "k_over_two_minus_one" [] + 1) (1 / 2) 0 (- (1 / 2)) 0 ltac:(lra) ltac:(lra))]].
  - intros t _. cbv beta. f_equal; [|vals; field]. unfold dens. f_equal. lpe. field.
  - vals. field.
Qed.
Lemma chi_cm n p : nat_dom Chi n p -> cm_ok Chi n p.
Proof.
  cbn [nat_dom]. intros H. unfold cm_ok. cbn [integral_over]. apply sg_improper. eapply sg_ext; [|eapply sg_to; [|exact (sg_square _ _ (gamma_sg (p false "k_over_two_minus_one" [] + 1) (1 / 2) (ln 2) (- (1 / 2)) (1 / 2) ltac:(lra) ltac:(lra)))]].
  - intros t [H1 _]. cbn in H1. cbv beta. transitivity (dens Chi n p (scalar_obs t) * (ln 2 + - (1 / 2) * (t * t) + 1 / 2 * ln (t * t))).
    + rewrite (Rmult_comm (exp _ * _) (2 * t)), <- Rmult_assoc. f_equal. unfold dens. replace (2 * t) with (exp (ln (2 * t))) at 1 by (apply exp_ln; lra). rewrite <- exp_plus. f_equal. lpe. field.
    + f_equal. vals. rewrite !ln_mult by lra. field.
  - vals. replace (1 / 2) with (/ 2) by field. rewrite ln_Rinv by lra. field.
Qed.
Lemma rayleigh_cm n p : nat_dom Rayleigh n p -> cm_ok Rayleigh n p.
Proof.
  cbn [nat_dom]. intros H. unfold cm_ok. cbn [integral_over]. apply sg_improper. set (r := - p false "eta" []). assert (Hr : 0 < r) by (unfold r; lra). eapply sg_ext; [|eapply sg_to; [|exact (sg_square _ _ (gamma_sg 1 r (ln 2) 0 (1 / 2) ltac:(lra) Hr))]].
  - intros t [H1 _]. cbn in H1. cbv beta. transitivity (dens Rayleigh n p (scalar_obs t) * (ln 2 + 0 * (t * t) + 1 / 2 * ln (t * t))).
    + rewrite (Rmult_comm (exp _ * _) (2 * t)), <- Rmult_assoc. f_equal. unfold dens. replace (2 * t) with (exp (ln (2 * t))) at 1 by (apply exp_ln; lra). rewrite <- exp_plus. f_equal. lpe. fold r. rewrite ln_mult, lngamma_1 by lra. unfold r. ring.
    + f_equal. vals. rewrite !ln_mult by lra. field.
  - vals. replace (-1 / p false "eta" [] * (1 / 2)) with (/ (2 * r)) by (unfold r; field; lra). rewrite ln_Rinv, ln_mult, digamma_1 by lra. field. lra.
Qed.
Lemma weibull_cm n p : nat_dom Weibull n p -> cm_ok Weibull n p.
Proof.
  cbn [nat_dom]. intros [Hk H]. unfold cm_ok. cbn [integral_over]. apply sg_improper. set (r := - p false "eta" []). assert (Hr : 0 < r) by (unfold r; lra). set (k := p false "concentration" []) in *. 
  eapply sg_ext; [|eapply sg_to; [|exact (sg_power k _ _ Hk (gamma_sg 1 r 0 0 (1 - 1 / k) ltac:(lra) Hr))]].
  - intros t [H1 _]. cbn in H1. cbv beta. assert (Lp : ln (Rpower t k) = k * ln t) by (unfold Rpower; apply ln_exp). rewrite !Lp. transitivity (dens Weibull n p (scalar_obs t) * ((1 - 1 / k) * (k * ln t))).
    + rewrite (Rmult_comm (exp _ * _) (k * _)), <- Rmult_assoc. f_equal; [|ring]. unfold dens. replace (k * Rpower t (k - 1)) with (exp (ln k + (k - 1) * ln t)) by (rewrite exp_plus, exp_ln by lra; reflexivity). rewrite <- exp_plus. f_equal. lpe. fold k r. rewrite lngamma_1. unfold r. ring.
    + f_equal. vals. fold k. field. lra.
  - vals. fold k. replace (-1 / p false "eta" []) with (/ r) by (unfold r; field; lra). rewrite ln_Rinv, digamma_1 by lra. field. lra.
Qed.
