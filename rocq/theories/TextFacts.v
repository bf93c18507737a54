(** The textbook densities in exponential form (C56): scalar families. *)
From Coquelicot Require Import Coquelicot.
From Coq Require Import String List Bool Arith ZArith Reals Lra Lia.
From Verif Require Import Base XReal Tensor Support Dist Iteration Structure Tools Joint Spec SumSpec DotSpec PointSpec DensSpec SpecFun GammaFn BesselFn Val FamR FamVal DerivFacts DensVal DensThms ConvFacts IntSpec IntFacts GammaInt IntNorm IntGen IntMulti IntFam TextSpec.
Import ListNotations.
Local Unset Asymmetric Patterns.
Local Open Scope string_scope.
Local Open Scope R_scope.

Definition text_ok (f : family) : Prop := forall n p x d, dims_ok (NP f) n = true -> nat_dom f n p -> sample_space f n x -> classical f n p d -> dens f n p x = d x.

Lemma eln y : 0 < y -> y = exp (ln y). Proof. intros H. symmetry. now apply exp_ln. Qed.
Lemma div_exp u v : exp u / exp v = exp (u - v).
Proof. unfold Rdiv, Rminus. now rewrite exp_plus, exp_Ropp. Qed.
Lemma sqrt_e y : 0 < y -> sqrt y = exp (1 / 2 * ln y).
Proof. intros H. rewrite <- (Rpower_sqrt y H). unfold Rpower. f_equal. field. Qed.
Lemma pow_e y k : 0 < y -> y ^ k = exp (INR k * ln y). Proof. intros H. now rewrite <- (Rpower_pow k y H). Qed.
Lemma normal_e m v x : 0 < v -> normal_pdf m v x = exp (- ((x - m) * (x - m) / (2 * v)) - 1 / 2 * ln (2 * PI * v)).
Proof. intros H. unfold normal_pdf. pose proof PI_RGT_0. rewrite sqrt_e by nra. apply div_exp. Qed.
Lemma beta_e a b : BetaF a b = exp (lngamma a + lngamma b - lngamma (a + b)).
Proof. unfold BetaF, GammaF. now rewrite <- exp_plus, div_exp. Qed.
Lemma ln_inv1 y : 0 < y -> ln (1 / y) = - ln y. Proof. intros H. unfold Rdiv. rewrite Rmult_1_l. now apply ln_Rinv. Qed.
Ltac lp := unfold dens, lpR; dots; vals.

Lemma t_bernoulli : text_ok Bernoulli.
Proof.
  intros n p x d _ _ Hx (q & Hq & E & Ed). rewrite Ed. lp. rewrite E. assert (0 < q / (1 - q)) by (apply Rdiv_lt_0_compat; lra). rewrite exp_ln, exp_0 by assumption.
  assert (K : q / (1 - q) + 1 = / (1 - q)) by (field; lra). rewrite K, ln_Rinv by lra. cbn [sample_space] in Hx. unfold bernoulli_pmf. destruct Hx as [-> | ->]; destruct Req_EM_T as [U|U]; try lra.
  - replace (_ + _) with (ln (1 - q)) by ring. apply exp_ln. lra.
  - rewrite ln_div by lra. replace (_ + _) with (ln q) by ring. apply exp_ln. lra.
Qed.
Lemma t_geometric : text_ok Geometric.
Proof.
  intros n p x d _ _ (k & Hk) (q & Hq & E & Ed). rewrite (Ed x k Hk). lp. unfold nbcmR. rewrite E, Hk. rewrite exp_ln by lra. unfold geometric_pmf. rewrite pow_e by lra. transitivity (exp (INR k * ln (1 - q)) * exp (ln q)); [|now rewrite (exp_ln q) by lra]. rewrite <- exp_plus. f_equal.
  replace (INR k + 1 - 1 + 1) with (INR k + 1) by ring. replace (INR k + 1 - 1 - INR k + 1) with 1 by ring. rewrite lngamma_1. replace (1 + - (1 - q)) with q by ring. ring.
Qed.
Lemma t_poisson : text_ok Poisson.
Proof.
  intros n p x d _ _ (k & Hk) (m & Hm & E & Ed). rewrite (Ed x k Hk). lp. rewrite E, Hk, lngamma_fact, exp_ln by lra. unfold poisson_pmf. rewrite pow_e by lra. transitivity (exp (INR k * ln m) * exp (- m) / exp (ln (INR (fact k)))); [|now rewrite (exp_ln (INR (fact k))) by apply INR_fact_lt_0].
  rewrite <- exp_plus, div_exp. f_equal. ring.
Qed.
Lemma t_logarithmic : text_ok Logarithmic.
Proof.
  intros n p x d _ _ (k & Hk) (q & Hq & E & Ed). rewrite (Ed x (S k) Hk). lp. rewrite E, Hk, exp_ln by lra. unfold logarithmic_pmf. rewrite pow_e by lra. set (K := S k). assert (HK : 0 < INR K) by (unfold K; rewrite S_INR; pose proof (pos_INR k); lra).
  assert (L : ln (1 - q) < 0) by (rewrite <- ln_1; apply ln_increasing; lra). replace (1 + - q) with (1 - q) by ring.
  transitivity (exp (INR K * ln q) / (INR K * - ln (1 - q))); [|field; lra]. rewrite (eln (INR K * - ln (1 - q))) by nra. rewrite div_exp, ln_mult by lra. f_equal. ring.
Qed.
Lemma t_negative_binomial : text_ok NegativeBinomial.
Proof.
  intros n p x d _ _ (k & Hk) (q & r & Hq & Hr & E & F & Ed). rewrite (Ed x k Hk). lp. unfold nbcmR. rewrite E, F, Hk. rewrite exp_ln by lra. unfold negative_binomial_pmf. destruct r as [|r]; [lia|].
  replace (S r - 1)%nat with r by lia. rewrite S_INR. replace (INR k + (INR r + 1) - 1 + 1) with (INR (k + r) + 1) by (rewrite plus_INR; ring). replace (INR k + (INR r + 1) - 1 - INR k + 1) with (INR r + 1) by ring. rewrite !lngamma_fact.
  rewrite !pow_e by lra. pose proof (INR_fact_lt_0 k). pose proof (INR_fact_lt_0 r). pose proof (INR_fact_lt_0 (k + r)). transitivity (exp (ln (INR (fact (k + r)))) / exp (ln (INR (fact k) * INR (fact r))) * exp (INR (S r) * ln q) * exp (INR k * ln (1 - q))); [|rewrite !exp_ln by nra; reflexivity].
  rewrite div_exp, <- !exp_plus, ln_mult by assumption. f_equal. rewrite S_INR. replace (1 + - (1 - q)) with q by ring. ring.
Qed.
Lemma t_beta : text_ok Beta.
Proof.
  intros n p x d D _ Hx (a & b & Ha & Hb & E & F & Ed). rewrite Ed. cbn [dims_ok] in D. apply Nat.eqb_eq in D. subst n. lp. rewrite !sumR2. rewrite E, F. cbn [Nat.eqb hd]. unfold beta_pdf, Rpower. rewrite beta_e, <- exp_plus, div_exp. f_equal.
  replace (a - 1 + 1) with a by ring. replace (b - 1 + 1) with b by ring. replace (a - 1 + (b - 1) + INR 2) with (a + b) by (cbn; ring). replace (1 + - x false []) with (1 - x false []) by ring. ring.
Qed.
Lemma t_chi : text_ok Chi.
Proof.
  intros n p x d _ _ Hx (k & Hk & E & Ed). cbn [sample_space] in Hx. rewrite Ed. lp. rewrite E. unfold chi_pdf, Rpower, GammaF. rewrite <- !exp_plus, div_exp. f_equal. set (t := x false []) in *. rewrite !ln_mult by lra.
  replace (k / 2 - 1 + 1) with (k / 2) by ring. rewrite ln_inv1 by lra. field.
Qed.
Lemma t_chi_square : text_ok ChiSquare.
Proof.
  intros n p x d _ _ Hx (k & Hk & E & Ed). cbn [sample_space] in Hx. rewrite Ed. lp. rewrite E. unfold chi_square_pdf, Rpower, GammaF. rewrite <- !exp_plus, div_exp. f_equal.
  replace (k / 2 - 1 + 1) with (k / 2) by ring. rewrite ln_inv1 by lra. field.
Qed.
Lemma t_exponential : text_ok Exponential.
Proof.
  intros n p x d _ _ Hx (r & Hr & E & Ed). rewrite Ed. lp. rewrite E, Ropp_involutive. unfold exponential_pdf. transitivity (exp (ln r) * exp (- (r * x false []))); [|now rewrite exp_ln by lra]. rewrite <- exp_plus. f_equal. ring.
Qed.
Lemma t_gamma : text_ok Gamma.
Proof.
  intros n p x d _ _ Hx (a & r & Ha & Hr & E & F & Ed). rewrite Ed. lp. rewrite E, F, Ropp_involutive. unfold gamma_pdf, Rpower, GammaF. rewrite <- !exp_plus, div_exp. f_equal. replace (a - 1 + 1) with a by ring. ring.
Qed.
Lemma normal_alg m w x : 0 < w -> - (m / w * (m / w)) / (4 * - (1 / (2 * w))) + 1 / 2 * ln (- PI / - (1 / (2 * w))) = m * m / (2 * w) + 1 / 2 * ln (2 * PI * w) /\
  - ((x - m) * (x - m) / (2 * w)) = m / w * x + - (1 / (2 * w)) * (x * x) - m * m / (2 * w).
Proof. intros H. split; [replace (- PI / - (1 / (2 * w))) with (2 * PI * w) by (field; lra); field; lra|field; lra]. Qed.
Lemma t_normal : text_ok Normal.
Proof.
  intros n p x d _ _ _ (m & w & Hw & E & F & Ed). rewrite Ed. lp. rewrite E, F, normal_e by assumption. f_equal. destruct (normal_alg m w (x false []) Hw) as [-> ->]. ring.
Qed.
Lemma t_unit_normal : text_ok UnitNormal.
Proof.
  intros n p x d _ _ _ Ed. cbn [classical] in Ed. rewrite Ed. lp. rewrite normal_e by lra. f_equal. replace (2 * PI * 1) with (PI * 2) by ring. field.
Qed.
Lemma t_rayleigh : text_ok Rayleigh.
Proof.
  intros n p x d _ _ Hx (w & Hw & E & Ed). cbn [sample_space] in Hx. rewrite Ed. lp. rewrite E, Ropp_involutive. unfold rayleigh_pdf. rewrite (eln (x false [] / (w * w))) by (apply Rdiv_lt_0_compat; nra). rewrite <- exp_plus. f_equal.
  rewrite ln_inv1, ln_mult by nra. rewrite ln_div by nra. field. lra.
Qed.
Lemma t_weibull : text_ok Weibull.
Proof.
  intros n p x d _ [Hc _] Hx (l & Hl & E & Ed). cbn [sample_space] in Hx. rewrite Ed. lp. set (k := p false "concentration" []) in *. rewrite E, Ropp_involutive. unfold weibull_pdf.
  set (t := x false []) in *. transitivity (exp (ln (k / l)) * exp ((k - 1) * ln (t / l)) * exp (- Rpower (t / l) k)); [|rewrite (exp_ln (k / l)) by (apply Rdiv_lt_0_compat; lra); reflexivity].
  rewrite <- !exp_plus. f_equal. assert (K : Rpower (t / l) k = Rpower t k * Rpower l (- k)). { unfold Rpower. rewrite <- exp_plus, ln_div by lra. f_equal. ring. }
  assert (J : ln (Rpower l (- k)) = - k * ln l) by apply ln_exp. rewrite K, J, !ln_div by lra. ring.
Qed.
