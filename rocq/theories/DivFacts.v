(** The Kullback-Leibler divergence of the code is the textbook one (C63): values. *)
From Coquelicot Require Import Coquelicot.
From Coq Require Import String List Bool Arith ZArith Reals Lra Lia.
From Verif Require Import Base XReal Tensor Support Dist Iteration Structure Tools Joint Spec SumSpec DotSpec PointSpec DensSpec SpecFun GammaFn BesselFn Val FamR FamVal DerivFacts DensVal DensThms ConvFacts IntSpec IntFacts GammaInt IntNorm IntGen IntMulti IntFam
  DotFacts DotLaws MatFacts MatVal MatDeriv IntMat DetInv BregFacts TextSpec TextFacts TextVec TextMat TextThms EntSpec EntFacts GenFacts DivSpec.
Import ListNotations.
Local Unset Asymmetric Patterns.
Local Open Scope string_scope.
Local Open Scope R_scope.
Local Notation C := Complex.C (only parsing).

Definition div_ok (f : family) : Prop := forall n p q k, dims_ok (NP f) n = true -> nat_dom f n p -> nat_dom f n q -> divergent f n p q k -> brR f n p q = k.
Ltac bp := unfold brR; dots; vals; unfold psub.
Lemma ln_q x y : 0 < x -> 0 < y -> ln (x / y) = ln x - ln y.
Proof. intros. now apply ln_div. Qed.

Lemma d_bernoulli : div_ok Bernoulli.
Proof.
  intros n p q k _ _ _ (a & c & [Ha E] & [Hc F] & ->). bp. rewrite E, F. assert (0 < a / (1 - a)) by (apply Rdiv_lt_0_compat; lra). assert (0 < c / (1 - c)) by (apply Rdiv_lt_0_compat; lra). unfold expit. rewrite ?exp_Ropp, !exp_ln, exp_0 by assumption.
  assert (K : a / (1 - a) + 1 = / (1 - a)) by (field; lra). assert (K' : c / (1 - c) + 1 = / (1 - c)) by (field; lra). rewrite K, K', !ln_Rinv, !ln_div by lra. field. lra.
Qed.
Lemma d_geometric : div_ok Geometric.
Proof.
  intros n p q k _ _ _ (a & c & [Ha E] & [Hc F] & ->). bp. rewrite E, F, exp_Ropp, !exp_ln by lra. replace (1 + - (1 - a)) with a by ring. replace (1 + - (1 - c)) with c by ring. rewrite !ln_div by lra. field. lra.
Qed.
Lemma d_negative_binomial : div_ok NegativeBinomial.
Proof.
  intros n p q k _ _ _ (a & c & r & [Ha E] & [Hc F] & G & H & ->). bp. rewrite E, F, G, H, exp_Ropp, !exp_ln by lra. replace (1 + - (1 - a)) with a by ring. replace (1 + - (1 - c)) with c by ring. rewrite !ln_div by lra. field. lra.
Qed.
Lemma d_logarithmic : div_ok Logarithmic.
Proof.
  intros n p q k _ _ _ (a & c & [Ha E] & [Hc F] & ->). bp. rewrite E, F, !exp_ln by lra. replace (1 + - a) with (1 - a) by ring. replace (1 + - c) with (1 - c) by ring.
  assert (La : ln (1 - a) < 0) by (rewrite <- ln_1; apply ln_increasing; lra). assert (Lc : ln (1 - c) < 0) by (rewrite <- ln_1; apply ln_increasing; lra).
  replace (ln (1 - c) / ln (1 - a)) with (- ln (1 - c) / - ln (1 - a)) by (field; lra). rewrite !ln_div by lra. field. lra.
Qed.
Lemma d_poisson : div_ok Poisson.
Proof. intros n p q k _ _ _ (a & c & [Ha E] & [Hc F] & ->). bp. rewrite E, F, !exp_ln by lra. rewrite ln_div by lra. ring. Qed.
Lemma ln_gq x y : ln (GammaF x / GammaF y) = lngamma x - lngamma y.
Proof. unfold GammaF. now rewrite div_exp, ln_exp. Qed.
Lemma ln_bq a b c d : ln (BetaF a b / BetaF c d) = lngamma a + lngamma b - lngamma (a + b) - (lngamma c + lngamma d - lngamma (c + d)).
Proof. rewrite !beta_e, div_exp, ln_exp. reflexivity. Qed.
Lemma d_beta : div_ok Beta.
Proof.
  intros n p q k D _ _ (a & b & a' & b' & (Ha & Hb & E & F) & (Ha' & Hb' & E' & F') & ->). cbn [dims_ok] in D. apply Nat.eqb_eq in D. subst n. bp. rewrite !sumR2, E, F, E', F'. unfold beta_divergence. rewrite ln_bq.
  replace (a - 1 + 1) with a by ring. replace (b - 1 + 1) with b by ring. replace (a - 1 + (b - 1) + INR 2) with (a + b) by (cbn; ring). replace (a' - 1 + 1) with a' by ring. replace (b' - 1 + 1) with b' by ring. replace (a' - 1 + (b' - 1) + INR 2) with (a' + b') by (cbn; ring). ring.
Qed.
Lemma d_chi : div_ok Chi.
Proof.
  intros n p q k _ _ _ (a & a' & [Ha E] & [Ha' E'] & ->). bp. rewrite E, E', ln_gq. replace (a / 2 - 1 + 1) with (a / 2) by ring. replace (a' / 2 - 1 + 1) with (a' / 2) by ring. field.
Qed.
Lemma d_chi_square : div_ok ChiSquare.
Proof.
  intros n p q k _ _ _ (a & a' & [Ha E] & [Ha' E'] & ->). bp. rewrite E, E', ln_gq. replace (a / 2 - 1 + 1) with (a / 2) by ring. replace (a' / 2 - 1 + 1) with (a' / 2) by ring. field.
Qed.
Lemma d_exponential : div_ok Exponential.
Proof. intros n p q k _ _ _ (a & a' & [Ha E] & [Ha' E'] & ->). bp. rewrite E, E', !Ropp_involutive, ln_div by lra. field. lra. Qed.
Lemma d_gamma : div_ok Gamma.
Proof.
  intros n p q k _ _ _ (a & r & a' & r' & (Ha & Hr & E & F) & (Ha' & Hr' & E' & F') & ->). bp. rewrite E, F, E', F', !Ropp_involutive, ln_gq, ln_div by lra. replace (a - 1 + 1) with a by ring. replace (a' - 1 + 1) with a' by ring. field. lra.
Qed.
(** the Bregman divergence of the terms of a normal log normalizer *)
Lemma normal_br m w m' w' : 0 < w -> 0 < w' ->
  - (m' / w' * (m' / w')) / (4 * - (1 / (2 * w'))) + 1 / 2 * ln (- PI / - (1 / (2 * w'))) - (- (m / w * (m / w)) / (4 * - (1 / (2 * w))) + 1 / 2 * ln (- PI / - (1 / (2 * w)))) - ((m' / w' - m / w) * m + (- (1 / (2 * w')) - - (1 / (2 * w))) * (m * m + w)) = normal_divergence m w m' w'.
Proof.
  intros H H'. unfold normal_divergence. pose proof PI_RGT_0. replace (- PI / - (1 / (2 * w'))) with (2 * PI * w') by (field; lra). replace (- PI / - (1 / (2 * w))) with (2 * PI * w) by (field; lra). assert (0 < 2 * PI) by lra.
  rewrite !(ln_mult (2 * PI)), ln_div by lra. field. lra.
Qed.
Lemma d_normal : div_ok Normal.
Proof.
  intros n p q k _ _ _ (m & w & m' & w' & (Hw & E & F) & (Hw' & E' & F') & ->). bp. rewrite E, F, E', F'. rewrite <- (normal_br m w m' w' Hw Hw'). assert (M : - (m / w) / (2 * - (1 / (2 * w))) = m) by (field; lra). rewrite M. field. lra.
Qed.
Lemma d_unit_normal : div_ok UnitNormal.
Proof. intros n p q k _ _ _ ->. bp. unfold normal_divergence. replace (1 / 1) with 1 by field. rewrite ln_1. field. Qed.
Lemma d_rayleigh : div_ok Rayleigh.
Proof.
  intros n p q k _ _ _ (w & w' & [Hw E] & [Hw' E'] & ->). bp. rewrite E, E', !Ropp_involutive. assert (W : 0 < w * w) by nra. assert (W' : 0 < w' * w') by nra. rewrite !ln_inv1 by lra. rewrite !ln_mult by lra. rewrite ln_div by lra. field. lra.
Qed.
Lemma d_weibull : div_ok Weibull.
Proof.
  intros n p q k _ [Hc _] _ (l & l' & Ec & [Hl E] & [Hl' E'] & ->). bp. rewrite <- Ec in *. set (k := p false "concentration" []) in *. rewrite E, E', !Ropp_involutive.
  assert (J : forall x, ln (Rpower x (- k)) = - k * ln x) by (intros; apply ln_exp). rewrite !J, ln_div by lra. assert (R : 0 < Rpower l (- k)) by apply exp_pos.
  assert (Q : Rpower (l / l') k = Rpower l' (- k) / Rpower l (- k)). { unfold Rpower. rewrite div_exp. f_equal. rewrite ln_div by lra. ring. } rewrite Q. field. lra.
Qed.
Lemma d_multinomial : div_ok Multinomial.
Proof.
  intros n p q k _ _ _ (a & c & (Ha & Ha1 & E) & (Hc & Hc1 & F) & ->). bp.
  assert (X : forall k, (k < n)%nat -> exp (p false "log_odds" [k]) = / (1 - sumR n a) * a k). { intros k K. rewrite E by exact K. rewrite exp_ln; [field; lra|]. apply Rdiv_lt_0_compat; [now apply Ha|lra]. }
  assert (Y : forall k, (k < n)%nat -> exp (q false "log_odds" [k]) = / (1 - sumR n c) * c k). { intros k K. rewrite F by exact K. rewrite exp_ln; [field; lra|]. apply Rdiv_lt_0_compat; [now apply Hc|lra]. }
  rewrite (sumR_ext n (fun k => exp (p false "log_odds" [k])) (fun k => / (1 - sumR n a) * a k)) by exact X. rewrite (sumR_ext n (fun k => exp (q false "log_odds" [k])) (fun k => / (1 - sumR n c) * c k)) by exact Y. rewrite !sumR_scal.
  replace (1 + / (1 - sumR n a) * sumR n a) with (/ (1 - sumR n a)) by (field; lra). replace (1 + / (1 - sumR n c) * sumR n c) with (/ (1 - sumR n c)) by (field; lra). rewrite !ln_Rinv by lra.
  rewrite (sumR_ext n (fun k => (q false "log_odds" [k] - _) * _ - _) (fun k => (ln (1 - sumR n a) - ln (1 - sumR n c)) * a k - a k * ln (a k / c k))).
  - rewrite sumR_minus, sumR_scal, (ln_div (1 - sumR n a)) by lra. ring.
  - intros k K. pose proof (Ha k K). pose proof (Hc k K). rewrite (X k K), (E k K), (F k K), !ln_div by lra. field. lra.
Qed.
Lemma d_dirichlet : div_ok Dirichlet.
Proof.
  intros n p q k _ _ _ (a & c & Ha & Hc & ->). bp. unfold dirichlet_divergence. rewrite ln_gq.
  rewrite (sumR_ext n (fun k => lngamma (p false _ [k] + 1)) (fun k => lngamma (a k))) by (intros k K; rewrite (proj2 (Ha k K)); f_equal; ring).
  rewrite (sumR_ext n (fun k => lngamma (q false _ [k] + 1)) (fun k => lngamma (c k))) by (intros k K; rewrite (proj2 (Hc k K)); f_equal; ring).
  rewrite (sumR_ext n (fun k => p false "alpha_minus_one" [k]) (fun k => a k - 1)) by (intros k K; apply (Ha k K)). assert (Q : forall a, sumR n (fun k => a k - 1) + INR n = sumR n a) by (intros x; rewrite (sumR_minus n x (fun _ => 1)), (sumR_const n 1); ring).
  rewrite (sumR_ext n (fun k => q false "alpha_minus_one" [k]) (fun k => c k - 1)) by (intros k K; apply (Hc k K)). rewrite !Q.
  rewrite (sumR_ext n (fun k => ln _ + _) (fun k => lngamma (c k) - lngamma (a k) + (a k - c k) * (digamma (a k) - digamma (sumR n a)))) by (intros k K; now rewrite ln_gq).
  rewrite (sumR_ext n (fun k => (q false "alpha_minus_one" [k] - _) * _ - _) (fun k => - ((a k - c k) * (digamma (a k) - digamma (sumR n a))))).
  - rewrite sumR_plus, sumR_minus, sumR_opp. ring.
  - intros k K. rewrite (proj2 (Ha k K)), (proj2 (Hc k K)). replace (a k - 1 + 1) with (a k) by ring. ring.
Qed.
Lemma d_generalized_dirichlet : div_ok GeneralizedDirichlet.
Proof.
  intros n p q kl _ _ _ (a & b & a' & b' & H & H' & ->). bp. destruct (gd_a n p a b H) as [A B]. destruct (gd_a n q a' b' H') as [A' B']. set (dd := fun m => digamma (b m) - digamma (a m + b m)). set (c := fun k => sumR k dd).
  set (s := fun k => if (k =? n)%nat then 0 else a' k + b' k - (a k + b k)).
  assert (Dd : forall k N, (k < n)%nat -> (N <= S k)%nat -> sumR N (fun m => digamma (gdR_beta n p m) - digamma (gdR_alpha p m + gdR_beta n p m)) = c N) by (intros k N Hk HN; apply sumR_ext; intros m Hm; rewrite (A m ltac:(lia)), (B _ m ltac:(lia) eq_refl); reflexivity).
  rewrite (sumR_ext n (fun k => lngamma (gdR_alpha p k) + _ - _) (fun k => lngamma (a k) + lngamma (b k) - lngamma (a k + b k))) by (intros k K; rewrite (A k K), (B _ k K eq_refl); reflexivity).
  rewrite (sumR_ext n (fun k => lngamma (gdR_alpha q k) + _ - _) (fun k => lngamma (a' k) + lngamma (b' k) - lngamma (a' k + b' k))) by (intros k K; rewrite (A' k K), (B' _ k K eq_refl); reflexivity).
  rewrite (sumR_ext n (fun k => (q false "alpha_minus_one" [k] - _) * _ - _) (fun k => (a' k - a k) * (digamma (a k) - digamma (a k + b k) + c k))).
  2:{ intros k K. cbn [hd]. rewrite (Dd k k K ltac:(lia)), (A k K), (B _ k K eq_refl). destruct (H k K) as (_ & _ & -> & _). destruct (H' k K) as (_ & _ & -> & _). ring. }
  rewrite (sumR_ext n (fun k => (q false "gamma" [k] - _) * _ - _) (fun k => (b' k - b k - s (S k)) * c (S k))).
  2:{ intros k K. cbn [hd]. rewrite (Dd k (S k) K ltac:(lia)). destruct (H k K) as (_ & _ & _ & ->). destruct (H' k K) as (_ & _ & _ & ->). unfold s. destruct (S k =? n)%nat; ring. }
  rewrite (sumR_ext n (fun k => beta_divergence _ _ _ _) (fun k => lngamma (a' k) + lngamma (b' k) - lngamma (a' k + b' k) - (lngamma (a k) + lngamma (b k) - lngamma (a k + b k)) - (a' k - a k) * (digamma (a k) - digamma (a k + b k)) - (b' k - b k) * dd k)).
  2:{ intros k K. unfold beta_divergence. rewrite ln_bq. unfold dd. ring. }
  assert (T : sumR n (fun k => s k * c k - s (S k) * c (S k)) = 0). { rewrite (tele (fun k => s k * c k)). unfold s at 2. rewrite Nat.eqb_refl. unfold c. rewrite sumR_0. ring. }
  rewrite !Rplus_0_r, <- !sumR_plus, <- !sumR_minus. apply Rplus_eq_reg_r with (sumR n (fun k => s k * c k - s (S k) * c (S k))). rewrite T at 2. rewrite Rplus_0_r, <- sumR_plus. apply sumR_ext. intros k K. unfold s at 2. rewrite (proj2 (Nat.eqb_neq k n)) by lia.
  assert (Cs : c (S k) = c k + dd k) by (unfold c; now rewrite sumR_S). rewrite ?Cs. ring.
Qed.
Lemma vmf_ln n p kap mu : (1 <= n)%nat -> 0 < kap -> sumR n (fun k => mu k * mu k) = 1 -> (forall k, (k < n)%nat -> p false "mean_times_concentration" [k] = kap * mu k) ->
  norm2 n p "mean_times_concentration" = kap /\ 0 < vmf_constant n kap /\ lnR n p VonMisesFisher = - ln (vmf_constant n kap).
Proof.
  intros Hn1 Hk Hm E. assert (N : norm2 n p "mean_times_concentration" = kap).
  { unfold norm2, sumsq. rewrite (sumR_ext n _ (fun k => kap * kap * (mu k * mu k))) by (intros k K; rewrite E by exact K; ring). rewrite sumR_scal, Hm, Rmult_1_r, sqrt_square by lra. reflexivity. }
  assert (Hn : 1 <= INR n). { change 1 with (INR 1). now apply le_INR. } assert (Bp : 0 < bessel_i (INR n / 2 - 1) kap) by (apply bessel_pos; lra). pose proof PI_RGT_0.
  assert (R1 : 0 < Rpower (2 * PI) (INR n / 2)) by apply exp_pos. assert (Q : 0 < Rpower (2 * PI) (INR n / 2) * bessel_i (INR n / 2 - 1) kap) by now apply Rmult_lt_0_compat.
  split; [exact N|]. unfold vmf_constant. split; [apply Rdiv_lt_0_compat; [apply exp_pos|exact Q]|]. cbv beta iota zeta delta [lnR]. rewrite N. replace (INR n * (1 / 2)) with (INR n / 2) by field.
  rewrite ln_div by (try apply exp_pos; exact Q). rewrite (ln_mult (Rpower (2 * PI) (INR n / 2))) by assumption. unfold Rpower. rewrite !ln_exp. ring.
Qed.
Lemma d_von_mises_fisher : div_ok VonMisesFisher.
Proof.
  intros n p q kl D [k0 [K0 _]] _ (kap & mu & kap' & mu' & (Hk & Hm & E) & (Hk' & Hm' & E') & ->). destruct (vmf_ln n p kap mu ltac:(lia) Hk Hm E) as (N & Cp & Lp). destruct (vmf_ln n q kap' mu' ltac:(lia) Hk' Hm' E') as (N' & Cq & Lq).
  unfold brR. rewrite Lp, Lq, ln_div by assumption. dots. cbv beta iota zeta delta [mkpt re cx slook expR]. cbn [String.eqb Ascii.eqb Bool.eqb]. unfold psub. rewrite N. unfold vmf_length. replace (INR n * (1 / 2)) with (INR n / 2) by field. set (r := bessel_i (INR n / 2) kap / bessel_i (INR n / 2 - 1) kap).
  rewrite (sumR_ext n _ (fun k => r * kap' * (mu k * mu' k) - r * kap * (mu k * mu k))) by (intros k K; rewrite E, E' by exact K; field; lra). rewrite sumR_minus, !sumR_scal, Hm. ring.
Qed.
Lemma d_diagonal : div_ok MultivariateDiagonalNormal.
Proof.
  intros n p q kl _ _ _ (m & w & m' & w' & H & H' & ->). bp. rewrite !Rplus_0_r, <- !sumR_plus, <- !sumR_minus. apply sumR_ext. intros k K. destruct (H k K) as (Hw & E & F). destruct (H' k K) as (Hw' & E' & F'). rewrite E, F, E', F'.
  rewrite <- (normal_br (m k) (w k) (m' k) (w' k) Hw Hw'). assert (M : - (m k / w k) / (2 * - (1 / (2 * w k))) = m k) by (field; lra). rewrite M. field. lra.
Qed.
Lemma normal_same m w m' : 0 < w -> normal_divergence m w m' w = 1 / 2 * ((m - m') ^ 2 / w).
Proof. intros H. unfold normal_divergence. replace (w / w) with 1 by (field; lra). rewrite ln_1. field. lra. Qed.
Lemma d_fixed : div_ok MultivariateFixedVarianceNormal.
Proof.
  intros n p q kl _ Hv _ (m & m' & Ev & E & E' & ->). cbn [nat_dom] in Hv. bp. unfold sumsq. rewrite <- Ev in *. set (w := p false "variance" []) in *. transitivity (1 / 2 * sumR n (fun k => q false "mean_times_precision" [k] * q false "mean_times_precision" [k]) * w - 1 / 2 * sumR n (fun k => p false "mean_times_precision" [k] * p false "mean_times_precision" [k]) * w - sumR n (fun k => (q false "mean_times_precision" [k] - p false "mean_times_precision" [k]) * (p false "mean_times_precision" [k] * w) - (q true "mean_times_precision" [k] - p true "mean_times_precision" [k]) * 0)); [field|].
  rewrite !(Rmult_comm _ w), <- !sumR_scal, <- !sumR_minus. apply sumR_ext. intros k K. rewrite (E k K), (E' k K), normal_same by exact Hv. field. lra.
Qed.
Lemma d_isotropic : div_ok IsotropicNormal.
Proof.
  intros n p q kl _ _ _ (m & w & m' & w' & (Hw & E & F) & (Hw' & E' & F') & ->). bp. unfold sumsq. rewrite F, F'. pose proof PI_RGT_0. replace (PI / - - (1 / (2 * w))) with (2 * PI * w) by (field; lra). replace (PI / - - (1 / (2 * w'))) with (2 * PI * w') by (field; lra). assert (0 < 2 * PI) by lra. rewrite !(ln_mult (2 * PI)) by lra.
  rewrite (sumR_ext n (fun k => q false "mean_times_precision" [k] * q false "mean_times_precision" [k]) (fun k => / (w' * w') * (m' k * m' k))) by (intros k K; rewrite (E' k K); field; lra).
  rewrite (sumR_ext n (fun k => p false "mean_times_precision" [k] * p false "mean_times_precision" [k]) (fun k => / (w * w) * (m k * m k))) by (intros k K; rewrite (E k K); field; lra).
  rewrite (sumR_ext n (fun k => (q false _ [k] - _) * _ - _) (fun k => / w' * (m k * m' k) - / w * (m k * m k))) by (intros k K; rewrite (E k K), (E' k K); field; lra).
  rewrite (sumR_ext n (fun k => _ / _ * (_ / _)) (fun k => m k * m k)) by (intros k K; rewrite (E k K); field; lra).
  rewrite (sumR_ext n (fun k => normal_divergence _ _ _ _) (fun k => 1 / 2 * / w' * (m k * m k) + (1 / 2 * / w' * (m' k * m' k) - / w' * (m k * m' k)) + 1 / 2 * (w / w' - 1 + ln w' - ln w))).
  2:{ intros k K. unfold normal_divergence. rewrite ln_div by lra. field. lra. }
  rewrite (sumR_plus n (fun k => _ + _)), sumR_plus, !sumR_minus, !sumR_scal, sumR_const. field. lra.
Qed.
Lemma d_unit : div_ok MultivariateUnitNormal.
Proof.
  intros n p q kl _ _ _ ->. bp. unfold sumsq. transitivity (1 / 2 * sumR n (fun k => q false "mean" [k] * q false "mean" [k]) - 1 / 2 * sumR n (fun k => p false "mean" [k] * p false "mean" [k]) - sumR n (fun k => (q false "mean" [k] - p false "mean" [k]) * p false "mean" [k] - (q true "mean" [k] - p true "mean" [k]) * 0)); [field|].
  rewrite <- !sumR_scal, <- !sumR_minus. apply sumR_ext. intros k K. rewrite normal_same by lra. field.
Qed.
(** log normalizer and expectation parameters of a multivariate normal distribution in the usual parameters *)
Lemma mvn_vals n p m S : spd n S -> (forall a, (a < n)%nat -> p false "mean_times_precision" [a] = sumR n (fun b => rinv n S a b * m b)) ->
  (forall a b, (a < n)%nat -> (b < n)%nat -> p false "negative_half_precision" [a; b] = - (1 / 2) * rinv n S a b) ->
  (forall a, (a < n)%nat -> expR n p MultivariateNormal false "mean" [a] = m a) /\
  (forall a b, (a < n)%nat -> (b < n)%nat -> expR n p MultivariateNormal false "second_moment" [a; b] = m a * m b + S a b) /\
  lnR n p MultivariateNormal = 1 / 2 * sumR n (fun a => sumR n (fun b => m a * rinv n S a b * m b)) + 1 / 2 * ln (rdet n S) + INR n / 2 * ln (2 * PI).
Proof.
  intros HS E F. set (W := rinv n S) in *. pose proof (spd_inv n S HS) as HW. fold W in HW. pose proof (spd_det n S HS) as Dp. pose proof PI_RGT_0 as Pp. set (v := fun a => sumR n (fun b => W a b * m b)).
  assert (HI : forall a b, (a < n)%nat -> (b < n)%nat -> rinv n (fun a b => p false "negative_half_precision" [a; b]) a b = -2 * S a b).
  { intros a b A B. assert (H2 : spd n (fun a b => 1 / 2 * W a b)) by (apply spd_scal; [lra|exact HW]).
    rewrite (rinv_ext n _ (fun a b => - (1 / 2 * W a b)) a b) by first [assumption | intros; rewrite F by assumption; ring]. rewrite rinv_opp by first [assumption|apply spd_ne; exact H2]. rewrite rinv_scal by first [lra|assumption]. unfold W. rewrite rinv_inv by assumption. field. }
  assert (SV : forall a, (a < n)%nat -> sumR n (fun b => S a b * v b) = m a) by (intros a A; apply rapply_inv; [now apply spd_ne|exact A]).
  assert (DT : rdet n (fun a b => - p false "negative_half_precision" [a; b]) = (1 / 2) ^ n * / rdet n S).
  { rewrite (rdet_ext n _ (fun a b => 1 / 2 * W a b)) by (intros a b A B; rewrite F by assumption; ring). rewrite rdet_scal by first [lra|assumption]. unfold W. now rewrite rdet_inv. }
  assert (He : forall a, (a < n)%nat -> sumR n (fun b => rinv n (fun a b => p false "negative_half_precision" [a; b]) a b * p false "mean_times_precision" [b]) = -2 * m a).
  { intros a A. rewrite <- (SV a A), <- sumR_scal. apply sumR_ext. intros b B. rewrite HI, (E b B) by assumption. fold (v b). ring. }
  split; [intros a A; vals; rewrite (He a A); field|]. split; [intros a b A B; vals; cbn [nth]; rewrite (He a A), (He b B), (HI a b A B); field|].
  cbv beta iota zeta delta [lnR]. rewrite DT. assert (Hh : 0 < (1 / 2) ^ n) by (apply pow_lt; lra). rewrite Rabs_pos_eq by (apply Rmult_le_pos; [lra|]; left; now apply Rinv_0_lt_compat). rewrite ln_mult, ln_Rinv by first [assumption|now apply Rinv_0_lt_compat]. rewrite pow_e, ln_exp by lra. rewrite (ln_inv1 2) by lra. rewrite (ln_mult 2 PI) by lra.
  rewrite (sumR_ext n (fun a => sumR n (fun b => rinv n (fun a b => p false "negative_half_precision" [a; b]) a b * _)) (fun a => -2 * (sumR n (fun b => m a * W a b * m b)))).
  2:{ intros a A. rewrite (sumR_ext n _ (fun b => v a * (rinv n (fun a b => p false "negative_half_precision" [a; b]) a b * p false "mean_times_precision" [b]))).
    - rewrite sumR_scal, (He a A). unfold v. rewrite (sumR_ext n (fun b => m a * W a b * m b) (fun b => m a * (W a b * m b))) by (intros; ring). rewrite sumR_scal. ring.
    - intros b B. rewrite (E a A). fold (v a). ring. }
  rewrite sumR_scal. field.
Qed.
Lemma d_mvn : div_ok MultivariateNormal.
Proof.
  intros n p q kl _ _ _ (m & S & m' & S' & (HS & E & F) & (HS' & E' & F') & ->). destruct (mvn_vals n p m S HS E F) as (M & N & Lp). destruct (mvn_vals n q m' S' HS' E' F') as (_ & _ & Lq). pose proof (spd_det n S HS) as Dp. pose proof (spd_det n S' HS') as Dq.
  unfold brR, mvn_divergence. rewrite Lp, Lq, ln_div by assumption. unfold dotP, var_fields. cbn [filter fields fd_fixed var fixd negb combine map fst snd fd_name fd_support]. cbn [supp_shape]. rewrite rsum_indices1, rsum_indices2. cbn [rsum fold_right]. rewrite Rplus_0_r.
  set (W := rinv n S) in *. set (W' := rinv n S') in *.
  assert (I : sumR n (fun a => sumR n (fun b => W a b * S b a)) = INR n). { rewrite (sumR_ext n _ (fun _ => 1)); [rewrite sumR_const; ring|]. intros a A. unfold W. rewrite rinv_left by first [assumption|exact (proj1 HS)|lra]. unfold dr. now rewrite Nat.eqb_refl. }
  assert (Sy : forall a b, (a < n)%nat -> (b < n)%nat -> W' a b = W' b a) by (intros a b A B; apply rinv_sym; [exact (proj1 HS')|lra|exact A|exact B]).
  rewrite (sumR_ext n (fun a => psub q p false "mean_times_precision" [a] * _ - _) (fun a => sumR n (fun b => m a * W' a b * m' b - m a * W a b * m b))).
  2:{ intros a A. rewrite (M a A). unfold psub. rewrite (E a A), (E' a A). vals. rewrite sumR_minus, (sumR_ext n (fun b => m a * W' a b * m' b) (fun b => m a * (W' a b * m' b))), (sumR_ext n (fun b => m a * W a b * m b) (fun b => m a * (W a b * m b))) by (intros; ring). rewrite !sumR_scal. ring. }
  rewrite (sumR_ext n (fun a => sumR n (fun b => psub q p false "negative_half_precision" [a; b] * _ - _)) (fun a => sumR n (fun b => - (1 / 2) * (m a * W' a b * m b) + 1 / 2 * (m a * W a b * m b) - 1 / 2 * (W' a b * S b a) + 1 / 2 * (W a b * S b a)))).
  2:{ intros a A. apply sumR_ext. intros b B. rewrite (N a b A B). unfold psub. rewrite (F a b A B), (F' a b A B), (proj1 HS a b A B). vals. ring. }
  rewrite (sumR_ext n (fun a => sumR n (fun b => (m a - m' a) * _ * _)) (fun a => sumR n (fun b => m a * W' a b * m b + m' a * W' a b * m' b - m a * W' a b * m' b - m b * W' b a * m' a))).
  2:{ intros a A. apply sumR_ext. intros b B. rewrite (Sy b a B A). ring. }
  assert (P2 : forall g h : nat -> nat -> R, sumR n (fun a => sumR n (fun b => g a b + h a b)) = sumR n (fun a => sumR n (g a)) + sumR n (fun a => sumR n (h a))) by (intros; rewrite <- sumR_plus; apply sumR_ext; intros; apply sumR_plus).
  assert (M2 : forall g h : nat -> nat -> R, sumR n (fun a => sumR n (fun b => g a b - h a b)) = sumR n (fun a => sumR n (g a)) - sumR n (fun a => sumR n (h a))) by (intros; rewrite <- sumR_minus; apply sumR_ext; intros; apply sumR_minus).
  assert (S2 : forall c (g : nat -> nat -> R), sumR n (fun a => sumR n (fun b => c * g a b)) = c * sumR n (fun a => sumR n (g a))) by (intros; rewrite <- sumR_scal; apply sumR_ext; intros; apply sumR_scal).
  rewrite (P2 (fun a b => _ - _)), (M2 (fun a b => - (1 / 2) * _ + _)), (P2 (fun a b => - (1 / 2) * _)). rewrite (M2 (fun a b => m a * W' a b * m' b)). rewrite (M2 (fun a b => _ - _)), (M2 (fun a b => _ + _)), (P2 (fun a b => m a * W' a b * m b)).
  rewrite (S2 (- (1 / 2)) (fun a b => m a * W' a b * m b)), (S2 (1 / 2) (fun a b => m a * W a b * m b)), (S2 (1 / 2) (fun a b => W' a b * S b a)), (S2 (1 / 2) (fun a b => W a b * S b a)), I.
  rewrite (sumR_swap n n (fun a b => m b * W' b a * m' a)). field.
Qed.
Lemma mod2 (z : C) : Cmod z ^ 2 = fst z * fst z + snd z * snd z.
Proof. rewrite <- cmod_sq. ring. Qed.
Lemma cmod_mul (z : C) : Cmod z * Cmod z = fst z * fst z + snd z * snd z.
Proof. rewrite <- mod2. ring. Qed.
Lemma tmc (p : point) nm j (m : C) : (p false nm j, p true nm j) = (2 * Cconj m)%C -> p false nm j = 2 * fst m /\ p true nm j = - (2 * snd m).
Proof. intros E. pose proof (f_equal fst E) as K1. pose proof (f_equal snd E) as K2. cbn in K1, K2. split; [rewrite K1|rewrite K2]; ring. Qed.
Lemma d_complex_unit : div_ok ComplexUnitNormal.
Proof.
  intros n p q kl _ _ _ (m & m' & E & E' & ->). apply tmc in E as [E1 E2]. apply tmc in E' as [E1' E2']. rewrite mod2. bp. rewrite E1, E2, E1', E2'. unfold Cminus, Cplus, Copp. cbn [fst snd]. field.
Qed.
Lemma d_complex_multivariate_unit : div_ok ComplexMultivariateUnitNormal.
Proof.
  intros n p q kl _ _ _ (m & m' & E & E' & ->). bp. unfold csq_abs. cbn [fst snd]. rewrite !Rplus_0_r.
  match goal with |- sumR n ?f + ?c - (sumR n ?g + ?c) - sumR n ?h = _ => transitivity (sumR n f - sumR n g - sumR n h); [ring|] end.
  rewrite <- !sumR_minus. apply sumR_ext. intros k K. specialize (E k K). specialize (E' k K). apply tmc in E as [E1 E2]. apply tmc in E' as [E1' E2']. rewrite mod2, E1, E2, E1', E2'. unfold Cminus, Cplus, Copp. cbn [fst snd]. field.
Qed.
(** the natural parameters of a complex normal distribution in real numbers *)
Lemma cn_vals (p : point) m w u : Cmod u < w -> p false "negative_precision" [] = - (w / (w * w - Cmod u * Cmod u)) ->
  (p false "pseudo_precision" [], p true "pseudo_precision" []) = (Cconj u / RtoC (w * w - Cmod u * Cmod u))%C ->
  (p false "mean_times_precision" [], p true "mean_times_precision" []) = (- (2) * (RtoC (p false "negative_precision" []) * Cconj m + (p false "pseudo_precision" [], p true "pseudo_precision" []) * m))%C ->
  let D := w * w - (fst u * fst u + snd u * snd u) in
  0 < w /\ 0 < D /\ p false "negative_precision" [] = - (w / D) /\ p false "pseudo_precision" [] = fst u / D /\ p true "pseudo_precision" [] = - snd u / D /\
  p false "mean_times_precision" [] = 2 * (w * fst m - (fst u * fst m + snd u * snd m)) / D /\ p true "mean_times_precision" [] = 2 * (- w * snd m - (fst u * snd m - snd u * fst m)) / D /\
  p false "negative_precision" [] * p false "negative_precision" [] - (p false "pseudo_precision" [] * p false "pseudo_precision" [] + p true "pseudo_precision" [] * p true "pseudo_precision" []) = 1 / D.
Proof.
  intros Hu E F G D. assert (Hw : 0 < w) by (pose proof (Cmod_ge_0 u); lra). assert (Du : w * w - Cmod u * Cmod u = D). { unfold D. rewrite <- cmod_sq. ring. } rewrite Du in *.
  assert (HD : 0 < D). { rewrite <- Du. pose proof (Cmod_ge_0 u). nra. }
  assert (F1 : p false "pseudo_precision" [] = fst u / D /\ p true "pseudo_precision" [] = - snd u / D).
  { pose proof (f_equal fst F) as K1. pose proof (f_equal snd F) as K2. unfold Cdiv in K1, K2. rewrite <- RtoC_inv in K1, K2 by lra. unfold Cmult, Cconj, RtoC in K1, K2. cbn [fst snd] in K1, K2. split; [rewrite K1|rewrite K2]; field; lra. }
  destruct F1 as [F1 F2]. split; [exact Hw|]. split; [exact HD|]. split; [exact E|]. split; [exact F1|]. split; [exact F2|].
  pose proof (f_equal fst G) as G1. pose proof (f_equal snd G) as G2. unfold Cmult, Cplus, Copp, Cconj, RtoC in G1, G2. cbn [fst snd] in G1, G2. rewrite E, F1, F2 in G1, G2.
  split; [rewrite G1; field; lra|]. split; [rewrite G2; field; lra|]. rewrite E, F1, F2. transitivity ((w * w - (fst u * fst u + snd u * snd u)) / (D * D)); [field; lra|]. fold D. field. lra.
Qed.
Lemma cn_quad w a b x y D : D = w * w - (a * a + b * b) -> 0 < D ->
  ((a / D - - (w / D)) * (2 * (w * x - (a * x + b * y)) / D * (2 * (w * x - (a * x + b * y)) / D)) + 2 * (- b / D * (2 * (w * x - (a * x + b * y)) / D * (2 * (- w * y - (a * y - b * x)) / D))) -
    (a / D + - (w / D)) * (2 * (- w * y - (a * y - b * x)) / D * (2 * (- w * y - (a * y - b * x)) / D))) / (4 * (1 / D)) = (w * (x * x + y * y) - (a * (x * x - y * y) + 2 * (b * (x * y)))) / D.
Proof.
  intros E H. transitivity ((w * (x * x + y * y) - (a * (x * x - y * y) + 2 * (b * (x * y)))) * (w * w - (a * a + b * b)) / (D * D)); [field; lra|]. rewrite <- E. field. lra.
Qed.
Lemma d_complex_normal : div_ok ComplexNormal.
Proof.
  intros n p q kl _ P Pq (m & w & u & m' & w' & u' & (Hu & E & F & G) & (Hu' & E' & F' & G') & ->). unfold brR. rewrite (cn_ln n p P), (cn_ln n q Pq). cbv zeta. destruct P as [P1 P2]. assert (P3 : 0 < p false "negative_precision" [] * p false "negative_precision" [] - (p false "pseudo_precision" [] * p false "pseudo_precision" [] + p true "pseudo_precision" [] * p true "pseudo_precision" [])) by lra.
  destruct (cn_vals p m w u Hu E F G) as (Hw & HD & V1 & V2 & V3 & V4 & V5 & V6). destruct (cn_vals q m' w' u' Hu' E' F' G') as (Hw' & HD' & U1 & U2 & U3 & U4 & U5 & U6).
  pose proof (cn_s_eq p P1 P3) as Es. pose proof (cn_mu_eq p P1 P3) as Em. rewrite V6 in Es, Em. set (D := w * w - (fst u * fst u + snd u * snd u)) in *. set (D' := w' * w' - (fst u' * fst u' + snd u' * snd u')) in *.
  assert (Qs : cnR_s p = w) by (rewrite Es, V1; field; lra).
  assert (Qm : cnR_mu p = m). { rewrite Em, V1, V2, V3, V4, V5. destruct m as [x y]. cbn [fst snd]. apply f_equal2; [transitivity (x * (w * w - (fst u * fst u + snd u * snd u)) / D)|transitivity (y * (w * w - (fst u * fst u + snd u * snd u)) / D)]; try (field; lra); fold D; field; lra. }
  assert (Qr : Cconj (cnR_s p * fst (cnR_r p), cnR_s p * snd (cnR_r p)) = u). { rewrite Qs. unfold cnR_r, cnR_np, cpt, Copp, Cconj. cbn [fst snd]. rewrite V1, V2, V3. destruct u as [x y]. cbn [fst snd]. apply f_equal2; field; lra. }
  dots. vals. rewrite Qr, Qm, Qs. unfold psub. unfold complex_normal_divergence. cbv zeta. rewrite mod2, (cmod_mul u), (cmod_mul u'). fold D D'. rewrite V6, U6. rewrite !ln_inv1 by assumption. rewrite (ln_div D' D) by assumption. unfold Cminus, Copp, Cplus, Cmult, Cconj. cbn [fst snd].
  rewrite V1, V2, V3, V4, V5, U1, U2, U3, U4, U5. clear Es Em Qs Qm Qr V1 V2 V3 V4 V5 V6 U1 U2 U3 U4 U5 U6 E F G E' F' G' P1 P2 P3 Pq Hu Hu'. destruct m as [x y], m' as [x' y'], u as [a b], u' as [a' b']. cbn [fst snd] in *.
  rewrite (cn_quad w a b x y D eq_refl HD), (cn_quad w' a' b' x' y' D' eq_refl HD'). assert (One : (w * w - (a * a + b * b)) / D = 1) by (fold D; field; lra). match goal with |- _ = ?X - 1 => transitivity (X - (w * w - (a * a + b * b)) / D); [|now rewrite One] end. clear One. clearbody D D'. field. lra.
Qed.
Lemma d_ccs : div_ok ComplexCircularlySymmetricNormal.
Proof.
  intros n p q kl _ P Pq (V & V' & (HV & E) & (HV' & E') & ->). unfold brR. rewrite ccs_dot.
  apply hpd_C in HV. apply (hpd_ext n _ V) in HV; [|intros a b _ _; now destruct (V a b)]. destruct (hpd_det n V HV) as (r & Hr & Er). apply hpd_C in HV'. apply (hpd_ext n _ V') in HV'; [|intros a b _ _; now destruct (V' a b)]. destruct (hpd_det n V' HV') as (r' & Hr' & Er').
  assert (LN : forall (x : point) (U : nat -> nat -> C) s, hpdC n U -> 0 < s -> cdet n U = RtoC s -> (forall a b, (a < n)%nat -> (b < n)%nat -> (x false "negative_precision" [a; b], x true "negative_precision" [a; b]) = (- Cconj (cinv n U a b))%C) -> lnR n x ComplexCircularlySymmetricNormal = ln s + INR n * ln PI).
  { intros x U s HU Hs Es Ex. assert (DT : cdet n (fun a b => Copp (cpt x "negative_precision" [a; b])) = RtoC (/ s)).
    { rewrite (cdet_ext n _ (fun a b => Cconj (cinv n U a b))).
      - rewrite (cdet_conj n _ (hpd_inv n U HU)). pose proof (cdet_inv n U HU) as K. rewrite Es in K. rewrite RtoC_inv by lra. transitivity (cdet n (cinv n U) * RtoC s * / RtoC s)%C; [|rewrite K; ring]. field. apply RtoC_neq. lra.
      - intros a b A B. unfold cpt. rewrite (Ex a b A B). ring. }
    cbv beta iota zeta delta [lnR]. rewrite DT. cbn [fst RtoC]. rewrite ln_Rinv by exact Hs. ring. }
  rewrite (LN p V r HV Hr Er E), (LN q V' r' HV' Hr' Er' E'). rewrite Er, Er'. cbn [fst RtoC]. rewrite ln_div by assumption.
  assert (CP : forall a b, (a < n)%nat -> (b < n)%nat -> Cconj (cinv n (ccsP p) a b) = V a b).
  { intros a b A B. rewrite (cinv_ext n (ccsP p) (fun a b => Cconj (cinv n V a b)) a b) by first [assumption|intros c d Cc Dd; unfold ccsP; pose proof (E c d Cc Dd) as K; pose proof (f_equal fst K) as K1; pose proof (f_equal snd K) as K2; cbn [fst snd] in K1, K2; rewrite K1, K2; destruct (cinv n V c d) as [e g]; unfold Cconj, Copp; cbn [fst snd]; apply f_equal2; ring].
    rewrite (cinv_conj n (cinv n V) a b (hpd_inv n V HV) A B), (cinv_inv n V a b HV A B). destruct (V a b) as [e g]. unfold Cconj. cbn [fst snd]. apply f_equal2; ring. }
  rewrite (csum_ext n _ (fun a => csum n (fun b => cinv n V b a * V a b - cinv n V' b a * V a b)%C)).
  - rewrite csum_swap, fst_csum. rewrite (sumR_ext n _ (fun a => 1 - sumR n (fun b => fst (cinv n V' a b * V b a)%C))).
    + rewrite (sumR_minus n (fun _ => 1)), sumR_const. ring.
    + intros a A. rewrite csum_minus. cbn [fst Cminus Cplus Copp]. rewrite (cinv_left n V (proj1 HV) (hpd_det_ne n V HV) a a A A). rewrite fst_csum. unfold dl. rewrite Nat.eqb_refl. cbn. ring.
  - intros a A. apply csum_ext. intros b B. rewrite (CP a b A B), (cinv_herm n V (proj1 HV) (hpd_det_ne n V HV) b a B A), (cinv_herm n V' (proj1 HV') (hpd_det_ne n V' HV') b a B A).
    assert (K : cV (psub q p) a b = (Cconj (cinv n V a b) - Cconj (cinv n V' a b))%C); [|rewrite K; ring].
    unfold cV, psub. pose proof (E a b A B) as K. pose proof (E' a b A B) as K'. pose proof (f_equal fst K) as K1. pose proof (f_equal snd K) as K2. pose proof (f_equal fst K') as K1'. pose proof (f_equal snd K') as K2'. cbn [fst snd] in K1, K2, K1', K2'. rewrite K1, K2, K1', K2'.
    destruct (cinv n V a b), (cinv n V' a b). unfold Cminus, Cplus, Copp, Cconj. cbn [fst snd]. apply f_equal2; ring.
Qed.
Lemma div_all f : div_ok f.
Proof.
  destruct f;
    first [exact d_bernoulli|exact d_geometric|exact d_negative_binomial|exact d_logarithmic|exact d_poisson|exact d_beta|exact d_chi|exact d_chi_square|exact d_exponential|exact d_gamma|exact d_normal|exact d_unit_normal|exact d_rayleigh|exact d_weibull
      |exact d_multinomial|exact d_dirichlet|exact d_generalized_dirichlet|exact d_von_mises_fisher|exact d_diagonal|exact d_fixed|exact d_isotropic|exact d_unit|exact d_mvn|exact d_complex_unit|exact d_complex_multivariate_unit|exact d_complex_normal|exact d_ccs].
Qed.
