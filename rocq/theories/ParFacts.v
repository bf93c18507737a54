(** The expectation parameters of the code are the textbook ones (C64): values. *)
From Coquelicot Require Import Coquelicot.
From Coq Require Import String List Bool Arith ZArith Reals Lra Lia.
From Verif Require Import Base XReal Tensor Support Dist Iteration Structure Tools Joint Spec SumSpec DotSpec PointSpec PointFacts DensSpec SpecFun GammaFn BesselFn Val FamR FamVal DerivFacts DensVal DensThms ConvFacts IntSpec IntFacts GammaInt IntNorm IntGen IntMulti IntFam
  DotFacts DotLaws MatFacts MatVal MatDeriv IntMat DetInv BregFacts TextSpec TextFacts TextVec TextMat TextThms EntSpec EntFacts GenFacts DivSpec DivFacts ParSpec.
Import ListNotations.
Local Unset Asymmetric Patterns.
Local Open Scope string_scope.
Local Open Scope R_scope.
Local Notation C := Complex.C (only parsing).

Definition mom_ok (f : family) : Prop := forall n p d, dims_ok (NP f) n = true -> nat_dom f n p -> classical f n p d -> moments f n p (expR n p f).
Ltac ev := cbv beta iota zeta delta [mkpt re cx slook expR]; cbn [String.eqb Ascii.eqb Bool.eqb hd nth].

Lemma m_bernoulli : mom_ok Bernoulli.
Proof.
  intros n p d _ _ (a & Ha & E & _). exists a. do 2 (split; [assumption|]). ev. rewrite E. unfold expit. assert (0 < a / (1 - a)) by (apply Rdiv_lt_0_compat; lra). rewrite exp_Ropp, exp_ln by assumption. field. lra.
Qed.
Lemma m_geometric : mom_ok Geometric.
Proof. intros n p d _ _ (a & Ha & E & _). exists a. do 2 (split; [assumption|]). ev. rewrite E, exp_Ropp, exp_ln by lra. field. lra. Qed.
Lemma m_negative_binomial : mom_ok NegativeBinomial.
Proof. intros n p d _ _ (a & r & Ha & Hr & E & F & _). exists a, r. do 4 (split; [assumption|]). ev. rewrite E, F, exp_Ropp, exp_ln by lra. split; [field; lra|reflexivity]. Qed.
Lemma m_logarithmic : mom_ok Logarithmic.
Proof.
  intros n p d _ _ (a & Ha & E & _). exists a. do 2 (split; [assumption|]). ev. rewrite E, exp_ln by lra. assert (La : ln (1 - a) < 0) by (rewrite <- ln_1; apply ln_increasing; lra).
  replace (1 + - a) with (1 - a) by ring. field. lra.
Qed.
Lemma m_poisson : mom_ok Poisson.
Proof. intros n p d _ _ (a & Ha & E & _). exists a. do 2 (split; [assumption|]). ev. rewrite E. now apply exp_ln. Qed.
Lemma sum_two g : sumR 2 g = g 0%nat + g 1%nat.
Proof. unfold sumR. cbn. ring. Qed.
Lemma m_beta : mom_ok Beta.
Proof.
  intros n p d D _ (a & b & Ha & Hb & E & F & _). assert (n = 2%nat) by (cbn in D; now apply Nat.eqb_eq in D). subst n. exists a, b. do 4 (split; [assumption|]). ev. rewrite sum_two, E, F. cbn [INR].
  replace (a - 1 + 1) with a by ring. replace (b - 1 + 1) with b by ring. replace (a - 1 + (b - 1) + (1 + 1)) with (a + b) by ring. now split.
Qed.
Lemma ln_half : ln (1 / 2) = - ln 2.
Proof. unfold Rdiv. rewrite Rmult_1_l. apply ln_Rinv. lra. Qed.
Lemma m_chi : mom_ok Chi.
Proof. intros n p d _ _ (a & Ha & E & _). exists a. do 2 (split; [assumption|]). ev. rewrite E, ln_half. replace (a / 2 - 1 + 1) with (a / 2) by ring. ring. Qed.
Lemma m_chi_square : mom_ok ChiSquare.
Proof. intros n p d _ _ (a & Ha & E & _). exists a. do 2 (split; [assumption|]). ev. rewrite E, ln_half. replace (a / 2 - 1 + 1) with (a / 2) by ring. ring. Qed.
Lemma m_exponential : mom_ok Exponential.
Proof. intros n p d _ _ (a & Ha & E & _). exists a. do 2 (split; [assumption|]). ev. rewrite E. field. lra. Qed.
Lemma m_gamma : mom_ok Gamma.
Proof.
  intros n p d _ _ (a & r & Ha & Hr & E & F & _). exists a, r. do 4 (split; [assumption|]). ev. rewrite E, F, Ropp_involutive. replace (a - 1 + 1) with a by ring. split; [field; lra|reflexivity].
Qed.
Lemma m_normal : mom_ok Normal.
Proof. intros n p d _ _ (m & w & Hw & E & F & _). exists m, w. do 3 (split; [assumption|]). ev. rewrite E, F. split; field; lra. Qed.
Lemma m_unit_normal : mom_ok UnitNormal.
Proof. intros n p d _ _ _. reflexivity. Qed.
Lemma m_rayleigh : mom_ok Rayleigh.
Proof. intros n p d _ _ (w & Hw & E & _). exists w. do 2 (split; [assumption|]). ev. rewrite E. field. lra. Qed.
Lemma m_weibull : mom_ok Weibull.
Proof.
  intros n p d _ _ (l & Hl & E & _). exists l. do 2 (split; [assumption|]). ev. rewrite E. split; [|reflexivity]. rewrite Rpower_Ropp. assert (0 < Rpower l (p false "concentration" [])) by apply exp_pos. field. lra.
Qed.
Lemma m_multinomial : mom_ok Multinomial.
Proof.
  intros n p d _ _ (a & Ha & Hs & E & _). exists a. do 3 (split; [assumption|]). ev. set (z := 1 - sumR n a) in *. assert (0 < z) by (unfold z; lra).
  assert (X : forall k, (k < n)%nat -> exp (p false "log_odds" [k]) = / z * a k). { intros k K. rewrite (E k K), exp_ln by (apply Rdiv_lt_0_compat; auto). unfold Rdiv. ring. }
  intros k K. rewrite (sumR_ext n _ (fun k => / z * a k)) by (intros j J; now apply X). rewrite sumR_scal, (X k K). assert (1 + / z * sumR n a = / z) by (unfold z in *; field; lra). rewrite H0. field. lra.
Qed.
Lemma m_dirichlet : mom_ok Dirichlet.
Proof.
  intros n p d _ _ (a & Ha & _). exists a. split; [assumption|]. ev. intros k K. rewrite (sumR_ext n _ (fun k => a k - 1)) by (intros j J; apply (Ha j J)). rewrite (sumR_minus n a (fun _ => 1)), (sumR_const n 1), (proj2 (Ha k K)).
  replace (a k - 1 + 1) with (a k) by ring. do 2 f_equal. ring.
Qed.
Lemma m_generalized_dirichlet : mom_ok GeneralizedDirichlet.
Proof.
  intros n p d _ _ (a & b & H & _). exists a, b. split; [exact H|]. ev. destruct (gd_a n p a b H) as [A B].
  assert (Dd : forall k N, (k < n)%nat -> (N <= S k)%nat -> sumR N (fun m => digamma (gdR_beta n p m) - digamma (gdR_alpha p m + gdR_beta n p m)) = sumR N (fun m => digamma (b m) - digamma (a m + b m))) by (intros k N Hk HN; apply sumR_ext; intros m Hm; rewrite (A m ltac:(lia)), (B _ m ltac:(lia) eq_refl); reflexivity).
  intros k K. cbn [hd]. rewrite (Dd k k K ltac:(lia)), (Dd k (S k) K ltac:(lia)), (A k K), (B _ k K eq_refl). now split.
Qed.
Lemma m_von_mises_fisher : mom_ok VonMisesFisher.
Proof.
  intros n p d _ [k0 [K0 _]] (kap & mu & Hk & Hm & E & _). exists kap, mu. do 3 (split; [assumption|]). destruct (vmf_ln n p kap mu ltac:(lia) Hk Hm E) as (N & _ & _). ev. rewrite N. unfold vmf_length. replace (INR n * (1 / 2)) with (INR n / 2) by field.
  intros k K. rewrite (E k K). set (r := bessel_i (INR n / 2) kap / bessel_i (INR n / 2 - 1) kap). field. lra.
Qed.
Lemma m_mvn : mom_ok MultivariateNormal.
Proof. intros n p d _ _ (m & W & HS & E & F & _). exists m, W. do 3 (split; [assumption|]). destruct (mvn_vals n p m W HS E F) as (M & S2 & _). now split. Qed.
Lemma m_diagonal : mom_ok MultivariateDiagonalNormal.
Proof. intros n p d _ _ (m & w & H & _). exists m, w. split; [assumption|]. ev. intros k K. destruct (H k K) as (Hw & E & F). rewrite E, F. split; field; lra. Qed.
Lemma m_fixed : mom_ok MultivariateFixedVarianceNormal.
Proof. intros n p d _ Hv (m & E & _). cbn [nat_dom] in Hv. exists m. split; [assumption|]. ev. split; [|reflexivity]. intros k K. rewrite (E k K). field. lra. Qed.
Lemma m_isotropic : mom_ok IsotropicNormal.
Proof.
  intros n p d _ _ (m & w & Hw & E & F & _). exists m, w. do 3 (split; [assumption|]). ev. rewrite F. assert (M : forall k, (k < n)%nat -> p false "mean_times_precision" [k] / (-2 * - (1 / (2 * w))) = m k) by (intros k K; rewrite (E k K); field; lra).
  split; [exact M|]. rewrite (sumR_ext n _ (fun k => m k * m k)) by (intros k K; now rewrite (M k K)). rewrite (sumR_plus n (fun k => m k ^ 2)), sumR_const. rewrite (sumR_ext n (fun k => m k ^ 2) (fun k => m k * m k)) by (intros; ring). field. lra.
Qed.
Lemma m_unit : mom_ok MultivariateUnitNormal.
Proof. intros n p d _ _ _ k K. reflexivity. Qed.
Lemma m_complex_unit : mom_ok ComplexUnitNormal.
Proof. intros n p d _ _ (m & E & _). exists m. split; [exact E|]. ev. destruct (tmc p _ _ m E) as [-> ->]. destruct m. cbn [fst snd]. apply f_equal2; field. Qed.
Lemma m_complex_multivariate_unit : mom_ok ComplexMultivariateUnitNormal.
Proof. intros n p d _ _ (m & E & _). exists m. split; [exact E|]. ev. intros k K. destruct (tmc p _ _ (m k) (E k K)) as [-> ->]. destruct (m k). cbn [fst snd]. apply f_equal2; field. Qed.
Lemma m_complex_normal : mom_ok ComplexNormal.
Proof.
  intros n p d _ P (m & w & u & Hu & E & F & G & _). exists m, w, u. do 4 (split; [assumption|]). destruct P as [P1 P2]. assert (P3 : 0 < p false "negative_precision" [] * p false "negative_precision" [] - (p false "pseudo_precision" [] * p false "pseudo_precision" [] + p true "pseudo_precision" [] * p true "pseudo_precision" [])) by lra.
  destruct (cn_vals p m w u Hu E F G) as (Hw & HD & V1 & V2 & V3 & V4 & V5 & V6).
  pose proof (cn_s_eq p P1 P3) as Es. pose proof (cn_mu_eq p P1 P3) as Em. rewrite V6 in Es, Em. set (D := w * w - (fst u * fst u + snd u * snd u)) in *.
  assert (Qs : cnR_s p = w) by (rewrite Es, V1; field; lra).
  assert (Qm : cnR_mu p = m). { rewrite Em, V1, V2, V3, V4, V5. destruct m as [x y]. cbn [fst snd]. apply f_equal2; [transitivity (x * (w * w - (fst u * fst u + snd u * snd u)) / D)|transitivity (y * (w * w - (fst u * fst u + snd u * snd u)) / D)]; try (field; lra); fold D; field; lra. }
  assert (Qr : Cconj (cnR_s p * fst (cnR_r p), cnR_s p * snd (cnR_r p)) = u). { rewrite Qs. unfold cnR_r, cnR_np, cpt, Copp, Cconj. cbn [fst snd]. rewrite V1, V2, V3. destruct u as [x y]. cbn [fst snd]. apply f_equal2; field; lra. }
  ev. rewrite Qr, Qm, Qs. split; [now destruct m|]. split; [rewrite mod2; unfold csq_abs; ring|]. rewrite Cplus_comm. now destruct (m * m + u)%C.
Qed.
Lemma m_ccs : mom_ok ComplexCircularlySymmetricNormal.
Proof.
  intros n p d _ _ (V & HV & E & _). exists V. do 2 (split; [assumption|]). apply hpd_C in HV. apply (hpd_ext n _ V) in HV; [|intros a b _ _; now destruct (V a b)].
  intros a b A B. ev.
  assert (K : Cconj (cinv n (fun a b => Copp (cpt p "negative_precision" [a; b])) a b) = V a b); [|rewrite K; now destruct (V a b)].
  rewrite (cinv_ext n _ (fun a b => Cconj (cinv n V a b)) a b) by first [assumption|intros c e Cc Ee; unfold cpt; rewrite (E c e Cc Ee); ring].
  rewrite (cinv_conj n (cinv n V) a b (hpd_inv n V HV) A B), (cinv_inv n V a b HV A B). destruct (V a b) as [e g]. unfold Cconj. cbn [fst snd]. apply f_equal2; ring.
Qed.
Lemma mom_all f : mom_ok f.
Proof.
  destruct f; first [exact m_bernoulli|exact m_geometric|exact m_negative_binomial|exact m_logarithmic|exact m_poisson|exact m_beta|exact m_chi|exact m_chi_square|exact m_exponential|exact m_gamma|exact m_normal|exact m_unit_normal|exact m_rayleigh|exact m_weibull
    |exact m_multinomial|exact m_dirichlet|exact m_generalized_dirichlet|exact m_von_mises_fisher|exact m_mvn|exact m_diagonal|exact m_fixed|exact m_isotropic|exact m_unit|exact m_complex_unit|exact m_complex_multivariate_unit|exact m_complex_normal|exact m_ccs].
Qed.
