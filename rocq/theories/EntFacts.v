(** The entropy of the code is the textbook entropy (C62): values. *)
From Coquelicot Require Import Coquelicot.
From Coq Require Import String List Bool Arith ZArith Reals Lra Lia.
From Verif Require Import Base XReal Tensor Support Dist Iteration Structure Tools Joint Spec SumSpec DotSpec PointSpec DensSpec SpecFun GammaFn BesselFn Val FamR FamVal DerivFacts DensVal DensThms ConvFacts IntSpec IntFacts GammaInt IntNorm IntGen IntMulti IntFam
  DotFacts DotLaws MatFacts MatVal MatDeriv IntMat DetInv TextSpec TextFacts TextVec TextMat TextThms EntSpec.
Import ListNotations.
Local Unset Asymmetric Patterns.
Local Open Scope string_scope.
Local Open Scope R_scope.
Local Notation C := Complex.C (only parsing).

Definition entR (f : family) (n : nat) (p : point) : R := - dotP (NP f) (EP f) n p (expR n p f) + lnR n p f - ecmR n p f.
Definition ent_ok (f : family) : Prop := forall n p h, dims_ok (NP f) n = true -> nat_dom f n p -> entropic f n p h -> entR f n p = h.
Ltac ep := unfold entR; dots; vals.
Lemma ln_e x : 0 < x -> ln (x * exp 1) = ln x + 1.
Proof. intros H. rewrite ln_mult, ln_exp by (try assumption; apply exp_pos). reflexivity. Qed.
Lemma ln2pie w : 0 < w -> ln (2 * PI * exp 1 * w) = ln (2 * PI * w) + 1.
Proof. intros H. pose proof PI_RGT_0 as P. assert (K : 0 < 2 * PI) by lra. replace (2 * PI * exp 1 * w) with (2 * PI * w * exp 1) by ring. apply ln_e. now apply Rmult_lt_0_compat. Qed.

Lemma e_bernoulli : ent_ok Bernoulli.
Proof.
  intros n p h _ _ (q & Hq & E & ->). ep. rewrite E. assert (0 < q / (1 - q)) by (apply Rdiv_lt_0_compat; lra). unfold expit. rewrite ?exp_Ropp, exp_ln, exp_0 by assumption.
  assert (K : q / (1 - q) + 1 = / (1 - q)) by (field; lra). rewrite K, ln_Rinv, ln_div by lra. field. lra.
Qed.
Lemma e_geometric : ent_ok Geometric.
Proof.
  intros n p h _ _ (q & Hq & E & ->). ep. rewrite E, exp_Ropp, exp_ln by lra. replace (1 + - (1 - q)) with q by ring. field. lra.
Qed.
Lemma e_beta : ent_ok Beta.
Proof.
  intros n p h D _ (a & b & Ha & Hb & E & F & ->). cbn [dims_ok] in D. apply Nat.eqb_eq in D. subst n. ep. rewrite !sumR2, E, F. unfold beta_entropy. rewrite beta_e, ln_exp.
  replace (a - 1 + 1) with a by ring. replace (b - 1 + 1) with b by ring. replace (a - 1 + (b - 1) + INR 2) with (a + b) by (cbn; ring). ring.
Qed.
Lemma e_chi : ent_ok Chi.
Proof.
  intros n p h _ _ (k & Hk & E & ->). ep. rewrite E. unfold GammaF. rewrite ln_exp. replace (k / 2 - 1 + 1) with (k / 2) by ring. rewrite ln_inv1 by lra. field.
Qed.
Lemma e_chi_square : ent_ok ChiSquare.
Proof.
  intros n p h _ _ (k & Hk & E & ->). ep. rewrite E. unfold GammaF. rewrite ln_mult, ln_exp by (try lra; apply exp_pos). replace (k / 2 - 1 + 1) with (k / 2) by ring. rewrite ln_inv1 by lra. field.
Qed.
Lemma e_exponential : ent_ok Exponential.
Proof. intros n p h _ _ (r & Hr & E & ->). ep. rewrite E, Ropp_involutive. field. lra. Qed.
Lemma e_gamma : ent_ok Gamma.
Proof.
  intros n p h _ _ (a & r & Ha & Hr & E & F & ->). ep. rewrite E, F, Ropp_involutive. unfold GammaF. rewrite ln_exp. replace (a - 1 + 1) with a by ring. field. lra.
Qed.
Lemma e_normal : ent_ok Normal.
Proof.
  intros n p h _ _ (m & w & Hw & E & F & ->). ep. rewrite E, F, ln2pie by assumption. destruct (normal_alg m w 0 Hw) as [-> _]. field. lra.
Qed.
Lemma e_unit_normal : ent_ok UnitNormal.
Proof.
  intros n p h _ _ ->. ep. pose proof PI_RGT_0. rewrite ln_e by lra. replace (PI * 2) with (2 * PI) by ring. field.
Qed.
Lemma e_rayleigh : ent_ok Rayleigh.
Proof.
  intros n p h _ _ (w & Hw & E & ->). ep. rewrite E, Ropp_involutive. assert (W : 0 < w * w) by nra. replace (-1 / - (1 / (2 * (w * w))) * (1 / 2)) with (w * w) by (field; lra). assert (S2 : 0 < sqrt 2) by (apply sqrt_lt_R0; lra).
  rewrite ln_inv1 by lra. rewrite ln_div, !ln_mult by lra. assert (L2 : ln (sqrt 2) = 1 / 2 * ln 2) by (rewrite sqrt_e, ln_exp by lra; reflexivity). rewrite L2. field. lra.
Qed.
Lemma e_weibull : ent_ok Weibull.
Proof.
  intros n p h _ [Hc _] (l & Hl & E & ->). ep. set (k := p false "concentration" []) in *. rewrite E, Ropp_involutive. assert (J : ln (Rpower l (- k)) = - k * ln l) by apply ln_exp. rewrite J. assert (R : 0 < Rpower l (- k)) by apply exp_pos.
  replace (-1 / - Rpower l (- k)) with (/ Rpower l (- k)) by (field; lra). rewrite ln_Rinv, J, ln_div by lra. field. split; lra.
Qed.
Lemma e_multinomial : ent_ok Multinomial.
Proof.
  intros n p h _ _ (q & Hq & Hq1 & E & ->). ep.
  assert (X : forall k, (k < n)%nat -> exp (p false "log_odds" [k]) = / (1 - sumR n q) * q k). { intros k K. rewrite E by exact K. rewrite exp_ln; [field; lra|]. apply Rdiv_lt_0_compat; [now apply Hq|lra]. }
  rewrite (sumR_ext n (fun k => exp (p false "log_odds" [k])) (fun k => / (1 - sumR n q) * q k)) by exact X. rewrite sumR_scal. replace (1 + / (1 - sumR n q) * sumR n q) with (/ (1 - sumR n q)) by (field; lra). rewrite ln_Rinv by lra.
  rewrite (sumR_ext n _ (fun k => q k * ln (q k) - ln (1 - sumR n q) * q k)).
  - rewrite sumR_minus, sumR_scal. ring.
  - intros k K. rewrite (X k K), (E k K), ln_div by (try lra; now apply Hq). field. lra.
Qed.
Lemma e_dirichlet : ent_ok Dirichlet.
Proof.
  intros n p h _ [Hn _] (a & Ha & ->). ep. unfold dirichlet_entropy. rewrite (prodR_e n _ (fun k => lngamma (a k))) by reflexivity. unfold GammaF. rewrite div_exp, ln_exp.
  rewrite (sumR_ext n (fun k => lngamma _) (fun k => lngamma (a k))) by (intros k K; rewrite (proj2 (Ha k K)); f_equal; ring).
  rewrite (sumR_ext n (fun k => p false "alpha_minus_one" [k]) (fun k => a k - 1)) by (intros k K; apply (Ha k K)). assert (Q : sumR n (fun k => a k - 1) + INR n = sumR n a) by (rewrite (sumR_minus n a (fun _ => 1)), (sumR_const n 1); ring). rewrite Q.
  rewrite (sumR_ext n (fun k => p false "alpha_minus_one" [k] * _ - _) (fun k => (a k - 1) * digamma (a k) - digamma (sumR n a) * (a k - 1))).
  - rewrite sumR_minus, sumR_scal. replace (sumR n (fun k => a k - 1)) with (sumR n a - INR n) by lra. ring.
  - intros k K. rewrite (proj2 (Ha k K)). replace (a k - 1 + 1) with (a k) by ring. ring.
Qed.
Lemma tele (g : nat -> R) n : sumR n (fun k => g k - g (S k)) = g 0%nat - g n.
Proof. induction n as [|n IH]; [rewrite sumR_0; ring|]. rewrite sumR_S, IH. ring. Qed.
Lemma e_generalized_dirichlet : ent_ok GeneralizedDirichlet.
Proof.
  intros n p h _ _ (a & b & H & ->). ep. destruct (gd_a n p a b H) as [A B]. unfold generalized_dirichlet_entropy. set (dd := fun m => digamma (b m) - digamma (a m + b m)). set (c := fun k => sumR k dd). set (s := fun k => if (k =? n)%nat then 1 else a k + b k).
  assert (Dd : forall k N, (k < n)%nat -> (N <= S k)%nat -> sumR N (fun m => digamma (gdR_beta n p m) - digamma (gdR_alpha p m + gdR_beta n p m)) = c N) by (intros k N Hk HN; apply sumR_ext; intros m Hm; rewrite (A m ltac:(lia)), (B _ m ltac:(lia) eq_refl); reflexivity).
  rewrite (sumR_ext n (fun k => lngamma (gdR_alpha p k) + _ - _) (fun k => lngamma (a k) + lngamma (b k) - lngamma (a k + b k))) by (intros k K; rewrite (A k K), (B _ k K eq_refl); reflexivity).
  rewrite (sumR_ext n (fun k => p false "alpha_minus_one" [k] * _ - _) (fun k => (a k - 1) * (digamma (a k) - digamma (a k + b k) + c k))).
  2:{ intros k K. cbn [hd]. rewrite (Dd k k K ltac:(lia)), (A k K), (B _ k K eq_refl). destruct (H k K) as (_ & _ & -> & _). ring. }
  rewrite (sumR_ext n (fun k => p false "gamma" [k] * _ - _) (fun k => (b k - s (S k)) * c (S k))).
  2:{ intros k K. cbn [hd]. rewrite (Dd k (S k) K ltac:(lia)). destruct (H k K) as (_ & _ & _ & ->). unfold s. destruct (S k =? n)%nat; ring. }
  rewrite (sumR_ext n (fun k => beta_entropy (a k) (b k) + _) (fun k => lngamma (a k) + lngamma (b k) - lngamma (a k + b k) - (a k - 1) * (digamma (a k) - digamma (a k + b k)) - b k * dd k + dd k + c k)).
  2:{ intros k K. unfold beta_entropy. rewrite beta_e, ln_exp. fold dd. fold (c k). unfold dd. ring. }
  assert (T : sumR n (fun k => s k * c k - s (S k) * c (S k)) = - sumR n dd). { rewrite (tele (fun k => s k * c k)). unfold s at 2. rewrite Nat.eqb_refl. unfold c. rewrite sumR_0. ring. }
  rewrite !Rplus_0_r, Rminus_0_r, <- sumR_plus, <- sumR_opp, <- sumR_plus. apply Rplus_eq_reg_r with (sumR n (fun k => s k * c k - s (S k) * c (S k))). rewrite T at 2. rewrite <- sumR_opp, <- !sumR_plus. apply sumR_ext. intros k K. unfold s at 2. rewrite (proj2 (Nat.eqb_neq k n)) by lia.
  assert (Cs : c (S k) = c k + dd k) by (unfold c; now rewrite sumR_S). rewrite ?Cs. ring.
Qed.
Lemma e_von_mises_fisher : ent_ok VonMisesFisher.
Proof.
  intros n p h D [k0 [K0 _]] (kap & mu & Hk & Hm & E & ->). ep. unfold norm2, sumsq.
  rewrite (sumR_ext n (fun k => p false "mean_times_concentration" [k] * p false "mean_times_concentration" [k]) (fun k => kap * kap * (mu k * mu k))) by (intros k K; rewrite E by exact K; ring).
  rewrite sumR_scal, Hm, Rmult_1_r, sqrt_square by lra. unfold vmf_constant, vmf_length. replace (INR n * (1 / 2)) with (INR n / 2) by field.
  assert (Hn : 1 <= INR n). { change 1 with (INR 1). apply le_INR. lia. } assert (Bp : 0 < bessel_i (INR n / 2 - 1) kap) by (apply bessel_pos; lra). pose proof PI_RGT_0.
  rewrite (sumR_ext n _ (fun k => kap * (bessel_i (INR n / 2) kap / bessel_i (INR n / 2 - 1) kap) * (mu k * mu k))) by (intros k K; rewrite E by exact K; field; split; lra). rewrite sumR_scal, Hm.
  assert (R1 : 0 < Rpower (2 * PI) (INR n / 2)) by apply exp_pos. rewrite ln_div by (try apply exp_pos; now apply Rmult_lt_0_compat). rewrite (ln_mult (Rpower (2 * PI) (INR n / 2))) by assumption. unfold Rpower. rewrite !ln_exp. ring.
Qed.
Lemma e_diagonal : ent_ok MultivariateDiagonalNormal.
Proof.
  intros n p h _ _ (m & w & H & ->). ep. rewrite !Rplus_0_r, Rminus_0_r. rewrite <- sumR_plus, <- sumR_opp, <- sumR_plus. apply sumR_ext. intros k K. destruct (H k K) as (Hw & E & F). rewrite E, F, ln2pie by assumption. destruct (normal_alg (m k) (w k) 0 Hw) as [-> _]. field. lra.
Qed.
Lemma e_fixed : ent_ok MultivariateFixedVarianceNormal.
Proof.
  intros n p h _ Hv ->. cbn [nat_dom] in Hv. ep. set (w := p false "variance" []) in *. rewrite ln2pie by assumption. unfold sumsq. replace (PI * 2 * w) with (2 * PI * w) by ring.
  rewrite (sumR_ext n (fun k => p false "mean_times_precision" [k] * _ - _) (fun k => w * (p false "mean_times_precision" [k] * p false "mean_times_precision" [k]))) by (intros; ring).
  rewrite (sumR_ext n (fun k => p false "mean_times_precision" [k] * w * _) (fun k => w * w * (p false "mean_times_precision" [k] * p false "mean_times_precision" [k]))) by (intros; ring). rewrite !sumR_scal. field. lra.
Qed.
Lemma e_isotropic : ent_ok IsotropicNormal.
Proof.
  intros n p h _ _ (w & Hw & E & ->). ep. rewrite ln2pie by assumption. unfold sumsq. rewrite E. replace (PI / - - (1 / (2 * w))) with (2 * PI * w) by (field; lra).
  rewrite (sumR_ext n (fun k => p false "mean_times_precision" [k] * _ - _) (fun k => w * (p false "mean_times_precision" [k] * p false "mean_times_precision" [k]))) by (intros; field; lra).
  rewrite (sumR_ext n (fun k => p false "mean_times_precision" [k] / _ * _) (fun k => w * w * (p false "mean_times_precision" [k] * p false "mean_times_precision" [k]))) by (intros; field; lra). rewrite !sumR_scal. field. lra.
Qed.
Lemma e_unit : ent_ok MultivariateUnitNormal.
Proof.
  intros n p h _ _ ->. ep. pose proof PI_RGT_0. rewrite ln_e by lra. unfold sumsq. replace (PI * 2) with (2 * PI) by ring.
  rewrite (sumR_ext n (fun k => p false "mean" [k] * _ - _) (fun k => p false "mean" [k] * p false "mean" [k])) by (intros; ring). field.
Qed.
Lemma e_mvn : ent_ok MultivariateNormal.
Proof.
  intros n p h _ P (m & S & HS & E & F & ->). unfold entR. set (W := rinv n S) in *. pose proof (spd_inv n S HS) as HW. fold W in HW. pose proof (spd_det n S HS) as Dp. pose proof PI_RGT_0 as Pp. pose proof (exp_pos 1) as Ep.
  assert (D2 : 0 < 2 * PI * exp 1). { apply Rmult_lt_0_compat; lra. } rewrite ln_mult by (try assumption; now apply pow_lt). rewrite pow_e, ln_exp by assumption. rewrite ln_e by lra.
  set (v := fun a => sumR n (fun b => W a b * m b)).
  assert (HI : forall a b, (a < n)%nat -> (b < n)%nat -> rinv n (fun a b => p false "negative_half_precision" [a; b]) a b = -2 * S a b).
  { intros a b A B. assert (H2 : spd n (fun a b => 1 / 2 * W a b)) by (apply spd_scal; [lra|exact HW]).
    rewrite (rinv_ext n _ (fun a b => - (1 / 2 * W a b)) a b) by first [assumption | intros; rewrite F by assumption; ring]. rewrite rinv_opp by first [assumption|apply spd_ne; exact H2]. rewrite rinv_scal by first [lra|assumption]. unfold W. rewrite rinv_inv by assumption. field. }
  assert (SV : forall a, (a < n)%nat -> sumR n (fun b => S a b * v b) = m a) by (intros a A; apply rapply_inv; [now apply spd_ne|exact A]).
  assert (DT : rdet n (fun a b => - p false "negative_half_precision" [a; b]) = (1 / 2) ^ n * / rdet n S).
  { rewrite (rdet_ext n _ (fun a b => 1 / 2 * W a b)) by (intros a b A B; rewrite F by assumption; ring). rewrite rdet_scal by first [lra|assumption]. unfold W. now rewrite rdet_inv. }
  assert (He : forall a, (a < n)%nat -> sumR n (fun b => rinv n (fun a b => p false "negative_half_precision" [a; b]) a b * p false "mean_times_precision" [b]) = -2 * m a).
  { intros a A. rewrite <- (SV a A), <- sumR_scal. apply sumR_ext. intros b B. rewrite HI, (E b B) by assumption. fold (v b). ring. }
  unfold dotP, var_fields. cbn [filter fields fd_fixed var fixd negb combine map fst snd fd_name fd_support]. cbn [supp_shape]. rewrite rsum_indices1, rsum_indices2. cbn [rsum fold_right]. rewrite Rplus_0_r.
  change (ecmR n p MultivariateNormal) with 0. cbv beta iota zeta delta [lnR]. rewrite DT.
  assert (Hh : 0 < (1 / 2) ^ n) by (apply pow_lt; lra). rewrite Rabs_pos_eq by (apply Rmult_le_pos; [lra|]; left; now apply Rinv_0_lt_compat). rewrite ln_mult, ln_Rinv by first [assumption|now apply Rinv_0_lt_compat]. rewrite pow_e, ln_exp by lra. rewrite (ln_inv1 2) by lra. rewrite (ln_mult 2 PI) by lra.
  rewrite (sumR_ext n (fun a => p false "mean_times_precision" [a] * _ - _) (fun a => v a * m a)).
  2:{ intros a A. vals. rewrite (He a A), (E a A). fold (v a). field. }
  rewrite (sumR_ext n (fun a => sumR n (fun b => p false "negative_half_precision" [a; b] * _ - _)) (fun a => - (1 / 2) * (v a * m a) + - (1 / 2))).
  2:{ intros a A. transitivity (- (1 / 2) * (m a * v a + sumR n (fun b => W a b * S b a))).
    - unfold v. rewrite <- !sumR_scal, <- sumR_plus, <- sumR_scal. apply sumR_ext. intros b B. vals. cbn [nth]. rewrite (He a A), (He b B), (HI a b A B), (F a b A B). rewrite (proj1 HS a b A B). field.
    - unfold W. rewrite rinv_left by first [assumption|exact (proj1 HS)|lra]. unfold dr. rewrite Nat.eqb_refl. ring. }
  rewrite (sumR_plus n (fun a => - (1 / 2) * (v a * m a)) (fun _ => - (1 / 2))), sumR_const, sumR_scal.
  rewrite (sumR_ext n (fun a => sumR n (fun b => rinv n (fun a b => p false "negative_half_precision" [a; b]) a b * _)) (fun a => -2 * (v a * m a))).
  2:{ intros a A. rewrite (sumR_ext n _ (fun b => v a * (rinv n (fun a b => p false "negative_half_precision" [a; b]) a b * p false "mean_times_precision" [b]))).
    - rewrite sumR_scal, (He a A). ring.
    - intros b B. rewrite (E a A). fold (v a). ring. }
  rewrite sumR_scal. field.
Qed.
Lemma e_complex_unit : ent_ok ComplexUnitNormal.
Proof. intros n p h _ _ ->. ep. pose proof PI_RGT_0. rewrite ln_e by lra. field. Qed.
Lemma e_complex_multivariate_unit : ent_ok ComplexMultivariateUnitNormal.
Proof.
  intros n p h _ _ ->. ep. pose proof PI_RGT_0. rewrite ln_e by lra. unfold csq_abs. cbn [fst snd]. rewrite !Rplus_0_r. set (g := fun k => p false "two_mean_conjugate" [k] * p false "two_mean_conjugate" [k] + p true "two_mean_conjugate" [k] * p true "two_mean_conjugate" [k]).
  rewrite (sumR_ext n (fun k => p false "two_mean_conjugate" [k] * _ - _) (fun k => 1 / 2 * g k)) by (intros; unfold g; field).
  rewrite (sumR_ext n (fun k => 1 / 2 * p false "two_mean_conjugate" [k] * (1 / 2 * p false "two_mean_conjugate" [k]) + 1 / 2 * p true "two_mean_conjugate" [k] * (1 / 2 * p true "two_mean_conjugate" [k])) (fun k => 1 / 4 * g k)) by (intros; unfold g; field).
  rewrite (sumR_ext n (fun k => 1 / 2 * p false "two_mean_conjugate" [k] * (1 / 2 * p false "two_mean_conjugate" [k]) + 1 / 2 * - p true "two_mean_conjugate" [k] * (1 / 2 * - p true "two_mean_conjugate" [k])) (fun k => 1 / 4 * g k)) by (intros; unfold g; field). rewrite !sumR_scal. field.
Qed.
Lemma e_complex_normal : ent_ok ComplexNormal.
Proof.
  intros n p h _ P (m & w & u & Hu & E & F & G & ->). unfold entR. rewrite (cn_ln n p P). cbv zeta. destruct P as [P1 P2]. assert (P3 : 0 < p false "negative_precision" [] * p false "negative_precision" [] - (p false "pseudo_precision" [] * p false "pseudo_precision" [] + p true "pseudo_precision" [] * p true "pseudo_precision" [])) by lra.
  dots. vals. rewrite (cn_s_eq p P1 P3), (cn_mu_eq p P1 P3). unfold cnR_r, cnR_np, csq_abs, cpt, Copp, Cplus, Cmult, Cconj. cbn [fst snd].
  set (D := w * w - Cmod u * Cmod u) in *. assert (Hw : 0 < w) by (pose proof (Cmod_ge_0 u); lra). assert (Du : D = w * w - (fst u * fst u + snd u * snd u)). { unfold D. rewrite <- cmod_sq. ring. }
  assert (HD : 0 < D). { unfold D. pose proof (Cmod_ge_0 u). nra. }
  assert (F1 : p false "pseudo_precision" [] = fst u / D /\ p true "pseudo_precision" [] = - snd u / D).
  { pose proof (f_equal fst F) as K1. pose proof (f_equal snd F) as K2. unfold Cdiv in K1, K2. rewrite <- RtoC_inv in K1, K2 by lra. unfold Cmult, Cconj, RtoC in K1, K2. cbn [fst snd] in K1, K2. split; [rewrite K1|rewrite K2]; field; lra. }
  assert (Q : p false "negative_precision" [] * p false "negative_precision" [] - (p false "pseudo_precision" [] * p false "pseudo_precision" [] + p true "pseudo_precision" [] * p true "pseudo_precision" []) = 1 / D).
  { destruct F1 as [-> ->]. rewrite E. transitivity ((w * w - (fst u * fst u + snd u * snd u)) / (D * D)); [field; lra|]. rewrite <- Du. field. lra. }
  pose proof PI_RGT_0 as Pp. pose proof (exp_pos 1) as Ep. assert (Hp : 0 < PI * exp 1) by now apply Rmult_lt_0_compat. rewrite (ln_mult ((PI * exp 1) ^ 2)) by (try assumption; now apply pow_lt). rewrite pow_e, ln_exp, ln_e by assumption. pose proof (f_equal ln Q) as QL. rewrite (ln_inv1 D) in QL by exact HD. rewrite QL. clear Q QL F1 Du.
  clear E F G. set (c := p false "negative_precision" []) in *. set (a := p false "pseudo_precision" []) in *. set (b := p true "pseudo_precision" []) in *. set (x := p false "mean_times_precision" []) in *. set (y := p true "mean_times_precision" []) in *. clearbody a b c x y. cbn [INR]. field. split; lra.
Qed.
Lemma e_ccs : ent_ok ComplexCircularlySymmetricNormal.
Proof.
  intros n p h _ P (V & HV & E & ->). unfold entR. rewrite ccs_dot. pose proof (ccs_hpd n p P) as HP.
  apply hpd_C in HV. apply (hpd_ext n _ V) in HV; [|intros a b _ _; now destruct (V a b)]. destruct (hpd_det n V HV) as (r & Hr & Er). rewrite Er. cbn [fst RtoC]. pose proof PI_RGT_0 as Pp. pose proof (exp_pos 1) as Ep. assert (Hp : 0 < PI * exp 1) by now apply Rmult_lt_0_compat.
  assert (DT : cdet n (fun a b => Copp (cpt p "negative_precision" [a; b])) = RtoC (/ r)).
  { rewrite (cdet_ext n _ (fun a b => Cconj (cinv n V a b))).
    - rewrite (cdet_conj n _ (hpd_inv n V HV)). pose proof (cdet_inv n V HV) as K. rewrite Er in K. rewrite RtoC_inv by lra. transitivity (cdet n (cinv n V) * RtoC r * / RtoC r)%C; [|rewrite K; ring]. field. apply RtoC_neq. lra.
    - intros a b A B. unfold cpt. rewrite (E a b A B). ring. }
  cbv beta iota zeta delta [lnR]. rewrite DT. cbn [fst RtoC]. rewrite ln_Rinv by exact Hr. change (ecmR n p ComplexCircularlySymmetricNormal) with 0.
  rewrite ln_mult by (try assumption; now apply pow_lt). rewrite pow_e, ln_exp, ln_e by assumption.
  rewrite fst_csum, (sumR_ext n _ (fun _ => -1)); [rewrite sumR_const; ring|]. intros a A.
  rewrite (csum_ext n _ (fun b => - (1) * (ccsP p a b * cinv n (ccsP p) b a))%C).
  - rewrite csum_scal, cinv_right by (try assumption; destruct (hpd_det n _ HP) as (s & Hs & ->); apply RtoC_neq; lra). unfold dl. rewrite Nat.eqb_refl. cbn. ring.
  - intros b B. rewrite <- (cA_sym n p P b a B A). unfold ccsP, cV, Copp, Cmult, RtoC. cbn [fst snd]. apply f_equal2; ring.
Qed.
