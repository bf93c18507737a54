(** The textbook densities in exponential form (C56): normal distributions of vectors and complex numbers. *)
From Coquelicot Require Import Coquelicot.
From Coq Require Import String List Bool Arith ZArith Reals Lra Lia.
From Verif Require Import Base XReal Tensor Support Dist Iteration Structure Tools Joint Spec SumSpec DotSpec PointSpec DensSpec SpecFun GammaFn BesselFn Val FamR FamVal DerivFacts DensVal DensThms ConvFacts IntSpec IntFacts GammaInt IntNorm IntGen IntMulti IntFam
  DotFacts DotLaws MatFacts MatVal MatDeriv IntMat DetInv TextSpec TextFacts TextVec.
Import ListNotations.
Local Unset Asymmetric Patterns.
Local Open Scope string_scope.
Local Open Scope R_scope.

Lemma t_diagonal : text_ok MultivariateDiagonalNormal.
Proof.
  intros n p x d _ _ _ (m & w & H & Ed). rewrite Ed. lp. rewrite (prodR_e n _ (fun k => - ((x false [k] - m k) * (x false [k] - m k) / (2 * w k)) - 1 / 2 * ln (2 * PI * w k))).
  2:{ intros k K. apply normal_e. apply (H k K). }
  f_equal. rewrite !Rplus_0_r. sums. apply sumR_ext. intros k K. destruct (H k K) as (Hw & E & F). rewrite E, F. destruct (normal_alg (m k) (w k) (x false [k]) Hw) as [-> ->]. ring.
Qed.
Lemma t_fixed : text_ok MultivariateFixedVarianceNormal.
Proof.
  intros n p x d _ Hv _ (m & H & Ed). cbn [nat_dom] in Hv. rewrite Ed. lp. set (w := p false "variance" []) in *. rewrite (prodR_e n _ (fun k => - ((x false [k] - m k) * (x false [k] - m k) / (2 * w)) - 1 / 2 * ln (2 * PI * w))).
  2:{ intros k K. now apply normal_e. }
  f_equal. unfold sumsq. rewrite !Rplus_0_r. rewrite <- (sumR_const n (ln (PI * 2 * w))). unfold Rdiv at 2. rewrite Rmult_plus_distr_l. replace (PI * 2 * w) with (2 * PI * w) by ring.
  rewrite (Rmult_comm (sumR n (fun k => p false "mean_times_precision" [k] * _)) w). rewrite (Rmult_comm (_ * sumR n (fun k => x false [k] * x false [k])) (/ w)). rewrite <- !sumR_scal, <- !sumR_plus, <- !sumR_minus, <- !sumR_plus. apply sumR_ext. intros k K. rewrite (H k K). field. lra.
Qed.
Lemma t_isotropic : text_ok IsotropicNormal.
Proof.
  intros n p x d _ _ _ (m & w & Hw & H & E & Ed). rewrite Ed. lp. rewrite (prodR_e n _ (fun k => - ((x false [k] - m k) * (x false [k] - m k) / (2 * w)) - 1 / 2 * ln (2 * PI * w))).
  2:{ intros k K. now apply normal_e. }
  f_equal. unfold sumsq. rewrite !Rplus_0_r, E. replace (PI / - - (1 / (2 * w))) with (2 * PI * w) by (field; lra). rewrite <- (sumR_const n (ln (2 * PI * w))). rewrite Rmult_plus_distr_l, Rmult_0_r, Rminus_0_r.
  replace (-1 / 2 * sumR n (fun k => p false "mean_times_precision" [k] * p false "mean_times_precision" [k]) / - (1 / (2 * w))) with (w * sumR n (fun k => p false "mean_times_precision" [k] * p false "mean_times_precision" [k])) by (field; lra).
  rewrite <- !sumR_scal, <- !sumR_plus, <- !sumR_minus. apply sumR_ext. intros k K. rewrite (H k K). field. lra.
Qed.
Lemma t_unit : text_ok MultivariateUnitNormal.
Proof.
  intros n p x d _ _ _ Ed. cbn [classical] in Ed. rewrite Ed. lp. rewrite (prodR_e n _ (fun k => - ((x false [k] - p false "mean" [k]) * (x false [k] - p false "mean" [k]) / (2 * 1)) - 1 / 2 * ln (2 * PI * 1))).
  2:{ intros k K. apply normal_e. lra. }
  f_equal. unfold sumsq. rewrite !Rplus_0_r. replace (PI * 2) with (2 * PI * 1) by ring. rewrite <- (sumR_const n (ln (2 * PI * 1))). rewrite Rmult_plus_distr_l.
  rewrite <- !sumR_scal, <- !sumR_plus, <- !sumR_minus, <- !sumR_plus. apply sumR_ext. intros k K. field.
Qed.
Lemma mvn_quad n (W : nat -> nat -> R) (m x : nat -> R) : (forall a b, (a < n)%nat -> (b < n)%nat -> W a b = W b a) ->
  sumR n (fun a => sumR n (fun b => (x a - m a) * W a b * (x b - m b))) =
  sumR n (fun a => sumR n (fun b => W a b * (x a * x b))) - 2 * sumR n (fun a => sumR n (fun b => W a b * m b) * x a) + sumR n (fun a => sumR n (fun b => W a b * m b) * m a).
Proof.
  intros Sy. assert (K : sumR n (fun a => sumR n (fun b => W a b * m b) * x a) = sumR n (fun a => m a * sumR n (fun b => W a b * x b))).
  { rewrite (sumR_ext n (fun a => m a * _) (fun a => sumR n (fun b => W a b * (m a * x b)))) by (intros; rewrite <- sumR_scal; apply sumR_ext; intros; ring). rewrite rswap. apply sumR_ext. intros a A. rewrite Rmult_comm, <- sumR_scal. apply sumR_ext. intros b B. rewrite (Sy a b A B). ring. }
  replace (2 * sumR n (fun a => sumR n (fun b => W a b * m b) * x a)) with (sumR n (fun a => sumR n (fun b => W a b * m b) * x a) + sumR n (fun a => m a * sumR n (fun b => W a b * x b))) by (rewrite <- K; ring).
  rewrite <- !sumR_plus, <- sumR_minus, <- sumR_plus. apply sumR_ext. intros a A.
  rewrite (sumR_ext n (fun b => (x a - m a) * W a b * (x b - m b)) (fun b => (x a - m a) * (W a b * x b) - (x a - m a) * (W a b * m b))) by (intros; ring). rewrite sumR_minus, !sumR_scal.
  rewrite (sumR_ext n (fun b => W a b * (x a * x b)) (fun b => x a * (W a b * x b))) by (intros; ring). rewrite sumR_scal. ring.
Qed.
Lemma t_mvn : text_ok MultivariateNormal.
Proof.
  intros n p x d _ P _ (m & S & HS & E & F & Ed). rewrite Ed. unfold dens, lpR, multivariate_normal_pdf. set (W := rinv n S) in *. pose proof (spd_inv n S HS) as HW. fold W in HW. pose proof (spd_det n S HS) as Dp. pose proof PI_RGT_0 as Pp.
  assert (D2 : 0 < (2 * PI) ^ n) by (apply pow_lt; lra). rewrite sqrt_e by nra. rewrite div_exp. f_equal. rewrite ln_mult by assumption. rewrite pow_e, ln_exp by lra.
  set (v := fun a => sumR n (fun b => W a b * m b)).
  assert (HI : forall a b, (a < n)%nat -> (b < n)%nat -> rinv n (fun a b => p false "negative_half_precision" [a; b]) a b = -2 * S a b).
  { intros a b A B. assert (H2 : spd n (fun a b => 1 / 2 * W a b)) by (apply spd_scal; [lra|exact HW]).
    rewrite (rinv_ext n _ (fun a b => - (1 / 2 * W a b)) a b) by first [assumption | intros; rewrite F by assumption; ring]. rewrite rinv_opp by first [assumption|apply spd_ne; exact H2]. rewrite rinv_scal by first [lra|assumption]. unfold W. rewrite rinv_inv by assumption. field. }
  assert (SV : forall a, (a < n)%nat -> sumR n (fun b => S a b * v b) = m a) by (intros a A; apply rapply_inv; [now apply spd_ne|exact A]).
  assert (DT : rdet n (fun a b => - p false "negative_half_precision" [a; b]) = (1 / 2) ^ n * / rdet n S).
  { rewrite (rdet_ext n _ (fun a b => 1 / 2 * W a b)) by (intros a b A B; rewrite F by assumption; ring). rewrite rdet_scal by first [lra|assumption]. unfold W. now rewrite rdet_inv. }
  unfold dotP, var_fields. cbn [filter fields fd_fixed var fixd negb combine map fst snd fd_name fd_support]. cbn [supp_shape]. rewrite rsum_indices1, rsum_indices2. cbn [rsum fold_right]. rewrite Rplus_0_r.
  change (cmR n p x MultivariateNormal) with 0. cbv beta iota zeta delta [lnR]. rewrite DT.
  assert (Hh : 0 < (1 / 2) ^ n) by (apply pow_lt; lra). rewrite Rabs_pos_eq by (apply Rmult_le_pos; [lra|]; left; now apply Rinv_0_lt_compat). rewrite ln_mult, ln_Rinv by first [assumption|now apply Rinv_0_lt_compat]. rewrite pow_e, ln_exp by lra. rewrite (ln_inv1 2) by lra. rewrite (ln_mult 2 PI) by lra.
  rewrite (sumR_ext n (fun a => p false "mean_times_precision" [a] * ssR n p x MultivariateNormal false "mean" [a] - p true "mean_times_precision" [a] * ssR n p x MultivariateNormal true "mean" [a]) (fun a => v a * x false [a])).
  2:{ intros a A. vals. rewrite E by exact A. fold (v a). ring. }
  rewrite (sumR_ext n (fun a => sumR n (fun b => p false "negative_half_precision" [a; b] * _ - _)) (fun a => - (1 / 2) * sumR n (fun b => W a b * (x false [a] * x false [b])))).
  2:{ intros a A. rewrite <- sumR_scal. apply sumR_ext. intros b B. vals. cbn [nth]. rewrite F by assumption. ring. }
  rewrite sumR_scal. rewrite (sumR_ext n (fun a => sumR n (fun b => rinv n (fun a b => p false "negative_half_precision" [a; b]) a b * _)) (fun a => -2 * (v a * m a))).
  2:{ intros a A. rewrite (sumR_ext n _ (fun b => -2 * v a * (S a b * v b))).
    - rewrite sumR_scal, SV by exact A. ring.
    - intros b B. rewrite HI, (E a A), (E b B) by assumption. fold (v a) (v b). ring. }
  rewrite sumR_scal. rewrite (mvn_quad n W m (fun a => x false [a]) (proj1 HW)). fold v. change (fun a : nat => sumR n (fun b : nat => W a b * m b) * x false [a]) with (fun a : nat => v a * x false [a]).
  change (fun a : nat => sumR n (fun b : nat => W a b * m b) * m a) with (fun a : nat => v a * m a). field.
Qed.
(** ** complex numbers *)
Local Notation C := Complex.C (only parsing).
Lemma cmod_sq z : Cmod z ^ 2 = fst z * fst z + snd z * snd z.
Proof. unfold Cmod. rewrite pow2_sqrt; [ring|]. nra. Qed.
Lemma cu_pair (P : point) nm j (m : C) : (P false nm j, P true nm j) = (2 * Cconj m)%C -> P false nm j = 2 * fst m /\ P true nm j = - (2 * snd m).
Proof. intros E. pose proof (f_equal fst E) as E1. pose proof (f_equal snd E) as E2. unfold Cmult, Cconj, RtoC in *. cbn [fst snd] in *. split; lra. Qed.
Lemma unit_e (m z : C) : exp (- Cmod (z - m)%C ^ 2) / PI = exp (2 * (fst m * fst z + snd m * snd z) - (fst z * fst z + snd z * snd z) - (fst m * fst m + snd m * snd m) - ln PI).
Proof.
  pose proof PI_RGT_0. rewrite (eln PI) at 1 by lra. rewrite div_exp. f_equal. rewrite cmod_sq. unfold Cminus, Cplus, Copp. cbn [fst snd]. ring.
Qed.
Lemma t_complex_unit : text_ok ComplexUnitNormal.
Proof.
  intros n p x d _ _ _ (m & E & Ed). rewrite Ed. destruct (cu_pair p _ _ m E) as [E1 E2]. lp. unfold complex_unit_normal_pdf, prodR. cbn [seq map fold_right]. rewrite Rmult_1_r, unit_e. f_equal. rewrite E1, E2. cbn [fst snd]. field.
Qed.
Lemma t_complex_multivariate_unit : text_ok ComplexMultivariateUnitNormal.
Proof.
  intros n p x d _ _ _ (m & E & Ed). rewrite Ed. lp. unfold complex_unit_normal_pdf. rewrite (prodR_e n _ _ (fun k _ => unit_e (m k) (x false [k], x true [k]))). f_equal. rewrite !Rplus_0_r, <- (sumR_const n (ln PI)). sums. rewrite <- sumR_plus. apply sumR_ext. intros k K.
  destruct (cu_pair p _ _ (m k) (E k K)) as [E1 E2]. rewrite E1, E2. cbn [fst snd]. field.
Qed.
Lemma t_ccs : text_ok ComplexCircularlySymmetricNormal.
Proof.
  intros n p x d _ P _ (V & HV & E & Ed). rewrite Ed. apply hpd_C in HV. apply (hpd_ext n _ V) in HV; [|intros a b _ _; now destruct (V a b)]. destruct (hpd_det n V HV) as (r & Hr & Er). unfold dens, lpR, circularly_symmetric_pdf. rewrite Er. cbn [fst RtoC]. pose proof PI_RGT_0.
  assert (Pn : 0 < PI ^ n) by now apply pow_lt. rewrite (eln (PI ^ n * r)) by nra. rewrite div_exp. f_equal. rewrite ln_mult, pow_e, ln_exp by assumption.
  assert (DT : cdet n (fun a b => Copp (cpt p "negative_precision" [a; b])) = RtoC (/ r)).
  { rewrite (cdet_ext n _ (fun a b => Cconj (cinv n V a b))).
    - rewrite (cdet_conj n _ (hpd_inv n V HV)). pose proof (cdet_inv n V HV) as K. rewrite Er in K. rewrite RtoC_inv by lra. transitivity (cdet n (cinv n V) * RtoC r * / RtoC r)%C; [|rewrite K; ring]. field. apply RtoC_neq. lra.
    - intros a b A B. unfold cpt. rewrite (E a b A B). ring. }
  cbv beta iota zeta delta [lnR]. rewrite DT. cbn [fst RtoC]. rewrite ln_Rinv by exact Hr. change (cmR n p x ComplexCircularlySymmetricNormal) with 0.
  unfold dotP, var_fields. cbn [filter fields fd_fixed var fixd negb combine map fst snd fd_name fd_support]. cbn [supp_shape]. rewrite rsum_indices2. cbn [rsum fold_right]. rewrite Rplus_0_r.
  match goal with |- ?A + 0 - _ = - ?B - _ => assert (Q : A = - B) end; [|rewrite Q; ring].
  rewrite <- sumR_opp. apply sumR_ext. intros a A. rewrite <- sumR_opp. apply sumR_ext. intros b B. vals. cbn [nth]. pose proof (f_equal fst (E a b A B)) as E1. pose proof (f_equal snd (E a b A B)) as E2. cbn [fst snd Copp Cconj] in E1, E2. rewrite E1, E2. unfold Cmult, Cconj. cbn [fst snd]. ring.
Qed.
Lemma rinv2 (S : nat -> nat -> R) : rdet 2 S = S 0%nat 0%nat * S 1%nat 1%nat - S 0%nat 1%nat * S 1%nat 0%nat /\ rinv 2 S 0%nat 0%nat = S 1%nat 1%nat / rdet 2 S /\ rinv 2 S 0%nat 1%nat = - S 0%nat 1%nat / rdet 2 S /\
  rinv 2 S 1%nat 0%nat = - S 1%nat 0%nat / rdet 2 S /\ rinv 2 S 1%nat 1%nat = S 0%nat 0%nat / rdet 2 S.
Proof.
  split; [unfold rdet; cbn; ring|]. unfold rinv, ginv, rdet, Rdiv. repeat split; (f_equal; cbn; ring).
Qed.
Lemma t_complex_normal : text_ok ComplexNormal.
Proof.
  intros n p x d _ P _ (m & w & u & Hu & E & F & G & Ed). rewrite Ed. unfold dens, lpR. rewrite (cn_ln n p P). cbv zeta. dots. cbv beta iota zeta delta [ssR mkpt re cx slook cmR]. cbn [String.eqb Ascii.eqb Bool.eqb]. unfold csq_abs.
  set (D := w * w - Cmod u * Cmod u) in *. assert (Hw : 0 < w) by (pose proof (Cmod_ge_0 u); lra). assert (Du : D = w * w - (fst u * fst u + snd u * snd u)). { unfold D. rewrite <- cmod_sq. ring. }
  assert (HD : 0 < D). { unfold D. pose proof (Cmod_ge_0 u). nra. }
  assert (F1 : p false "pseudo_precision" [] = fst u / D /\ p true "pseudo_precision" [] = - snd u / D).
  { pose proof (f_equal fst F) as K1. pose proof (f_equal snd F) as K2. unfold Cdiv in K1, K2. rewrite <- RtoC_inv in K1, K2 by lra. unfold Cmult, Cconj, RtoC in K1, K2. cbn [fst snd] in K1, K2. split; [rewrite K1|rewrite K2]; field; lra. }
  destruct F1 as [F1 F2].
  assert (G1 : p false "mean_times_precision" [] = 2 * (w * fst m - (fst u * fst m + snd u * snd m)) / D /\ p true "mean_times_precision" [] = 2 * (- w * snd m - (fst u * snd m - snd u * fst m)) / D).
  { pose proof (f_equal fst G) as K1. pose proof (f_equal snd G) as K2. rewrite F in K1, K2. unfold Cdiv in K1, K2. rewrite <- RtoC_inv in K1, K2 by lra. rewrite E in K1, K2. unfold Cmult, Cconj, RtoC, Cplus, Copp in K1, K2. cbn [fst snd] in K1, K2. split; [rewrite K1|rewrite K2]; field; lra. }
  destruct G1 as [G1 G2]. rewrite E, F1, F2, G1, G2. unfold complex_normal_pdf, multivariate_normal_pdf. destruct (rinv2 (complex_normal_cov w u)) as (R0 & R1 & R2 & R3 & R4). rewrite R0 in *.
  assert (RD : complex_normal_cov w u 0 0 * complex_normal_cov w u 1 1 - complex_normal_cov w u 0 1 * complex_normal_cov w u 1 0 = D / 4) by (cbn [complex_normal_cov]; rewrite Du; field). rewrite RD in *.
  rewrite !sumR2, R1, R2, R3, R4. cbn [complex_normal_cov pair_of fst snd]. pose proof PI_RGT_0. replace ((2 * PI) ^ 2 * (D / 4)) with (PI * PI * D) by field. assert (HP : 0 < PI * PI) by nra. rewrite sqrt_e by (now apply Rmult_lt_0_compat). rewrite div_exp. f_equal. rewrite !ln_mult by assumption.
  replace (- (w / D) * - (w / D) - (fst u / D * (fst u / D) + - snd u / D * (- snd u / D))) with (1 / D) by (transitivity ((w * w - (fst u * fst u + snd u * snd u)) / (D * D)); [rewrite <- Du; field; lra|field; lra]). rewrite ln_inv1 by exact HD.
  set (z1 := x false []). set (z2 := x true []). set (u1 := fst u) in *. set (u2 := snd u) in *. set (m1 := fst m). set (m2 := snd m). unfold Cmult. cbn [fst snd]. clearbody D u1 u2 m1 m2 z1 z2. subst D. field. lra.
Qed.
