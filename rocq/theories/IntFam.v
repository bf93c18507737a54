(** The density of every family integrates to one and its sufficient statistics have the expectation parameters as their expected values (C23, C25): the multivariate families. *)
From Coquelicot Require Import Coquelicot.
From Coq Require Import String List Bool Arith ZArith Reals Lra Lia.
From Verif Require Import Base XReal Tensor Support Dist Iteration Structure Tools Joint Spec SumSpec DotSpec PointSpec DensSpec SpecFun GammaFn BesselFn Val FamR FamVal DerivFacts DensVal ConvFacts IntSpec IntFacts GammaInt IntNorm IntGen IntMulti.
Import ListNotations.
Local Unset Asymmetric Patterns.
Local Open Scope string_scope.
Local Open Scope R_scope.

Definition dens (f : family) (n : nat) (p : point) (x : obs) : R := exp (lpR n p x f).
Definition norm_ok (f : family) (n : nat) (p : point) : Prop := integral_over f n (dens f n p) 1.
Definition mean_ok (f : family) (n : nat) (p : point) : Prop :=
  forall v, integral_over f n (fun x => dens f n p x * dotP (NP f) (EP f) n v (ssR n p x f)) (dotP (NP f) (EP f) n v (expR n p f)).
(** the value of expected_carrier_measure, in terms of the natural parameters *)
Definition ecmR (n : nat) (p : point) (f : family) : R :=
  let s nm := p false nm [] in
  match f with
  | Chi => -1 * (s "k_over_two_minus_one" + 1) + 1 / 2 * digamma (s "k_over_two_minus_one" + 1) + 3 / 2 * ln 2
  | ChiSquare => - (s "k_over_two_minus_one" + 1)
  | ComplexMultivariateUnitNormal => - (sumR n (fun k => csq_abs (expR n p f false "mean" [k], expR n p f true "mean" [k])) + INR n)
  | ComplexUnitNormal => - (csq_abs (expR n p f false "mean" [], expR n p f true "mean" []) + 1)
  | MultivariateFixedVarianceNormal => -1 / 2 * (sumR n (fun k => expR n p f false "mean" [k] * expR n p f false "mean" [k]) / s "variance" + INR n)
  | MultivariateUnitNormal => -1 / 2 * (sumR n (fun k => expR n p f false "mean" [k] * expR n p f false "mean" [k]) + INR n)
  | UnitNormal => -1 / 2 * (expR n p f false "mean" [] * expR n p f false "mean" [] + 1)
  | Rayleigh => 1 / 2 * ln (expR n p f false "chi" [] * (1 / 2)) + (3 / 2 * ln 2 - 1 / 2 * euler_gamma)
  | Weibull => (1 - 1 / s "concentration") * ln (expR n p f false "chi" []) - euler_gamma * (1 - 1 / s "concentration")
  | _ => 0
  end.
Definition cm_ok (f : family) (n : nat) (p : point) : Prop := integral_over f n (fun x => dens f n p x * cmR n p x f) (ecmR n p f).
Ltac vals := cbv beta iota zeta delta [ssR mkpt re cx slook expR cmR lnR ecmR]; cbn [String.eqb Ascii.eqb Bool.eqb]; unfold vector_obs, scalar_obs, complex_obs, complex_vector_obs, csq_abs; cbn [hd fst snd].


Lemma diag_to n a b c d e (F : list R -> R) V : (forall k, (k < n)%nat -> a k < 0) -> (forall l, length l = n -> F l = diagP n a b l * (sumR n (fun k => c k * nth k l 0 + d k * (nth k l 0 * nth k l 0)) + e)) ->
  V = sumR n (fun k => c k * gm (a k) (b k) + d k * gs (a k) (b k)) + e -> WL n [] F V.
Proof. intros H E ->. eapply WL_ext; [|exact (diag_moments n a b H c d e)]. intros l L. cbn [app]. symmetry. now apply E. Qed.
Lemma diag_one n a b (F : list R -> R) : (forall k, (k < n)%nat -> a k < 0) -> (forall l, length l = n -> F l = diagP n a b l) -> WL n [] F 1.
Proof. intros H E. eapply WL_ext; [|exact (diag_norm n a b H)]. intros l L. cbn [app]. symmetry. now apply E. Qed.
Ltac sums := rewrite <- ?sumR_const, <- ?sumR_scal, <- ?sumR_plus, <- ?sumR_minus, <- ?sumR_opp.

(** *** MultivariateDiagonalNormal *)
Lemma mdn_dens n p l : dens MultivariateDiagonalNormal n p (vector_obs l) = diagP n (fun k => p false "negative_half_precision" [k]) (fun k => p false "mean_times_precision" [k]) l.
Proof.
  unfold dens, diagP. f_equal. unfold lpR. dots. vals. rewrite !Rplus_0_r. sums. apply sumR_ext. intros k _. unfold ga. ring.
Qed.
Lemma mdn_int n p : nat_dom MultivariateDiagonalNormal n p -> norm_ok MultivariateDiagonalNormal n p /\ mean_ok MultivariateDiagonalNormal n p /\ cm_ok MultivariateDiagonalNormal n p.
Proof.
  intros H. cbn [nat_dom] in H. split; [|split].
  - eapply diag_one; [exact H|]. intros l _. apply mdn_dens.
  - intros v. eapply diag_to with (c := fun k => v false "mean_times_precision" [k]) (d := fun k => v false "negative_half_precision" [k]) (e := 0); [exact H| |].
    + intros l _. cbv beta. rewrite mdn_dens. f_equal. dots. vals. rewrite !Rplus_0_r. sums. apply sumR_ext. intros k _. ring.
    + dots. vals. rewrite !Rplus_0_r. sums. apply sumR_ext. intros k _. unfold gs, gm. ring.
  - eapply diag_to with (c := fun _ => 0) (d := fun _ => 0) (e := 0); [exact H| |].
    + intros l _. cbv beta. rewrite mdn_dens. f_equal. vals. rewrite Rplus_0_r. symmetry. apply sumR_zero. intros; ring.
    + vals. rewrite Rplus_0_r. symmetry. apply sumR_zero. intros; ring.
Qed.
(** *** IsotropicNormal *)
Lemma iso_dens n p l : nat_dom IsotropicNormal n p -> dens IsotropicNormal n p (vector_obs l) = diagP n (fun k => p false "negative_half_precision" []) (fun k => p false "mean_times_precision" [k]) l.
Proof.
  cbn [nat_dom]. intros [Hn H]. unfold dens, diagP. f_equal. unfold lpR. dots. vals. unfold sumsq. rewrite !Rplus_0_r. set (h := p false "negative_half_precision" []) in *.
  rewrite (sumR_ext n (fun k => p false "mean_times_precision" [k] * nth k l 0 - p true "mean_times_precision" [k] * 0) (fun k => p false "mean_times_precision" [k] * nth k l 0)) by (intros; ring).
  rewrite (sumR_ext n (fun k => h * (nth k l 0 * nth k l 0) + p false "mean_times_precision" [k] * nth k l 0 - ga h (p false "mean_times_precision" [k]))
    (fun k => h * (nth k l 0 * nth k l 0) + p false "mean_times_precision" [k] * nth k l 0 + (1 / (4 * h) * (p false "mean_times_precision" [k] * p false "mean_times_precision" [k]) + - (1 / 2 * ln (- PI / h)))))
    by (intros; unfold ga; field; lra).
  rewrite !sumR_plus, !sumR_scal, sumR_const. replace (PI / - h) with (- PI / h) by (field; lra). field. lra.
Qed.
Lemma iso_int n p : nat_dom IsotropicNormal n p -> norm_ok IsotropicNormal n p /\ mean_ok IsotropicNormal n p /\ cm_ok IsotropicNormal n p.
Proof.
  intros H. pose proof H as [Hn Hh]. assert (H' : forall k, (k < n)%nat -> (fun _ : nat => p false "negative_half_precision" []) k < 0) by (intros; exact Hh). split; [|split].
  - eapply diag_one; [exact H'|]. intros l _. now apply iso_dens.
  - intros v. eapply diag_to with (c := fun k => v false "mean_times_precision" [k]) (d := fun k => v false "negative_half_precision" []) (e := 0); [exact H'| |].
    + intros l _. cbv beta. rewrite iso_dens by exact H. f_equal. dots. vals. rewrite !Rplus_0_r. rewrite sumR_plus, sumR_scal. f_equal; [|ring]. apply sumR_ext. intros; ring.
    + dots. vals. rewrite !Rplus_0_r. set (h := p false "negative_half_precision" []) in *. unfold gs, gm. rewrite Rmult_0_r, Rminus_0_r, Rmult_plus_distr_l.
      replace (INR n / (-2 * h)) with (INR n * (1 / (-2 * h))) by (field; lra). rewrite <- sumR_const. sums. apply sumR_ext. intros k _. field. lra.
  - eapply diag_to with (c := fun _ => 0) (d := fun _ => 0) (e := 0); [exact H'| |].
    + intros l _. cbv beta. rewrite iso_dens by exact H. f_equal. vals. rewrite Rplus_0_r. symmetry. apply sumR_zero. intros; ring.
    + vals. rewrite Rplus_0_r. symmetry. apply sumR_zero. intros; ring.
Qed.
(** *** MultivariateFixedVarianceNormal *)
Lemma mfv_dens n p l : nat_dom MultivariateFixedVarianceNormal n p -> dens MultivariateFixedVarianceNormal n p (vector_obs l) = diagP n (fun k => - (1 / (2 * p false "variance" []))) (fun k => p false "mean_times_precision" [k]) l.
Proof.
  cbn [nat_dom]. intros H. unfold dens, diagP. f_equal. unfold lpR. dots. vals. unfold sumsq. rewrite !Rplus_0_r. set (s := p false "variance" []) in *.
  rewrite (sumR_ext n (fun k => p false "mean_times_precision" [k] * nth k l 0 - p true "mean_times_precision" [k] * 0) (fun k => p false "mean_times_precision" [k] * nth k l 0)) by (intros; ring).
  assert (Q : - PI / - (1 / (2 * s)) = PI * 2 * s) by (field; lra).
  rewrite (sumR_ext n (fun k => - (1 / (2 * s)) * (nth k l 0 * nth k l 0) + p false "mean_times_precision" [k] * nth k l 0 - ga (- (1 / (2 * s))) (p false "mean_times_precision" [k]))
    (fun k => - (1 / (2 * s)) * (nth k l 0 * nth k l 0) + p false "mean_times_precision" [k] * nth k l 0 + (- (s / 2) * (p false "mean_times_precision" [k] * p false "mean_times_precision" [k]) + - (1 / 2 * ln (PI * 2 * s)))))
    by (intros; unfold ga; rewrite Q; field; lra).
  rewrite !sumR_plus, !sumR_scal, sumR_const. field. lra.
Qed.
Lemma mfv_int n p : nat_dom MultivariateFixedVarianceNormal n p -> norm_ok MultivariateFixedVarianceNormal n p /\ mean_ok MultivariateFixedVarianceNormal n p /\ cm_ok MultivariateFixedVarianceNormal n p.
Proof.
  intros H. pose proof H as Hh. cbn [nat_dom] in Hh. set (s := p false "variance" []) in *. assert (H' : forall k, (k < n)%nat -> (fun _ : nat => - (1 / (2 * s))) k < 0).
  { intros. cbv beta. assert (0 < 1 / (2 * s)) by (apply Rdiv_lt_0_compat; lra). lra. } split; [|split].
  - eapply diag_one; [exact H'|]. intros l _. now apply mfv_dens.
  - intros v. eapply diag_to with (c := fun k => v false "mean_times_precision" [k]) (d := fun k => 0) (e := 0); [exact H'| |].
    + intros l _. cbv beta. rewrite mfv_dens by exact H. f_equal. dots. vals. rewrite !Rplus_0_r. apply sumR_ext. intros; ring.
    + dots. vals. rewrite !Rplus_0_r. unfold gs, gm. apply sumR_ext. intros k _. fold s. field. lra.
  - eapply diag_to with (c := fun _ => 0) (d := fun _ => - (1 / (2 * s))) (e := 0); [exact H'| |].
    + intros l _. cbv beta. rewrite mfv_dens by exact H. f_equal. vals. rewrite Rplus_0_r. fold s. rewrite sumR_plus, !sumR_scal. field. lra.
    + vals. fold s. rewrite Rplus_0_r. unfold gs, gm. rewrite (sumR_ext n (fun k => 0 * (- p false "mean_times_precision" [k] / (2 * - (1 / (2 * s)))) + - (1 / (2 * s)) * (- p false "mean_times_precision" [k] / (2 * - (1 / (2 * s))) * (- p false "mean_times_precision" [k] / (2 * - (1 / (2 * s)))) - 1 / 2 / - (1 / (2 * s))))
        (fun k => - (1 / (2 * s)) * (p false "mean_times_precision" [k] * s * (p false "mean_times_precision" [k] * s)) + - (1 / 2))) by (intros; field; lra).
      rewrite sumR_plus, sumR_scal, sumR_const. field. lra.
Qed.
(** *** MultivariateUnitNormal *)
Lemma mun_dens n p l : dens MultivariateUnitNormal n p (vector_obs l) = diagP n (fun k => - (1 / 2)) (fun k => p false "mean" [k]) l.
Proof.
  unfold dens, diagP. f_equal. unfold lpR. dots. vals. unfold sumsq. rewrite !Rplus_0_r.
  rewrite (sumR_ext n (fun k => p false "mean" [k] * nth k l 0 - p true "mean" [k] * 0) (fun k => p false "mean" [k] * nth k l 0)) by (intros; ring).
  assert (Q : - PI / - (1 / 2) = PI * 2) by field.
  rewrite (sumR_ext n (fun k => - (1 / 2) * (nth k l 0 * nth k l 0) + p false "mean" [k] * nth k l 0 - ga (- (1 / 2)) (p false "mean" [k]))
    (fun k => - (1 / 2) * (nth k l 0 * nth k l 0) + p false "mean" [k] * nth k l 0 + (- (1 / 2) * (p false "mean" [k] * p false "mean" [k]) + - (1 / 2 * ln (PI * 2)))))
    by (intros; unfold ga; rewrite Q; field).
  rewrite !sumR_plus, !sumR_scal, sumR_const. field.
Qed.
Lemma mun_int n p : norm_ok MultivariateUnitNormal n p /\ mean_ok MultivariateUnitNormal n p /\ cm_ok MultivariateUnitNormal n p.
Proof.
  assert (H' : forall k, (k < n)%nat -> (fun _ : nat => - (1 / 2)) k < 0) by (intros; cbv beta; lra). split; [|split].
  - eapply diag_one; [exact H'|]. intros l _. now apply mun_dens.
  - intros v. eapply diag_to with (c := fun k => v false "mean" [k]) (d := fun k => 0) (e := 0); [exact H'| |].
    + intros l _. cbv beta. rewrite mun_dens. f_equal. dots. vals. rewrite !Rplus_0_r. apply sumR_ext. intros; ring.
    + dots. vals. rewrite !Rplus_0_r. unfold gs, gm. apply sumR_ext. intros k _. field.
  - eapply diag_to with (c := fun _ => 0) (d := fun _ => - (1 / 2)) (e := 0); [exact H'| |].
    + intros l _. cbv beta. rewrite mun_dens. f_equal. vals. rewrite Rplus_0_r. rewrite sumR_plus, !sumR_scal. field.
    + vals. rewrite Rplus_0_r. unfold gs, gm. rewrite (sumR_ext n (fun k => 0 * (- p false "mean" [k] / (2 * - (1 / 2))) + - (1 / 2) * (- p false "mean" [k] / (2 * - (1 / 2)) * (- p false "mean" [k] / (2 * - (1 / 2))) - 1 / 2 / - (1 / 2)))
        (fun k => - (1 / 2) * (p false "mean" [k] * p false "mean" [k]) + - (1 / 2))) by (intros; field).
      rewrite sumR_plus, sumR_scal, sumR_const. field.
Qed.
(** *** ComplexUnitNormal *)
Definition tmc (p : point) (k : list nat) (c : bool) : R := if c then - p true "two_mean_conjugate" k else p false "two_mean_conjugate" k.
Definition cub (p : point) (k : nat) : R := tmc p [] (Nat.odd k).
Lemma cun_dens n p l : dens ComplexUnitNormal n p (complex_obs (nth 0 l 0, nth 1 l 0)) = diagP 2 (fun _ => -1) (cub p) l.
Proof.
  unfold dens, diagP. f_equal. unfold lpR. dots. vals. rewrite sumR2. unfold cub, tmc, ga. cbn [Nat.odd Nat.even negb]. replace (- PI / -1) with PI by field. field.
Qed.
Lemma cun_int n p : norm_ok ComplexUnitNormal n p /\ mean_ok ComplexUnitNormal n p /\ cm_ok ComplexUnitNormal n p.
Proof.
  assert (H' : forall k, (k < 2)%nat -> (fun _ : nat => -1) k < 0) by (intros; cbv beta; lra). split; [|split].
  - eapply diag_one; [exact H'|]. intros l _. now apply cun_dens.
  - intros v. eapply diag_to with (c := cub v) (d := fun k => 0) (e := 0); [exact H'| |].
    + intros l _. cbv beta. rewrite cun_dens. f_equal. dots. vals. rewrite sumR2. unfold cub, tmc. cbn [Nat.odd Nat.even negb]. ring.
    + dots. vals. rewrite sumR2. unfold gs, gm, cub, tmc. cbn [Nat.odd Nat.even negb]. field.
  - eapply diag_to with (c := fun _ => 0) (d := fun _ => -1) (e := 0); [exact H'| |].
    + intros l _. cbv beta. rewrite cun_dens. f_equal. vals. rewrite sumR2. ring.
    + vals. rewrite sumR2. unfold gs, gm, cub, tmc. cbn [Nat.odd Nat.even negb]. field.
Qed.
(** *** ComplexMultivariateUnitNormal *)
Lemma sumR_2n n g : sumR (n + n) g = sumR n (fun k => g (2 * k)%nat + g (2 * k + 1)%nat).
Proof.
  induction n as [|n IH]; [reflexivity|]. replace (Datatypes.S n + Datatypes.S n)%nat with (Datatypes.S (Datatypes.S (n + n)))%nat by lia. rewrite !sumR_S, IH. replace (2 * n)%nat with (n + n)%nat by lia.
  replace (n + n + 1)%nat with (Datatypes.S (n + n)) by lia. ring.
Qed.
Definition cmub (p : point) (k : nat) : R := tmc p [Nat.div2 k] (Nat.odd k).
Lemma cmub0 p k : cmub p (2 * k) = p false "two_mean_conjugate" [k].
Proof. unfold cmub. rewrite Nat.div2_double, Nat.odd_mul. reflexivity. Qed.
Lemma cmub1 p k : cmub p (2 * k + 1) = - p true "two_mean_conjugate" [k].
Proof. unfold cmub. rewrite Nat.add_1_r, Nat.div2_succ_double, Nat.odd_succ, Nat.even_mul. reflexivity. Qed.
Lemma cmun_dens n p l : dens ComplexMultivariateUnitNormal n p (complex_vector_obs l) = diagP (n + n) (fun _ => -1) (cmub p) l.
Proof.
  unfold dens, diagP. f_equal. unfold lpR. dots. vals. rewrite sumR_2n. rewrite Rplus_0_r, <- sumR_const. repeat (first [rewrite <- sumR_opp | rewrite <- sumR_plus | rewrite <- sumR_minus]). apply sumR_ext. intros k _. rewrite cmub0, cmub1. unfold ga. replace (- PI / -1) with PI by field. rewrite !Nat.add_0_r. 
  replace (k + k)%nat with (2 * k)%nat by lia. field.
Qed.
Lemma cmun_int n p : norm_ok ComplexMultivariateUnitNormal n p /\ mean_ok ComplexMultivariateUnitNormal n p /\ cm_ok ComplexMultivariateUnitNormal n p.
Proof.
  assert (H' : forall k, (k < n + n)%nat -> (fun _ : nat => -1) k < 0) by (intros; cbv beta; lra). split; [|split].
  - eapply diag_one; [exact H'|]. intros l _. now apply cmun_dens.
  - intros v. eapply diag_to with (c := cmub v) (d := fun k => 0) (e := 0); [exact H'| |].
    + intros l _. cbv beta. rewrite cmun_dens. f_equal. dots. vals. rewrite sumR_2n, !Rplus_0_r. apply sumR_ext. intros k _. rewrite cmub0, cmub1, !Nat.add_0_r. replace (k + k)%nat with (2 * k)%nat by lia. ring.
    + dots. vals. rewrite sumR_2n, !Rplus_0_r. apply sumR_ext. intros k _. unfold gs, gm. rewrite !cmub0, !cmub1. field.
  - eapply diag_to with (c := fun _ => 0) (d := fun _ => -1) (e := 0); [exact H'| |].
    + intros l _. cbv beta. rewrite cmun_dens. f_equal. vals. rewrite sumR_2n, Rplus_0_r, <- sumR_opp. apply sumR_ext. intros k _. rewrite !Nat.add_0_r. replace (k + k)%nat with (2 * k)%nat by lia. ring.
    + vals. rewrite sumR_2n, Rplus_0_r. rewrite <- (Rmult_1_r (INR n)), <- sumR_const. repeat (first [rewrite <- sumR_opp | rewrite <- sumR_plus | rewrite <- sumR_minus]). apply sumR_ext. intros k _. unfold gs, gm. rewrite !cmub0, !cmub1. field.
Qed.
(** *** ComplexNormal: a Gaussian in two coordinates *)
Lemma gd_quad a b c d e : a < 0 -> improper m_infty p_infty (fun x => gd a b x * (c * x + d * (x * x) + e)) (c * gm a b + d * gs a b + e).
Proof.
  intros H. destruct (gd_moments a b H) as [M1 M2]. pose proof (int_sg _ _ _ (gd_norm a b H : int (line m_infty p_infty) (gd a b) 1)) as M0. apply sg_improper.
  eapply sg_ext; [|eapply sg_to; [|exact (sg_plus _ _ _ _ _ (sg_plus _ _ _ _ _ (sg_scal _ _ _ c M1) (sg_scal _ _ _ d M2)) (sg_scal _ _ _ e M0))]].
  - intros t _. cbv beta. ring.
  - unfold gm, gs, gm. ring.
Qed.
Definition q2 (A B C D E c1 c2 c3 c4 c5 e : R) : R := let a' := (A * B - C * C) / B in let b' := D - E * C / B in let r := - E / (2 * B) in let s := - C / B in
  (c1 + c2 * s + c4 * r + 2 * c5 * r * s) * gm a' b' + (c3 + c4 * s + c5 * s * s) * gs a' b' + (c2 * r + c5 * (r * r - 1 / 2 / B) + e).
Lemma quad2 A B C D E c1 c2 c3 c4 c5 e K : B < 0 -> 0 < A * B - C * C -> let a' := (A * B - C * C) / B in let b' := D - E * C / B in let r := - E / (2 * B) in let s := - C / B in
  K = - (E * E) / (4 * B) * -1 - 1 / 2 * ln (- PI / B) - ga a' b' ->
  WL 2 [] (fun l => let x := nth 0 l 0 in let y := nth 1 l 0 in exp (A * (x * x) + B * (y * y) + 2 * C * (x * y) + D * x + E * y + K) * (c1 * x + c2 * y + c3 * (x * x) + c4 * (x * y) + c5 * (y * y) + e))
    ((c1 + c2 * s + c4 * r + 2 * c5 * r * s) * gm a' b' + (c3 + c4 * s + c5 * s * s) * gs a' b' + (c2 * r + c5 * (r * r - 1 / 2 / B) + e)).
Proof.
  intros HB HD a' b' r s EK. assert (Ha' : a' < 0). { unfold a'. assert (0 < (A * B - C * C) / - B) by (apply Rdiv_lt_0_compat; lra). replace ((A * B - C * C) / B) with (- ((A * B - C * C) / - B)) by (field; lra). lra. }
  unfold WL. cbn [iterated]. exists (fun x => gd a' b' x * ((c1 + c2 * s + c4 * r + 2 * c5 * r * s) * x + (c3 + c4 * s + c5 * s * s) * (x * x) + (c2 * r + c5 * (r * r - 1 / 2 / B) + e))). split.
  - intros x _. exists (fun y => exp (A * (x * x) + B * (y * y) + 2 * C * (x * y) + D * x + E * y + K) * (c1 * x + c2 * y + c3 * (x * x) + c4 * (x * y) + c5 * (y * y) + e)). split.
    + intros y _. reflexivity.
    + pose proof (gd_quad B (E + 2 * C * x) (c2 + c4 * x) c5 (c1 * x + c3 * (x * x) + e) HB) as Q. apply (improper_scal _ _ _ _ (gd a' b' x)) in Q. eapply improper_ext; [apply (inmp 0)| |eapply improper_to; [|exact Q]].
      * intros y _. cbv beta. rewrite <- Rmult_assoc. f_equal; [|ring]. unfold gd. rewrite <- exp_plus. f_equal. rewrite EK. unfold ga, a', b'. field. split; lra.
      * cbv beta. f_equal. unfold gs, gm, r, s. field. lra.
  - apply gd_quad. exact Ha'.
Qed.
Lemma cn_facts n p : nat_dom ComplexNormal n p -> let a := p false "pseudo_precision" [] in let b := p true "pseudo_precision" [] in let c := p false "negative_precision" [] in
  c - a < 0 /\ 0 < (c + a) * (c - a) - (- b) * (- b).
Proof. intros [H1 H2]. cbn zeta in *. split; [|nra]. nra. Qed.
Lemma cn_dens n p l : nat_dom ComplexNormal n p -> let a := p false "pseudo_precision" [] in let b := p true "pseudo_precision" [] in let c := p false "negative_precision" [] in let x := nth 0 l 0 in let y := nth 1 l 0 in
  dens ComplexNormal n p (complex_obs (x, y)) = exp ((c + a) * (x * x) + (c - a) * (y * y) + 2 * (- b) * (x * y) + p false "mean_times_precision" [] * x + - p true "mean_times_precision" [] * y + - lnR n p ComplexNormal).
Proof.
  intros H a b c x y. unfold dens. f_equal. unfold lpR. dots. cbv beta iota zeta delta [ssR mkpt re cx slook cmR]. cbn [String.eqb Ascii.eqb Bool.eqb]. unfold complex_obs, csq_abs, Cmult. cbn [fst snd]. fold a b c. ring.
Qed.
Lemma cn_K n p : nat_dom ComplexNormal n p -> let a := p false "pseudo_precision" [] in let b := p true "pseudo_precision" [] in let c := p false "negative_precision" [] in
  let D := p false "mean_times_precision" [] in let E := - p true "mean_times_precision" [] in
  - lnR n p ComplexNormal = - (E * E) / (4 * (c - a)) * -1 - 1 / 2 * ln (- PI / (c - a)) - ga (((c + a) * (c - a) - (- b) * (- b)) / (c - a)) (D - E * (- b) / (c - a)).
Proof.
  intros H. rewrite (cn_ln n p H). destruct (cn_facts n p H) as [H1 H2]. cbv zeta in *. set (a := p false "pseudo_precision" []) in *. set (b := p true "pseudo_precision" []) in *. set (c := p false "negative_precision" []) in *.
  set (x := p false "mean_times_precision" []). set (y := p true "mean_times_precision" []). pose proof PI_RGT_0 as Pp. unfold ga.
  set (dl := c * c - (a * a + b * b)). assert (Hd : (c + a) * (c - a) - (- b) * (- b) = dl) by (unfold dl; ring). rewrite Hd in *.
  replace (- PI / (c - a)) with (PI / - (c - a)) by (field; lra). replace (- PI / (dl / (c - a))) with (PI * (- (c - a)) / dl) by (field; lra).
  rewrite !ln_div, ln_mult by first [lra | nra].
  assert (Q : ((a - c) * (x * x) + 2 * (b * (x * y)) - (a + c) * (y * y)) / (4 * dl) = - (- y * - y) / (4 * (c - a)) + - ((x - - y * - b / (c - a)) * (x - - y * - b / (c - a))) / (4 * (dl / (c - a)))).
  { assert (Hbb : b * b = c * c - a * a - dl) by (unfold dl; ring). apply Rmult_eq_reg_r with (4 * dl * (c - a)); [|nra].
    transitivity (((a - c) * (x * x) + 2 * (b * (x * y)) - (a + c) * (y * y)) * (c - a)); [field; lra|]. transitivity (- (y * y) * dl - (x * (c - a) - y * b) * (x * (c - a) - y * b)); [|field; lra].
    transitivity (- (y * y) * dl - x * x * ((c - a) * (c - a)) + 2 * x * y * b * (c - a) - y * y * (b * b)); [rewrite Hbb; ring|ring]. }
  rewrite Q. field. lra.
Qed.
Lemma cn_int n p : nat_dom ComplexNormal n p -> norm_ok ComplexNormal n p /\ mean_ok ComplexNormal n p /\ cm_ok ComplexNormal n p.
Proof.
  intros H. destruct (cn_facts n p H) as [H1 H2]. pose proof (cn_K n p H) as HK. pose proof (cn_dens n p) as HD. cbv zeta in *. pose proof H as [N1 N2]. cbn zeta in N1, N2.
  assert (G : forall c1 c2 c3 c4 c5 e (F : list R -> R) V, (forall l, F l = dens ComplexNormal n p (complex_obs (nth 0 l 0, nth 1 l 0)) * (c1 * nth 0 l 0 + c2 * nth 1 l 0 + c3 * (nth 0 l 0 * nth 0 l 0) + c4 * (nth 0 l 0 * nth 1 l 0) + c5 * (nth 1 l 0 * nth 1 l 0) + e)) ->
    V = q2 (p false "negative_precision" [] + p false "pseudo_precision" []) (p false "negative_precision" [] - p false "pseudo_precision" []) (- p true "pseudo_precision" []) (p false "mean_times_precision" []) (- p true "mean_times_precision" []) c1 c2 c3 c4 c5 e -> WL 2 [] F V).
  { intros c1 c2 c3 c4 c5 e F V EF EV. eapply WL_ext; [|eapply iterated_to; [symmetry; exact EV|exact (quad2 _ _ _ _ _ c1 c2 c3 c4 c5 e _ H1 H2 HK)]]. intros l _. cbn [app]. cbv zeta. rewrite EF, HD by exact H. reflexivity. }
  split; [|split].
  - apply (G 0 0 0 0 0 1); [intros l; ring|unfold q2; cbv zeta; ring].
  - intros v. apply (G (v false "mean_times_precision" []) (- v true "mean_times_precision" []) (v false "negative_precision" [] + v false "pseudo_precision" []) (- (2 * v true "pseudo_precision" [])) (v false "negative_precision" [] - v false "pseudo_precision" []) 0).
    + intros l. f_equal. dots. cbv beta iota zeta delta [ssR mkpt re cx slook cmR]. cbn [String.eqb Ascii.eqb Bool.eqb]. unfold complex_obs, csq_abs, Cmult. cbn [fst snd]. ring.
    + unfold q2. cbv zeta. dots. mk. rewrite (cn_s_eq p N1) by lra. rewrite (cn_mu_eq p N1) by lra. unfold cnR_r, cnR_np, csq_abs, Cmult, Cplus, Cconj, Copp, cpt. cbn [fst snd].
      set (a := p false "pseudo_precision" []) in *. set (b := p true "pseudo_precision" []) in *. set (c := p false "negative_precision" []) in *.
      set (x := p false "mean_times_precision" []). set (y := p true "mean_times_precision" []). unfold gs, gm. field. repeat split; nra.
  - apply (G 0 0 0 0 0 0); [intros l; vals; ring|vals; unfold q2; cbv zeta; ring].
Qed.
