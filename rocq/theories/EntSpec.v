(** Specification vocabulary for C62: the entropy (in nats) of the named distributions, as textbooks and scipy.stats give it in the usual
    parameters.  The relation of natural to usual parameters is that of TextSpec.v. *)
From Coq Require Import String List Bool Arith Reals.
From Coquelicot Require Import Coquelicot.
From Verif Require Import Base XReal Support Dist SpecFun PointSpec DensSpec TextSpec.
Import ListNotations.
Local Open Scope string_scope.
Local Open Scope R_scope.

Definition beta_entropy (a c : R) : R := ln (BetaF a c) - (a - 1) * digamma a - (c - 1) * digamma c + (a + c - 2) * digamma (a + c).
Definition dirichlet_entropy (n : nat) (a : nat -> R) : R :=
  ln (prodR n (fun k => GammaF (a k)) / GammaF (sumR n a)) + (sumR n a - INR n) * digamma (sumR n a) - sumR n (fun k => (a k - 1) * digamma (a k)).
(** stick breaking: x k = z k * ((1 - z 0) * ... * (1 - z (k-1))), z k independent with the beta distribution of a k and c k, and
    E ln (1 - z k) = digamma (c k) - digamma (a k + c k) *)
Definition generalized_dirichlet_entropy (n : nat) (a c : nat -> R) : R :=
  sumR n (fun k => beta_entropy (a k) (c k) + sumR k (fun m => digamma (c m) - digamma (a m + c m))).
(** the normalising constant, and the length of the mean *)
Definition vmf_constant (n : nat) (kappa : R) : R := Rpower kappa (INR n / 2 - 1) / (Rpower (2 * PI) (INR n / 2) * bessel_i (INR n / 2 - 1) kappa).
Definition vmf_length (n : nat) (kappa : R) : R := bessel_i (INR n / 2) kappa / bessel_i (INR n / 2 - 1) kappa.

(** the distribution of family f with natural parameters P, n dimensions, has entropy h *)
Definition entropic (f : family) (n : nat) (P : point) (h : R) : Prop :=
  let s nm := P false nm [] in let v nm k := P false nm [k] in let c nm j : C := (P false nm j, P true nm j) in
  match f with
  | Bernoulli => exists p, 0 < p < 1 /\ s "log_odds" = ln (p / (1 - p)) /\ h = - (p * ln p + (1 - p) * ln (1 - p))
  | Multinomial => exists p, (forall k, (k < n)%nat -> 0 < p k) /\ sumR n p < 1 /\ (forall k, (k < n)%nat -> v "log_odds" k = ln (p k / (1 - sumR n p))) /\
      h = - (sumR n (fun k => p k * ln (p k)) + (1 - sumR n p) * ln (1 - sumR n p))
  | Geometric => exists p, 0 < p < 1 /\ s "log_not_p" = ln (1 - p) /\ h = - (p * ln p + (1 - p) * ln (1 - p)) / p
  | Beta => exists a b, 0 < a /\ 0 < b /\ v "alpha_minus_one" 0%nat = a - 1 /\ v "alpha_minus_one" 1%nat = b - 1 /\ h = beta_entropy a b
  | Chi => exists k, 0 < k /\ s "k_over_two_minus_one" = k / 2 - 1 /\ h = ln (GammaF (k / 2)) + 1 / 2 * (k - ln 2 - (k - 1) * digamma (k / 2))
  | ChiSquare => exists k, 0 < k /\ s "k_over_two_minus_one" = k / 2 - 1 /\ h = k / 2 + ln (2 * GammaF (k / 2)) + (1 - k / 2) * digamma (k / 2)
  | Exponential => exists r, 0 < r /\ s "negative_rate" = - r /\ h = 1 - ln r
  | Gamma => exists a r, 0 < a /\ 0 < r /\ s "shape_minus_one" = a - 1 /\ s "negative_rate" = - r /\ h = a - ln r + ln (GammaF a) + (1 - a) * digamma a
  | Normal => exists m w, 0 < w /\ s "mean_times_precision" = m / w /\ s "negative_half_precision" = - (1 / (2 * w)) /\ h = 1 / 2 * ln (2 * PI * exp 1 * w)
  | UnitNormal => h = 1 / 2 * ln (2 * PI * exp 1)
  | Rayleigh => exists w, 0 < w /\ s "eta" = - (1 / (2 * (w * w))) /\ h = 1 + ln (w / sqrt 2) + euler_gamma / 2
  | Weibull => exists l, 0 < l /\ s "eta" = - Rpower l (- s "concentration") /\ h = euler_gamma * (1 - 1 / s "concentration") + ln (l / s "concentration") + 1
  | Dirichlet => exists a, (forall k, (k < n)%nat -> 0 < a k /\ v "alpha_minus_one" k = a k - 1) /\ h = dirichlet_entropy n a
  | GeneralizedDirichlet => exists a b, (forall k, (k < n)%nat -> 0 < a k /\ 0 < b k /\ v "alpha_minus_one" k = a k - 1 /\
        v "gamma" k = if (S k =? n)%nat then b k - 1 else b k - (a (S k) + b (S k))) /\ h = generalized_dirichlet_entropy n a b
  | VonMisesFisher => exists kappa mu, 0 < kappa /\ sumR n (fun k => mu k * mu k) = 1 /\ (forall k, (k < n)%nat -> v "mean_times_concentration" k = kappa * mu k) /\
      h = - ln (vmf_constant n kappa) - kappa * vmf_length n kappa
  | MultivariateNormal => exists m S, spd n S /\ (forall a, (a < n)%nat -> v "mean_times_precision" a = sumR n (fun b => rinv n S a b * m b)) /\
      (forall a b, (a < n)%nat -> (b < n)%nat -> P false "negative_half_precision" [a; b] = - (1 / 2) * rinv n S a b) /\ h = 1 / 2 * ln ((2 * PI * exp 1) ^ n * rdet n S)
  | MultivariateDiagonalNormal => exists m w, (forall k, (k < n)%nat -> 0 < w k /\ v "mean_times_precision" k = m k / w k /\ v "negative_half_precision" k = - (1 / (2 * w k))) /\
      h = sumR n (fun k => 1 / 2 * ln (2 * PI * exp 1 * w k))
  | MultivariateFixedVarianceNormal => h = INR n / 2 * ln (2 * PI * exp 1 * s "variance")
  | IsotropicNormal => exists w, 0 < w /\ s "negative_half_precision" = - (1 / (2 * w)) /\ h = INR n / 2 * ln (2 * PI * exp 1 * w)
  | MultivariateUnitNormal => h = INR n / 2 * ln (2 * PI * exp 1)
  | ComplexUnitNormal => h = ln (PI * exp 1)
  | ComplexMultivariateUnitNormal => h = INR n * ln (PI * exp 1)
  | ComplexNormal => exists m w u, Cmod u < w /\
      s "negative_precision" = - (w / (w * w - Cmod u * Cmod u)) /\ c "pseudo_precision" [] = (Cconj u / RtoC (w * w - Cmod u * Cmod u))%C /\
      c "mean_times_precision" [] = (- (2) * (RtoC (s "negative_precision") * Cconj m + c "pseudo_precision" [] * m))%C /\
      h = 1 / 2 * ln ((PI * exp 1) ^ 2 * (w * w - Cmod u * Cmod u))
  | ComplexCircularlySymmetricNormal => exists V, hpd n (fun a b => fst (V a b)) (fun a b => snd (V a b)) /\
      (forall a b, (a < n)%nat -> (b < n)%nat -> c "negative_precision" [a; b] = (- Cconj (cinv n V a b))%C) /\ h = ln ((PI * exp 1) ^ n * fst (cdet n V))
  | Logarithmic | NegativeBinomial | Poisson => False
  end.
