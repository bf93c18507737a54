(** Specification vocabulary for C64: the expectation parameters of the named distributions in their usual parameters, as textbooks give them.
    The relation of natural to usual parameters is that of TextSpec.v. *)
From Coq Require Import String List Bool Arith Reals.
From Coquelicot Require Import Coquelicot.
From Verif Require Import Base XReal Support Dist Iteration Structure Spec SumSpec SpecFun PointSpec DensSpec TextSpec EntSpec.
Import ListNotations.
Local Open Scope string_scope.
Local Open Scope R_scope.

(** the natural parameters P and the expectation parameters E of family f, n dimensions, are those of the same distribution *)
Definition moments (f : family) (n : nat) (P E : point) : Prop :=
  let s nm := P false nm [] in let v nm k := P false nm [k] in let c nm j : C := (P false nm j, P true nm j) in
  let es nm := E false nm [] in let ev nm k := E false nm [k] in let ec nm j : C := (E false nm j, E true nm j) in
  match f with
  | Bernoulli => exists p, 0 < p < 1 /\ s "log_odds" = ln (p / (1 - p)) /\ es "probability" = p
  | Multinomial => exists p, (forall k, (k < n)%nat -> 0 < p k) /\ sumR n p < 1 /\ (forall k, (k < n)%nat -> v "log_odds" k = ln (p k / (1 - sumR n p))) /\
      forall k, (k < n)%nat -> ev "probability" k = p k
  | Geometric => exists p, 0 < p < 1 /\ s "log_not_p" = ln (1 - p) /\ es "mean" = (1 - p) / p
  | NegativeBinomial => exists p r, 0 < p < 1 /\ (1 <= r)%nat /\ s "log_not_p" = ln (1 - p) /\ s "failures" = INR r /\
      es "mean" = INR r * (1 - p) / p /\ es "failures" = INR r
  | Logarithmic => exists p, 0 < p < 1 /\ s "log_probability" = ln p /\ es "chi" = - p / ((1 - p) * ln (1 - p))
  | Poisson => exists m, 0 < m /\ s "log_mean" = ln m /\ es "mean" = m
  | Beta => exists a b, 0 < a /\ 0 < b /\ v "alpha_minus_one" 0%nat = a - 1 /\ v "alpha_minus_one" 1%nat = b - 1 /\
      (** the means of ln x and ln (1 - x) *)
      ev "mean_log_probability" 0%nat = digamma a - digamma (a + b) /\ ev "mean_log_probability" 1%nat = digamma b - digamma (a + b)
  (** the mean of ln (x^2) for Chi, of ln x for ChiSquare *)
  | Chi | ChiSquare => exists k, 0 < k /\ s "k_over_two_minus_one" = k / 2 - 1 /\ es "mean_log" = digamma (k / 2) + ln 2
  | Exponential => exists r, 0 < r /\ s "negative_rate" = - r /\ es "mean" = 1 / r
  | Gamma => exists a r, 0 < a /\ 0 < r /\ s "shape_minus_one" = a - 1 /\ s "negative_rate" = - r /\ es "mean" = a / r /\ es "mean_log" = digamma a - ln r
  | Normal => exists m w, 0 < w /\ s "mean_times_precision" = m / w /\ s "negative_half_precision" = - (1 / (2 * w)) /\ es "mean" = m /\ es "second_moment" = m ^ 2 + w
  | UnitNormal => es "mean" = s "mean"
  (** the mean of x^2 *)
  | Rayleigh => exists w, 0 < w /\ s "eta" = - (1 / (2 * (w * w))) /\ es "chi" = 2 * w ^ 2
  (** the mean of x^concentration *)
  | Weibull => exists l, 0 < l /\ s "eta" = - Rpower l (- s "concentration") /\ es "chi" = Rpower l (s "concentration") /\ es "concentration" = s "concentration"
  | Dirichlet => exists a, (forall k, (k < n)%nat -> 0 < a k /\ v "alpha_minus_one" k = a k - 1) /\
      forall k, (k < n)%nat -> ev "mean_log_probability" k = digamma (a k) - digamma (sumR n a)
  | GeneralizedDirichlet => exists a b, (forall k, (k < n)%nat -> 0 < a k /\ 0 < b k /\ v "alpha_minus_one" k = a k - 1 /\
        v "gamma" k = if (S k =? n)%nat then b k - 1 else b k - (a (S k) + b (S k))) /\
      (** x k is the product of a beta variable of parameters a k, b k and of the complements of the former ones *)
      forall k, (k < n)%nat -> ev "mean_log_probability" k = digamma (a k) - digamma (a k + b k) + sumR k (fun m => digamma (b m) - digamma (a m + b m)) /\
        ev "mean_log_cumulative_probability" k = sumR (S k) (fun m => digamma (b m) - digamma (a m + b m))
  | VonMisesFisher => exists kappa mu, 0 < kappa /\ sumR n (fun k => mu k * mu k) = 1 /\ (forall k, (k < n)%nat -> v "mean_times_concentration" k = kappa * mu k) /\
      forall k, (k < n)%nat -> ev "mean" k = vmf_length n kappa * mu k
  | MultivariateNormal => exists m S, spd n S /\ (forall a, (a < n)%nat -> v "mean_times_precision" a = sumR n (fun b => rinv n S a b * m b)) /\
      (forall a b, (a < n)%nat -> (b < n)%nat -> P false "negative_half_precision" [a; b] = - (1 / 2) * rinv n S a b) /\
      (forall a, (a < n)%nat -> ev "mean" a = m a) /\ forall a b, (a < n)%nat -> (b < n)%nat -> E false "second_moment" [a; b] = m a * m b + S a b
  | MultivariateDiagonalNormal => exists m w, (forall k, (k < n)%nat -> 0 < w k /\ v "mean_times_precision" k = m k / w k /\ v "negative_half_precision" k = - (1 / (2 * w k))) /\
      forall k, (k < n)%nat -> ev "mean" k = m k /\ ev "second_moment" k = m k ^ 2 + w k
  | MultivariateFixedVarianceNormal => exists m, (forall k, (k < n)%nat -> v "mean_times_precision" k = m k / s "variance") /\
      (forall k, (k < n)%nat -> ev "mean" k = m k) /\ es "variance" = s "variance"
  | IsotropicNormal => exists m w, 0 < w /\ (forall k, (k < n)%nat -> v "mean_times_precision" k = m k / w) /\ s "negative_half_precision" = - (1 / (2 * w)) /\
      (forall k, (k < n)%nat -> ev "mean" k = m k) /\ es "total_second_moment" = sumR n (fun k => m k ^ 2 + w)
  | MultivariateUnitNormal => forall k, (k < n)%nat -> ev "mean" k = v "mean" k
  | ComplexUnitNormal => exists m, c "two_mean_conjugate" [] = (2 * Cconj m)%C /\ ec "mean" [] = m
  | ComplexMultivariateUnitNormal => exists m, (forall k, (k < n)%nat -> c "two_mean_conjugate" [k] = (2 * Cconj (m k))%C) /\ forall k, (k < n)%nat -> ec "mean" [k] = m k
  | ComplexNormal => exists m w u, Cmod u < w /\
      s "negative_precision" = - (w / (w * w - Cmod u * Cmod u)) /\ c "pseudo_precision" [] = (Cconj u / RtoC (w * w - Cmod u * Cmod u))%C /\
      c "mean_times_precision" [] = (- (2) * (RtoC (s "negative_precision") * Cconj m + c "pseudo_precision" [] * m))%C /\
      (** the means of z, |z|^2 and z^2 *)
      ec "mean" [] = m /\ es "second_moment" = Cmod m ^ 2 + w /\ ec "pseudo_second_moment" [] = (m * m + u)%C
  | ComplexCircularlySymmetricNormal => exists V, hpd n (fun a b => fst (V a b)) (fun a b => snd (V a b)) /\
      (forall a b, (a < n)%nat -> (b < n)%nat -> c "negative_precision" [a; b] = (- Cconj (cinv n V a b))%C) /\
      forall a b, (a < n)%nat -> (b < n)%nat -> ec "variance" [a; b] = V a b
  end.
(** the sub-distributions of the natural parameters p and of the expectation parameters e, in order, are the same distributions *)
Definition converted (i : list nat) (p e : dist) : Prop :=
  Forall2 (fun l m => fst l = fst m /\ exists f n, dcls (snd l) = NP f /\ dcls (snd m) = EP f /\ dims_of (snd l) = Ok n /\ dims_of (snd m) = Ok n /\
    moments f n (point_of (snd l) i) (point_of (snd m) i)) (leaves [] p) (leaves [] e).
