(** Specification vocabulary for C56: the densities (and probability mass functions) of the named distributions, as textbooks and
    scipy.stats define them, in their usual parameters; and how the class docstrings relate the natural parameters to those. *)
From Coq Require Import String List Bool Arith Reals.
From Coquelicot Require Import Coquelicot.
From Verif Require Import Base XReal Support Dist SpecFun PointSpec DensSpec.
Import ListNotations.
Local Open Scope string_scope.
Local Open Scope R_scope.

(** Euler's gamma function and the beta function, for positive arguments; lngamma is defined by Euler's limit (SpecFun.v) *)
Definition GammaF (x : R) : R := exp (lngamma x).
Definition BetaF (a c : R) : R := GammaF a * GammaF c / GammaF (a + c).
Definition prodR (n : nat) (g : nat -> R) : R := fold_right Rmult 1 (map g (seq 0 n)).

(** ** textbook densities *)
Definition bernoulli_pmf (p x : R) : R := if Req_EM_T x 1 then p else 1 - p.
(** one trial with n+1 outcomes, of probabilities p 0, ..., p (n-1) and 1 - (p 0 + ... + p (n-1)); x is the indicator of the first n *)
Definition categorical_pmf (n : nat) (p x : nat -> R) : R := sumR n (fun k => x k * p k) + (1 - sumR n x) * (1 - sumR n p).
Definition geometric_pmf (p : R) (k : nat) : R := (1 - p) ^ k * p.
(** k failures before the r-th success, success having probability p *)
Definition negative_binomial_pmf (r : nat) (p : R) (k : nat) : R := INR (fact (k + (r - 1))) / (INR (fact k) * INR (fact (r - 1))) * p ^ r * (1 - p) ^ k.
Definition logarithmic_pmf (p : R) (k : nat) : R := - p ^ k / (INR k * ln (1 - p)).
Definition poisson_pmf (m : R) (k : nat) : R := m ^ k * exp (- m) / INR (fact k).
Definition beta_pdf (a c x : R) : R := Rpower x (a - 1) * Rpower (1 - x) (c - 1) / BetaF a c.
Definition chi_pdf (k x : R) : R := Rpower x (k - 1) * exp (- (x * x / 2)) / (Rpower 2 (k / 2 - 1) * GammaF (k / 2)).
Definition chi_square_pdf (k x : R) : R := Rpower x (k / 2 - 1) * exp (- (x / 2)) / (Rpower 2 (k / 2) * GammaF (k / 2)).
Definition exponential_pdf (r x : R) : R := r * exp (- (r * x)).
Definition gamma_pdf (a r x : R) : R := Rpower r a * Rpower x (a - 1) * exp (- (r * x)) / GammaF a.
Definition normal_pdf (m v x : R) : R := exp (- ((x - m) * (x - m) / (2 * v))) / sqrt (2 * PI * v).
Definition rayleigh_pdf (s x : R) : R := x / (s * s) * exp (- (x * x / (2 * (s * s)))).
Definition weibull_pdf (k l x : R) : R := k / l * Rpower (x / l) (k - 1) * exp (- Rpower (x / l) k).
(** x 0, ..., x (n-1) are all n probabilities *)
Definition dirichlet_pdf (n : nat) (a x : nat -> R) : R := prodR n (fun k => Rpower (x k) (a k - 1)) * GammaF (sumR n a) / prodR n (fun k => GammaF (a k)).
(** Connor and Mosimann; x 0, ..., x (n-1) are the first n of n+1 probabilities *)
Definition generalized_dirichlet_pdf (n : nat) (a c x : nat -> R) : R :=
  prodR n (fun k => Rpower (x k) (a k - 1) * Rpower (1 - sumR (S k) x) (if (S k =? n)%nat then c k - 1 else c k - (a (S k) + c (S k))) / BetaF (a k) (c k)).
Definition von_mises_fisher_pdf (n : nat) (kappa : R) (mu x : nat -> R) : R :=
  Rpower kappa (INR n / 2 - 1) / (Rpower (2 * PI) (INR n / 2) * bessel_i (INR n / 2 - 1) kappa) * exp (kappa * sumR n (fun k => mu k * x k)).
(** S is the covariance matrix *)
Definition multivariate_normal_pdf (n : nat) (m : nat -> R) (S : nat -> nat -> R) (x : nat -> R) : R :=
  exp (- (1 / 2 * sumR n (fun a => sumR n (fun b => (x a - m a) * rinv n S a b * (x b - m b))))) / sqrt ((2 * PI) ^ n * rdet n S).
(** variance E|z - m|^2 = v and pseudo-variance E(z - m)^2 = u: real and imaginary part are jointly normal with this covariance matrix *)
Definition complex_normal_cov (v : R) (u : C) (a b : nat) : R :=
  match a, b with 0%nat, 0%nat => (v + fst u) / 2 | 1%nat, 1%nat => (v - fst u) / 2 | _, _ => snd u / 2 end.
Definition pair_of (z : C) (k : nat) : R := match k with 0%nat => fst z | _ => snd z end.
Definition complex_normal_pdf (m : C) (v : R) (u z : C) : R := multivariate_normal_pdf 2 (pair_of m) (complex_normal_cov v u) (pair_of z).
(** n independent complex normal variables with unit variance and pseudo-variance 0 *)
Definition complex_unit_normal_pdf (n : nat) (m z : nat -> C) : R := prodR n (fun k => exp (- (Cmod (z k - m k)%C ^ 2)) / PI).
(** mean and pseudo-variance 0 and variance E(z z^H) = V *)
Definition circularly_symmetric_pdf (n : nat) (V : nat -> nat -> C) (z : nat -> C) : R :=
  exp (- sumR n (fun a => sumR n (fun b => fst (Cconj (z a) * cinv n V a b * z b)%C))) / (PI ^ n * fst (cdet n V)).

(** ** the natural parameters P of family f, n dimensions, are those of a distribution with density d (docstrings of the NP classes) *)
Definition classical (f : family) (n : nat) (P : point) (d : obs -> R) : Prop :=
  let s nm := P false nm [] in let v nm k := P false nm [k] in let c nm j : C := (P false nm j, P true nm j) in
  let x0 (x : obs) := x false [] in let xv (x : obs) k := x false [k] in let xc (x : obs) j : C := (x false j, x true j) in
  match f with
  | Bernoulli => exists p, 0 < p < 1 /\ s "log_odds" = ln (p / (1 - p)) /\ forall x, d x = bernoulli_pmf p (x0 x)
  | Multinomial => exists p, (forall k, (k < n)%nat -> 0 < p k) /\ sumR n p < 1 /\ (forall k, (k < n)%nat -> v "log_odds" k = ln (p k / (1 - sumR n p))) /\
      forall x, d x = categorical_pmf n p (xv x)
  | Geometric => exists p, 0 < p < 1 /\ s "log_not_p" = ln (1 - p) /\ forall x k, x0 x = INR k -> d x = geometric_pmf p k
  | NegativeBinomial => exists p r, 0 < p < 1 /\ (1 <= r)%nat /\ s "log_not_p" = ln (1 - p) /\ s "failures" = INR r /\ forall x k, x0 x = INR k -> d x = negative_binomial_pmf r p k
  | Logarithmic => exists p, 0 < p < 1 /\ s "log_probability" = ln p /\ forall x k, x0 x = INR k -> d x = logarithmic_pmf p k
  | Poisson => exists m, 0 < m /\ s "log_mean" = ln m /\ forall x k, x0 x = INR k -> d x = poisson_pmf m k
  | Beta => exists a b, 0 < a /\ 0 < b /\ v "alpha_minus_one" 0%nat = a - 1 /\ v "alpha_minus_one" 1%nat = b - 1 /\ forall x, d x = beta_pdf a b (x0 x)
  | Chi => exists k, 0 < k /\ s "k_over_two_minus_one" = k / 2 - 1 /\ forall x, d x = chi_pdf k (x0 x)
  | ChiSquare => exists k, 0 < k /\ s "k_over_two_minus_one" = k / 2 - 1 /\ forall x, d x = chi_square_pdf k (x0 x)
  | Exponential => exists r, 0 < r /\ s "negative_rate" = - r /\ forall x, d x = exponential_pdf r (x0 x)
  | Gamma => exists a r, 0 < a /\ 0 < r /\ s "shape_minus_one" = a - 1 /\ s "negative_rate" = - r /\ forall x, d x = gamma_pdf a r (x0 x)
  | Normal => exists m w, 0 < w /\ s "mean_times_precision" = m / w /\ s "negative_half_precision" = - (1 / (2 * w)) /\ forall x, d x = normal_pdf m w (x0 x)
  | UnitNormal => forall x, d x = normal_pdf (s "mean") 1 (x0 x)
  | Rayleigh => exists w, 0 < w /\ s "eta" = - (1 / (2 * (w * w))) /\ forall x, d x = rayleigh_pdf w (x0 x)
  | Weibull => exists l, 0 < l /\ s "eta" = - Rpower l (- s "concentration") /\ forall x, d x = weibull_pdf (s "concentration") l (x0 x)
  | Dirichlet => exists a, (forall k, (k < n)%nat -> 0 < a k /\ v "alpha_minus_one" k = a k - 1) /\
      forall x, d x = dirichlet_pdf n a (fun k => if (k <? n - 1)%nat then xv x k else 1 - sumR (n - 1) (xv x))
  | GeneralizedDirichlet => exists a b, (forall k, (k < n)%nat -> 0 < a k /\ 0 < b k /\ v "alpha_minus_one" k = a k - 1 /\
        v "gamma" k = if (S k =? n)%nat then b k - 1 else b k - (a (S k) + b (S k))) /\
      forall x, d x = generalized_dirichlet_pdf n a b (xv x)
  | VonMisesFisher => exists kappa mu, 0 < kappa /\ sumR n (fun k => mu k * mu k) = 1 /\ (forall k, (k < n)%nat -> v "mean_times_concentration" k = kappa * mu k) /\
      forall x, d x = von_mises_fisher_pdf n kappa mu (xv x)
  | MultivariateNormal => exists m S, spd n S /\ (forall a, (a < n)%nat -> v "mean_times_precision" a = sumR n (fun b => rinv n S a b * m b)) /\
      (forall a b, (a < n)%nat -> (b < n)%nat -> P false "negative_half_precision" [a; b] = - (1 / 2) * rinv n S a b) /\ forall x, d x = multivariate_normal_pdf n m S (xv x)
  | MultivariateDiagonalNormal => exists m w, (forall k, (k < n)%nat -> 0 < w k /\ v "mean_times_precision" k = m k / w k /\ v "negative_half_precision" k = - (1 / (2 * w k))) /\
      forall x, d x = prodR n (fun k => normal_pdf (m k) (w k) (xv x k))
  | MultivariateFixedVarianceNormal => exists m, (forall k, (k < n)%nat -> v "mean_times_precision" k = m k / s "variance") /\
      forall x, d x = prodR n (fun k => normal_pdf (m k) (s "variance") (xv x k))
  | IsotropicNormal => exists m w, 0 < w /\ (forall k, (k < n)%nat -> v "mean_times_precision" k = m k / w) /\ s "negative_half_precision" = - (1 / (2 * w)) /\
      forall x, d x = prodR n (fun k => normal_pdf (m k) w (xv x k))
  | MultivariateUnitNormal => forall x, d x = prodR n (fun k => normal_pdf (v "mean" k) 1 (xv x k))
  | ComplexUnitNormal => exists m, c "two_mean_conjugate" [] = (2 * Cconj m)%C /\ forall x, d x = complex_unit_normal_pdf 1 (fun _ => m) (fun _ => xc x [])
  | ComplexMultivariateUnitNormal => exists m, (forall k, (k < n)%nat -> c "two_mean_conjugate" [k] = (2 * Cconj (m k))%C) /\
      forall x, d x = complex_unit_normal_pdf n m (fun k => xc x [k])
  | ComplexNormal => exists m w u, Cmod u < w /\
      (** the inverse of the augmented covariance [[w, u], [conj u, w]] is [[e, f], [conj f, e]] with e = w / (w^2 - |u|^2), f = - u / (w^2 - |u|^2) *)
      s "negative_precision" = - (w / (w * w - Cmod u * Cmod u)) /\ c "pseudo_precision" [] = (Cconj u / RtoC (w * w - Cmod u * Cmod u))%C /\
      c "mean_times_precision" [] = (- (2) * (RtoC (s "negative_precision") * Cconj m + c "pseudo_precision" [] * m))%C /\
      forall x, d x = complex_normal_pdf m w u (xc x [])
  | ComplexCircularlySymmetricNormal => exists V, hpd n (fun a b => fst (V a b)) (fun a b => snd (V a b)) /\
      (forall a b, (a < n)%nat -> (b < n)%nat -> c "negative_precision" [a; b] = (- Cconj (cinv n V a b))%C) /\ forall x, d x = circularly_symmetric_pdf n V (fun k => xc x [k])
  end.
