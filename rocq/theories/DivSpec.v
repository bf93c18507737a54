(** Specification vocabulary for C63: the Kullback-Leibler divergence (in nats) between two members of a named family, as textbooks give it in the
    usual parameters.  The relation of natural to usual parameters is that of TextSpec.v. *)
From Coq Require Import String List Bool Arith Reals.
From Coquelicot Require Import Coquelicot.
From Verif Require Import Base XReal Support Dist Iteration Structure Spec SumSpec SpecFun PointSpec DensSpec TextSpec EntSpec.
Import ListNotations.
Local Open Scope string_scope.
Local Open Scope R_scope.

Definition beta_divergence (a c a' c' : R) : R :=
  ln (BetaF a' c' / BetaF a c) + (a - a') * digamma a + (c - c') * digamma c + (a' - a + c' - c) * digamma (a + c).
Definition dirichlet_divergence (n : nat) (a a' : nat -> R) : R :=
  ln (GammaF (sumR n a) / GammaF (sumR n a')) + sumR n (fun k => ln (GammaF (a' k) / GammaF (a k)) + (a k - a' k) * (digamma (a k) - digamma (sumR n a))).
(** means m, m' and variances w, w' *)
Definition normal_divergence (m w m' w' : R) : R := 1 / 2 * (w / w' + (m - m') ^ 2 / w' - 1 + ln (w' / w)).
(** means m, m' and covariances S, S' *)
Definition mvn_divergence (n : nat) (m : nat -> R) (S : nat -> nat -> R) (m' : nat -> R) (S' : nat -> nat -> R) : R :=
  1 / 2 * (sumR n (fun a => sumR n (fun b => rinv n S' a b * S b a)) + sumR n (fun a => sumR n (fun b => (m a - m' a) * rinv n S' a b * (m b - m' b))) - INR n
           + ln (rdet n S' / rdet n S)).
(** means m, m', variances w, w' and pseudo-variances u, u' *)
Definition complex_normal_divergence (m : C) (w : R) (u m' : C) (w' : R) (u' : C) : R :=
  let D w u := w * w - Cmod u * Cmod u in let d := (m - m')%C in
  1 / 2 * ln (D w' u' / D w u) + (w * w' - fst (u * Cconj u')%C) / D w' u' + (w' * Cmod d ^ 2 - fst (Cconj u' * (d * d))%C) / D w' u' - 1.

(** the Kullback-Leibler divergence from the distribution of family f with natural parameters P to the one with natural parameters Q, of n
    dimensions, is k *)
Definition divergent (f : family) (n : nat) (P Q : point) (k : R) : Prop :=
  let s (X : point) nm := X false nm [] in let v (X : point) nm k := X false nm [k] in let c (X : point) nm j : C := (X false nm j, X true nm j) in
  match f with
  | Bernoulli => let par X p := 0 < p < 1 /\ s X "log_odds" = ln (p / (1 - p)) in
      exists p q, par P p /\ par Q q /\ k = p * ln (p / q) + (1 - p) * ln ((1 - p) / (1 - q))
  | Multinomial => let par X p := (forall k, (k < n)%nat -> 0 < p k) /\ sumR n p < 1 /\ (forall k, (k < n)%nat -> v X "log_odds" k = ln (p k / (1 - sumR n p))) in
      exists p q, par P p /\ par Q q /\ k = sumR n (fun k => p k * ln (p k / q k)) + (1 - sumR n p) * ln ((1 - sumR n p) / (1 - sumR n q))
  | Geometric => let par X p := 0 < p < 1 /\ s X "log_not_p" = ln (1 - p) in
      exists p q, par P p /\ par Q q /\ k = ln (p / q) + (1 - p) / p * ln ((1 - p) / (1 - q))
  | NegativeBinomial => let par X p := 0 < p < 1 /\ s X "log_not_p" = ln (1 - p) in
      exists p q r, par P p /\ par Q q /\ s P "failures" = INR r /\ s Q "failures" = INR r /\ k = INR r * (ln (p / q) + (1 - p) / p * ln ((1 - p) / (1 - q)))
  | Logarithmic => let par X p := 0 < p < 1 /\ s X "log_probability" = ln p in
      exists p q, par P p /\ par Q q /\ k = - 1 / ln (1 - p) * (p / (1 - p)) * ln (p / q) + ln (ln (1 - q) / ln (1 - p))
  | Poisson => let par X m := 0 < m /\ s X "log_mean" = ln m in
      exists m l, par P m /\ par Q l /\ k = m * ln (m / l) - m + l
  | Beta => let par X a b := 0 < a /\ 0 < b /\ v X "alpha_minus_one" 0%nat = a - 1 /\ v X "alpha_minus_one" 1%nat = b - 1 in
      exists a b a' b', par P a b /\ par Q a' b' /\ k = beta_divergence a b a' b'
  | Chi | ChiSquare => let par X a := 0 < a /\ s X "k_over_two_minus_one" = a / 2 - 1 in
      exists a a', par P a /\ par Q a' /\ k = ln (GammaF (a' / 2) / GammaF (a / 2)) + (a - a') / 2 * digamma (a / 2)
  | Exponential => let par X r := 0 < r /\ s X "negative_rate" = - r in
      exists r r', par P r /\ par Q r' /\ k = ln (r / r') + r' / r - 1
  | Gamma => let par X a r := 0 < a /\ 0 < r /\ s X "shape_minus_one" = a - 1 /\ s X "negative_rate" = - r in
      exists a r a' r', par P a r /\ par Q a' r' /\ k = (a - a') * digamma a + ln (GammaF a' / GammaF a) + a' * ln (r / r') + a * ((r' - r) / r)
  | Normal => let par X m w := 0 < w /\ s X "mean_times_precision" = m / w /\ s X "negative_half_precision" = - (1 / (2 * w)) in
      exists m w m' w', par P m w /\ par Q m' w' /\ k = normal_divergence m w m' w'
  | UnitNormal => k = normal_divergence (s P "mean") 1 (s Q "mean") 1
  | Rayleigh => let par X w := 0 < w /\ s X "eta" = - (1 / (2 * (w * w))) in
      exists w w', par P w /\ par Q w' /\ k = 2 * ln (w' / w) + (w * w) / (w' * w') - 1
  | Weibull => let par X l := 0 < l /\ s X "eta" = - Rpower l (- s X "concentration") in
      exists l l', s P "concentration" = s Q "concentration" /\ par P l /\ par Q l' /\ k = s P "concentration" * ln (l' / l) + Rpower (l / l') (s P "concentration") - 1
  | Dirichlet => let par X a := forall k, (k < n)%nat -> 0 < a k /\ v X "alpha_minus_one" k = a k - 1 in
      exists a a', par P a /\ par Q a' /\ k = dirichlet_divergence n a a'
  | GeneralizedDirichlet => let par X a b := forall k, (k < n)%nat -> 0 < a k /\ 0 < b k /\ v X "alpha_minus_one" k = a k - 1 /\
        v X "gamma" k = if (S k =? n)%nat then b k - 1 else b k - (a (S k) + b (S k)) in
      (** the sticks are independent *)
      exists a b a' b', par P a b /\ par Q a' b' /\ k = sumR n (fun k => beta_divergence (a k) (b k) (a' k) (b' k))
  | VonMisesFisher => let par X kappa mu := 0 < kappa /\ sumR n (fun k => mu k * mu k) = 1 /\ (forall k, (k < n)%nat -> v X "mean_times_concentration" k = kappa * mu k) in
      exists kappa mu kappa' mu', par P kappa mu /\ par Q kappa' mu' /\
        k = ln (vmf_constant n kappa / vmf_constant n kappa') + vmf_length n kappa * (kappa - kappa' * sumR n (fun k => mu k * mu' k))
  | MultivariateNormal => let par X m S := spd n S /\ (forall a, (a < n)%nat -> v X "mean_times_precision" a = sumR n (fun b => rinv n S a b * m b)) /\
        (forall a b, (a < n)%nat -> (b < n)%nat -> X false "negative_half_precision" [a; b] = - (1 / 2) * rinv n S a b) in
      exists m S m' S', par P m S /\ par Q m' S' /\ k = mvn_divergence n m S m' S'
  | MultivariateDiagonalNormal => let par X m w := forall k, (k < n)%nat -> 0 < w k /\ v X "mean_times_precision" k = m k / w k /\ v X "negative_half_precision" k = - (1 / (2 * w k)) in
      exists m w m' w', par P m w /\ par Q m' w' /\ k = sumR n (fun k => normal_divergence (m k) (w k) (m' k) (w' k))
  | MultivariateFixedVarianceNormal => let par X m := forall k, (k < n)%nat -> v X "mean_times_precision" k = m k / s X "variance" in
      exists m m', s P "variance" = s Q "variance" /\ par P m /\ par Q m' /\ k = sumR n (fun k => normal_divergence (m k) (s P "variance") (m' k) (s P "variance"))
  | IsotropicNormal => let par X m w := 0 < w /\ (forall k, (k < n)%nat -> v X "mean_times_precision" k = m k / w) /\ s X "negative_half_precision" = - (1 / (2 * w)) in
      exists m w m' w', par P m w /\ par Q m' w' /\ k = sumR n (fun k => normal_divergence (m k) w (m' k) w')
  | MultivariateUnitNormal => k = sumR n (fun k => normal_divergence (v P "mean" k) 1 (v Q "mean" k) 1)
  | ComplexUnitNormal => let par X m := c X "two_mean_conjugate" [] = (2 * Cconj m)%C in
      exists m m', par P m /\ par Q m' /\ k = Cmod (m - m')%C ^ 2
  | ComplexMultivariateUnitNormal => let par X m := forall k, (k < n)%nat -> c X "two_mean_conjugate" [k] = (2 * Cconj (m k))%C in
      exists m m', par P m /\ par Q m' /\ k = sumR n (fun k => Cmod (m k - m' k)%C ^ 2)
  | ComplexNormal => let par X m w u := Cmod u < w /\
        s X "negative_precision" = - (w / (w * w - Cmod u * Cmod u)) /\ c X "pseudo_precision" [] = (Cconj u / RtoC (w * w - Cmod u * Cmod u))%C /\
        c X "mean_times_precision" [] = (- (2) * (RtoC (s X "negative_precision") * Cconj m + c X "pseudo_precision" [] * m))%C in
      exists m w u m' w' u', par P m w u /\ par Q m' w' u' /\ k = complex_normal_divergence m w u m' w' u'
  | ComplexCircularlySymmetricNormal => let par X V := hpd n (fun a b => fst (V a b)) (fun a b => snd (V a b)) /\
        (forall a b, (a < n)%nat -> (b < n)%nat -> c X "negative_precision" [a; b] = (- Cconj (cinv n V a b))%C) in
      exists V V', par P V /\ par Q V' /\
        k = ln (fst (cdet n V') / fst (cdet n V)) + sumR n (fun a => sumR n (fun b => fst (cinv n V' a b * V b a)%C)) - INR n
  end.
(** the sub-distributions of p and q with their divergences, in order *)
Definition divergences (i : list nat) (p q : dist) (ks : list R) : Prop :=
  Forall2 (fun lm k => exists f n, dcls (snd (fst lm)) = NP f /\ dims_of (snd (fst lm)) = Ok n /\ divergent f n (point_of (snd (fst lm)) i) (point_of (snd (snd lm)) i) k)
    (combine (leaves [] p) (leaves [] q)) ks.
