(** Specification vocabulary for densities (C19, C23-C26, C31, C37, C38): the value of one observation and the sample spaces. *)
From Coq Require Import String List Bool Arith Reals.
From Verif Require Import Base XReal Tensor Support Dist Iteration Structure Tools Joint Spec SumSpec DotSpec PointSpec.
Import ListNotations.
Local Open Scope string_scope.
Local Open Scope R_scope.

(** [x false j] ([x true j]) is the real (imaginary) part of entry j of one observation *)
Definition obs := bool -> list nat -> R.
(** the array x holds observations of q in batch shape b; the one at batch index i is xv *)
Definition observed (b i : list nat) (q : dist) (x : arr) (xv : obs) : Prop := obs_leaf b q x /\
  forall n s j, dims_of q = Ok n -> domain_support (dcls q) = Some s -> inb (supp_shape s n) j = true ->
    entry_c x (i ++ j)%list = XC (Fin (xv false j)) (Fin (xv true j)).
(** the observations with positive density (or probability); n is the number of dimensions *)
Definition sample_space (f : family) (n : nat) (x : obs) : Prop :=
  let s := x false [] in let v k := x false [k] in
  match f with
  | Bernoulli => s = 0 \/ s = 1
  | Beta => 0 < s < 1
  | Chi | ChiSquare | Exponential | Gamma | Rayleigh | Weibull => 0 < s
  | Geometric | NegativeBinomial | Poisson => exists k, s = INR k
  | Logarithmic => exists k, s = INR (S k)
  | Multinomial => (forall k, (k < n)%nat -> v k = 0 \/ v k = 1) /\ sumR n v <= 1
  | Dirichlet => (forall k, (k < n - 1)%nat -> 0 < v k) /\ sumR (n - 1) v < 1
  | GeneralizedDirichlet => (forall k, (k < n)%nat -> 0 < v k) /\ sumR n v < 1
  | VonMisesFisher => sumR n (fun k => v k * v k) = 1
  | ComplexCircularlySymmetricNormal | ComplexMultivariateUnitNormal | ComplexNormal | ComplexUnitNormal
  | MultivariateNormal | MultivariateDiagonalNormal | MultivariateFixedVarianceNormal | IsotropicNormal
  | MultivariateUnitNormal | Normal | UnitNormal => True
  end.
(** q is a well-formed natural-parameter distribution of family f and batch shape b whose parameters at batch index i are in the natural domain *)
Definition proper (b i : list nat) (f : family) (q : dist) : Prop :=
  dcls q = NP f /\ well_formed q = true /\ leaf_shaped b q = true /\ inb b i = true /\ in_domain q i.
(** the same for expectation parameters *)
Definition proper_e (b i : list nat) (f : family) (e : dist) : Prop :=
  dcls e = EP f /\ well_formed e = true /\ leaf_shaped b e = true /\ inb b i = true /\ in_domain e i.
(** the real parameter [nm] at batch index i, entry j *)
Definition par (q : dist) (i : list nat) (nm : string) (j : list nat) : R := point_of q i false nm j.
(** [q.pdf(x)] ([q.log_pdf(x)]) succeeds, has the batch shape, and is d at batch index i *)
Definition density (L : leaf_methods) (b i : list nat) (q : dist) (x : arr) (d : R) : Prop := exists t, pdf L q (Leaf x) = Ok t /\ shp t = b /\ tget t i = Fin d.
Definition log_density (L : leaf_methods) (b i : list nat) (q : dist) (x : arr) (d : R) : Prop := exists t, log_pdf L q (Leaf x) = Ok t /\ shp t = b /\ tget t i = Fin d.

(** C37: q0 is the base distribution of q, and g maps a value of q to one of q0 (rayleigh.py, chi.py: sample_to_base_sample;
    a Weibull variable of concentration k is the k-th root of an exponential one; a chi-square variable with k degrees of freedom is a
    gamma variable of rate 1/2 and shape k/2) *)
Definition transformed (i : list nat) (f f0 : family) (q q0 : dist) (g : R -> R) : Prop :=
  match f, f0 with
  | Rayleigh, Exponential => par q0 i "negative_rate" [] = par q i "eta" [] /\ g = (fun z => z * z)
  | Weibull, Exponential => par q0 i "negative_rate" [] = par q i "eta" [] /\ g = (fun z => Rpower z (par q i "concentration" []))
  | Chi, ChiSquare => par q0 i "k_over_two_minus_one" [] = par q i "k_over_two_minus_one" [] /\ g = (fun z => z * z)
  | ChiSquare, Gamma => par q0 i "negative_rate" [] = - (1 / 2) /\ par q0 i "shape_minus_one" [] = par q i "k_over_two_minus_one" [] /\ g = (fun z => z)
  | _, _ => False
  end.

(** C38: the distribution q of family f is the special case [q0] of family f0; n is the number of dimensions of q *)
Definition special_case (n : nat) (i : list nat) (f f0 : family) (q q0 : dist) : Prop :=
  match f, f0 with
  | UnitNormal, Normal => par q0 i "mean_times_precision" [] = par q i "mean" [] /\ par q0 i "negative_half_precision" [] = - (1 / 2)
  | Geometric, NegativeBinomial => par q0 i "log_not_p" [] = par q i "log_not_p" [] /\ par q0 i "failures" [] = 1
  | Bernoulli, Multinomial => dims_of q0 = Ok 1%nat /\ par q0 i "log_odds" [0%nat] = par q i "log_odds" []
  | Exponential, Gamma => par q0 i "negative_rate" [] = par q i "negative_rate" [] /\ par q0 i "shape_minus_one" [] = 0
  | Exponential, Weibull => par q0 i "eta" [] = par q i "negative_rate" [] /\ par q0 i "concentration" [] = 1
  | Beta, Dirichlet => dims_of q0 = Ok 2%nat /\ forall k, (k < 2)%nat -> par q0 i "alpha_minus_one" [k] = par q i "alpha_minus_one" [k]
  | Normal, MultivariateDiagonalNormal => dims_of q0 = Ok 1%nat /\ par q0 i "mean_times_precision" [0%nat] = par q i "mean_times_precision" [] /\
      par q0 i "negative_half_precision" [0%nat] = par q i "negative_half_precision" []
  | IsotropicNormal, MultivariateDiagonalNormal => dims_of q0 = Ok n /\ forall k, (k < n)%nat ->
      par q0 i "mean_times_precision" [k] = par q i "mean_times_precision" [k] /\ par q0 i "negative_half_precision" [k] = par q i "negative_half_precision" []
  | MultivariateUnitNormal, MultivariateDiagonalNormal => dims_of q0 = Ok n /\ forall k, (k < n)%nat ->
      par q0 i "mean_times_precision" [k] = par q i "mean" [k] /\ par q0 i "negative_half_precision" [k] = - (1 / 2)
  | MultivariateFixedVarianceNormal, MultivariateDiagonalNormal => dims_of q0 = Ok n /\ forall k, (k < n)%nat ->
      par q0 i "mean_times_precision" [k] = par q i "mean_times_precision" [k] /\ par q0 i "negative_half_precision" [k] = - (1 / (2 * par q i "variance" []))
  | ComplexUnitNormal, ComplexMultivariateUnitNormal => dims_of q0 = Ok 1%nat /\
      forall c, point_of q0 i c "two_mean_conjugate" [0%nat] = point_of q i c "two_mean_conjugate" []
  | _, _ => False
  end.
(** the observation y of q0 has the value of the observation x of q: a scalar observation of q is the only entry of a one-dimensional one of q0 *)
Definition same_observation (f f0 : family) (x y : obs) : Prop :=
  match f, f0 with
  | Bernoulli, Multinomial | Beta, Dirichlet | Normal, MultivariateDiagonalNormal | ComplexUnitNormal, ComplexMultivariateUnitNormal => forall c, y c [0%nat] = x c []
  | _, _ => forall c j, y c j = x c j
  end.
