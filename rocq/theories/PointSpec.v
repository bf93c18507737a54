(** Specification vocabulary for the numerical properties (C19-C26, C28-C32, C34-C38): the parameter values of one batch
    element, and for every family the documented domain of its natural and expectation parameters. *)
From Coq Require Import String List Bool Arith Reals.
From Verif Require Import Base XReal Tensor Support Dist Iteration Spec SumSpec DotSpec.
Import ListNotations.
Local Open Scope string_scope.
Local Open Scope R_scope.

(** parameter values of one batch element: [p false n j] ([p true n j]) is the real (imaginary) part of entry j of parameter n *)
Definition point := bool -> string -> list nat -> R.
Definition toR (x : xr) : R := match x with Fin r => r | _ => 0 end.
Definition comp (c : bool) (z : xc) : xr := if c then xim z else xre z.
(** the parameter values of d at batch index i *)
Definition point_of (d : dist) (i : list nat) : point := fun c n j =>
  match dget (dparams d) n with Some a => toR (comp c (entry_c a (i ++ j)%list)) | None => 0 end.
(** all of them are finite; n is d.dimensions() *)
Definition finite_at (d : dist) (n : nat) (i : list nat) : Prop := forall f a j,
  In f (fields (dcls d)) -> dget (dparams d) (fd_name f) = Some a -> inb (supp_shape (fd_support f) n) j = true ->
  finite_entry (entry_c a (i ++ j)%list).

(** ** domains *)
Definition sumR (n : nat) (g : nat -> R) : R := fold_right Rplus 0 (map g (seq 0 n)).
(** a real symmetric positive definite matrix *)
Definition spd (n : nat) (m : nat -> nat -> R) : Prop :=
  (forall a b, (a < n)%nat -> (b < n)%nat -> m a b = m b a) /\
  forall z : nat -> R, (exists a, (a < n)%nat /\ z a <> 0) -> 0 < sumR n (fun a => sumR n (fun b => z a * m a b * z b)).
(** a Hermitian positive definite matrix with real part re and imaginary part im; z = x + i y *)
Definition hpd (n : nat) (re im : nat -> nat -> R) : Prop :=
  (forall a b, (a < n)%nat -> (b < n)%nat -> re a b = re b a /\ im a b = - im b a) /\
  forall x y : nat -> R, (exists a, (a < n)%nat /\ (x a <> 0 \/ y a <> 0)) ->
    0 < sumR n (fun a => sumR n (fun b => re a b * (x a * x b + y a * y b) - im a b * (x a * y b - y a * x b))).

(** natural parameters (docstrings and supports of the NP classes); n is the number of dimensions *)
Definition nat_dom (f : family) (n : nat) (p : point) : Prop :=
  let s nm := p false nm [] in let v nm k := p false nm [k] in
  match f with
  | Bernoulli | Poisson | UnitNormal | MultivariateUnitNormal | Multinomial | ComplexUnitNormal | ComplexMultivariateUnitNormal => True
  | Beta | Dirichlet => (2 <= n)%nat /\ forall k, (k < n)%nat -> -1 < v "alpha_minus_one" k
  | Chi | ChiSquare => -1 < s "k_over_two_minus_one"
  | ComplexCircularlySymmetricNormal =>
      hpd n (fun a b => - p false "negative_precision" [a; b]) (fun a b => - p true "negative_precision" [a; b])
  | ComplexNormal => s "negative_precision" < 0 /\
      s "pseudo_precision" * s "pseudo_precision" + p true "pseudo_precision" [] * p true "pseudo_precision" [] <
        s "negative_precision" * s "negative_precision"
  | Exponential => s "negative_rate" < 0
  | Gamma => s "negative_rate" < 0 /\ -1 < s "shape_minus_one"
  | GeneralizedDirichlet => forall k, (k < n)%nat -> -1 < v "alpha_minus_one" k /\ 0 < v "gamma" k
  | Geometric => s "log_not_p" < 0
  | Logarithmic => s "log_probability" < 0
  | NegativeBinomial => s "log_not_p" < 0 /\ exists k, s "failures" = INR (S k)
  | MultivariateNormal => spd n (fun a b => - p false "negative_half_precision" [a; b])
  | MultivariateDiagonalNormal => forall k, (k < n)%nat -> v "negative_half_precision" k < 0
  | MultivariateFixedVarianceNormal => 0 < s "variance"
  | IsotropicNormal => (1 <= n)%nat /\ s "negative_half_precision" < 0
  | Normal => s "negative_half_precision" < 0
  | Rayleigh => s "eta" < 0
  | VonMisesFisher => exists k, (k < n)%nat /\ v "mean_times_concentration" k <> 0
  | Weibull => 0 < s "concentration" /\ s "eta" < 0
  end.
(** expectation parameters: the open set of values the expected sufficient statistics take (for Beta, Dirichlet and
    GeneralizedDirichlet the larger set given by the supports of the EP classes) *)
Definition exp_dom (f : family) (n : nat) (p : point) : Prop :=
  let s nm := p false nm [] in let v nm k := p false nm [k] in
  match f with
  | Bernoulli => 0 < s "probability" < 1
  | Poisson | Exponential | Geometric => 0 < s "mean"
  | UnitNormal | MultivariateUnitNormal | ComplexUnitNormal | ComplexMultivariateUnitNormal => True
  | Multinomial => (forall k, (k < n)%nat -> 0 < v "probability" k) /\ sumR n (v "probability") < 1
  | Beta | Dirichlet => forall k, (k < n)%nat -> v "mean_log_probability" k < 0
  | Chi | ChiSquare => True
  | ComplexCircularlySymmetricNormal => hpd n (fun a b => p false "variance" [a; b]) (fun a b => p true "variance" [a; b])
  | ComplexNormal =>
      let m := p false "mean" [] in let m' := p true "mean" [] in
      let u := p false "pseudo_second_moment" [] - (m * m - m' * m') in
      let u' := p true "pseudo_second_moment" [] - 2 * m * m' in
      let w := s "second_moment" - (m * m + m' * m') in
      0 < w /\ u * u + u' * u' < w * w
  | Gamma => 0 < s "mean" /\ s "mean_log" < ln (s "mean")
  | GeneralizedDirichlet => forall k, (k < n)%nat -> v "mean_log_probability" k < 0 /\ v "mean_log_cumulative_probability" k < 0
  | Logarithmic => 1 < s "chi"
  | NegativeBinomial => 0 < s "mean" /\ exists k, s "failures" = INR (S k)
  | MultivariateNormal => spd n (fun a b => p false "second_moment" [a; b] - v "mean" a * v "mean" b)
  | MultivariateDiagonalNormal => forall k, (k < n)%nat -> v "mean" k * v "mean" k < v "second_moment" k
  | MultivariateFixedVarianceNormal => 0 < s "variance"
  | IsotropicNormal => (1 <= n)%nat /\ sumR n (fun k => v "mean" k * v "mean" k) < s "total_second_moment"
  | Normal => s "mean" * s "mean" < s "second_moment"
  | Rayleigh => 0 < s "chi"
  | VonMisesFisher => let m := sumR n (fun k => v "mean" k * v "mean" k) in 0 < m < 1
  | Weibull => 0 < s "concentration" /\ 0 < s "chi"
  end.
(** a simple distribution whose parameters at batch index i are finite and in the domain of its family *)
Definition in_domain (d : dist) (i : list nat) : Prop := exists n, dims_of d = Ok n /\ finite_at d n i /\
  match dcls d with
  | NP f => nat_dom f n (point_of d i)
  | EP f => exp_dom f n (point_of d i)
  | _ => False
  end.
(** every leaf of a tree *)
Definition tree_in_domain (d : dist) (i : list nat) : Prop := forall p l, In (p, l) (leaves [] d) -> in_domain l i.
(** all parameters of every leaf are finite at batch index i *)
Definition tree_finite (d : dist) (i : list nat) : Prop := forall p l, In (p, l) (leaves [] d) -> exists n, dims_of l = Ok n /\ finite_at l n i.

(** ** families *)
(** to_nat is a closed formula (the EP classes that are not ExpToNat) *)
Definition closed_form (f : family) : bool :=
  match f with Beta | Chi | ChiSquare | Dirichlet | Gamma | GeneralizedDirichlet | Logarithmic | VonMisesFisher => false | _ => true end.
(** the families whose methods invert matrices *)
Definition matrix_family (f : family) : bool := match f with MultivariateNormal | ComplexCircularlySymmetricNormal => true | _ => false end.
(** every leaf of the tree belongs to a family satisfying P *)
Definition families (P : family -> Prop) (d : dist) : Prop := forall p l f, In (p, l) (leaves [] d) -> family_of (dcls l) = Some f -> P f.
(** no Logarithmic leaf is in the range where to_exp replaces its formula by 1 or +inf (logarithmic.py:15-16, 48-50) *)
Definition not_clipped (d : dist) (i : list nat) : Prop := forall p l, In (p, l) (leaves [] d) -> dcls l = NP Logarithmic ->
  -50 <= point_of l i false "log_probability" [] <= -1 / 10000000.
(** two simple distributions of the same class, batch shape and dimensions whose parameters have equal entries at batch index i *)
Definition same_leaf_at (b i : list nat) (q r : dist) : Prop :=
  dcls q = dcls r /\ leaf_match b q r /\ forall f v w j, In f (fields (dcls q)) ->
    dget (dparams q) (fd_name f) = Some v -> dget (dparams r) (fd_name f) = Some w -> inb (skipn (length b) (ashape v)) j = true ->
    entry_c v (i ++ j)%list = entry_c w (i ++ j)%list.
(** the leaves of two trees, in order: the same paths and the same distributions at batch index i *)
Definition same_at (b i : list nat) (x y : dist) : Prop :=
  Forall2 (fun p q => fst p = fst q /\ same_leaf_at b i (snd p) (snd q)) (leaves [] x) (leaves [] y).
