(** Specification vocabulary for C52: the values the expectation parameters of a family take. *)
From Coq Require Import String List Bool Arith Reals.
From Verif Require Import Base XReal Tensor Support Dist Spec DotSpec SumSpec PointSpec Tools Joint DensSpec VarSpec Fam RootSpec.
Import ListNotations.
Local Open Scope string_scope.
Local Open Scope R_scope.

(** the mean of the logarithmic distribution of log-probability l *)
Definition logarithmic_mean (l : R) : R := exp l / ((exp l - 1) * ln (1 + - exp l)).
(** the expectation parameters [p] in the domain of family f, n dimensions, are those of some distribution.  [exp_dom] (PointSpec.v) already is the
    set of all expectation parameters except for these families: the expected logarithms of the probabilities of a Dirichlet distribution satisfy a strict Jensen
    inequality, and the logarithmic distribution only uses its formula for log-probabilities between -50 and -10^-7. *)
Definition attainable (f : family) (n : nat) (p : point) : Prop :=
  match f with
  | Beta | Dirichlet => (2 <= n)%nat /\ sumR n (fun k => exp (p false "mean_log_probability" [k])) < 1
  | Logarithmic => logarithmic_mean (-50) <= p false "chi" [] <= logarithmic_mean (-1 / 10000000)
  | _ => True
  end.
(** the natural parameters [q] the search can represent: it stays one 32-bit machine epsilon inside an open bound (parametrization support.py) *)
Definition representable (f : family) (n : nat) (q : point) : Prop :=
  match f with
  | Beta | Dirichlet => forall k, (k < n)%nat -> -1 + / 2 ^ 23 < q false "alpha_minus_one" [k]
  | ChiSquare => -1 + / 2 ^ 23 < q false "k_over_two_minus_one" []
  | Logarithmic => q false "log_probability" [] < - / 2 ^ 23
  | _ => True
  end.
(** q is a distribution of family f at batch index i whose expectation parameters are e *)
Definition mean_of (L : leaf_methods) (b i : list nat) (f : family) (q e : dist) : Prop :=
  proper b i f q /\ exists e', to_exp L q = Ok e' /\ same_params_at b i e e'.
(** the search parameters sp are a root of the search gradient of e at batch index i *)
Definition search_root (b i : list nat) (f : family) (m : nat) (e : dist) (sp : tensor xr) : Prop :=
  finite_search b i m sp /\ exists g, search_gradient e f sp = Ok g /\ zero_at b i g.
