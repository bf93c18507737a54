(** Specification vocabulary for C31. *)
From Coq Require Import String List Bool Arith Reals.
From Verif Require Import Base XReal Tensor Support Dist Iteration Structure Tools Joint Spec SumSpec DotSpec PointSpec DensSpec KlSpec.
Import ListNotations.
Local Open Scope R_scope.

(** the families with a conjugate prior *)
Definition has_prior (f : family) : Prop :=
  match f with Bernoulli | Exponential | Multinomial | MultivariateFixedVarianceNormal | MultivariateUnitNormal | Poisson | UnitNormal => True | _ => False end.
(** n.shape == d.shape, and the number of pseudo-observations at batch index i is N *)
Definition pseudo_observations (b i : list nat) (n : arr) (N : R) : Prop := exists t, n = RA t /\ shp t = b /\ tget t i = Fin N.
(** n.shape == ( *d.shape, d.dimensions()); one number for every dimension *)
Definition pseudo_observations_v (b i : list nat) (m : nat) (n : arr) (N : nat -> R) : Prop :=
  exists t, n = RA t /\ shp t = (b ++ [m])%list /\ forall k, (k < m)%nat -> tget t (i ++ [k])%list = Fin (N k).
(** p.kl_divergence(p1.to_nat()) succeeds, and is k at batch index i *)
Definition divergence (L : leaf_methods) (b i : list nat) (p p1 : dist) (k : R) : Prop := exists q t, to_nat L p1 = Ok q /\ kl_divergence_exp L p q None = Ok t /\ shp t = b /\ tget t i = Fin k.
(** the Kullback-Leibler divergence of two normal distributions on the line with means a and c and the same variance v *)
Definition normal_kl (v a c : R) : R := (a - c) * (a - c) / (2 * v).
(** p and p1 are in-domain expectation parameters of the family f with the same fixed parameters and dimensions *)
Definition comparable (b i : list nat) (f : family) (p p1 : dist) : Prop :=
  proper_e b i f p /\ proper_e b i f p1 /\ dims_of p = dims_of p1 /\ same_fixed_leaf_at b i p p1.
