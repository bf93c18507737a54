(** Specification vocabulary for C53: the searches of to_nat succeed at, and near, the expectation parameters of a tree. *)
From Coq Require Import String List Bool Arith Reals.
From Verif Require Import Base XReal Tensor Support Dist Iteration Structure Tools Joint Spec SumSpec DotSpec PointSpec DensSpec VarSpec Fam RootSpec MeanSpec GradSpec.
Import ListNotations.
Local Open Scope R_scope.

(** where to_nat searches, it finds a distribution whose expectation parameters are the given ones *)
Definition searches_found (L : leaf_methods) (b i : list nat) (p : dist) : Prop :=
  forall path l f, In (path, l) (leaves [] p) -> dcls l = EP f -> closed_form f = false -> exists q, to_nat L l = Ok q /\ mean_of L b i f q l.
(** at p and at p + s v for all small s *)
Definition found_along (L : leaf_methods) (b i : list nat) (p v : dist) : Prop :=
  searches_found L b i p /\ exists eps, 0 < eps /\ forall s r, Rabs s < eps -> parameter_map (lin_op 1 s) p [v] = Ok r -> searches_found L b i r.
