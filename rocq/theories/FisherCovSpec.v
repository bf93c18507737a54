(** Specification vocabulary for C51: coordinates of the flattened parameters. *)
From Coquelicot Require Import Coquelicot.
From Coq Require Import String List Bool Arith Reals.
From Verif Require Import Base XReal Tensor Support Dist Iteration Structure Tools Joint Spec SumSpec DotSpec PointSpec DensSpec SampleSpec IntSpec JointIntSpec CovSpec.
Import ListNotations.
Local Open Scope R_scope.

(** the array of shape s that is 1 at index j and 0 everywhere else *)
Definition one_hot (s j : list nat) : tensor xr := tbuild s (fun k => if list_eq_dec Nat.eq_dec k j then Fin 1 else Fin 0).
(** X is the sufficient statistic that belongs to entry a of the flattened parameters of batch element i: the coefficient of that
    entry in the inner product of the parameters and the sufficient statistics *)
Definition flat_statistic (L : leaf_methods) (b i : list nat) (q : dist) (a : nat) (X : jobs -> R) : Prop :=
  exists fl x u, flatten q false = Ok (fl, x) /\ unflatten fl (one_hot (shp x) (i ++ [a])) = Ok u /\ projection_is L b i q u X.
