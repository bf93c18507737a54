(** Specification vocabulary for C43 and C44. *)
From Coq Require Import String List Bool Arith Reals.
From Verif Require Import Base XReal Tensor Support Dist Iteration Structure Tools Joint Spec SumSpec DotSpec PointSpec DensSpec.
Import ListNotations.
Local Open Scope R_scope.

Definition categorical (f : family) : Prop := f = Bernoulli \/ f = Multinomial.
(** the observation of category k: its k-th entry is one, the others are zero; the observation of the last category is zero.  (A Bernoulli
    observation has one entry; its category 0 is True, its category 1 is False.) *)
Definition category (k : nat) : obs := fun c j => if c then 0 else if Nat.eqb (hd 0%nat j) k then 1 else 0.
(** a simple distribution of family f, batch shape b and m dimensions with finite parameters at batch index i *)
Definition plain (b i : list nat) (f : family) (q : dist) (m : nat) : Prop :=
  dcls q = NP f /\ well_formed q = true /\ leaf_shaped b q = true /\ inb b i = true /\ dims_of q = Ok m /\ finite_at q m i.
