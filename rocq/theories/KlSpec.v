(** Specification vocabulary for C19. *)
From Coq Require Import String List Bool Arith Reals.
From Verif Require Import Base XReal Tensor Support Dist Iteration Spec SumSpec DotSpec.
Import ListNotations.

(** the fixed parameters of two simple distributions have equal entries at batch index i *)
Definition same_fixed_leaf_at (b i : list nat) (q r : dist) : Prop := forall f v w j, In f (fields (dcls q)) -> fd_fixed f = true ->
  dget (dparams q) (fd_name f) = Some v -> dget (dparams r) (fd_name f) = Some w -> inb (skipn (length b) (ashape v)) j = true ->
  entry_c v (i ++ j) = entry_c w (i ++ j).
(** the same for the leaves of two trees, in order *)
Definition same_fixed_at (b i : list nat) (x y : dist) : Prop :=
  Forall2 (fun p q => same_fixed_leaf_at b i (snd p) (snd q)) (leaves [] x) (leaves [] y).
