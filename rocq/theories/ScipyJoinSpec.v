(** Specification vocabulary for C69. *)
From Coquelicot Require Import Complex.
From Coq Require Import List Reals.
From Verif Require Import Base Tensor Scipy.
Local Open Scope R_scope.
Local Notation C := Complex.C (only parsing).
Local Existing Instance Scipy.Dflt_C.

(** the entry of an optional argument, which defaults to z everywhere *)
Definition or_else (z : C) (o : option narr) (i : list nat) : C := match o with Some a => tget (na_val a) i | None => z end.
(** the argument, if given, has the shape b, and if its dtype is real its entries are *)
Definition declared (b : list nat) (o : option narr) : Prop := forall a, o = Some a -> shp (na_val a) = b /\ (na_real a = true -> forall i, inb b i = true -> snd (tget (na_val a) i) = 0).
