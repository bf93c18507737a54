(** Vocabulary for C72: weighted averages of distributions. *)
From Coq Require Import String List Bool Arith Reals.
From Verif Require Import Base XReal Tensor Support Dist Structure Spec SumSpec DotSpec Tools Joint DotFacts CovSpec.
Import ListNotations.
Local Open Scope R_scope.

(** w_1 x_1 + ... + w_n x_n *)
Definition wsum (wps : list (R * dist)) (xs : list R) : R := rsum (map (fun a : (R * dist) * R => fst (fst a) * snd a) (combine wps xs)).
(** the weights sum to 1 and the expectation parameters of m are the weighted average of those of the distributions in the list: along
    every v of that structure, <v, m.to_exp()> is the weighted average of the <v, p_k.to_exp()> *)
Definition averages (L : leaf_methods) (b i : list nat) (wps : list (R * dist)) (m : dist) : Prop :=
  rsum (map fst wps) = 1 /\
  forall v am als, well_formed v = true -> tree_match b m v -> finite_vars v -> mean_along L b i m v am -> Forall2 (fun wp a => mean_along L b i (snd wp) v a) wps als -> am = wsum wps als.
