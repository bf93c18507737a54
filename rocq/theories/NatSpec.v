(** Specification vocabulary for C75's round trip from the natural parameters of joint distributions. *)
From Coq Require Import String List Bool Arith Reals.
From Verif Require Import Base XReal Tensor Support Dist Structure Spec DotSpec SumSpec FlattenSpec PointSpec VarSpec DensSpec Fam Joint RootSpec MeanSpec ResidSpec Bisect Initial.
Import ListNotations.
Local Open Scope string_scope.
Local Open Scope R_scope.

(** the unbatched simple distribution l, of family f, is proper, and the to_nat of its family is a formula or a search with one parameter whose range holds l *)
Definition recovers (f : family) (l : dist) : Prop :=
  proper [] [] f l /\
  (closed_form f = true \/
   (exists e, to_exp (fam_methods (default_bisection 0 0)) l = Ok e /\ dist_vals true [] e) /\
   (f = Gamma \/ f = VonMisesFisher \/ (f = ChiSquare /\ -1 + / 2 ^ 23 < par l [] "k_over_two_minus_one" []) \/ (f = Logarithmic /\ -50 < par l [] "log_probability" [] < - / 2 ^ 23))).
