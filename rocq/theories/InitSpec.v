(** Specification vocabulary for C75 on joint distributions. *)
From Coq Require Import String List Bool Arith Reals.
From Verif Require Import Base XReal Tensor Support Dist Structure Spec DotSpec SumSpec FlattenSpec PointSpec VarSpec DensSpec Fam RootSpec MeanSpec ResidSpec.
Import ListNotations.
Local Open Scope string_scope.
Local Open Scope R_scope.

(** the unbatched simple distribution l, of family f, is proper, and its to_nat is a formula or a search with one parameter that has a root
    (Gamma and VonMisesFisher always have one; that of Logarithmic must be above log_probability = -50) *)
Definition converts (f : family) (l : dist) : Prop :=
  proper_e [] [] f l /\
  (closed_form f = true \/
   (dist_vals true [] (snd (searched f l)) /\
    (f = Gamma \/ f = VonMisesFisher \/ ((f = ChiSquare \/ f = Chi) /\ exists sp, search_root [] [] ChiSquare 1 (snd (searched f l)) sp) \/
     (f = Logarithmic /\ exists sp q, search_root [] [] Logarithmic 1 l sp /\ search_to_natural l Logarithmic sp = Ok q /\ -50 < par q [] "log_probability" [])))).
(** l' is l when to_nat is a formula, and within eps of it when it is a search *)
Definition returned (eps : R) (f : family) (l l' : dist) : Prop :=
  if closed_form f then same_leaf_at [] [] l l' else near_params_at [] [] eps l l'.
