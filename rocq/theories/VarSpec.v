(** Specification vocabulary for C36. *)
From Coq Require Import String List Bool Arith Reals.
From Verif Require Import Base XReal Tensor Support Dist Spec DotSpec SumSpec PointSpec.
Import ListNotations.
Local Open Scope string_scope.
Local Open Scope R_scope.

(** a variance parametrization whose parameters at batch index i are finite, with a positive (definite) variance *)
Definition vp_domain (d : dist) (i : list nat) : Prop := exists n, dims_of d = Ok n /\ finite_at d n i /\
  let p := point_of d i false in
  match dcls d with
  | NormalVP => 0 < p "variance" []
  | GammaVP => 0 < p "mean" [] /\ 0 < p "variance" []
  | MultivariateDiagonalNormalVP => forall k, (k < n)%nat -> 0 < p "variance" [k]
  | MultivariateNormalVP => spd n (fun a b => p "variance" [a; b])
  | _ => False
  end.
(** two simple distributions of the same class, batch shape and dimensions whose parameters have equal entries at batch index i *)
Definition same_params_at (b i : list nat) (q r : dist) : Prop :=
  dcls q = dcls r /\ well_formed q = true /\ well_formed r = true /\ leaf_shaped b q = true /\ leaf_shaped b r = true /\ dims_of q = dims_of r /\
  forall f v w j, In f (fields (dcls q)) -> dget (dparams q) (fd_name f) = Some v -> dget (dparams r) (fd_name f) = Some w ->
    inb (skipn (length b) (ashape v)) j = true -> entry_c v (i ++ j)%list = entry_c w (i ++ j)%list.
