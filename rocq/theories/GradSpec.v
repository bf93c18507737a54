(** Specification vocabulary for C53: directions in the expectation parameters, values and functions along a line. *)
From Coq Require Import String List Bool Arith Reals.
From Verif Require Import Base XReal Tensor Support Dist Iteration Structure Tools Joint Spec SumSpec DotSpec PointSpec.
Import ListNotations.
Local Open Scope R_scope.

(** an array was computed, it has shape b, and its entry at i is the real number x *)
Definition value_is (b i : list nat) (r : result (tensor xr)) (x : R) : Prop := exists t, r = Ok t /\ shp t = b /\ tget t i = Fin x.
(** h(s) is the value at i of F applied to x + s v, for all small s *)
Definition along_line (b i : list nat) (x v : dist) (F : dist -> result (tensor xr)) (h : R -> R) : Prop :=
  exists eps, 0 < eps /\ forall s, Rabs s < eps -> exists r, parameter_map (lin_op 1 s) x [v] = Ok r /\ value_is b i (F r) (h s).
(** a tree of expectation parameters in the domains of their families *)
Definition exp_proper (b i : list nat) (p : dist) : Prop :=
  well_formed p = true /\ exp_tree p = true /\ shaped b p = true /\ inb b i = true /\ tree_in_domain p i.
(** the second moment of a multivariate normal or circularly symmetric complex normal distribution is symmetric, or Hermitian *)
Definition symmetric_moment_at (l : dist) (i : list nat) : Prop := forall n, dims_of l = Ok n -> forall a b, (a < n)%nat -> (b < n)%nat ->
  (dcls l = EP MultivariateNormal -> point_of l i false "second_moment"%string [a; b] = point_of l i false "second_moment"%string [b; a]) /\
  (dcls l = EP ComplexCircularlySymmetricNormal ->
     point_of l i false "variance"%string [a; b] = point_of l i false "variance"%string [b; a] /\
     point_of l i true "variance"%string [a; b] = - point_of l i true "variance"%string [b; a]).
(** v is a tangent vector at the expectation parameters p *)
Definition exp_direction (b i : list nat) (p v : dist) : Prop :=
  well_formed v = true /\ same_skeleton p v /\ tree_match b p v /\ finite_vars v /\ tree_finite v i /\
  forall path l, In (path, l) (leaves [] v) -> symmetric_moment_at l i.
(** to_nat is a closed formula for every component *)
Definition closed_leaves (p : dist) : Prop := forall path l f, In (path, l) (leaves [] p) -> dcls l = EP f -> closed_form f = true.
