(** Specification vocabulary for C29 and C30: directions, directional derivatives, pullbacks and Fisher information matrices. *)
From Coq Require Import String List Bool Arith Reals.
From Verif Require Import Base XReal Tensor Support Dist Iteration Structure Tools Joint Spec SumSpec DotSpec PointSpec.
Import ListNotations.
Local Open Scope R_scope.

(** the matrix parameter of a multivariate normal or circularly symmetric complex normal distribution is symmetric, or Hermitian *)
Definition symmetric_at (l : dist) (i : list nat) : Prop := forall n, dims_of l = Ok n -> forall a b, (a < n)%nat -> (b < n)%nat ->
  (dcls l = NP MultivariateNormal -> point_of l i false "negative_half_precision"%string [a; b] = point_of l i false "negative_half_precision"%string [b; a]) /\
  (dcls l = NP ComplexCircularlySymmetricNormal ->
     point_of l i false "negative_precision"%string [a; b] = point_of l i false "negative_precision"%string [b; a] /\
     point_of l i true "negative_precision"%string [a; b] = - point_of l i true "negative_precision"%string [b; a]).
(** v is a tangent vector at q: a distribution object of the same shape whose parameters are finite numbers, so that q + s v has
    symmetric (Hermitian) matrices if q has *)
Definition direction (b i : list nat) (q v : dist) : Prop :=
  well_formed v = true /\ same_skeleton q v /\ tree_match b q v /\ finite_vars v /\ tree_finite v i /\
  forall p l, In (p, l) (leaves [] v) -> symmetric_at l i.
(** h(s) is the inner product at batch index i of x and (q + s v).to_exp(), computed by the code, for all small s *)
Definition along (L : leaf_methods) (b i : list nat) (q v x : dist) (h : R -> R) : Prop :=
  exists eps, 0 < eps /\ forall s, Rabs s < eps -> exists qs es t,
    parameter_map (lin_op 1 s) q [v] = Ok qs /\ to_exp L qs = Ok es /\ parameter_dot_product x es = Ok t /\ shp t = b /\ tget t i = Fin (h s).
(** <x, J v> where J is the Jacobian of to_exp at q *)
Definition derivative_along (L : leaf_methods) (b i : list nat) (q v x : dist) (D : R) : Prop :=
  exists h, along L b i q v x h /\ derivable_pt_lim h 0 D.
(** what jax.vjp promises of w = f_vjp(vector): <w, u> is the derivative of <vector, to_exp> in direction u *)
Definition pullback (L : leaf_methods) (b i : list nat) (q vector w : dist) : Prop := forall u, direction b i q u ->
  exists D t, derivative_along L b i q u vector D /\ parameter_dot_product w u = Ok t /\ shp t = b /\ tget t i = Fin D.
(** the variable parameters of v are the same arrays as those of vector *)
Definition same_numbers (v vector : dist) : Prop :=
  Forall2 (fun p r => fst p = fst r /\ forall g h, In (g, h) (combine (var_fields (dcls (snd p))) (var_fields (dcls (snd r)))) ->
             dget (dparams (snd p)) (fd_name g) = dget (dparams (snd r)) (fd_name h)) (leaves [] v) (leaves [] vector).
(** the arguments of logarithmic distributions are strictly inside the interval to which the code clips them *)
Definition inside_clip (d : dist) (i : list nat) : Prop := forall p l, In (p, l) (leaves [] d) -> dcls l = NP Logarithmic ->
  -50 < point_of l i false "log_probability"%string [] < -1 / 10000000.

(** x with s added to its entry at batch index i and position a *)
Definition bump (x : tensor xr) (i : list nat) (a : nat) (s : R) : tensor xr :=
  tbuild (shp x) (fun j => if list_eq_dec Nat.eq_dec j (i ++ [a]) then xadd (tget x j) (Fin s) else tget x j).
(** what jacfwd(grad(_flat_log_normalizer)) promises: the entry [a, c] of the matrix at batch index i is the second partial
    derivative of log_normalizer with respect to the entries a and c of the (unmapped) flattened parameters *)
Definition fisher_matrix_of (L : leaf_methods) (q : dist) (F : tensor xr) : Prop :=
  exists fl x b k, flatten q false = Ok (fl, x) /\ shp x = (b ++ [k])%list /\ shp F = (b ++ [k; k])%list /\
  forall i a c, inb b i = true -> (a < k)%nat -> (c < k)%nat ->
    exists G G1 D eps, 0 < eps /\
      (forall s t, Rabs s < eps -> Rabs t < eps -> exists d y, unflatten fl (bump (bump x i a s) i c t) = Ok d /\ log_normalizer L d = Ok y /\ tget y i = Fin (G s t)) /\
      (forall s, Rabs s < eps -> derivable_pt_lim (fun t => G s t) 0 (G1 s)) /\ derivable_pt_lim G1 0 D /\ tget F (i ++ [a; c])%list = Fin D.
