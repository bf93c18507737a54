(** Theorems for C29 and C30: the Fisher information. *)
From Coq Require Import String List Bool Arith Reals.
From Verif Require Import Base XReal Tensor Support Dist Iteration Structure Spec FlattenSpec Tools Joint Fam SumSpec DotSpec PointSpec Fisher FisherSpec
  FisherThms FisherDiag Examples JointEx ConvEx FisherEx MatEx MatEx2.
Import ListNotations.
Local Open Scope R_scope.

(** ** C30.  J, the Jacobian of to_exp at q, is symmetric: <u, J v> = <v, J u>; and <v, J v> is not negative.
    (derivative_along q v u D says D = <u, J v>.) *)
Theorem C30_symmetric_positive solve b i q u v : well_formed q = true -> nat_tree q = true -> shaped b q = true -> finite_vars q -> inb b i = true -> tree_in_domain q i ->
  inside_clip q i -> direction b i q v -> direction b i q u ->
  exists D, derivative_along (fam_methods solve) b i q v u D /\ derivative_along (fam_methods solve) b i q u v D /\ (u = v -> 0 <= D).
Proof. intros W N S F Hi H U Dv Du. exact (t_symmetric solve b i q W N S F Hi H U v u Dv Du). Qed.
(** J is the Hessian of log_normalizer: along every line q + s v, g(s) = log_normalizer, its derivative h(s) = <v, to_exp>,
    and the derivative of h at 0, which is <v, J v>, is the second derivative of g *)
Theorem C30_hessian solve b i q v : well_formed q = true -> nat_tree q = true -> shaped b q = true -> finite_vars q -> inb b i = true -> tree_in_domain q i ->
  inside_clip q i -> direction b i q v ->
  exists g h D eps, 0 < eps /\ (forall s, Rabs s < eps -> derivable_pt_lim g s (h s) /\
      exists qs y es t, parameter_map (lin_op 1 s) q [v] = Ok qs /\ log_normalizer (fam_methods solve) qs = Ok y /\ shp y = b /\ tget y i = Fin (g s) /\
        to_exp (fam_methods solve) qs = Ok es /\ parameter_dot_product v es = Ok t /\ shp t = b /\ tget t i = Fin (h s)) /\
    derivable_pt_lim h 0 D /\ 0 <= D.
Proof. intros W N S F Hi H U Dv. exact (t_second solve b i q W N S F Hi H U v Dv). Qed.
(** apply_fisher_information returns to_exp and, when jax.vjp returns the pullback, the product J v of the Hessian and the
    natural-parameter vector v with the numbers of the given vector *)
Theorem C30_apply_fisher_information solve b i q vjp vector w : well_formed q = true -> nat_tree q = true -> shaped b q = true -> finite_vars q -> inb b i = true -> tree_in_domain q i ->
  inside_clip q i -> well_formed vector = true -> tree_match b q vector ->
  vjp q vector = Ok w -> pullback (fam_methods solve) b i q vector w ->
  exists e, apply_fisher_information (fam_methods solve) vjp q vector = Ok (e, w) /\ to_exp (fam_methods solve) q = Ok e /\
    forall v u, direction b i q v -> same_numbers v vector -> direction b i q u ->
      exists D t, derivative_along (fam_methods solve) b i q v u D /\ parameter_dot_product w u = Ok t /\ shp t = b /\ tget t i = Fin D.
Proof. intros W N S F Hi H U Wx Tx E P. exact (t_apply solve b i q W N S F Hi H U vjp vector w Wx Tx E P). Qed.
Example C30_example : well_formed ex_joint = true /\ nat_tree ex_joint = true /\ shaped [2]%nat ex_joint = true /\ finite_vars ex_joint /\ inb [2]%nat [1]%nat = true /\
  tree_in_domain ex_joint [1]%nat /\ inside_clip ex_joint [1]%nat /\ direction [2]%nat [1]%nat ex_joint ex_joint'.
Proof. do 7 (split; [first [reflexivity|exact ex_joint_fin|exact ex_joint_dom|exact ex_joint_fam|exact ex_joint_inside]|]). exact ex_joint_dir. Qed.
Example C30_matrix_example : well_formed ex_mat = true /\ nat_tree ex_mat = true /\ shaped [2]%nat ex_mat = true /\ finite_vars ex_mat /\ inb [2]%nat [1]%nat = true /\
  tree_in_domain ex_mat [1]%nat /\ inside_clip ex_mat [1]%nat /\ direction [2]%nat [1]%nat ex_mat (ex_mat_v 0).
Proof. do 7 (split; [first [reflexivity|exact ex_mat2_skel|exact ex_mat2_tm|apply ex_mat_v_skel|apply ex_mat_v_tm|exact ex_mat_fin|apply ex_mat_v_fin|exact ex_mat_dom|exact ex_mat2_dom|apply ex_mat_v_finite|exact ex_mat_inside|apply ex_mat_clip]|]). exact ex_mat_dir. Qed.
(** an exponential distribution with rate 2: the Fisher information is 1/4, the product with the vector 3 is 3/4 *)
Example C30_apply_example solve : well_formed (fx (-2)) = true /\ nat_tree (fx (-2)) = true /\ shaped [] (fx (-2)) = true /\ finite_vars (fx (-2)) /\
  tree_in_domain (fx (-2)) [] /\ inside_clip (fx (-2)) [] /\ well_formed (fe 3) = true /\ tree_match [] (fx (-2)) (fe 3) /\
  pullback (fam_methods solve) [] [] (fx (-2)) (fe 3) (fx (3 / 4)) /\ direction [] [] (fx (-2)) (fx 3) /\ same_numbers (fx 3) (fe 3) /\ direction [] [] (fx (-2)) (fx 1).
Proof. do 11 (split; [first [reflexivity|apply fx_fin|exact fx_dom|apply fx_inside|exact fx_tm|apply fx_pullback|apply fx_dir|exact fx_numbers]|]). apply fx_dir. Qed.

(** ** C29 is false.  An exponential distribution with rate 1: the Fisher information matrix is the number 1, but the object
    returned by fisher_information_diagonal holds a negative number: the diagonal is mapped from the plane into the support *)
Theorem C29_diagonal_refuted solve : exists q F, well_formed q = true /\ nat_tree q = true /\ shaped [] q = true /\ fisher_matrix_of (fam_methods solve) q F /\ shp F = [1; 1]%nat /\ tget F [0; 0]%nat = Fin 1 /\
  exists r x, fisher_information_diagonal (fun _ => Ok F) q = Ok r /\ dget (dparams r) "negative_rate"%string = Some (RA x) /\ exists v, tget x [] = Fin v /\ v < 0.
Proof. exact (t_diag solve). Qed.
(** and of two Poisson distributions only one value comes back: jnp.diagonal takes the diagonal of the first two axes, one of which is the batch axis *)
Theorem C29_batch_refuted solve : exists q F, well_formed q = true /\ nat_tree q = true /\ shaped [2]%nat q = true /\ fisher_matrix_of (fam_methods solve) q F /\ shp F = [2; 1; 1]%nat /\
  exists r, fisher_information_diagonal (fun _ => Ok F) q = Ok r /\ dshape r = Ok [1]%nat.
Proof. exact (t_batch solve). Qed.
(** What holds: without batch dimensions, the returned object is the one whose image in the plane (flatten with the default
    map_to_plane) is the diagonal, so flatten recovers it.  The diagonal itself is only returned for unbounded real supports. *)
Theorem C29_diagonal_plane_partial d m diag : well_formed d = true -> dist_vals true [] d -> shp m = [flat_size d; flat_size d]%nat -> shp diag = [flat_size d]%nat ->
  (forall k, (k < flat_size d)%nat -> tget diag [k] = tget m [k; k]) -> plane_point true [] d diag ->
  exists r F t, fisher_information_diagonal (fun _ => Ok m) d = Ok r /\ flatten d true = Ok (F, t) /\ flatten r true = Ok (F, diag).
Proof. exact (t_diag_plane d m diag). Qed.
Example C29_plane_example : well_formed (fx (-1)) = true /\ dist_vals true [] (fx (-1)) /\ shp (fmat 1) = [flat_size (fx (-1)); flat_size (fx (-1))]%nat /\
  plane_point true [] (fx (-1)) (@mkT xr [1]%nat [Fin 1] eq_refl) /\ tget (fmat 1) [0; 0]%nat = Fin 1.
Proof. exact fx_plane. Qed.
