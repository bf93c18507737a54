(** Theorems for C20: the tangent computed by the custom JVP of log_normalizer is its true directional derivative. *)
From Coq Require Import String List Bool Arith Reals.
From Verif Require Import Base XReal Tensor Support Dist Iteration Structure Spec Tools Joint Fam SumSpec DotSpec PointSpec
  DerivThms Examples JointEx ConvEx MatEx MatEx2.
Import ListNotations.
Local Open Scope R_scope.

(** For a distribution q and a tangent v: g is the function s -> log_normalizer(q + s v) at batch index i (computed by the
    code, for all small s); its derivative at 0 is the tangent output of log_normalizer_jvp. *)
Theorem C20_log_normalizer_jvp solve b i q v : well_formed q = true -> well_formed v = true -> nat_tree q = true -> same_skeleton q v -> tree_match b q v ->
  finite_vars q -> finite_vars v -> inb b i = true -> tree_in_domain q i -> tree_finite v i ->
  not_clipped q i ->
  exists y y_dot D g, log_normalizer_jvp (fam_methods solve) q v = Ok (y, y_dot) /\ shp y = b /\ shp y_dot = b /\ tget y_dot i = Fin D /\ tget y i = Fin (g 0) /\
    derivable_pt_lim g 0 D /\
    exists eps, 0 < eps /\ forall s, Rabs s < eps ->
      exists qs t, parameter_map (lin_op 1 s) q [v] = Ok qs /\ log_normalizer (fam_methods solve) qs = Ok t /\ shp t = b /\ tget t i = Fin (g s).
Proof. exact (t_jvp solve b i q v). Qed.
Example C20_example : well_formed ex_joint = true /\ well_formed ex_joint' = true /\ nat_tree ex_joint = true /\ same_skeleton ex_joint ex_joint' /\ tree_match [2]%nat ex_joint ex_joint' /\
  finite_vars ex_joint /\ finite_vars ex_joint' /\ inb [2]%nat [1]%nat = true /\ tree_in_domain ex_joint [1]%nat /\ tree_finite ex_joint' [1]%nat /\
  not_clipped ex_joint [1]%nat.
Proof. repeat (split; [first [reflexivity|exact ex_skel|exact ex_tm|exact ex_joint_fin|exact ex_joint'_fin|exact ex_joint_dom|exact ex_joint'_finite|exact ex_joint_fam]|]). apply ex_joint_clip. Qed.
(** the tangent of a matrix parameter need not be symmetric *)
Example C20_matrix_example : well_formed ex_mat = true /\ well_formed (ex_mat_v 1) = true /\ nat_tree ex_mat = true /\ same_skeleton ex_mat (ex_mat_v 1) /\ tree_match [2]%nat ex_mat (ex_mat_v 1) /\
  finite_vars ex_mat /\ finite_vars (ex_mat_v 1) /\ inb [2]%nat [1]%nat = true /\ tree_in_domain ex_mat [1]%nat /\ tree_finite (ex_mat_v 1) [1]%nat /\ not_clipped ex_mat [1]%nat.
Proof. repeat (split; [first [reflexivity|exact ex_mat2_skel|exact ex_mat2_tm|apply ex_mat_v_skel|apply ex_mat_v_tm|exact ex_mat_fin|apply ex_mat_v_fin|exact ex_mat_dom|exact ex_mat2_dom|apply ex_mat_v_finite|exact ex_mat_inside|apply ex_mat_clip]|]). apply ex_mat_clip. Qed.
(** Without [not_clipped] it is false: for a logarithmic distribution with log_probability in (-1e-7, 0) the tangent is infinite *)
Theorem C20_log_normalizer_jvp_refuted : exists q v, well_formed q = true /\ well_formed v = true /\ nat_tree q = true /\ same_skeleton q v /\ tree_match [1]%nat q v /\
  tree_in_domain q [0]%nat /\ tree_finite v [0]%nat /\ dcls q = NP Logarithmic /\
  forall solve, exists y y_dot, log_normalizer_jvp (fam_methods solve) q v = Ok (y, y_dot) /\ tget y_dot [0]%nat = PInf.
Proof. exists ex_log, ex_log_dot. repeat (split; [first [reflexivity|exact ex_log_skel|exact ex_log_tm|exact ex_log_dom|exact ex_log_dot_finite]|]). exact ex_log_jvp. Qed.
