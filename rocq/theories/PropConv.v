(** Theorems for C21 and C22: conversions between natural and expectation parameters.  [tree_in_domain d i]: the parameters
    of every leaf at batch index i are finite and in the documented domain of the family (PointSpec.v). *)
From Coq Require Import String List Bool Arith Reals.
From Verif Require Import Base XReal Tensor Support Dist Iteration Structure Spec Tools Joint Fam SumSpec DotSpec PointSpec
  ConvThms InjThms Examples JointEx ConvEx KlEx MatEx MatEx2.
Import ListNotations.
Local Open Scope string_scope.
Local Open Scope list_scope.

(** d.to_exp().to_nat() == d, for the families whose to_nat has a closed form (the others are C28) *)
Theorem C21_to_exp_to_nat solve b d i : well_formed d = true -> nat_tree d = true -> shaped b d = true -> inb b i = true -> tree_in_domain d i ->
  families (fun f => closed_form f = true) d ->
  exists e r, to_exp (fam_methods solve) d = Ok e /\ to_nat (fam_methods solve) e = Ok r /\ well_formed r = true /\ nat_tree r = true /\ same_at b i d r.
Proof. exact (t_nat_exp solve b d i). Qed.
Theorem C21_to_nat_to_exp solve b d i : well_formed d = true -> exp_tree d = true -> shaped b d = true -> inb b i = true -> tree_in_domain d i ->
  families (fun f => closed_form f = true) d ->
  exists e r, to_nat (fam_methods solve) d = Ok e /\ to_exp (fam_methods solve) e = Ok r /\ well_formed r = true /\ exp_tree r = true /\ same_at b i d r.
Proof. exact (t_exp_nat solve b d i). Qed.
Example C21_example : (well_formed ex_closed = true /\ nat_tree ex_closed = true /\ shaped [2] ex_closed = true /\ inb [2] [1] = true /\ tree_in_domain ex_closed [1] /\
    families (fun f => closed_form f = true) ex_closed) /\
  (well_formed ex_closed_e = true /\ exp_tree ex_closed_e = true /\ shaped [2] ex_closed_e = true /\ tree_in_domain ex_closed_e [1] /\
    families (fun f => closed_form f = true) ex_closed_e) /\
  (well_formed ex_mat = true /\ nat_tree ex_mat = true /\ shaped [2] ex_mat = true /\ tree_in_domain ex_mat [1] /\ families (fun f => closed_form f = true) ex_mat) /\
  (well_formed ex_mat_e = true /\ exp_tree ex_mat_e = true /\ shaped [2] ex_mat_e = true /\ tree_in_domain ex_mat_e [1] /\ families (fun f => closed_form f = true) ex_mat_e).
Proof.
  split; [|split; [|split]]; repeat (split; [first [reflexivity|exact ex_closed_dom|exact ex_closed_e_dom|exact ex_mat_dom|exact ex_mat_e_dom]|]);
    [exact (fun p l f I F => proj2 (ex_closed_fam p l f I F))|exact (fun p l f I F => proj2 (ex_closed_e_fam p l f I F))|exact ex_mat_fam|exact ex_mat_e_fam].
Qed.

(** to_exp is injective on the domain, for the families without a closed-form inverse too: no other natural parameters have the same
    expectation parameters *)
Theorem C21_to_exp_injective solve b d d' i e e' : well_formed d = true -> well_formed d' = true -> nat_tree d = true -> same_skeleton d d' -> tree_match b d d' -> inb b i = true ->
  tree_in_domain d i -> tree_in_domain d' i -> not_clipped d i ->
  to_exp (fam_methods solve) d = Ok e -> to_exp (fam_methods solve) d' = Ok e' -> same_at b i e e' -> same_at b i d d'.
Proof. exact (t_exp_inj solve b d d' i e e'). Qed.
Example C21_injective_example : well_formed ex_joint = true /\ well_formed ex_joint2 = true /\ nat_tree ex_joint = true /\ same_skeleton ex_joint ex_joint2 /\ tree_match [2] ex_joint ex_joint2 /\
  inb [2] [1] = true /\ tree_in_domain ex_joint [1] /\ tree_in_domain ex_joint2 [1] /\ not_clipped ex_joint [1].
Proof. repeat (split; [first [reflexivity|exact ex_joint2_skel|exact ex_joint2_tm|exact ex_joint_dom|exact ex_joint2_dom|exact ex_joint_fam]|]). apply ex_joint_clip. Qed.

Example C21_injective_matrix_example : well_formed ex_mat = true /\ well_formed ex_mat2 = true /\ nat_tree ex_mat = true /\ same_skeleton ex_mat ex_mat2 /\ tree_match [2] ex_mat ex_mat2 /\
  inb [2] [1] = true /\ tree_in_domain ex_mat [1] /\ tree_in_domain ex_mat2 [1] /\ not_clipped ex_mat [1].
Proof. repeat (split; [first [reflexivity|exact ex_mat2_skel|exact ex_mat2_tm|apply ex_mat_v_skel|apply ex_mat_v_tm|exact ex_mat_fin|apply ex_mat_v_fin|exact ex_mat_dom|exact ex_mat2_dom|apply ex_mat_v_finite|exact ex_mat_inside|apply ex_mat_clip]|]). apply ex_mat_clip. Qed.

(** conversions stay in the domains *)
Theorem C22_log_normalizer solve b d i : well_formed d = true -> nat_tree d = true -> shaped b d = true -> inb b i = true -> tree_in_domain d i ->
  exists t, log_normalizer (fam_methods solve) d = Ok t /\ shp t = b /\ fin_at (Ok t) i.
Proof. exact (t_ln solve b d i). Qed.
Theorem C22_to_exp solve b d i : well_formed d = true -> nat_tree d = true -> shaped b d = true -> inb b i = true -> tree_in_domain d i ->
  not_clipped d i ->
  exists e, to_exp (fam_methods solve) d = Ok e /\ well_formed e = true /\ exp_tree e = true /\ tree_match b d e /\ tree_in_domain e i.
Proof. exact (t_exp solve b d i). Qed.
Theorem C22_to_nat solve b d i : well_formed d = true -> exp_tree d = true -> shaped b d = true -> inb b i = true -> tree_in_domain d i ->
  families (fun f => closed_form f = true) d ->
  exists e, to_nat (fam_methods solve) d = Ok e /\ well_formed e = true /\ nat_tree e = true /\ tree_match b d e /\ tree_in_domain e i.
Proof. exact (t_nat solve b d i). Qed.
Example C22_example : well_formed ex_joint = true /\ nat_tree ex_joint = true /\ shaped [2] ex_joint = true /\ inb [2] [1] = true /\ tree_in_domain ex_joint [1] /\ not_clipped ex_joint [1] /\
  well_formed ex_mat = true /\ nat_tree ex_mat = true /\ shaped [2] ex_mat = true /\ tree_in_domain ex_mat [1] /\ not_clipped ex_mat [1] /\
  well_formed ex_mat_e = true /\ exp_tree ex_mat_e = true /\ shaped [2] ex_mat_e = true /\ tree_in_domain ex_mat_e [1] /\ families (fun f => closed_form f = true) ex_mat_e.
Proof. repeat (split; [first [reflexivity|exact ex_joint_dom|exact ex_mat_dom|exact ex_mat_e_dom|exact (ex_joint_clip [1])|exact (ex_mat_clip [1])]|]). exact ex_mat_e_fam. Qed.
(** the uniform distribution on the sphere, natural parameters 0, is in the declared support, but its log normalizer is NaN *)
Theorem C22_log_normalizer_refuted : exists d, well_formed d = true /\ nat_tree d = true /\ shaped [] d = true /\ finite_vars d /\ dcls d = NP VonMisesFisher /\
  forall solve, entry (log_normalizer (fam_methods solve) d) [] = NaN.
Proof. exists ex_uniform. repeat (split; [first [reflexivity|fin_tree_tac]|]). exact uniform_nan. Qed.
(** a logarithmic distribution with log_probability in (-1e-7, 0) is in the domain, but to_exp gives an infinite mean *)
Theorem C22_to_exp_refuted : exists d, well_formed d = true /\ nat_tree d = true /\ shaped [1] d = true /\ tree_in_domain d [0] /\ dcls d = NP Logarithmic /\
  forall solve, exists e chi, to_exp (fam_methods solve) d = Ok e /\ dget (dparams e) "chi" = Some (RA chi) /\ tget chi [0] = PInf.
Proof. exists ex_log. repeat (split; [first [reflexivity|exact ex_log_dom]|]). exact ex_log_inf. Qed.
