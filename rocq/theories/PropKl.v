(** Theorems for C19: the Kullback-Leibler divergence is not negative, and zero only between equal distributions.
    [same_fixed_at b i p q]: the fixed parameters of p and q agree at batch index i (KlSpec.v); [same_at b i p q]: all parameters do
    (PointSpec.v). *)
From Coq Require Import String List Bool Arith Reals.
From Verif Require Import Base XReal Tensor Support Dist Iteration Structure Spec Tools Joint Fam SumSpec DotSpec PointSpec KlSpec
  KlPos Examples JointEx ConvEx KlEx KlExp MleEx MatEx MatEx2 RootEx KlEx2.
Import ListNotations.
Local Open Scope R_scope.

(** p.kl_divergence(q) *)
Theorem C19_kl_divergence solve b i p q : well_formed p = true -> well_formed q = true -> nat_tree p = true -> same_skeleton p q -> tree_match b p q -> inb b i = true ->
  tree_in_domain p i -> tree_in_domain q i -> not_clipped p i -> same_fixed_at b i p q ->
  exists t k, kl_divergence_nat (fam_methods solve) p q = Ok t /\ shp t = b /\ tget t i = Fin k /\ 0 <= k /\ (k = 0 <-> same_at b i p q).
Proof. exact (t_kl solve b i p q). Qed.
Example C19_example : well_formed ex_joint = true /\ well_formed ex_joint2 = true /\ nat_tree ex_joint = true /\ same_skeleton ex_joint ex_joint2 /\ tree_match [2]%nat ex_joint ex_joint2 /\
  inb [2]%nat [1]%nat = true /\ tree_in_domain ex_joint [1]%nat /\ tree_in_domain ex_joint2 [1]%nat /\ not_clipped ex_joint [1]%nat /\
  same_fixed_at [2]%nat [1]%nat ex_joint ex_joint2.
Proof. repeat (split; [first [reflexivity|exact ex_joint2_skel|exact ex_joint2_tm|exact ex_joint_dom|exact ex_joint2_dom|exact ex_joint_fam|apply ex_joint_clip]|]). exact ex_joint2_fixed. Qed.
Example C19_matrix_example : well_formed ex_mat = true /\ well_formed ex_mat2 = true /\ nat_tree ex_mat = true /\ same_skeleton ex_mat ex_mat2 /\ tree_match [2]%nat ex_mat ex_mat2 /\
  inb [2]%nat [1]%nat = true /\ tree_in_domain ex_mat [1]%nat /\ tree_in_domain ex_mat2 [1]%nat /\ not_clipped ex_mat [1]%nat /\ same_fixed_at [2]%nat [1]%nat ex_mat ex_mat2.
Proof. repeat (split; [first [reflexivity|exact ex_mat2_skel|exact ex_mat2_tm|apply ex_mat_v_skel|apply ex_mat_v_tm|exact ex_mat_fin|apply ex_mat_v_fin|exact ex_mat_dom|exact ex_mat2_dom|apply ex_mat_v_finite|exact ex_mat_inside|apply ex_mat_clip]|]). exact ex_mat2_fixed. Qed.
(** Without [same_fixed_at] it is false: kl_divergence accepts distributions whose fixed parameters differ, and returns a negative number *)
Theorem C19_kl_divergence_refuted : exists p q, well_formed p = true /\ well_formed q = true /\ nat_tree p = true /\ same_skeleton p q /\ tree_match [] p q /\
  tree_in_domain p [] /\ tree_in_domain q [] /\ dcls p = NP Weibull /\
  forall solve, exists t k, kl_divergence_nat (fam_methods solve) p q = Ok t /\ tget t [] = Fin k /\ k < 0.
Proof. exists ex_w1, ex_w2. repeat (split; [first [reflexivity|exact ex_w_skel|exact ex_w_tm|exact ex_w1_dom|exact ex_w2_dom]|]). exact ex_w_neg. Qed.
(** p.kl_divergence(q) for expectation parameters p: sn is p.to_nat(), and its expectation parameters are p again (which C21 proves for
    the closed-form families, and C28 whenever the search finds a root) *)
Theorem C19_kl_divergence_exp solve b i p sn r q : well_formed p = true -> exp_tree p = true -> shaped b p = true -> inb b i = true -> well_formed q = true ->
  to_nat (fam_methods solve) p = Ok sn -> to_exp (fam_methods solve) sn = Ok r -> same_at b i p r -> tree_in_domain sn i -> not_clipped sn i ->
  same_skeleton sn q -> tree_match b p q -> tree_in_domain q i -> same_fixed_at b i sn q ->
  exists t k, kl_divergence_exp (fam_methods solve) p q None = Ok t /\ shp t = b /\ tget t i = Fin k /\ 0 <= k /\ (k = 0 <-> same_at b i sn q).
Proof. exact (t_kl_exp_found solve b i p sn r q). Qed.
Example C19_exp_search_example : exists sn r, well_formed ex_g = true /\ exp_tree ex_g = true /\ shaped [] ex_g = true /\ well_formed ex_gq = true /\
  to_nat (fam_methods solve0) ex_g = Ok sn /\ to_exp (fam_methods solve0) sn = Ok r /\ same_at [] [] ex_g r /\ tree_in_domain sn [] /\ not_clipped sn [] /\
  same_skeleton sn ex_gq /\ tree_match [] ex_g ex_gq /\ tree_in_domain ex_gq [] /\ same_fixed_at [] [] sn ex_gq.
Proof. exact ex_g_kl. Qed.
(** for the families with a closed-form to_nat nothing about to_nat is assumed *)
Theorem C19_kl_divergence_exp_closed solve b i p sn q : well_formed p = true -> exp_tree p = true -> shaped b p = true -> inb b i = true -> tree_in_domain p i ->
  families (fun f => closed_form f = true) p -> well_formed q = true -> to_nat (fam_methods solve) p = Ok sn -> same_skeleton sn q -> tree_match b p q ->
  tree_in_domain q i -> same_fixed_at b i sn q ->
  exists t k, kl_divergence_exp (fam_methods solve) p q None = Ok t /\ shp t = b /\ tget t i = Fin k /\ 0 <= k /\ (k = 0 <-> same_at b i sn q).
Proof. exact (t_kl_exp solve b i p sn q). Qed.
Example C19_exp_example solve : exists sn, well_formed mle_pe = true /\ exp_tree mle_pe = true /\ shaped [] mle_pe = true /\ tree_in_domain mle_pe [] /\
  families (fun f => closed_form f = true) mle_pe /\ well_formed mle_q = true /\ to_nat (fam_methods solve) mle_pe = Ok sn /\ same_skeleton sn mle_q /\ tree_match [] mle_pe mle_q /\
  tree_in_domain mle_q [] /\ same_fixed_at [] [] sn mle_q.
Proof. exact (mle_pe_ok solve). Qed.
