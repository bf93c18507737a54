(** Theorems for C63: kl_divergence is the sum over the sub-distributions of the textbook divergence of their family, [divergences i p q ks]
    (DivSpec.v) *)
From Coq Require Import String List Bool Arith Reals Lra.
From Verif Require Import Base XReal Tensor Support Dist Iteration Structure Spec Tools Joint Fam SumSpec DotSpec PointSpec SpecFun KlSpec TextSpec Examples ConvEx JointEx MatEx MatEx2 KlEx RootEx KlEx2 DivSpec DivThms DivEx.
Import ListNotations.
Local Open Scope string_scope.
Local Open Scope R_scope.

(** p.kl_divergence(q), p and q simple or joint distributions of any families *)
Theorem C63_kl_divergence solve b i p q ks : well_formed p = true -> well_formed q = true -> nat_tree p = true -> same_skeleton p q -> tree_match b p q -> inb b i = true ->
  tree_in_domain p i -> tree_in_domain q i -> not_clipped p i -> divergences i p q ks ->
  exists t, kl_divergence_nat (fam_methods solve) p q = Ok t /\ shp t = b /\ tget t i = Fin (fold_right Rplus 0 ks).
Proof. exact (kl_textbook solve b i p q ks). Qed.
(** all distributions with the same fixed parameters have textbook divergences *)
Theorem C63_defined b i p q : well_formed p = true -> well_formed q = true -> nat_tree p = true -> same_skeleton p q -> tree_match b p q -> inb b i = true ->
  tree_in_domain p i -> tree_in_domain q i -> same_fixed_at b i p q -> exists ks, divergences i p q ks.
Proof. exact (divergences_total b i p q). Qed.
Example C63_example solve : divergences [1]%nat ex_joint ex_joint2 [1 / 8 + ln 2; - digamma 3 + ln (GammaF 4 / GammaF 3) + 4 * ln 5 - 12 / 5; 236] /\
  exists t, kl_divergence_nat (fam_methods solve) ex_joint ex_joint2 = Ok t /\ shp t = [2]%nat /\ tget t [1]%nat = Fin (1 / 8 + ln 2 + (- digamma 3 + ln (GammaF 4 / GammaF 3) + 4 * ln 5 - 12 / 5 + (236 + 0))).
Proof.
  split; [exact ex_divergent|]. apply (kl_textbook solve [2]%nat [1]%nat ex_joint ex_joint2 ex_divergences);
    first [reflexivity|exact ex_joint2_skel|exact ex_joint2_tm|exact ex_joint_dom|exact ex_joint2_dom|apply ex_joint_clip|exact ex_divergent].
Qed.
Example C63_matrix_example solve : exists ks t, divergences [1]%nat ex_mat ex_mat2 ks /\ kl_divergence_nat (fam_methods solve) ex_mat ex_mat2 = Ok t /\ tget t [1]%nat = Fin (fold_right Rplus 0 ks).
Proof.
  destruct (divergences_total [2]%nat [1]%nat ex_mat ex_mat2) as [ks D];
    [reflexivity|reflexivity|reflexivity|exact ex_mat2_skel|exact ex_mat2_tm|reflexivity|exact ex_mat_dom|exact ex_mat2_dom|exact ex_mat2_fixed|]. exists ks.
  destruct (kl_textbook solve [2]%nat [1]%nat ex_mat ex_mat2 ks) as (t & T1 & T2 & T3); [reflexivity|reflexivity|reflexivity|exact ex_mat2_skel|exact ex_mat2_tm|reflexivity|exact ex_mat_dom|exact ex_mat2_dom|apply ex_mat_clip|exact D|].
  exists t. auto.
Qed.
(** p.kl_divergence(q) for expectation parameters p; sn is p.to_nat(), and its expectation parameters are p again (C21, C28) *)
Theorem C63_kl_divergence_exp solve b i p sn r q ks : well_formed p = true -> exp_tree p = true -> shaped b p = true -> inb b i = true -> well_formed q = true ->
  to_nat (fam_methods solve) p = Ok sn -> to_exp (fam_methods solve) sn = Ok r -> same_at b i p r -> tree_in_domain sn i -> not_clipped sn i ->
  same_skeleton sn q -> tree_match b p q -> tree_in_domain q i -> divergences i sn q ks ->
  exists t, kl_divergence_exp (fam_methods solve) p q None = Ok t /\ shp t = b /\ tget t i = Fin (fold_right Rplus 0 ks).
Proof. exact (kl_exp_textbook solve b i p sn r q ks). Qed.
Example C63_exp_example : exists sn r, well_formed ex_g = true /\ exp_tree ex_g = true /\ shaped [] ex_g = true /\ well_formed ex_gq = true /\
  to_nat (fam_methods solve0) ex_g = Ok sn /\ to_exp (fam_methods solve0) sn = Ok r /\ same_at [] [] ex_g r /\ tree_in_domain sn [] /\ not_clipped sn [] /\
  same_skeleton sn ex_gq /\ tree_match [] ex_g ex_gq /\ tree_in_domain ex_gq [] /\ same_fixed_at [] [] sn ex_gq.
Proof. exact ex_g_kl. Qed.
