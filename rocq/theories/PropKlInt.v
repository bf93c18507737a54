(** Theorems for C41: the Kullback-Leibler divergence is the expected log-likelihood ratio and the cross entropy the expected negative
    log-likelihood, for joint distributions of any families.  [integral_joint p F v]: the iterated sum or integral of F over the sample spaces of
    the leaves of p exists and is v (JointIntSpec.v) *)
From Coquelicot Require Import Coquelicot.
From Coq Require Import String List Bool Arith Reals Lra Lia.
From Verif Require Import Base XReal Tensor Support Dist Iteration Structure Spec Joint SpecFun Expr Fam SumSpec DotSpec PointSpec Examples ConvEx DensSpec IntSpec JointIntSpec JointKl KlSpec KlEx MatEx MatEx2.
Import ListNotations.
Local Open Scope string_scope.
Local Open Scope R_scope.

(** p.kl_divergence(q) *)
Theorem C41_kl_divergence solve b i p q : well_formed p = true -> well_formed q = true -> nat_tree p = true -> same_skeleton p q -> tree_match b p q -> inb b i = true ->
  tree_in_domain p i -> tree_in_domain q i -> same_fixed_at b i p q -> not_clipped p i ->
  exists t k, kl_divergence_nat (fam_methods solve) p q = Ok t /\ shp t = b /\ tget t i = Fin k /\
    forall P lp lq, joint_pdf_is (fam_methods solve) b i p P -> joint_log_pdf_is (fam_methods solve) b i p lp -> joint_log_pdf_is (fam_methods solve) b i q lq ->
      integral_joint p (fun xv => P xv * (lp xv - lq xv)) k.
Proof. exact (kl_expected solve b i p q). Qed.
(** p.to_exp().cross_entropy(q) *)
Theorem C41_cross_entropy solve b i p q : well_formed p = true -> well_formed q = true -> nat_tree p = true -> same_skeleton p q -> tree_match b p q -> inb b i = true ->
  tree_in_domain p i -> tree_in_domain q i -> same_fixed_at b i p q ->
  (forall pth l f, In (pth, l) (leaves [] p) -> dcls l = NP f -> has_entropy_ep (EP f) = true) ->
  (forall pth l f, In (pth, l) (leaves [] p) -> dcls l = NP f -> carrier_by_search f = true -> recovered (fam_methods solve) b i l) ->
  exists e t k, to_exp (fam_methods solve) p = Ok e /\ cross_entropy (fam_methods solve) e q = Ok t /\ shp t = b /\ tget t i = Fin k /\
    forall P lq, joint_pdf_is (fam_methods solve) b i p P -> joint_log_pdf_is (fam_methods solve) b i q lq -> integral_joint p (fun xv => P xv * - lq xv) k.
Proof. exact (cross_expected solve b i p q). Qed.
(** the functions P, lp and lq exist *)
Theorem C41_densities solve b i p : joint_proper b i p ->
  (exists P, joint_pdf_is (fam_methods solve) b i p P) /\ exists lp, joint_log_pdf_is (fam_methods solve) b i p lp.
Proof. exact (fun H => conj (ex_intro _ _ (JointInt.joint_p solve b i p H)) (ex_intro _ _ (JointInt.joint_lp solve b i p H))). Qed.
Example C41_example : well_formed ex_joint = true /\ well_formed ex_joint2 = true /\ nat_tree ex_joint = true /\ same_skeleton ex_joint ex_joint2 /\ tree_match [2]%nat ex_joint ex_joint2 /\
  inb [2]%nat [1]%nat = true /\ tree_in_domain ex_joint [1]%nat /\ tree_in_domain ex_joint2 [1]%nat /\ same_fixed_at [2]%nat [1]%nat ex_joint ex_joint2 /\ not_clipped ex_joint [1]%nat /\
  forall p l f, In (p, l) (leaves [] ex_joint) -> dcls l = NP f -> has_entropy_ep (EP f) = true /\ carrier_by_search f = false.
Proof.
  repeat (split; [first [reflexivity|exact ex_joint2_skel|exact ex_joint2_tm|exact ex_joint_dom|exact ex_joint2_dom|exact ex_joint2_fixed|apply ex_joint_clip]|]).
  intros p l f H C. cbn in H. destruct H as [H|[H|[H|[]]]]; injection H as <- <-; cbn in C; injection C as <-; split; reflexivity.
Qed.
Example C41_matrix_example : well_formed ex_mat = true /\ well_formed ex_mat2 = true /\ nat_tree ex_mat = true /\ same_skeleton ex_mat ex_mat2 /\ tree_match [2]%nat ex_mat ex_mat2 /\
  inb [2]%nat [1]%nat = true /\ tree_in_domain ex_mat [1]%nat /\ tree_in_domain ex_mat2 [1]%nat /\ same_fixed_at [2]%nat [1]%nat ex_mat ex_mat2 /\ not_clipped ex_mat [1]%nat.
Proof. repeat (split; [first [reflexivity|exact ex_mat2_skel|exact ex_mat2_tm|exact ex_mat_dom|exact ex_mat2_dom|exact ex_mat2_fixed]|]). apply ex_mat_clip. Qed.
