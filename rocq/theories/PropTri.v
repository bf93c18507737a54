(** Theorems for C70: the geometry of kl_divergence. [value_is b i r m]: the computation r succeeds and its value at batch index i is m
    (GradSpec.v); [mean_along L b i q v m]: m is the inner product of v and q.to_exp() (CovSpec.v); [joint_proper b i q]: q is a
    well-formed natural tree of batch shape b in its domain at i (JointIntSpec.v); [same_at b i p q]: equal parameters at i (KlSpec.v). *)
From Coq Require Import String List Bool Arith Reals.
From Verif Require Import Base XReal Tensor Support Dist Iteration Structure Spec Tools Joint Fam SumSpec DotSpec PointSpec KlSpec FisherSpec JointIntSpec CovSpec GradSpec
  Examples JointEx KlTri KlTriEx.
Import ListNotations.
Local Open Scope R_scope.

(** KL(p, r) = KL(p, q) + KL(q, r) + <r - q, q.to_exp() - p.to_exp()>, the inner product written out *)
Theorem C70_three_points solve b i p q r : joint_proper b i p -> joint_proper b i q -> joint_proper b i r -> not_clipped p i -> not_clipped q i ->
  same_skeleton p q -> tree_match b p q -> same_skeleton p r -> tree_match b p r ->
  exists kpr kpq kqr rq rp qq qp, value_is b i (kl_divergence_nat (fam_methods solve) p r) kpr /\
    value_is b i (kl_divergence_nat (fam_methods solve) p q) kpq /\ value_is b i (kl_divergence_nat (fam_methods solve) q r) kqr /\
    mean_along (fam_methods solve) b i q r rq /\ mean_along (fam_methods solve) b i p r rp /\
    mean_along (fam_methods solve) b i q q qq /\ mean_along (fam_methods solve) b i p q qp /\
    kpr = kpq + kqr + ((rq - rp) - (qq - qp)).
Proof. exact (t_three solve b i p q r). Qed.

(** the same with the difference v = r - q computed by parameter_map *)
Theorem C70_difference solve b i p q r v : joint_proper b i p -> joint_proper b i q -> joint_proper b i r -> not_clipped p i -> not_clipped q i ->
  same_skeleton p q -> tree_match b p q -> same_skeleton p r -> tree_match b p r -> finite_vars q -> finite_vars r ->
  parameter_map (lin_op 1 (-1)) r [q] = Ok v ->
  exists kpr kpq kqr mp mq, value_is b i (kl_divergence_nat (fam_methods solve) p r) kpr /\
    value_is b i (kl_divergence_nat (fam_methods solve) p q) kpq /\ value_is b i (kl_divergence_nat (fam_methods solve) q r) kqr /\
    mean_along (fam_methods solve) b i p v mp /\ mean_along (fam_methods solve) b i q v mq /\ kpr = kpq + kqr + (mq - mp).
Proof. exact (t_difference solve b i p q r v). Qed.

(** KL(p, q) + KL(q, p) = <p - q, p.to_exp() - q.to_exp()> *)
Theorem C70_symmetrised solve b i p q : joint_proper b i p -> joint_proper b i q -> not_clipped p i -> not_clipped q i -> same_skeleton p q -> tree_match b p q ->
  exists kpq kqp pp pq qp qq, value_is b i (kl_divergence_nat (fam_methods solve) p q) kpq /\ value_is b i (kl_divergence_nat (fam_methods solve) q p) kqp /\
    mean_along (fam_methods solve) b i p p pp /\ mean_along (fam_methods solve) b i q p pq /\
    mean_along (fam_methods solve) b i p q qp /\ mean_along (fam_methods solve) b i q q qq /\
    kpq + kqp = (pp - pq) - (qp - qq).
Proof. exact (t_symmetrised solve b i p q). Qed.

(** if p and q have the same mean along r - q, then KL(p, r) = KL(p, q) + KL(q, r): q is closer to p than r is, strictly unless q = r *)
Theorem C70_pythagoras solve b i p q r v m : joint_proper b i p -> joint_proper b i q -> joint_proper b i r -> not_clipped p i -> not_clipped q i ->
  same_skeleton p q -> tree_match b p q -> same_skeleton p r -> tree_match b p r -> same_fixed_at b i q r -> finite_vars q -> finite_vars r ->
  parameter_map (lin_op 1 (-1)) r [q] = Ok v -> mean_along (fam_methods solve) b i p v m -> mean_along (fam_methods solve) b i q v m ->
  exists kpr kpq kqr, value_is b i (kl_divergence_nat (fam_methods solve) p r) kpr /\
    value_is b i (kl_divergence_nat (fam_methods solve) p q) kpq /\ value_is b i (kl_divergence_nat (fam_methods solve) q r) kqr /\
    kpr = kpq + kqr /\ kpq <= kpr /\ (kpq = kpr <-> same_at b i q r).
Proof. exact (t_pythagoras solve b i p q r v m). Qed.

(** a joint distribution ex_p of a normal and a unit normal, ex_q that differs in both components, and ex_mid that has the first
    component of ex_p and the second of ex_q *)
Example C70_example solve : (joint_proper [2]%nat [1]%nat ex_p /\ joint_proper [2]%nat [1]%nat ex_mid /\ joint_proper [2]%nat [1]%nat ex_q /\
    not_clipped ex_p [1]%nat /\ not_clipped ex_mid [1]%nat /\
    same_skeleton ex_p ex_mid /\ tree_match [2]%nat ex_p ex_mid /\ same_skeleton ex_p ex_q /\ tree_match [2]%nat ex_p ex_q /\
    same_fixed_at [2]%nat [1]%nat ex_mid ex_q /\ finite_vars ex_mid /\ finite_vars ex_q) /\
  exists v m, parameter_map (lin_op 1 (-1)) ex_q [ex_mid] = Ok v /\
    mean_along (fam_methods solve) [2]%nat [1]%nat ex_p v m /\ mean_along (fam_methods solve) [2]%nat [1]%nat ex_mid v m.
Proof. exact (conj ex_three (ex_pyth solve)). Qed.
