(** Theorems for C53: the gradients of the cross entropy and of the entropy, and the minimum of the cross entropy.
    [along_line b i x v F h]: h(s) is the value at batch index i of F at x + s v, for all small s; [value_is b i r m]: the computation r
    succeeds and its value at i is m (GradSpec.v); [mean_along L b i q v m]: m is the inner product of v and q.to_exp() (CovSpec.v);
    [direction], [exp_direction]: tangent vectors at natural and at expectation parameters (FisherSpec.v, GradSpec.v). *)
From Coq Require Import String List Bool Arith Reals.
From Verif Require Import Base XReal Tensor Support Dist Iteration Structure Spec Tools Joint Fam SumSpec DotSpec PointSpec KlSpec FisherSpec JointIntSpec CovSpec GradSpec GradSearchSpec
  GradThms GradSearch Examples JointEx MatEx GradEx GradSearchEx.
Import ListNotations.
Local Open Scope R_scope.

(** the derivative of p.cross_entropy(q) in the natural parameters q, along v, is <v, q.to_exp() - p> *)
Theorem C53_cross_entropy_gradient solve b i p q v : joint_proper b i q -> finite_vars q -> not_clipped q i -> direction b i q v ->
  well_formed p = true -> all_nodes has_entropy_ep p = true -> tree_match b q p -> finite_vars p ->
  (exists c, value_is b i (expected_carrier_measure (fam_methods solve) p) c) ->
  exists g m d, along_line b i q v (fun r => cross_entropy (fam_methods solve) p r) g /\ mean_along (fam_methods solve) b i q v m /\
    value_is b i (parameter_dot_product v p) d /\ derivable_pt_lim g 0 (m - d).
Proof. exact (t_ce_gradient solve b i p q v). Qed.
Example C53_cross_entropy_gradient_example solve : joint_proper [2]%nat [1]%nat ex_joint /\ finite_vars ex_joint /\ not_clipped ex_joint [1]%nat /\
  direction [2]%nat [1]%nat ex_joint ex_joint' /\ well_formed ex_joint_e = true /\ all_nodes has_entropy_ep ex_joint_e = true /\
  tree_match [2]%nat ex_joint ex_joint_e /\ finite_vars ex_joint_e /\
  exists c, value_is [2]%nat [1]%nat (expected_carrier_measure (fam_methods solve) ex_joint_e) c.
Proof. exact (ex_ce_gradient solve). Qed.

(** among the natural parameters q with the same fixed parameters, p.to_exp().cross_entropy(q) is least exactly at q = p *)
Theorem C53_minimum solve b i p q e : joint_proper b i p -> joint_proper b i q -> same_skeleton p q -> tree_match b p q -> same_fixed_at b i p q -> not_clipped p i ->
  (forall pth l f, In (pth, l) (leaves [] p) -> dcls l = NP f -> has_entropy_ep (EP f) = true) ->
  to_exp (fam_methods solve) p = Ok e -> finite_vars p -> finite_vars q -> finite_vars e ->
  (exists c, value_is b i (expected_carrier_measure (fam_methods solve) e) c) ->
  exists x y, value_is b i (cross_entropy (fam_methods solve) e q) x /\ value_is b i (cross_entropy (fam_methods solve) e p) y /\
    y <= x /\ (y = x <-> same_at b i p q).
Proof. exact (t_ce_minimum solve b i p q e). Qed.
Example C53_minimum_example solve : joint_proper [2]%nat [1]%nat ex_p /\ joint_proper [2]%nat [1]%nat ex_q /\ same_skeleton ex_p ex_q /\ tree_match [2]%nat ex_p ex_q /\
  same_fixed_at [2]%nat [1]%nat ex_p ex_q /\ not_clipped ex_p [1]%nat /\
  (forall pth l f, In (pth, l) (leaves [] ex_p) -> dcls l = NP f -> has_entropy_ep (EP f) = true) /\
  to_exp (fam_methods solve) ex_p = Ok ex_pe /\ finite_vars ex_p /\ finite_vars ex_q /\ finite_vars ex_pe /\
  exists c, value_is [2]%nat [1]%nat (expected_carrier_measure (fam_methods solve) ex_pe) c.
Proof. exact (ex_ce_minimum solve). Qed.

(** p.entropy() is computed as p.cross_entropy(n) with n = p.to_nat() held constant when it is differentiated. hX is what automatic
    differentiation sees, hH the entropy itself: both have the same derivative, -(<n, v> + c) with c the derivative of the expected
    carrier measure. Where to_nat is a search, it must find natural parameters with the given expectation parameters, at p and at
    p + s v for small s ([found_along], GradSearchSpec.v); nothing else is asked of the solver. *)
Theorem C53_entropy_gradient solve b i p v : exp_proper b i p -> all_nodes has_entropy_ep p = true -> found_along (fam_methods solve) b i p v -> finite_vars p -> exp_direction b i p v ->
  exists n hH hX hC d c, to_nat (fam_methods solve) p = Ok n /\ along_line b i p v (entropy_exp (fam_methods solve)) hH /\
    along_line b i p v (fun r => cross_entropy (fam_methods solve) r n) hX /\ along_line b i p v (expected_carrier_measure (fam_methods solve)) hC /\
    value_is b i (parameter_dot_product n v) d /\ derivable_pt_lim hC 0 c /\ derivable_pt_lim hH 0 (- (d + c)) /\ derivable_pt_lim hX 0 (- (d + c)).
Proof. exact (t_entropy_gradient_all solve b i p v). Qed.
(** a joint distribution of an exponential and a gamma distribution, and a solver that finds the roots of the gamma searches *)
Example C53_entropy_gradient_search_example : exp_proper [] [] ex_s /\ all_nodes has_entropy_ep ex_s = true /\ found_along (fam_methods gsolve) [] [] ex_s ex_sv /\
  finite_vars ex_s /\ exp_direction [] [] ex_s ex_sv.
Proof. exact ex_entropy_gradient_all. Qed.
(** with any solver, if no component needs a search *)
Theorem C53_entropy_gradient_closed solve b i p v : exp_proper b i p -> all_nodes has_entropy_ep p = true -> closed_leaves p -> finite_vars p -> exp_direction b i p v ->
  exists n hH hX hC d c, to_nat (fam_methods solve) p = Ok n /\ along_line b i p v (entropy_exp (fam_methods solve)) hH /\
    along_line b i p v (fun r => cross_entropy (fam_methods solve) r n) hX /\ along_line b i p v (expected_carrier_measure (fam_methods solve)) hC /\
    value_is b i (parameter_dot_product n v) d /\ derivable_pt_lim hC 0 c /\ derivable_pt_lim hH 0 (- (d + c)) /\ derivable_pt_lim hX 0 (- (d + c)).
Proof. intros H1 H2 H3 H4 H5. exact (t_entropy_gradient_all solve b i p v H1 H2 (closed_found solve b i p v H1 H2 H3 H4 H5) H4 H5). Qed.
Example C53_entropy_gradient_example : exp_proper [2]%nat [1]%nat ex_mat_e /\ all_nodes has_entropy_ep ex_mat_e = true /\ closed_leaves ex_mat_e /\
  finite_vars ex_mat_e /\ exp_direction [2]%nat [1]%nat ex_mat_e ex_mat_ev.
Proof. exact ex_entropy_gradient. Qed.
