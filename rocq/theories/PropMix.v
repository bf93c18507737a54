(** Theorems for C71: mixtures m = (1 - s) p + s q of natural parameters, computed by parameter_map. [log_normalizer_is L b i q a]: a is
    the value of q.log_normalizer() at batch index i (CovSpec.v); [value_is b i r m]: the computation r succeeds and its value at i is
    m (GradSpec.v); [joint_proper b i q]: q is a well-formed natural tree of batch shape b in its domain at i (JointIntSpec.v). *)
From Coq Require Import String List Bool Arith Reals.
From Verif Require Import Base XReal Tensor Support Dist Iteration Structure Spec Tools Joint Fam SumSpec DotSpec PointSpec KlSpec FisherSpec JointIntSpec CovSpec GradSpec
  Examples JointEx MixThms MixEx.
Import ListNotations.
Local Open Scope R_scope.

(** the mixture has the structure of p and is in the domain *)
Theorem C71_domain b i p q m s : joint_proper b i p -> joint_proper b i q -> same_skeleton p q -> tree_match b p q -> same_fixed_at b i p q -> finite_vars p -> finite_vars q ->
  0 <= s <= 1 -> parameter_map (lin_op (1 - s) s) p [q] = Ok m ->
  (forall pth l, In (pth, l) (leaves [] p) -> dcls l <> NP VonMisesFisher) ->
  joint_proper b i m /\ same_skeleton p m /\ tree_match b p m.
Proof. exact (t_mix_domain b i p q m s). Qed.

(** log_normalizer is strictly convex *)
Theorem C71_log_normalizer solve b i p q m s : joint_proper b i p -> joint_proper b i q -> same_skeleton p q -> tree_match b p q -> same_fixed_at b i p q ->
  finite_vars p -> finite_vars q -> 0 <= s <= 1 -> parameter_map (lin_op (1 - s) s) p [q] = Ok m -> joint_proper b i m ->
  exists ap aq am, log_normalizer_is (fam_methods solve) b i p ap /\ log_normalizer_is (fam_methods solve) b i q aq /\ log_normalizer_is (fam_methods solve) b i m am /\
    am <= (1 - s) * ap + s * aq /\ (0 < s < 1 -> (am = (1 - s) * ap + s * aq <-> same_at b i p q)).
Proof. exact (t_convex solve b i p q m s). Qed.

(** x.kl_divergence is strictly convex in its argument *)
Theorem C71_kl_divergence solve b i p q m s x : joint_proper b i p -> joint_proper b i q -> same_skeleton p q -> tree_match b p q -> same_fixed_at b i p q ->
  finite_vars p -> finite_vars q -> 0 <= s <= 1 -> parameter_map (lin_op (1 - s) s) p [q] = Ok m -> joint_proper b i m ->
  joint_proper b i x -> not_clipped x i -> same_skeleton p x -> tree_match b p x ->
  exists kp kq km, value_is b i (kl_divergence_nat (fam_methods solve) x p) kp /\ value_is b i (kl_divergence_nat (fam_methods solve) x q) kq /\
    value_is b i (kl_divergence_nat (fam_methods solve) x m) km /\
    km <= (1 - s) * kp + s * kq /\ (0 < s < 1 -> (km = (1 - s) * kp + s * kq <-> same_at b i p q)).
Proof. exact (fun h1 h2 h3 h4 h5 h6 h7 h8 h9 => t_kl_convex solve b i p q m s h1 h2 h3 h4 h5 h6 h7 h8 h9 x). Qed.

(** the convexity gap of log_normalizer is the mean divergence from the mixture *)
Theorem C71_gap solve b i p q m s : joint_proper b i p -> joint_proper b i q -> same_skeleton p q -> tree_match b p q -> same_fixed_at b i p q ->
  finite_vars p -> finite_vars q -> parameter_map (lin_op (1 - s) s) p [q] = Ok m -> joint_proper b i m -> not_clipped m i ->
  exists kp kq ap aq am, value_is b i (kl_divergence_nat (fam_methods solve) m p) kp /\ value_is b i (kl_divergence_nat (fam_methods solve) m q) kq /\
    log_normalizer_is (fam_methods solve) b i p ap /\ log_normalizer_is (fam_methods solve) b i q aq /\ log_normalizer_is (fam_methods solve) b i m am /\
    (1 - s) * kp + s * kq = (1 - s) * ap + s * aq - am.
Proof. exact (t_jensen solve b i p q m s). Qed.

Example C71_example s : 0 <= s <= 1 -> exists m, (joint_proper [2]%nat [1]%nat ex_p /\ joint_proper [2]%nat [1]%nat ex_q /\ same_skeleton ex_p ex_q /\
    tree_match [2]%nat ex_p ex_q /\ same_fixed_at [2]%nat [1]%nat ex_p ex_q /\ finite_vars ex_p /\ finite_vars ex_q) /\
  parameter_map (lin_op (1 - s) s) ex_p [ex_q] = Ok m /\
  (forall pth l, In (pth, l) (leaves [] ex_p) -> dcls l <> NP VonMisesFisher) /\ joint_proper [2]%nat [1]%nat m /\ not_clipped m [1]%nat.
Proof. exact (ex_mix s). Qed.

(** halfway between two opposite von Mises-Fisher distributions log_normalizer is NaN: the uniform distribution is not in the domain *)
Theorem C71_von_mises_fisher_refuted : exists p q m, joint_proper [] [] p /\ joint_proper [] [] q /\ same_skeleton p q /\ tree_match [] p q /\ same_fixed_at [] [] p q /\
  finite_vars p /\ finite_vars q /\ dcls p = NP VonMisesFisher /\ parameter_map (lin_op (1 - 1 / 2) (1 / 2)) p [q] = Ok m /\
  forall solve, entry (log_normalizer (fam_methods solve) m) [] = NaN.
Proof.
  destruct ex_vmf_mix as (H1 & H2 & H3 & H4 & H5 & H6 & H7 & m & H8 & H9). exists (vmf_of 1), (vmf_of (-1)), m. auto 12.
Qed.
