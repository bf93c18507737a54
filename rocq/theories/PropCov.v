(** Theorems for C47 and C48: cumulants of the sufficient statistics. *)
From Coquelicot Require Import Coquelicot.
From Coq Require Import String List Bool Arith Reals.
From Verif Require Import Base XReal Tensor Support Dist Iteration Structure Spec Tools Joint Fam SumSpec DotSpec PointSpec Fisher FisherSpec DensSpec SampleSpec IntSpec JointIntSpec CovSpec Covar2
  Examples JointEx ConvEx FisherEx MatEx MatEx2 CovEx.
Import ListNotations.
Local Open Scope R_scope.

(** ** C47.  log_normalizer is the cumulant generating function of the sufficient statistics: if q + s v is a distribution, the
    expected value under q of exp(s <v, T(x)>) is exp((q + s v).log_normalizer() - q.log_normalizer()) *)
Theorem C47_cumulant_generating_function solve b i q v s r : joint_proper b i q -> finite_vars q -> direction b i q v -> parameter_map (lin_op 1 s) q [v] = Ok r -> tree_in_domain r i ->
  exists a a', log_normalizer_is (fam_methods solve) b i q a /\ log_normalizer_is (fam_methods solve) b i r a' /\
    (exists P, joint_pdf_is (fam_methods solve) b i q P) /\ (exists X, projection_is (fam_methods solve) b i q v X) /\
    forall P X, joint_pdf_is (fam_methods solve) b i q P -> projection_is (fam_methods solve) b i q v X -> integral_joint q (fun x => P x * exp (s * X x)) (exp (a' - a)).
Proof. intros J F D. exact (t_cgf solve b i q J v s r F D). Qed.
(** it exists near 0 in every direction *)
Theorem C47_nearby b i q v : joint_proper b i q -> finite_vars q -> direction b i q v ->
  exists eps, 0 < eps /\ forall s, Rabs s < eps -> exists r, parameter_map (lin_op 1 s) q [v] = Ok r /\ tree_in_domain r i.
Proof. intros J. exact (t_nearby b i q J v). Qed.
Example C47_example : joint_proper [] [] (fx (-2)) /\ finite_vars (fx (-2)) /\ direction [] [] (fx (-2)) (fx 1) /\ parameter_map (lin_op 1 1) (fx (-2)) [fx 1] = Ok (fx (1 * -2 + 1 * 1)) /\ tree_in_domain (fx (1 * -2 + 1 * 1)) [].
Proof. exact (conj fx_proper (conj (fx_fin _) (conj (fx_dir _) (conj fx_shift fx_shift_dom)))). Qed.
Example C47_joint_example : joint_proper [2]%nat [1]%nat ex_joint /\ finite_vars ex_joint /\ direction [2]%nat [1]%nat ex_joint ex_joint' /\ joint_proper [2]%nat [1]%nat ex_mat /\ finite_vars ex_mat /\ direction [2]%nat [1]%nat ex_mat (ex_mat_v 0).
Proof. exact (conj ex_joint_proper (conj ex_joint_fin (conj ex_joint_dir (conj ex_mat_proper (conj ex_mat_fin ex_mat_dir))))). Qed.

(** ** C48.  The Fisher information is the covariance of the sufficient statistics: the mean of <u, T(x)> is <u, q.to_exp()>, and the
    covariance of <u, T(x)> and <v, T(x)> is <u, J v>, J being the Jacobian of to_exp (derivative_along q v u D says D = <u, J v>) *)
Theorem C48_covariance solve b i q u v : joint_proper b i q -> finite_vars q -> inside_clip q i -> direction b i q u -> direction b i q v ->
  exists m m' D, mean_along (fam_methods solve) b i q u m /\ mean_along (fam_methods solve) b i q v m' /\ derivative_along (fam_methods solve) b i q v u D /\
    (exists P, joint_pdf_is (fam_methods solve) b i q P) /\ (exists X, projection_is (fam_methods solve) b i q u X) /\ (exists Y, projection_is (fam_methods solve) b i q v Y) /\
    forall P X Y, joint_pdf_is (fam_methods solve) b i q P -> projection_is (fam_methods solve) b i q u X -> projection_is (fam_methods solve) b i q v Y ->
      integral_joint q (fun x => P x * X x) m /\ integral_joint q (fun x => P x * Y x) m' /\ integral_joint q (fun x => P x * ((X x - m) * (Y x - m'))) D.
Proof. intros J. exact (t_covariance solve b i q J u v). Qed.
(** the derivatives of log_normalizer along q + s v are the mean and the variance of <v, T(x)>, also where to_exp clips *)
Theorem C48_cumulants solve b i q v : joint_proper b i q -> finite_vars q -> direction b i q v ->
  exists eps A A1 A2, 0 < eps /\ (forall s, Rabs s < eps -> exists r, parameter_map (lin_op 1 s) q [v] = Ok r /\ log_normalizer_is (fam_methods solve) b i r (A s)) /\
    (forall s, Rabs s < eps -> derivable_pt_lim A s (A1 s)) /\ derivable_pt_lim A1 0 A2 /\
    (exists P, joint_pdf_is (fam_methods solve) b i q P) /\ (exists X, projection_is (fam_methods solve) b i q v X) /\
    forall P X, joint_pdf_is (fam_methods solve) b i q P -> projection_is (fam_methods solve) b i q v X ->
      integral_joint q (fun x => P x * X x) (A1 0) /\ integral_joint q (fun x => P x * (X x - A1 0) ^ 2) A2.
Proof. intros J. exact (t_cumulants solve b i q J v). Qed.
Example C48_example : joint_proper [2]%nat [1]%nat ex_joint /\ finite_vars ex_joint /\ inside_clip ex_joint [1]%nat /\ direction [2]%nat [1]%nat ex_joint ex_joint'.
Proof. exact (conj ex_joint_proper (conj ex_joint_fin (conj ex_joint_inside ex_joint_dir))). Qed.
Example C48_matrix_example : joint_proper [2]%nat [1]%nat ex_mat /\ finite_vars ex_mat /\ inside_clip ex_mat [1]%nat /\ direction [2]%nat [1]%nat ex_mat (ex_mat_v 0).
Proof. exact (conj ex_mat_proper (conj ex_mat_fin (conj ex_mat_inside ex_mat_dir))). Qed.
