(** Theorems for C51: the Fisher information matrix is the covariance matrix of the sufficient statistics. *)
From Coquelicot Require Import Coquelicot.
From Coq Require Import String List Bool Arith Reals.
From Verif Require Import Base XReal Tensor Support Dist Iteration Structure Spec FlattenSpec Joint Fam SpecFun SumSpec DotSpec PointSpec Fisher FisherSpec DensSpec SampleSpec IntSpec JointIntSpec CovSpec FisherCovSpec FisherCov Examples TraceEx JeffreysEx FisherCovEx.
Import ListNotations.
Local Open Scope R_scope.

(** ** C51.  Entry [a, c] of the Fisher information matrix of each element of the batch is the covariance, under the density, of the
    sufficient statistics that belong to the entries a and c of the flattened parameters (without the family treated in C46) *)
Theorem C51_covariance_partial solve b q : well_formed q = true -> nat_tree q = true -> shaped b q = true -> (forall i, inb b i = true -> tree_in_domain q i) ->
  (forall p l, In (p, l) (leaves [] q) -> dcls l <> NP ComplexCircularlySymmetricNormal) -> forall F, fisher_matrix_of (fam_methods solve) q F ->
  shp F = (b ++ [flat_size q; flat_size q])%list /\ forall i, inb b i = true ->
    (exists P, joint_pdf_is (fam_methods solve) b i q P) /\ (forall a, (a < flat_size q)%nat -> exists X, flat_statistic (fam_methods solve) b i q a X) /\
    forall P X Y a c, (a < flat_size q)%nat -> (c < flat_size q)%nat -> joint_pdf_is (fam_methods solve) b i q P ->
      flat_statistic (fam_methods solve) b i q a X -> flat_statistic (fam_methods solve) b i q c Y ->
      exists m m' D, integral_joint q (fun x => P x * X x) m /\ integral_joint q (fun x => P x * Y x) m' /\
        integral_joint q (fun x => P x * ((X x - m) * (Y x - m'))) D /\ tget F (i ++ [a; c])%list = Fin D.
Proof. exact (t_fisher_cov solve b q). Qed.
(** a two-dimensional normal and a Poisson distribution; the matrix exists by C46_exists_partial *)
Example C51_example : well_formed ex_tr = true /\ nat_tree ex_tr = true /\ shaped [] ex_tr = true /\ (forall i, inb [] i = true -> tree_in_domain ex_tr i) /\
  (forall p l, In (p, l) (leaves [] ex_tr) -> dcls l <> NP ComplexCircularlySymmetricNormal) /\ flat_size ex_tr = 6%nat.
Proof. split; [reflexivity|]. split; [reflexivity|]. split; [reflexivity|]. split; [exact ex_tr_dom|]. split; [exact ex_tr_nc|reflexivity]. Qed.
(** ** Not for ComplexCircularlySymmetricNormal, whose flattened parameters include the imaginary parts of the diagonal of its Hermitian
    matrix: no two functions on the sample space have the variances and the covariance that the entries 3 and 5 of this matrix give *)
Theorem C51_circularly_symmetric_refuted solve : exists q F, well_formed q = true /\ nat_tree q = true /\ shaped [] q = true /\ tree_in_domain q [] /\ flat_size q = 6%nat /\
  fisher_matrix_of (fam_methods solve) q F /\
  ~ exists P X Y m m' D D' E, joint_pdf_is (fam_methods solve) [] [] q P /\
      integral_joint q (fun x => P x * ((X x - m) * (X x - m))) D /\ tget F [3; 3]%nat = Fin D /\
      integral_joint q (fun x => P x * ((X x - m) * (Y x - m'))) E /\ tget F [3; 5]%nat = Fin E /\
      integral_joint q (fun x => P x * ((Y x - m') * (Y x - m'))) D' /\ tget F [5; 5]%nat = Fin D'.
Proof. exact (t_fisher_cov_refuted solve). Qed.
