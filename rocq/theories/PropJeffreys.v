(** Theorems for C46: the Fisher information matrix and the Jeffreys prior. *)
From Coq Require Import String List Bool Arith Reals.
From Verif Require Import Base XReal Tensor Support Dist Iteration Structure Spec FlattenSpec Joint Fam SpecFun SumSpec DotSpec PointSpec Fisher FisherSpec Jeffreys FisherMat2 Examples TraceEx JeffreysEx.
Import ListNotations.
Local Open Scope R_scope.

(** ** C46: log_normalizer is twice differentiable in the flattened parameters, so that the Fisher information matrix (without the family treated below)
    jacfwd(grad(_flat_log_normalizer)) exists *)
Theorem C46_exists_partial solve b q : well_formed q = true -> nat_tree q = true -> shaped b q = true -> (forall i, inb b i = true -> tree_in_domain q i) ->
  (forall p l, In (p, l) (leaves [] q) -> dcls l <> NP ComplexCircularlySymmetricNormal) -> exists F, fisher_matrix_of (fam_methods solve) q F.
Proof. exact (t_exists solve b q). Qed.
(** ** it is symmetric and positive semidefinite *)
Theorem C46_positive_semidefinite_partial solve b q : well_formed q = true -> nat_tree q = true -> shaped b q = true -> (forall i, inb b i = true -> tree_in_domain q i) ->
  (forall p l, In (p, l) (leaves [] q) -> dcls l <> NP ComplexCircularlySymmetricNormal) -> forall F, fisher_matrix_of (fam_methods solve) q F ->
  shp F = (b ++ [flat_size q; flat_size q])%list /\ forall i, inb b i = true -> exists M : nat -> nat -> R,
    (forall a c, (a < flat_size q)%nat -> (c < flat_size q)%nat -> tget F (i ++ [a; c])%list = Fin (M a c) /\ M a c = M c a) /\
    forall z : nat -> R, 0 <= sumR (flat_size q) (fun a => sumR (flat_size q) (fun c => z a * M a c * z c)).
Proof. exact (t_psd solve b q). Qed.
(** ** jeffreys_prior returns, for each element of the batch, the square root of its determinant *)
Theorem C46_jeffreys_prior_partial solve b q : well_formed q = true -> nat_tree q = true -> shaped b q = true -> (forall i, inb b i = true -> tree_in_domain q i) ->
  (forall p l, In (p, l) (leaves [] q) -> dcls l <> NP ComplexCircularlySymmetricNormal) -> forall fisher_matrix F,
  fisher_matrix q = Ok F -> fisher_matrix_of (fam_methods solve) q F ->
  exists t, jeffreys_prior fisher_matrix q = Ok t /\ shp t = b /\ forall i, inb b i = true -> exists r (M : nat -> nat -> R),
    tget t i = Fin r /\ 0 <= r /\ r * r = rdet (flat_size q) M /\ forall a c, (a < flat_size q)%nat -> (c < flat_size q)%nat -> tget F (i ++ [a; c])%list = Fin (M a c).
Proof. exact (t_jeffreys solve b q). Qed.
(** a two-dimensional normal and a Poisson distribution *)
Example C46_example : well_formed ex_tr = true /\ nat_tree ex_tr = true /\ shaped [] ex_tr = true /\ (forall i, inb [] i = true -> tree_in_domain ex_tr i) /\
  (forall p l, In (p, l) (leaves [] ex_tr) -> dcls l <> NP ComplexCircularlySymmetricNormal) /\ flat_size ex_tr = 6%nat.
Proof. split; [reflexivity|]. split; [reflexivity|]. split; [reflexivity|]. split; [exact ex_tr_dom|]. split; [exact ex_tr_nc|reflexivity]. Qed.
(** ** Not for ComplexCircularlySymmetricNormal, whose flattened parameters include the imaginary parts of the diagonal of its Hermitian
    matrix: a two-dimensional distribution in the domain whose Fisher information matrix is not positive semidefinite, and for which
    jeffreys_prior returns NaN *)
Theorem C46_circularly_symmetric_refuted solve : exists q F, well_formed q = true /\ nat_tree q = true /\ shaped [] q = true /\ tree_in_domain q [] /\ flat_size q = 6%nat /\
  fisher_matrix_of (fam_methods solve) q F /\
  (~ exists M : nat -> nat -> R, (forall a c, (a < 6)%nat -> (c < 6)%nat -> tget F [a; c] = Fin (M a c)) /\ forall z : nat -> R, 0 <= sumR 6 (fun a => sumR 6 (fun c => z a * M a c * z c))) /\
  exists t, jeffreys_prior (fun _ => Ok F) q = Ok t /\ shp t = [] /\ tget t [] = NaN.
Proof. exact (t_psd_refuted solve). Qed.
(** in one dimension jeffreys_prior returns zero everywhere *)
Theorem C46_circularly_symmetric_zero solve x : x < 0 ->
  let q := Dist (NP ComplexCircularlySymmetricNormal) DefaultMinimizer [("negative_precision"%string, cvec [(x, 0)] [1; 1]%nat eq_refl)] [] in
  exists F t, tree_in_domain q [] /\ fisher_matrix_of (fam_methods solve) q F /\
  jeffreys_prior (fun _ => Ok F) q = Ok t /\ shp t = [] /\ tget t [] = Fin 0.
Proof. exact (t_jeffreys_zero solve x). Qed.
