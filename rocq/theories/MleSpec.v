(** Specification vocabulary for C26: data sets and estimators. *)
From Coq Require Import String List Bool Arith Reals.
From Verif Require Import Base XReal Tensor Support Dist Iteration Structure Tools Joint Spec SumSpec DotSpec PointSpec DensSpec.
Import ListNotations.
Local Open Scope R_scope.

(** x holds N observations along its first axis; xs k is the k-th one, x[k] (in any key order) *)
Definition rows (N : nat) (q : dist) (x : nested arr) (xs : nat -> nested arr) : Prop := forall k, (k < N)%nat ->
  obs_matches q (xs k) /\ forall p a, nested_get x p = Some a -> exists ak, arr_getitem [k] a = Ok ak /\ nested_get (xs k) p = Some ak.
(** every one of the observations at batch index i has finite entries and is in the sample space of its distribution *)
Definition data_in_domain (N : nat) (b i : list nat) (q0 : dist) (x : nested arr) : Prop := forall k p l f n a, (k < N)%nat ->
  In (p, l) (leaves [] q0) -> dcls l = NP f -> dims_of l = Ok n -> nested_get x p = Some a ->
  exists xv, observed (N :: b) (k :: i) l a xv /\ sample_space f n xv.
(** q0 has one more leading axis, of size N, than q; along it the fixed parameters are those of q at batch index i *)
Definition stacked_leaf (N : nat) (i : list nat) (l0 l : dist) : Prop := dcls l0 = dcls l /\ dims_of l0 = dims_of l /\
  forall k f v0 v j, (k < N)%nat -> In f (fields (dcls l)) -> fd_fixed f = true ->
    dget (dparams l0) (fd_name f) = Some v0 -> dget (dparams l) (fd_name f) = Some v -> entry_c v0 (k :: i ++ j) = entry_c v (i ++ j).
Definition stacked_fixed (N : nat) (i : list nat) (q0 q : dist) : Prop :=
  Forall2 (fun p r => fst p = fst r /\ stacked_leaf N i (snd p) (snd r)) (leaves [] q0) (leaves [] q).
(** the log-density of the observation x at batch index i *)
Definition log_likelihood (L : leaf_methods) (b i : list nat) (q : dist) (x : nested arr) (v : R) : Prop :=
  exists t, log_pdf L q x = Ok t /\ shp t = b /\ tget t i = Fin v.
