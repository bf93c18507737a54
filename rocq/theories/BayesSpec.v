(** Specification vocabulary for C66. *)
From Coq Require Import String List Bool Arith Reals.
From Verif Require Import Base XReal Tensor Support Dist Iteration Structure Tools Joint Spec SumSpec DotSpec PointSpec DensSpec KlSpec Conj Combine.
Import ListNotations.
Local Open Scope R_scope.

(** at batch index i, every parameter of p that is not fixed is the mean of those of p1 and p2, weighted by N1 and N2 *)
Definition pooled (b i : list nat) (N1 N2 : R) (p1 p2 p : dist) : Prop := forall g v j, In g (fields (dcls p)) -> fd_fixed g = false ->
  dget (dparams p) (fd_name g) = Some v -> inb (skipn (length b) (ashape v)) j = true ->
  (N1 + N2) * par p i (fd_name g) j = N1 * par p1 i (fd_name g) j + N2 * par p2 i (fd_name g) j.

(** one step of Bayesian updating with this API: the statistics e of the observation x, as expectation parameters, have a conjugate prior with one
    pseudo-observation, whose natural parameters are added to those of c;  and the posterior of a history of observations *)
Definition update (L : leaf_methods) (est : estimator) (one : arr) (c : dist) (x : arr) : result dist :=
  let* e := mle_sufficient_statistics L est (Leaf x) in
  let* c1 := conjugate_prior_distribution e one in
  combine_evidence c c1.
Definition posterior (L : leaf_methods) (est : estimator) (one : arr) (c : dist) (xs : list arr) : result dist := foldM (update L est one) c xs.
(** every observation of the history is in the sample space of the distribution q *)
Definition history (b i : list nat) (f : family) (m : nat) (q : dist) (xs : list arr) : Prop := Forall (fun x => exists xv, observed b i q x xv /\ sample_space f m xv) xs.
(** the log-likelihoods of the observations *)
Definition log_likelihoods (L : leaf_methods) (b i : list nat) (q : dist) (xs : list arr) (ls : list R) : Prop := Forall2 (fun x l => log_density L b i q x l) xs ls.
Definition total (ls : list R) : R := fold_right Rplus 0 ls.
