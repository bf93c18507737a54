(** Theorems for C29 and C42: the diagonal and the trace of the Fisher information. *)
From Coq Require Import String List Bool Arith Reals.
From Verif Require Import Base XReal Tensor Support SupportSpec Dist Iteration Structure Spec FlattenSpec Tools Joint Fam SumSpec DotSpec PointSpec Fisher FisherSpec TraceSpec FisherTrace TraceEx.
Import ListNotations.
Local Open Scope R_scope.

(** ** C29, where it holds: without batch dimensions and with parameters that range over all reals, vectors or symmetric matrices, the (unmapped)
    flattened result of fisher_information_diagonal is the diagonal of the Fisher information matrix F *)
Theorem C29_diagonal_unbounded_partial d F : well_formed d = true -> dist_vals true [] d -> unbounded d -> shp F = [flat_size d; flat_size d]%nat ->
  (forall a, (a < flat_size d)%nat -> exists v, tget F [a; a] = Fin v) ->
  exists dg fl t diag, fisher_information_diagonal (fun _ => Ok F) d = Ok dg /\ flatten d false = Ok (fl, t) /\ flatten dg false = Ok (fl, diag) /\
    shp diag = [flat_size d]%nat /\ forall a, (a < flat_size d)%nat -> tget diag [a] = tget F [a; a].
Proof. exact (p_diagonal d F). Qed.

(** ** C42: fisher_information_trace returns for each parameter the trace of its block of the Fisher information, and keeps scalar fixed parameters *)
Theorem C42_trace_partial d F : well_formed d = true -> dist_vals true [] d -> unbounded d -> shp F = [flat_size d; flat_size d]%nat ->
  (forall a, (a < flat_size d)%nat -> exists v, tget F [a; a] = Fin v) ->
  exists r, fisher_information_trace (fun _ => Ok F) d = Ok r /\ same_skeleton d r /\
    (forall p f, field_at d p = Some f -> fd_fixed f = true -> supp_axes (fd_support f) = 0%nat -> param_at r p = param_at d p) /\
    forall p off k, In (p, (off, k)) (sections d) -> exists x, block_trace F off k x /\ param_at r p = Some (RA (tscalar (Fin x))).
Proof. exact (p_trace d F). Qed.
(** a normal and a Poisson distribution, the blocks of their parameters *)
Example C42_example : well_formed ex_tr = true /\ dist_vals true [] ex_tr /\ unbounded ex_tr /\ flat_size ex_tr = 6%nat /\ shp ex_tr_F = [6; 6]%nat /\ (forall a, (a < 6)%nat -> exists v, tget ex_tr_F [a; a] = Fin v) /\
  sections ex_tr = [(["m"; "mean_times_precision"], (0, 2)); (["m"; "negative_half_precision"], (2, 3)); (["p"; "log_mean"], (5, 1))]%nat%string.
Proof. exact ex_tr_hyps. Qed.
(** not for bounded parameters: of an exponential distribution of rate 1 the Fisher information is 1, and a negative number is returned *)
Theorem C42_trace_refuted solve : exists q F, well_formed q = true /\ nat_tree q = true /\ shaped [] q = true /\ fisher_matrix_of (fam_methods solve) q F /\
  sections q = [(["negative_rate"], (0, 1))]%nat%string /\ block_trace F 0 1 1 /\
  exists r x, fisher_information_trace (fun _ => Ok F) q = Ok r /\ param_at r ["negative_rate"%string] = Some (RA x) /\ exists v, tget x [] = Fin v /\ v < 0.
Proof. exact (t_trace_refuted solve). Qed.
(** nor for complex parameters: of a complex unit normal distribution the trace is 1, and 1/2 + 1/2 i is returned *)
Theorem C42_complex_refuted solve : exists q F, well_formed q = true /\ nat_tree q = true /\ shaped [] q = true /\ fisher_matrix_of (fam_methods solve) q F /\
  sections q = [(["two_mean_conjugate"], (0, 2))]%nat%string /\ block_trace F 0 2 1 /\
  exists r x, fisher_information_trace (fun _ => Ok F) q = Ok r /\ param_at r ["two_mean_conjugate"%string] = Some (CA x) /\ tget x [] = XC (Fin (1 / 2)) (Fin (1 / 2)).
Proof. exact (t_trace_complex_refuted solve). Qed.
