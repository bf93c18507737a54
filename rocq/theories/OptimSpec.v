(** Specification vocabulary for C55: Bernoulli parameters, the gradient of the loss, and the while loop. *)
From Coq Require Import String List Bool Arith Reals.
From Verif Require Import Base XReal Tensor Support Dist Iteration Structure Tools Joint Fam Spec SumSpec DotSpec PointSpec DensSpec Optim.
Import ListNotations.
Local Open Scope R_scope.

(** BernoulliNP objects of batch shape b with finite log odds; BernoulliEP objects with probabilities strictly between 0 and 1 *)
Definition log_odds_of (b : list nat) (q : dist) : Prop :=
  dcls q = NP Bernoulli /\ well_formed q = true /\ leaf_shaped b q = true /\ forall i, inb b i = true -> in_domain q i.
Definition probabilities_of (b : list nat) (p : dist) : Prop :=
  dcls p = EP Bernoulli /\ well_formed p = true /\ leaf_shaped b p = true /\ forall i, inb b i = true -> in_domain p i.

Section S.
  Variables (L : leaf_methods) (b : list nat) (eta tau : R) (p : dist).
  (** the derivative of the loss at q along v exists and is the sum over the batch of the inner products of v and g, for every v *)
  Definition gradient (q g : dist) : Prop := log_odds_of b g /\ forall v, log_odds_of b v -> exists h d,
    (exists eps, 0 < eps /\ forall s, Rabs s < eps -> exists r, parameter_map (lin_op 1 s) q [v] = Ok r /\ cross_entropy_loss L p r = Ok (Fin (h s))) /\
    rmap tsum (parameter_dot_product v g) = Ok (Fin d) /\ derivable_pt_lim h 0 d.
  (** one execution of the body of the loop *)
  Definition step (q q' : dist) : Prop := exists g, gradient q g /\ body_fun eta q g = Ok q'.
  (** the two outcomes of the condition *)
  Definition goes_on (q : dist) : Prop := exists g x, gradient q g /\ grad_norm g = Ok (Fin x) /\ x > tau.
  Definition stops (q : dist) : Prop := exists g x, gradient q g /\ grad_norm g = Ok (Fin x) /\ x <= tau.
  (** lax.while_loop(cond_fun, body_fun, q) returns r *)
  Inductive while_loop : dist -> dist -> Prop :=
  | loop_stop q : stops q -> while_loop q q
  | loop_step q q' r : goes_on q -> step q q' -> while_loop q' r -> while_loop q r.
End S.
