(** Theorems for C55: the optimization loop of examples/optimization.py (and of the README), for every batch shape, target and start.
    [log_odds_of b q], [probabilities_of b p]: BernoulliNP and BernoulliEP objects of shape b with finite log odds, and with probabilities
    strictly between 0 and 1; [gradient L b p q g]: g is the derivative of the loss at q; [step], [stops], [goes_on], [while_loop]: the body,
    the condition and the loop (OptimSpec.v). The learning rate eta is 1e-4 and the threshold tau 1e-6 in the example. *)
From Coq Require Import String List Bool Arith Reals Lra.
From Verif Require Import Base XReal Tensor Support Dist Iteration Structure Spec Tools Joint Fam SumSpec DotSpec PointSpec DensSpec Optim OptimSpec OptimThms OptimEx.
Import ListNotations.
Local Open Scope R_scope.

(** the body can always be executed, and its result is again a BernoulliNP with finite log odds *)
Theorem C55_body solve b eta p q : probabilities_of b p -> log_odds_of b q -> exists q', step (fam_methods solve) b eta p q q' /\ log_odds_of b q'.
Proof. exact (t_step solve b eta p q). Qed.

(** every step lowers the loss, by at least eta (1 - eta/8) times the squared norm of the gradient *)
Theorem C55_descent solve b eta p q q' : 0 < eta <= 8 -> probabilities_of b p -> log_odds_of b q -> step (fam_methods solve) b eta p q q' ->
  exists g n x y, gradient (fam_methods solve) b p q g /\ grad_norm g = Ok (Fin n) /\ cross_entropy_loss (fam_methods solve) p q = Ok (Fin x) /\
    cross_entropy_loss (fam_methods solve) p q' = Ok (Fin y) /\ y <= x - eta * (1 - eta / 8) * n.
Proof. exact (t_decrease solve b eta p q q'). Qed.

(** whatever the start, the condition is false from some step on *)
Theorem C55_terminates solve b eta tau p (qs : nat -> dist) : 0 < eta < 8 -> 0 < tau -> probabilities_of b p -> log_odds_of b (qs 0%nat) ->
  (forall k, step (fam_methods solve) b eta p (qs k) (qs (S k))) -> exists N, forall k, (N <= k)%nat -> stops (fam_methods solve) b tau p (qs k).
Proof. exact (t_terminates solve b eta tau p qs). Qed.

(** so the loop returns *)
Theorem C55_returns solve b eta tau p q : 0 < eta < 8 -> 0 < tau -> probabilities_of b p -> log_odds_of b q ->
  exists r, while_loop (fam_methods solve) b eta tau p q r.
Proof. exact (t_loop solve b eta tau p q). Qed.

(** and what it returns are log odds whose probabilities are within sqrt(tau) of the target *)
Theorem C55_result solve b eta tau p q r : probabilities_of b p -> log_odds_of b q -> while_loop (fam_methods solve) b eta tau p q r ->
  log_odds_of b r /\ exists e, to_exp (fam_methods solve) r = Ok e /\ probabilities_of b e /\
    forall i, inb b i = true -> Rabs (par e i "probability"%string [] - par p i "probability"%string []) <= sqrt tau.
Proof. exact (t_result solve b eta tau p q r). Qed.

(** the values of the example *)
Example C55_example : probabilities_of [3]%nat some_p /\ log_odds_of [3]%nat some_q /\ 0 < / 10 ^ 4 < 8 /\ 0 < / 10 ^ 6.
Proof. split; [exact (proj1 ex_some)|]. split; [exact (proj2 ex_some)|]. lra. Qed.
Example C55_example_loop solve : exists r e, while_loop (fam_methods solve) [3]%nat (/ 10 ^ 4) (/ 10 ^ 6) some_p some_q r /\ to_exp (fam_methods solve) r = Ok e /\
  forall i, inb [3]%nat i = true -> Rabs (par e i "probability"%string [] - par some_p i "probability"%string []) <= / 10 ^ 3.
Proof.
  destruct C55_example as (Hp & Hq & He & Ht). destruct (C55_returns solve _ _ _ _ _ He Ht Hp Hq) as [r R]. destruct (C55_result solve _ _ _ _ _ _ Hp Hq R) as (_ & e & E & _ & B).
  exists r, e. split; [exact R|]. split; [exact E|]. intros i Hi. replace (/ 10 ^ 3) with (sqrt (/ 10 ^ 6)); [exact (B i Hi)|]. apply sqrt_lem_1; lra.
Qed.
