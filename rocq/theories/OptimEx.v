(** The concrete case of C55: the parameters of examples/optimization.py. *)
From Coquelicot Require Import Coquelicot.
From Coq Require Import String List Bool Arith Reals Lia Lra.
From Verif Require Import Base XReal Tensor TensorFacts Support Dist Iteration Structure Spec Tools Joint Fam SumSpec DotSpec PointSpec DensSpec Optim OptimSpec OptimThms.
Import ListNotations.
Local Unset Asymmetric Patterns.
Local Open Scope string_scope.
Local Open Scope R_scope.

(** examples/optimization.py:34, 38: some_p, some_q *)
Definition some_p : dist := Dist (EP Bernoulli) DefaultMinimizer [("probability", RA (tbuild [3]%nat (fun i => Fin (match i with [0%nat] => 3 / 10 | [1%nat] => 4 / 10 | _ => 7 / 10 end))))] [].
Definition some_q : dist := Dist (NP Bernoulli) DefaultMinimizer [("log_odds", RA (tbuild [3]%nat (fun _ => Fin 0)))] [].
Lemma ex_some : probabilities_of [3]%nat some_p /\ log_odds_of [3]%nat some_q.
Proof.
  split.
  - split; [reflexivity|]. split; [reflexivity|]. split; [reflexivity|]. intros i Hi. assert (D : i = [0%nat] \/ i = [1%nat] \/ i = [2%nat]).
    { destruct i as [|a [|? ?]]; try discriminate Hi; [|cbn in Hi; rewrite andb_false_r in Hi; discriminate Hi]. cbn in Hi. rewrite andb_true_r in Hi. destruct a as [|[|[|a]]]; auto. discriminate Hi. }
    exists 1%nat. split; [reflexivity|]. split.
    + intros f a j [<-|[]] E Ij. cbn in E. injection E as <-. cbn in Ij. destruct j; [|discriminate Ij]. destruct D as [->|[->| ->]]; eexists _, _; reflexivity.
    + destruct D as [->|[->| ->]]; cbn; lra.
  - apply np_intro; [reflexivity|]. intros i Hi. exists 0. now rewrite tget_tbuild.
Qed.
