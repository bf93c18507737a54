(** concrete cases for C70 *)
From Coquelicot Require Import Coquelicot.
From Coq Require Import String List Bool Arith Reals Lia Lra.
From Verif Require Import Base XReal Tensor Support Dist Iteration Structure Spec Tools ToolThms Joint JointThms2 SpecFun Expr Fam SumSpec DotSpec PointSpec KlSpec FisherSpec JointIntSpec CovSpec GradSpec
  Examples JointEx ConvEx MatEx GradEx StructFacts AssembleFacts MapFacts JointThms PointFacts Val FamR LeafVal DerivFacts DerivThms KlPos DotFacts DotLaws KlTri.
Import ListNotations.
Local Unset Asymmetric Patterns.
Local Open Scope string_scope.
Local Open Scope R_scope.

(** the normal component of ex_p and the unit-normal component of ex_q *)
Definition ex_mid : dist :=
  Dist JointDistributionN DefaultMinimizer [] [("n", ex_normal); ("u", Dist (NP UnitNormal) DefaultMinimizer [("mean", vec [1; 1]%R [2]%nat eq_refl)] [])].
Lemma ex_three : joint_proper [2]%nat [1]%nat ex_p /\ joint_proper [2]%nat [1]%nat ex_mid /\ joint_proper [2]%nat [1]%nat ex_q /\ not_clipped ex_p [1]%nat /\ not_clipped ex_mid [1]%nat /\
  same_skeleton ex_p ex_mid /\ tree_match [2]%nat ex_p ex_mid /\ same_skeleton ex_p ex_q /\ tree_match [2]%nat ex_p ex_q /\ same_fixed_at [2]%nat [1]%nat ex_mid ex_q /\ finite_vars ex_mid /\ finite_vars ex_q.
Proof.
  destruct (ex_ce_minimum (fun _ _ _ => NaN)) as (P1 & P2 & Sk & T & _ & U & _ & _ & _ & Fq & _).
  split; [exact P1|].
  split. { do 4 (split; [reflexivity|]). intros p l H. cbn in H. destruct H as [H|[H|[]]]; injection H as <- <-; leaf_ 1%nat; lra. }
  split; [exact P2|]. split; [exact U|].
  split. { intros p l H K. cbn in H. destruct H as [H|[H|[]]]; injection H as <- <-; discriminate K. }
  split. { intros p. destruct p as [|a p]; [split; reflexivity|]. cbn. destruct (keq a "n"); [|destruct (keq a "u")]; [| |split; reflexivity]; destruct p; split; reflexivity. }
  split. { unfold tree_match. cbn [leaves ex_p ex_mid is_joint flat_map app fst snd ex_normal]. repeat constructor; try (cbn; eexists; split; reflexivity); reflexivity. }
  split; [exact Sk|]. split; [exact T|].
  split. { unfold same_fixed_at. cbn [leaves ex_mid ex_q is_joint flat_map app fst snd ex_normal]. repeat constructor; cbn [snd]; intros f v w j I F E1 E2 Hj; cbn in I; repeat (destruct I as [<-|I]; [try discriminate F|]); try destruct I. }
  split; [fin_tree_tac|exact Fq].
Qed.
Lemma ex_pyth solve : exists v m, parameter_map (lin_op 1 (-1)) ex_q [ex_mid] = Ok v /\ mean_along (fam_methods solve) [2]%nat [1]%nat ex_p v m /\ mean_along (fam_methods solve) [2]%nat [1]%nat ex_mid v m.
Proof.
  destruct ex_three as (Pp & Pq & Pr & Up & Uq & Skq & Tq & Skr & Tr & Fx & Fq & Fr).
  assert (V : exists v, parameter_map (lin_op 1 (-1)) ex_q [ex_mid] = Ok v) by (eexists; cbn; reflexivity). destruct V as [v V].

  pose proof (skel_refl ex_p) as Skp. pose proof (tm_refl_l _ _ _ Tq) as Tp.
  destruct (diff_val solve [2]%nat [1]%nat ex_p ex_mid ex_q v ex_p Pp Pq Pr Skq Tq Skr Tr Fq Fr V Pp Up Skp Tp) as (a & c & A1 & A2 & A3).
  destruct (diff_val solve [2]%nat [1]%nat ex_p ex_mid ex_q v ex_mid Pp Pq Pr Skq Tq Skr Tr Fq Fr V Pq Uq Skq Tq) as (a' & c' & B1 & B2 & B3).
  exists v, (a - c). split; [exact V|]. split; [exact A3|]. enough (E : a - c = a' - c') by (rewrite E; exact B3).
  rewrite (mean_fun _ _ _ _ _ _ _ A1 (ip_val solve _ _ ex_p Pp ex_q ex_p Pr Skr Tr Pp Up Skp Tp)), (mean_fun _ _ _ _ _ _ _ A2 (ip_val solve _ _ ex_p Pp ex_mid ex_p Pq Skq Tq Pp Up Skp Tp)),
    (mean_fun _ _ _ _ _ _ _ B1 (ip_val solve _ _ ex_p Pp ex_q ex_mid Pr Skr Tr Pq Uq Skq Tq)), (mean_fun _ _ _ _ _ _ _ B2 (ip_val solve _ _ ex_p Pp ex_mid ex_mid Pq Skq Tq Pq Uq Skq Tq)).
  clear. unfold ip. cbn [leaves ex_p is_joint flat_map app fst snd map]; unfold rsum; cbn.
  lra.
Qed.
