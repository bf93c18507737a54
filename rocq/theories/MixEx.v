(** concrete cases for C71 *)
From Coquelicot Require Import Coquelicot.
From Coq Require Import String List Bool Arith Reals Lia Lra.
From Verif Require Import Base XReal Tensor TensorFacts Support Dist Iteration Structure Spec Tools ToolThms Joint JointThms2 SpecFun Expr Fam SumSpec DotSpec PointSpec KlSpec FisherSpec JointIntSpec CovSpec GradSpec
  Examples JointEx ConvEx MatEx GradEx StructFacts AssembleFacts MapFacts JointThms PointFacts Val FamR LeafVal DerivFacts DerivThms KlPos DotFacts DotLaws KlTri MixThms.
Import ListNotations.
Local Unset Asymmetric Patterns.
Local Open Scope string_scope.
Local Open Scope R_scope.

Lemma ex_mix s : 0 <= s <= 1 -> exists m, (joint_proper [2]%nat [1]%nat ex_p /\ joint_proper [2]%nat [1]%nat ex_q /\ same_skeleton ex_p ex_q /\ tree_match [2]%nat ex_p ex_q /\ same_fixed_at [2]%nat [1]%nat ex_p ex_q /\
    finite_vars ex_p /\ finite_vars ex_q) /\ parameter_map (lin_op (1 - s) s) ex_p [ex_q] = Ok m /\
  (forall pth l, In (pth, l) (leaves [] ex_p) -> dcls l <> NP VonMisesFisher) /\ joint_proper [2]%nat [1]%nat m /\ not_clipped m [1]%nat.
Proof.
  intros Hs. destruct (ex_ce_minimum (fun _ _ _ => NaN)) as (P1 & P2 & Sk & T & Fx & U & _ & _ & Fp & Fq & _).
  assert (V : exists v, parameter_map (lin_op (1 - s) s) ex_p [ex_q] = Ok v) by (eexists; cbn; reflexivity). destruct V as [m V]. exists m.
  split; [auto 10|]. split; [exact V|].
  assert (Nv : forall pth l, In (pth, l) (leaves [] ex_p) -> dcls l <> NP VonMisesFisher). { intros pth l H. cbn in H. destruct H as [H|[H|[]]]; injection H as <- <-; discriminate. }
  split; [exact Nv|]. destruct (t_mix_domain [2]%nat [1]%nat ex_p ex_q m s P1 P2 Sk T Fx Fp Fq Hs V Nv) as (Pm & Skm & Tm). split; [exact Pm|].
  cbn in V. injection V as <-. intros p l H K. cbn in H. destruct H as [H|[H|[]]]; injection H as <- <-; discriminate K.
Qed.

(** two opposite von Mises-Fisher distributions: halfway is the uniform distribution *)
Definition vmf_of (x : R) : dist := Dist (NP VonMisesFisher) DefaultMinimizer [("mean_times_concentration", vec [x; 0; 0]%R [3]%nat eq_refl)] [].
Lemma ex_vmf_mix : joint_proper [] [] (vmf_of 1) /\ joint_proper [] [] (vmf_of (-1)) /\ same_skeleton (vmf_of 1) (vmf_of (-1)) /\ tree_match [] (vmf_of 1) (vmf_of (-1)) /\ same_fixed_at [] [] (vmf_of 1) (vmf_of (-1)) /\
  finite_vars (vmf_of 1) /\ finite_vars (vmf_of (-1)) /\
  exists m, parameter_map (lin_op (1 - 1 / 2) (1 / 2)) (vmf_of 1) [vmf_of (-1)] = Ok m /\ forall solve, entry (log_normalizer (fam_methods solve) m) [] = NaN.
Proof.
  assert (D : forall x, x <> 0 -> joint_proper [] [] (vmf_of x)).
  { intros x Hx. do 4 (split; [reflexivity|]). intros p l H. cbn in H. destruct H as [H|[]]; injection H as <- <-; leaf_ 3%nat. exists 0%nat. split; [lia|exact Hx]. }
  split; [apply D; lra|]. split; [apply D; lra|].
  split. { intros p. destruct p as [|a p]; split; reflexivity. }
  split. { unfold tree_match. cbn [leaves vmf_of is_joint]. repeat constructor; try (cbn; eexists; split; reflexivity); reflexivity. }
  split. { unfold same_fixed_at. cbn [leaves vmf_of is_joint]. repeat constructor; cbn [snd]; intros f v w j I F E1 E2 Hj; cbn in I; repeat (destruct I as [<-|I]; [try discriminate F|]); try destruct I. }
  split; [fin_tree_tac|]. split; [fin_tree_tac|].
  eexists. split; [cbn; reflexivity|]. intros solve. cbn. unfold fam_log_normalizer.
  replace (((1 - 1 / 2) * 1 + 1 / 2 * -1) * ((1 - 1 / 2) * 1 + 1 / 2 * -1) + (((1 - 1 / 2) * 0 + 1 / 2 * 0) * ((1 - 1 / 2) * 0 + 1 / 2 * 0) + (((1 - 1 / 2) * 0 + 1 / 2 * 0) * ((1 - 1 / 2) * 0 + 1 / 2 * 0) + 0))) with 0 by field.
  destruct (Rle_dec 0 0); [|lra]. rewrite sqrt_0. cbn.
  destruct (Rlt_dec 0 0); [lra|]. destruct (Req_EM_T 0 0); [|lra]. cbn. unfold inf_mul, rltb. repeat destruct Req_EM_T; repeat destruct Rlt_dec; cbn; repeat destruct Req_EM_T; try reflexivity; repeat destruct Rlt_dec; cbn; try reflexivity; try lra.
Qed.
