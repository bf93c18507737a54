(** Concrete cases for C47 and C48. *)
From Coquelicot Require Import Coquelicot.
From Coq Require Import String List Bool Arith Reals Lia Lra.
From Verif Require Import Base XReal Tensor TensorFacts Support Dist Iteration Structure Spec Tools Joint SpecFun Expr Fam SumSpec DotSpec Examples JointEx PointSpec ConvEx MatEx MatEx2 PointFacts Val FamR LeafVal DerivFacts DerivThms
  StructFacts AssembleFacts MapFacts JointThms JointThms2 ConvFacts HessFacts Fisher FisherSpec FisherThms FisherEx DensSpec SampleSpec IntSpec JointIntSpec.
Import ListNotations.
Local Unset Asymmetric Patterns.
Local Open Scope string_scope.
Local Open Scope R_scope.

Lemma fx_shift : parameter_map (lin_op 1 1) (fx (-2)) [fx 1] = Ok (fx (1 * -2 + 1 * 1)).
Proof. cbn. unfold fx, vec. repeat f_equal. apply tensor_eq; reflexivity. Qed.
Lemma fx_shift_dom : tree_in_domain (fx (1 * -2 + 1 * 1)) [].
Proof. intros p l H. cbn in H. destruct H as [H|[]]; injection H as <- <-. leaf_ 1%nat. lra. Qed.
Lemma fx_proper : joint_proper [] [] (fx (-2)).
Proof. do 4 (split; [reflexivity|]). exact fx_dom. Qed.
Lemma ex_joint_proper : joint_proper [2]%nat [1]%nat ex_joint.
Proof. do 4 (split; [reflexivity|]). exact ex_joint_dom. Qed.
Lemma ex_mat_proper : joint_proper [2]%nat [1]%nat ex_mat.
Proof. do 4 (split; [reflexivity|]). exact ex_mat_dom. Qed.
