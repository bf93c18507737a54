(** Concrete cases for C53. *)
From Coquelicot Require Import Coquelicot.
From Coq Require Import String List Bool Arith Reals Lia Lra.
From Verif Require Import Base XReal Tensor TensorFacts Support Dist Iteration Structure Spec Tools Joint SpecFun Expr Fam SumSpec DotSpec Examples JointEx PointSpec ConvEx MatEx MatEx2 PointFacts Val FamR LeafVal DerivFacts DerivThms
  StructFacts AssembleFacts MapFacts JointThms JointThms2 ConvFacts HessFacts Fisher FisherSpec FisherThms FisherEx DensSpec SampleSpec IntSpec JointIntSpec CovEx KlSpec GradSpec DotLaws.
Import ListNotations.
Local Unset Asymmetric Patterns.
Local Open Scope string_scope.
Local Open Scope R_scope.

Lemma ex_joint_e_ecm solve : exists c, value_is [2]%nat [1]%nat (expected_carrier_measure (fam_methods solve) ex_joint_e) c.
Proof. unfold value_is. cbn. eexists _, _. split; [reflexivity|]. split; [reflexivity|]. cbn. dec. reflexivity. Qed.
(** the gradient at a joint distribution of a normal, a gamma and a fixed-variance normal distribution *)
Lemma ex_ce_gradient solve : joint_proper [2]%nat [1]%nat ex_joint /\ finite_vars ex_joint /\ not_clipped ex_joint [1]%nat /\ direction [2]%nat [1]%nat ex_joint ex_joint' /\
  well_formed ex_joint_e = true /\ all_nodes has_entropy_ep ex_joint_e = true /\ tree_match [2]%nat ex_joint ex_joint_e /\ finite_vars ex_joint_e /\
  exists c, value_is [2]%nat [1]%nat (expected_carrier_measure (fam_methods solve) ex_joint_e) c.
Proof.
  split; [exact ex_joint_proper|]. split; [exact ex_joint_fin|]. split; [apply ex_joint_clip|]. split; [exact ex_joint_dir|]. do 2 (split; [reflexivity|]).
  split; [exact (tm_sym _ _ _ ex_tm_e)|]. split; [exact ex_joint_e_fin|]. exact (ex_joint_e_ecm solve).
Qed.
Lemma ex_ce_minimum solve : joint_proper [2]%nat [1]%nat ex_p /\ joint_proper [2]%nat [1]%nat ex_q /\ same_skeleton ex_p ex_q /\ tree_match [2]%nat ex_p ex_q /\ same_fixed_at [2]%nat [1]%nat ex_p ex_q /\ not_clipped ex_p [1]%nat /\
  (forall pth l f, In (pth, l) (leaves [] ex_p) -> dcls l = NP f -> has_entropy_ep (EP f) = true) /\
  to_exp (fam_methods solve) ex_p = Ok ex_pe /\ finite_vars ex_p /\ finite_vars ex_q /\ finite_vars ex_pe /\ exists c, value_is [2]%nat [1]%nat (expected_carrier_measure (fam_methods solve) ex_pe) c.
Proof.
  destruct (p_C18_ex solve) as (_ & _ & _ & _ & _ & Sk & T & He & E & F1 & F2 & F3 & _).
  split. { do 4 (split; [reflexivity|]). intros p l H. cbn in H. destruct H as [H|[H|[]]]; injection H as <- <-; leaf_ 1%nat; lra. }
  split. { do 4 (split; [reflexivity|]). intros p l H. cbn in H. destruct H as [H|[H|[]]]; injection H as <- <-; leaf_ 1%nat; lra. }
  split; [exact Sk|]. split; [exact T|].
  split. { unfold same_fixed_at. cbn [leaves ex_p ex_q is_joint flat_map app fst snd ex_normal]. repeat constructor; cbn [snd]; intros f v w j I F E1 E2 Hj; cbn in I; repeat (destruct I as [<-|I]; [try discriminate F|]); try destruct I. }
  split. { intros p l H K. cbn in H. destruct H as [H|[H|[]]]; injection H as <- <-; discriminate K. }
  do 5 (split; [assumption|]). unfold value_is. cbn. eexists _, _. split; [reflexivity|]. split; [reflexivity|]. cbn. unfold fam_expected_carrier_measure. cbn. dec. reflexivity.
Qed.
(** the entropy of a joint distribution of two matrix-valued families *)
Definition ex_mat_ev : dist := Dist JointDistributionE DefaultMinimizer []
  [("c", Dist (EP ComplexCircularlySymmetricNormal) DefaultMinimizer
     [("variance", cvec [(0, 0); (1, 1); (1, -1); (2, 0); (-1, 0); (0, 3); (0, -3); (1, 0)]%R [2; 2; 2]%nat eq_refl)] []);
   ("m", Dist (EP MultivariateNormal) DefaultMinimizer
     [("mean", vec [1; 1; -1; 2]%R [2; 2]%nat eq_refl); ("second_moment", vec [0; 1; 1; 0; 2; -3; -3; 1]%R [2; 2; 2]%nat eq_refl)] [])].
Lemma ex_entropy_gradient : exp_proper [2]%nat [1]%nat ex_mat_e /\ all_nodes has_entropy_ep ex_mat_e = true /\ closed_leaves ex_mat_e /\ finite_vars ex_mat_e /\ exp_direction [2]%nat [1]%nat ex_mat_e ex_mat_ev.
Proof.
  split. { do 4 (split; [reflexivity|]). exact ex_mat_e_dom. }
  split; [reflexivity|].
  split. { intros pth l f H K. cbn in H. destruct H as [H|[H|[]]]; injection H as <- <-; injection K as <-; reflexivity. }
  split; [finc_tree_tac|].
  split; [reflexivity|].
  split. { intros p. destruct p as [|a p]; [split; reflexivity|]. cbn. destruct (keq a "c"); [|destruct (keq a "m")]; [| |split; reflexivity]; destruct p; split; reflexivity. }
  split. { unfold tree_match. cbn [leaves ex_mat_e ex_mat_ev ex_ccs_e ex_mvn_e is_joint flat_map app fst snd]. repeat constructor; try (cbn; eexists; split; reflexivity); reflexivity. }
  split; [finc_tree_tac|].
  split. { intros p l H. cbn in H. destruct H as [H|[H|[]]]; injection H as <- <-; exists 2%nat; (split; [reflexivity|finc_]). }
  intros p l H n D a c Ha Hc. cbn in H. destruct H as [H|[H|[]]]; injection H as <- <-; cbn in D; injection D as <-; split; intros K; try discriminate K; destruct a as [|[|a]]; try lia; destruct c as [|[|c]]; try lia; cbn; try split; lra.
Qed.
