(** A second point and tangent vectors for the joint distribution of matrix families in MatEx.v. *)
From Coq Require Import String List Bool Arith Reals Lra Lia.
From Verif Require Import Base XReal Tensor TensorFacts Support Dist Iteration Structure Spec Joint SpecFun Expr Fam SumSpec DotSpec KlSpec KlThms SupportSpec Examples JointEx PointSpec ConvEx MatEx FisherSpec.
Import ListNotations.
Local Open Scope string_scope.
Local Open Scope R_scope.

Definition ex_normal2 : dist := Dist (NP Normal) DefaultMinimizer [("mean_times_precision", vec [-1; 0]%R [2]%nat eq_refl); ("negative_half_precision", vec [-3; -1/2]%R [2]%nat eq_refl)] [].
Definition ex_mat2 : dist := Dist JointDistributionN DefaultMinimizer []
  [("c", Dist (NP ComplexCircularlySymmetricNormal) DefaultMinimizer
     [("negative_precision", cvec [(-1, 0); (0, 0); (0, 0); (-1, 0); (-1, 0); (1/4, -1/4); (1/4, 1/4); (-2, 0)]%R [2; 2; 2]%nat eq_refl)] []);
   ("m", Dist (NP MultivariateNormal) DefaultMinimizer
     [("mean_times_precision", vec [1; 0; -1; 1]%R [2; 2]%nat eq_refl); ("negative_half_precision", vec [-1; 0; 0; -1; -3; -1; -1; -1]%R [2; 2; 2]%nat eq_refl)] []);
   ("n", ex_normal2)].
(** a tangent vector; for [h = 0] its matrices are symmetric (Hermitian) *)
Definition ex_mat_v (h : R) : dist := Dist JointDistributionN DefaultMinimizer []
  [("c", Dist (NP ComplexCircularlySymmetricNormal) DefaultMinimizer
     [("negative_precision", cvec [(-1, 0); (0, 0); (0, 0); (-1, 0); (1, h); (3, 4 + h); (3, -4); (-2, 0)]%R [2; 2; 2]%nat eq_refl)] []);
   ("m", Dist (NP MultivariateNormal) DefaultMinimizer
     [("mean_times_precision", vec [1; 0; -1; 1]%R [2; 2]%nat eq_refl); ("negative_half_precision", vec [-1; 0; 0; -1; 5; 2 + h; 2; 7]%R [2; 2; 2]%nat eq_refl)] []);
   ("n", ex_normal2)].
Lemma ex_mat2_dom : tree_in_domain ex_mat2 [1]%nat.
Proof.
  intros p l H. cbn in H. destruct H as [H|[H|[H|[]]]]; injection H as <- <-.
  - exists 2%nat. split; [reflexivity|]. split; [finc_|]. apply hpd2; cbn; lra.
  - exists 2%nat. split; [reflexivity|]. split; [finc_|]. apply spd2; cbn; lra.
  - leaf_ 1%nat. lra.
Qed.
Ltac skel_ := let p := fresh in let a := fresh in intros p; destruct p as [|a p]; [split; reflexivity|]; cbn; destruct (keq a "c"); [|destruct (keq a "m"); [|destruct (keq a "n")]]; [| | |split; reflexivity]; destruct p; split; reflexivity.
Lemma ex_mat2_skel : same_skeleton ex_mat ex_mat2. Proof. skel_. Qed.
Lemma ex_mat_v_skel h : same_skeleton ex_mat (ex_mat_v h). Proof. skel_. Qed.
Lemma ex_mat2_tm : tree_match [2]%nat ex_mat ex_mat2.
Proof. unfold tree_match. cbn [leaves ex_mat ex_mat2 is_joint flat_map app fst snd ex_normal ex_normal2 ex_mvn ex_ccs]. repeat constructor; try (cbn; eexists; split; reflexivity); reflexivity. Qed.
Lemma ex_mat_v_tm h : tree_match [2]%nat ex_mat (ex_mat_v h).
Proof. unfold tree_match. cbn [leaves ex_mat ex_mat_v is_joint flat_map app fst snd ex_normal ex_normal2 ex_mvn ex_ccs]. repeat constructor; try (cbn; eexists; split; reflexivity); reflexivity. Qed.
Lemma ex_mat2_fixed : same_fixed_at [2]%nat [1]%nat ex_mat ex_mat2.
Proof.
  unfold same_fixed_at. cbn [leaves ex_mat ex_mat2 is_joint flat_map app fst snd ex_normal ex_normal2 ex_mvn ex_ccs]. repeat constructor; cbn [snd]; intros f v w j I F E1 E2 Hj; cbn in I; repeat (destruct I as [<-|I]; [try discriminate F|]); try destruct I.
Qed.
Ltac finc_tree_tac := apply fin_tree; let p := fresh in let q := fresh in let H := fresh in intros p q H;
  repeat (match type of H with context [keq ?a ?b] => destruct (keq a b); cbn in H | dist_at _ ?p = Some _ => destruct p; cbn in H end); try discriminate; injection H as <-; 
  let n := fresh in let v := fresh in let Hv := fresh in intros n v Hv; cbn in Hv;
  repeat (match type of Hv with context [keq ?a ?b] => destruct (keq a b); cbn in Hv end); try discriminate; injection Hv as <-; intros; first [now apply fin_vec_entry|now apply fin_cvec_entry].
Lemma ex_mat_fin : finite_vars ex_mat. Proof. finc_tree_tac. Qed.
Lemma ex_mat_v_fin h : finite_vars (ex_mat_v h). Proof. finc_tree_tac. Qed.
Lemma ex_mat_v_finite h : tree_finite (ex_mat_v h) [1]%nat.
Proof. intros p l H. cbn in H. destruct H as [H|[H|[H|[]]]]; injection H as <- <-; [exists 2%nat|exists 2%nat|exists 1%nat]; (split; [reflexivity|finc_]). Qed.
Lemma ex_mat_inside : inside_clip ex_mat [1]%nat.
Proof. intros p l H C. cbn in H. repeat (destruct H as [H|H]; [injection H as <- <-; discriminate C|]). destruct H. Qed.
Lemma ex_mat_dir : direction [2]%nat [1]%nat ex_mat (ex_mat_v 0).
Proof.
  split; [reflexivity|]. split; [apply ex_mat_v_skel|]. split; [apply ex_mat_v_tm|]. split; [apply ex_mat_v_fin|]. split; [apply ex_mat_v_finite|].
  intros p l H. cbn in H. destruct H as [H|[H|[H|[]]]]; injection H as <- <-; intros n D a c Ha Hc; (injection D as <- || idtac); split; intros X; try discriminate X.
  - destruct a as [|[|a]], c as [|[|c]]; cbn in Ha, Hc; try lia; cbn; split; lra.
  - destruct a as [|[|a]], c as [|[|c]]; cbn in Ha, Hc; try lia; cbn; lra.
Qed.
