(** Concrete distributions for C19. *)
From Coquelicot Require Import Coquelicot.
From Coq Require Import String List Bool Arith Reals Lia Lra.
From Verif Require Import Base XReal Tensor TensorFacts Support Dist Iteration Structure Spec Joint SpecFun Expr Fam SumSpec DotSpec KlThms Examples JointEx PointSpec ConvEx KlSpec
  StructFacts AssembleFacts StructThms FlattenThms MapFacts SumFacts JointThms JointThms2 DotFacts DotLaws PointFacts Val FamR FamVal ConvFacts LeafVal ConvThms DerivFacts DerivThms BregFacts BregThms KlPos.
Import ListNotations.
Local Unset Asymmetric Patterns.
Local Open Scope string_scope.
Local Open Scope R_scope.

(** ex_joint' with the fixed variance of ex_joint *)
Definition ex_joint2 : dist :=
  Dist JointDistributionN DefaultMinimizer []
    [("x", Dist JointDistributionN DefaultMinimizer []
       [("n", Dist (NP Normal) DefaultMinimizer
          [("mean_times_precision", vec [-1; 0]%R [2]%nat eq_refl); ("negative_half_precision", vec [-3; -1/2]%R [2]%nat eq_refl)] []);
        ("g", Dist (NP Gamma) DefaultMinimizer
          [("negative_rate", vec [-2; -1]%R [2]%nat eq_refl); ("shape_minus_one", vec [1; 3]%R [2]%nat eq_refl)] [])]);
     ("m", Dist (NP MultivariateFixedVarianceNormal) DefaultMinimizer
       [("mean_times_precision", vec [0; 1; -2; 1; 0; 1]%R [2; 3]%nat eq_refl);
        ("variance", match dget (dparams ex_fixed) "variance" with Some v => v | None => vec [1; 1]%R [2]%nat eq_refl end)] [])].
Lemma ex_joint2_tm : tree_match [2]%nat ex_joint ex_joint2.
Proof. unfold tree_match. cbn [leaves ex_joint ex_joint2 is_joint flat_map app fst snd ex_normal ex_gamma ex_fixed]. repeat constructor; try (cbn; eexists; split; reflexivity); reflexivity. Qed.
Lemma ex_joint2_skel : same_skeleton ex_joint ex_joint2.
Proof.
  intros p. destruct p as [|a p]; [split; reflexivity|]. cbn. destruct (keq a "x"); [|destruct (keq a "m")]; [| |split; reflexivity].
  - destruct p as [|a' p]; [split; reflexivity|]. cbn. destruct (keq a' "n"); [|destruct (keq a' "g")]; [| |split; reflexivity]; destruct p; split; reflexivity.
  - destruct p; split; reflexivity.
Qed.
Lemma ex_joint2_dom : tree_in_domain ex_joint2 [1]%nat.
Proof.
  intros p l H. cbn in H. destruct H as [H|[H|[H|[]]]]; injection H as <- <-.
  - leaf_ 1%nat. lra.
  - leaf_ 1%nat. lra.
  - leaf_ 3%nat. lra.
Qed.
Lemma ex_joint2_fixed : same_fixed_at [2]%nat [1]%nat ex_joint ex_joint2.
Proof.
  unfold same_fixed_at. cbn [leaves ex_joint ex_joint2 is_joint flat_map app fst snd ex_normal ex_gamma ex_fixed]. repeat constructor; cbn [snd]; intros f v w j I F E1 E2 Hj; cbn in I; repeat (destruct I as [<-|I]; [try discriminate F|]); try destruct I.
  cbn in E1, E2. congruence.
Qed.
(** two Weibull distributions with different fixed concentrations *)
Definition ex_w1 : dist := Dist (NP Weibull) DefaultMinimizer [("concentration", vec [1]%R [] eq_refl); ("eta", vec [-1]%R [] eq_refl)] [].
Definition ex_w2 : dist := Dist (NP Weibull) DefaultMinimizer [("concentration", vec [2]%R [] eq_refl); ("eta", vec [-1]%R [] eq_refl)] [].
Lemma ex_w_tm : tree_match [] ex_w1 ex_w2.
Proof. unfold tree_match. cbn [leaves ex_w1 ex_w2 is_joint]. repeat constructor; try (cbn; eexists; split; reflexivity); reflexivity. Qed.
Lemma ex_w_skel : same_skeleton ex_w1 ex_w2.
Proof. intros [|n p]; split; reflexivity. Qed.
Lemma ex_w1_dom : tree_in_domain ex_w1 []. Proof. intros p l H. cbn in H. destruct H as [H|[]]; injection H as <- <-. leaf_ 1%nat. lra. Qed.
Lemma ex_w2_dom : tree_in_domain ex_w2 []. Proof. intros p l H. cbn in H. destruct H as [H|[]]; injection H as <- <-. leaf_ 1%nat. lra. Qed.
Lemma ex_w_neg solve : exists t k, kl_divergence_nat (fam_methods solve) ex_w1 ex_w2 = Ok t /\ tget t [] = Fin k /\ k < 0.
Proof.
  destruct (t_kl_value solve [] [] ex_w1 ex_w2) as (_ & t & T1 & _ & T3); try reflexivity; [exact ex_w_skel|exact ex_w_tm|exact ex_w1_dom|exact ex_w2_dom| |].
  - intros p l H E. cbn in H. destruct H as [H|[]]; injection H as <- <-. discriminate E.
  - exists t, (- ln 2). split; [exact T1|]. split; [|pose proof (ln_increasing 1 2 ltac:(lra) ltac:(lra)) as X; rewrite ln_1 in X; lra].
    rewrite T3. f_equal. cbn [leaves ex_w1 is_joint map rsum]. unfold kl_leaf_R. change (fam_n (snd ([], Dist (NP Weibull) DefaultMinimizer [("concentration", vec [1]%R [] eq_refl); ("eta", vec [-1]%R [] eq_refl)] []))) with (Some (Weibull, 1%nat)). cbv iota. 
    unfold brR. dots. mk. cbv beta iota zeta delta [lnR psub]. cbn. rewrite ln_1. replace (- -1) with 1 by ring. rewrite ln_1. field.
Qed.
