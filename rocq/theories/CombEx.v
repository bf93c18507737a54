(** Examples for C65. *)
From Coquelicot Require Import Coquelicot.
From Coq Require Import String List Bool Arith Reals Lia Lra.
From Verif Require Import Base XReal Tensor Support Dist Iteration Structure Spec SumSpec DotSpec Tools Joint Fam PointSpec SpecFun KlSpec Examples ConvEx DensSpec DensEx IntSpec Combine CombSpec CombThms.
Import ListNotations.
Local Unset Asymmetric Patterns.
Local Open Scope string_scope.
Local Open Scope R_scope.

Definition cx_n1 : dist := Dist (NP Normal) DefaultMinimizer [("mean_times_precision", vec [1; 3]%R [2]%nat eq_refl); ("negative_half_precision", vec [-1; -2]%R [2]%nat eq_refl)] [].
Definition cx_n2 : dist := Dist (NP Normal) DefaultMinimizer [("mean_times_precision", vec [-2; 5]%R [2]%nat eq_refl); ("negative_half_precision", vec [-7; -1/2]%R [2]%nat eq_refl)] [].
Lemma cx_n1_proper : proper [2]%nat [1]%nat Normal cx_n1. Proof. proper_ 1%nat. lra. Qed.
Lemma cx_n2_proper : proper [2]%nat [1]%nat Normal cx_n2. Proof. proper_ 1%nat. lra. Qed.
Lemma cx_n_fixed : same_fixed_leaf_at [2]%nat [1]%nat cx_n1 cx_n2.
Proof. intros f v w j I E. cbn in I. destruct I as [<-|[<-|[]]]; discriminate E. Qed.
Definition cx_w1 : dist := Dist (NP Weibull) DefaultMinimizer [("concentration", vec [3]%R [] eq_refl); ("eta", vec [-1]%R [] eq_refl)] [].
Definition cx_w2 : dist := Dist (NP Weibull) DefaultMinimizer [("concentration", vec [3]%R [] eq_refl); ("eta", vec [-1/3]%R [] eq_refl)] [].
Lemma cx_w1_proper : proper [] [] Weibull cx_w1. Proof. proper_ 1%nat. lra. Qed.
Lemma cx_w2_proper : proper [] [] Weibull cx_w2. Proof. proper_ 1%nat. lra. Qed.
Lemma cx_w_fixed : same_fixed_leaf_at [] [] cx_w1 cx_w2.
Proof.
  intros f v w j I E. cbn in I. destruct I as [<-|[<-|[]]]; try discriminate E; cbn; intros E1 E2 Hj; injection E1 as <-; injection E2 as <-; reflexivity.
Qed.
Definition cx_c : dist := Dist (NP ChiSquare) DefaultMinimizer [("k_over_two_minus_one", vec [-3/4]%R [] eq_refl)] [].
Lemma cx_c_proper : proper [] [] ChiSquare cx_c. Proof. proper_ 1%nat. lra. Qed.
Lemma cx_not_closed : exists s, combine_evidence cx_c cx_c = Ok s /\ ~ in_domain s [].
Proof.
  eexists. split; [reflexivity|]. intros (n & D & _ & H). cbn in H. lra.
Qed.
Lemma cx_sum : exists s m h, combine_evidence cx_n1 cx_n2 = Ok s /\ dget (dparams s) "mean_times_precision" = Some m /\ dget (dparams s) "negative_half_precision" = Some h /\
  entry_c m [1]%nat = cofr (Fin 8) /\ entry_c h [1]%nat = cofr (Fin (-5/2)).
Proof.
  do 3 eexists. split; [reflexivity|]. split; [reflexivity|]. split; [reflexivity|]. cbn. unfold cofr. split; f_equal; f_equal; lra.
Qed.
