(** Concrete variance parametrizations for C36. *)
From Coq Require Import String List Bool Arith Reals Lra Lia.
From Verif Require Import Base XReal Tensor TensorFacts Support Dist Iteration Structure Spec StructThms StructFacts Joint SpecFun Expr Fam SumSpec DotSpec KlThms Examples JointEx PointSpec ConvEx VarSpec Refute1.
Import ListNotations.
Local Open Scope string_scope.
Local Open Scope R_scope.

Definition ex_nvp : dist := Dist NormalVP DefaultMinimizer [("mean", vec [1; 2]%R [2]%nat eq_refl); ("variance", vec [3; 4]%R [2]%nat eq_refl)] [].
Definition ex_gvp : dist := Dist GammaVP DefaultMinimizer [("mean", vec [1; 2]%R [2]%nat eq_refl); ("variance", vec [3; 4]%R [2]%nat eq_refl)] [].
Definition ex_dvp : dist := Dist MultivariateDiagonalNormalVP DefaultMinimizer [("mean", vec [1; 2]%R [1; 2]%nat eq_refl); ("variance", vec [3; 4]%R [1; 2]%nat eq_refl)] [].
Definition ex_mvp : dist := Dist MultivariateNormalVP DefaultMinimizer [("mean", vec [1; 2]%R [2]%nat eq_refl); ("variance", vec [2; 1; 1; 2]%R [2; 2]%nat eq_refl)] [].
Definition ex_mep : dist := Dist (EP MultivariateNormal) DefaultMinimizer [("mean", vec [1; 2]%R [2]%nat eq_refl); ("second_moment", vec [3; 3; 3; 6]%R [2; 2]%nat eq_refl)] [].
Lemma two_by_two m : m 0%nat 0%nat = 2 -> m 1%nat 1%nat = 2 -> m 0%nat 1%nat = 1 -> m 1%nat 0%nat = 1 -> spd 2 m.
Proof.
  intros A B C D. split.
  - intros [|[|a]] [|[|b]] Ha Hb; try lia; lra.
  - intros z (a & Ha & Hz). unfold sumR. cbn [seq map fold_right]. rewrite A, B, C, D.
    assert (P : 0 < z 0%nat * z 0%nat \/ 0 < z 1%nat * z 1%nat). { destruct a as [|[|a]]; [left|right|lia]; pose proof (Rsqr_pos_lt _ Hz) as Q; exact Q. }
    pose proof (Rle_0_sqr (z 0%nat + z 1%nat)) as Q. unfold Rsqr in Q. pose proof (Rle_0_sqr (z 0%nat)) as Q1. pose proof (Rle_0_sqr (z 1%nat)) as Q2. unfold Rsqr in *. destruct P; lra.
Qed.
Lemma ex_nvp_dom : vp_domain ex_nvp [1]%nat.
Proof. leaf_ 1%nat. lra. Qed.
Lemma ex_gvp_dom : vp_domain ex_gvp [1]%nat.
Proof. leaf_ 1%nat. lra. Qed.
Lemma ex_dvp_dom : vp_domain ex_dvp [0]%nat.
Proof. leaf_ 2%nat. ks. Qed.
Lemma ex_mvp_dom : vp_domain ex_mvp [].
Proof. leaf_ 2%nat. apply two_by_two; cbn; lra. Qed.
Lemma ex_mep_dom : in_domain ex_mep [].
Proof. leaf_ 2%nat. apply two_by_two; cbn; lra. Qed.
Lemma vp_shape b d : well_formed d = true -> leaf_shaped b d = true -> In (dcls d) [NormalVP; MultivariateDiagonalNormalVP; MultivariateNormalVP] -> dshape d = Ok b.
Proof.
  destruct d as [c m ps subs]. intros W S I. cbn [dcls] in I. destruct (wf_inv _ _ _ _ W) as (_ & _ & H & _). assert (J : is_joint c = false) by (destruct I as [<-|[<-|[<-|[]]]]; reflexivity).
  rewrite (H J) in *. apply leaf_dshape; auto. destruct I as [<-|[<-|[<-|[]]]]; discriminate.
Qed.
