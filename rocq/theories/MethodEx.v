(** Concrete distributions for C43-C45. *)
From Coq Require Import String List Bool Arith Reals Lra Lia.
From Verif Require Import Base XReal Tensor TensorFacts Support Dist Iteration Structure Spec StructThms StructFacts Joint SpecFun Expr Fam SumSpec DotSpec KlThms Examples JointEx PointSpec ConvEx DensSpec DensEx MethodSpec.
Import ListNotations.
Local Open Scope string_scope.
Local Open Scope R_scope.

(** two multinomial distributions with three categories, and observations of category 1 and of the last category *)
Definition me_multi : dist := Dist (NP Multinomial) DefaultMinimizer [("log_odds", vec [0; 1; -2; 3]%R [2; 2]%nat eq_refl)] [].
Lemma me_multi_proper : proper [2]%nat [1]%nat Multinomial me_multi. Proof. proper_ 2%nat. exact I. Qed.
Lemma me_multi_1 : observed [2]%nat [1]%nat me_multi (vec [1; 0; 0; 1]%R [2; 2]%nat eq_refl) (category 1).
Proof. observed_. destruct j as [|[|[|j]] [|? ?]]; try discriminate; reflexivity. Qed.
Lemma me_multi_2 : observed [2]%nat [1]%nat me_multi (vec [1; 0; 0; 0]%R [2; 2]%nat eq_refl) (category 2).
Proof. observed_. destruct j as [|[|[|j]] [|? ?]]; try discriminate; reflexivity. Qed.
(** von Mises-Fisher distributions on the circle; the second one is uniform *)
Definition me_vmf : dist := Dist (NP VonMisesFisher) DefaultMinimizer [("mean_times_concentration", vec [1; -2; 0; 0]%R [2; 2]%nat eq_refl)] [].
Lemma me_vmf_plain0 : plain [2]%nat [0]%nat VonMisesFisher me_vmf 2.
Proof. do 5 (split; [reflexivity|]). fin_. Qed.
Lemma me_vmf_plain1 : plain [2]%nat [1]%nat VonMisesFisher me_vmf 2.
Proof. do 5 (split; [reflexivity|]). fin_. Qed.
Definition me_normal : dist := Dist (NP Normal) DefaultMinimizer [("mean_times_precision", vec [1; 2]%R [2]%nat eq_refl); ("negative_half_precision", vec [-1; -3]%R [2]%nat eq_refl)] [].
Lemma me_normal_proper : proper [2]%nat [1]%nat Normal me_normal. Proof. proper_ 1%nat. lra. Qed.
