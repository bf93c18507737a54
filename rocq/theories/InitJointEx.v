(** The example of C75 for joint distributions. *)
From Coquelicot Require Import Coquelicot.
From Coq Require Import String List Bool Arith Reals Lia Lra.
From Verif Require Import Base XReal Tensor Support SupportSpec Dist Iteration Structure Spec FlattenSpec SumSpec DotSpec Fam
  Examples PointSpec LeafVal DensSpec RootSpec VarSpec RootEx ResidSpec ResidEx MeanSpec MeanEx BisectEx LogEx InitSpec.
Import ListNotations.
Local Unset Asymmetric Patterns.
Local Open Scope string_scope.
Local Open Scope R_scope.
Definition ex_ex : dist := Dist (EP Exponential) DefaultMinimizer [("mean", vec [2]%R [] eq_refl)] [].
Definition ex_jt : dist := Dist JointDistributionE DefaultMinimizer [] [("a", Dist JointDistributionE DefaultMinimizer [] [("g", ex_g3); ("v", ex_v)]); ("l", ex_lg); ("x", ex_ex)].
Lemma ex_ex_proper : proper_e [] [] Exponential ex_ex.
Proof. proper_ 1%nat. lra. Qed.
Lemma ex_jt_converts : forall p l, In (p, l) (leaves [] ex_jt) -> exists f, dcls l = EP f /\ converts f l.
Proof.
  intros p l H. destruct H as [H|[H|[H|[H|[]]]]]; injection H as <- <-.
  - exists Gamma. split; [reflexivity|]. split; [exact ex_g3_proper|]. right. split; [exact ex_g3_vals|now left].
  - exists VonMisesFisher. split; [reflexivity|]. split; [exact ex_v_proper|]. right. split; [exact ex_v_vals|right; now left].
  - exists Logarithmic. split; [reflexivity|]. split; [exact ex_lg_proper|]. right. split; [exact ex_lg_vals|]. do 3 right. split; [reflexivity|exact ex_lg_search].
  - exists Exponential. split; [reflexivity|]. split; [exact ex_ex_proper|now left].
Qed.
