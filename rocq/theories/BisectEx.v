(** The example of C74 for a distribution on the sphere. *)
From Coquelicot Require Import Coquelicot.
From Coq Require Import String List Bool Arith Reals Lia Lra.
From Verif Require Import Base XReal Tensor TensorFacts TensorFacts2 Support SupportSpec Dist Iteration Structure Spec FlattenSpec StructFacts AssembleFacts StructThms FlattenThms SumFacts JointThms JointThms2 BatchFacts SumSpec DotSpec Joint SpecFun GammaFn Expr Fam ExprFacts FamTy FamFacts
  Examples JointEx PointSpec PointFacts Val FamR FamVal ConvFacts LeafVal ConvThms DerivFacts DerivThms ConvEx DensSpec RootSpec RootVal RootThms SearchFacts Var VarSpec VarThms RootEx ResidSpec MeanSpec MeanThms MeanEx.
Import ListNotations.
Local Unset Asymmetric Patterns.
Local Open Scope string_scope.
Local Open Scope R_scope.
Lemma ex_v_vals : dist_vals true [] ex_v.
Proof.
  intros p q Hi. cbn in Hi. destruct Hi as [H|[]]; injection H as <- <-.
  exists 3%nat. split; [reflexivity|]. intros f [<-|[]]. eexists _, _. split; [reflexivity|]. split; [reflexivity|]. split; [reflexivity|]. cbn. intros _. split; [lra|].
  intros j Hj. assert (j = []) by (destruct j; [reflexivity|discriminate]). subst j. exists [1/2; 1/3; 1/4]. split.
  - split; [reflexivity|]. intros k Hk. destruct k as [|[|[|k]]]; try lia; reflexivity.
  - unfold SupportSpec.norm2. cbn. split; [apply sqrt_lt_R0; lra|]. match goal with |- ?a < 1 => enough (a < sqrt 1) by (rewrite sqrt_1 in *; assumption) end. apply sqrt_lt_1_alt. lra.
Qed.
