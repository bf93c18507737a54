(** The example of C75 for batches. *)
From Coquelicot Require Import Coquelicot.
From Coq Require Import String List Bool Arith Reals Lia Lra.
From Verif Require Import Base XReal Tensor TensorFacts TensorFacts2 Support SupportSpec Dist Iteration Structure Spec FlattenSpec StructFacts AssembleFacts StructThms FlattenThms SumFacts JointThms JointThms2 BatchFacts BatchThms SumSpec DotSpec Joint SpecFun GammaFn Expr Fam ExprFacts FamTy FamFacts
  Examples Tools JointEx PointSpec PointFacts Val FamR FamVal ConvFacts LeafVal ConvThms DerivFacts DerivThms ConvEx DensSpec RootSpec RootVal RootThms SearchFacts Var VarSpec VarThms RootEx ResidSpec MeanSpec MeanThms MeanEx.
Import ListNotations.
Local Unset Asymmetric Patterns.
Local Open Scope string_scope.
Local Open Scope R_scope.
(** the two elements of the batch of ex_g2 *)
Definition ex_g2i (k : nat) : dist := stree [k] ex_g2.
Lemma ex_g2i_proper k : (k < 2)%nat -> proper_e [] [] Gamma (ex_g2i k).
Proof.
  pose proof ml_lt. pose proof (ln_increasing 1 5 ltac:(lra) ltac:(lra)) as L5. rewrite ln_1 in L5. intros Hk. assert (C : k = 0%nat \/ k = 1%nat) by lia. destruct C as [-> | ->]; (split; [reflexivity|]; split; [reflexivity|]; split; [reflexivity|]; split; [reflexivity|]; exists 1%nat; split; [reflexivity|]; split;
    [intros g a j Hg Ha Hj; cbn in Hg; destruct Hg as [<-|[<-|[]]]; cbn in Ha; injection Ha as <-; (destruct j; [eexists _, _; reflexivity|discriminate])|cbn; rewrite ?ln_1; lra]).
Qed.
Lemma ex_g2i_vals k : (k < 2)%nat -> dist_vals true [] (ex_g2i k).
Proof.
  intros Hk. assert (C : k = 0%nat \/ k = 1%nat) by lia. destruct C as [-> | ->]; (intros p q Hi; cbn in Hi; destruct Hi as [H|[]]; injection H as <- <-;
  exists 1%nat; split; [reflexivity|]; intros f [<-|[<-|[]]]; eexists _, _; (split; [reflexivity|]); (split; [reflexivity|]); split; try reflexivity;
      intros _; idx; unfold inside; pose proof feps_small; split; trivial; unfold adj_min; apply Rmax_lub_lt; cbn; lra).
Qed.
Lemma ex_g2_each : forall i, inb [2]%nat i = true -> exists ei, getitem ex_g2 i = Ok ei /\ proper_e [] [] Gamma ei /\ dist_vals true [] (snd (searched Gamma ei)) /\
    (Gamma = Gamma \/ Gamma = VonMisesFisher \/ ((Gamma = ChiSquare \/ Gamma = Chi) /\ exists sp, search_root [] [] ChiSquare 1 (snd (searched Gamma ei)) sp)).
Proof.
  intros i Hi. destruct (inb1 _ _ Hi) as (k & -> & Hk). exists (ex_g2i k). split; [now apply (getitem_stree [2]%nat)|]. split; [now apply ex_g2i_proper|]. split; [now apply ex_g2i_vals|now left].
Qed.
