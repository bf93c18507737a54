(** C72: the divergence is convex in the expectation parameters of its first argument. *)
From Coquelicot Require Import Coquelicot.
From Coq Require Import String List Bool Arith Reals Lia Lra.
From Verif Require Import Base XReal Tensor TensorFacts Support Dist DictFacts Iteration Structure Spec StructFacts AssembleFacts ParamFacts ReplaceFacts SumSpec DotSpec Tools ToolThms MappingFacts Joint DotFacts StructThms Laws SumFacts MapFacts
  JointThms JointThms2 DotLaws KlThms SpecFun Expr Fam ExprFacts FamTy FamFacts BatchFacts ConvThms PointSpec PointFacts Val FamR FamVal ConvFacts DerivFacts MatDeriv BregFacts BregThms MatBreg LeafVal DerivThms KlPos IntGen IntFam IntThms JointKl InjThms MleThms
  FisherSpec FisherThms JointIntSpec CovSpec KlSpec GradSpec KlTri CentSpec CentThms.
Import ListNotations.
Local Unset Asymmetric Patterns.
Local Open Scope R_scope.

Section T.
  Variable solve : minimizer -> dist -> nat -> xr.
  Notation L := (fam_methods solve).
  Variables (b i : list nat).
  Lemma wsum_ge0 wps m ls : (forall w p, In (w, p) wps -> 0 <= w /\ joint_proper b i p /\ not_clipped p i /\ same_skeleton p m /\ tree_match b p m /\ same_fixed_at b i p m) -> joint_proper b i m ->
    Forall2 (fun wp k => value_is b i (kl_divergence_nat L (snd wp) m) k) wps ls ->
    0 <= wsum wps ls /\ (wsum wps ls = 0 <-> forall w p, In (w, p) wps -> 0 < w -> same_at b i p m).
  Proof.
    intros H Pm F. induction F as [|[w p] k wps ls K F IH]. { split; [right; reflexivity|]. split; [intros _ w p []|reflexivity]. }
    destruct IH as [I1 I2]. { intros w' p' I. apply H. right. exact I. }
    destruct (H w p (or_introl eq_refl)) as (W & Pp & Up & Sk & T & Fx). destruct Pp as (Wq & Nq & Sq & Hi & Hq). destruct Pm as (Wr & Nr & Sr & _ & Hr).
    destruct (t_kl solve b i p m Wq Wr Nq Sk T Hi Hq Hr Up Fx) as (t & k' & T1 & T2 & T3 & T4 & T5).
    assert (k' = k) by (apply (value_fun b i (kl_divergence_nat L p m)); [exists t; auto|exact K]). subst k'. rewrite wsum_cons. cbn [fst].
    pose proof (Rmult_le_pos _ _ W T4) as M. split; [lra|]. split.
    - intros E w' p' [J|J] W'. { injection J as <- <-. apply T5. assert (E0 : w * k = 0) by lra. apply Rmult_integral in E0. destruct E0; lra. } apply (proj1 I2 ltac:(lra) w' p' J W').
    - intros A. assert (E0 : wsum wps ls = 0) by (apply I2; intros w' p' J; apply A; right; exact J). destruct W as [W| <-]; [|lra]. rewrite (proj2 T5); [lra|]. apply (A w p); [left; reflexivity|exact W].
  Qed.
  Theorem t_convex_first wps m x :
    (forall w p, In (w, p) wps -> 0 <= w /\ joint_proper b i p /\ not_clipped p i /\ same_skeleton p m /\ tree_match b p m /\ same_fixed_at b i p m) ->
    joint_proper b i m -> not_clipped m i -> joint_proper b i x -> same_skeleton m x -> tree_match b m x -> finite_vars m -> finite_vars x -> averages L b i wps m ->
    exists ks k, Forall2 (fun wp k => value_is b i (kl_divergence_nat L (snd wp) x) k) wps ks /\ value_is b i (kl_divergence_nat L m x) k /\
      k <= wsum wps ks /\ (k = wsum wps ks <-> forall w p, In (w, p) wps -> 0 < w -> same_at b i p m).
  Proof.
    intros Hp Pm Um Px Sk T Fm Fx Av.
    destruct (t_compensation solve b i wps m x) as (ks & ls & k & F1 & F2 & K & E); auto.
    { intros w p J. destruct (Hp w p J) as (_ & A & B & C & D & _). split; [exact A|]. split; [exact B|]. split; [|exact (tm_sym _ _ _ D)]. intros q. destruct (C q) as [C1 C2]. split; symmetry; assumption. }
    destruct (wsum_ge0 wps m ls Hp Pm F2) as [G1 G2]. exists ks, k. split; [exact F1|]. split; [exact K|]. split; [lra|]. rewrite <- G2. split; intros; lra.
  Qed.
End T.
