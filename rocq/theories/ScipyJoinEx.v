(** Concrete cases for C69. *)
From Coquelicot Require Import Coquelicot.
From Coq Require Import String List Bool Arith ZArith Reals Lra Lia.
From Verif Require Import Base XReal Tensor TensorFacts TensorFacts2 BroadcastFacts DictFacts Support Dist Iteration Structure Tools Joint Spec SumSpec DotSpec PointSpec DensSpec SpecFun Val Fam Examples DensEx MatEx TextSpec TextEx
  Scipy ScipyShaped ScipyFacts ScipyThms ScipyAgree ScipyEx ScipyJoinSpec ScipyJoin.
Import ListNotations.
Local Unset Asymmetric Patterns.
Local Open Scope string_scope.
Local Open Scope R_scope.
Local Notation C := Complex.C (only parsing).
Local Existing Instance Scipy.Dflt_C.
Local Existing Instance Scipy.Dflt_R.

(** a complex normal and a complex unit normal distribution; the mapping of observations lists its keys in the other order *)
Definition jx : dist := Dist JointDistributionN DefaultMinimizer [] [("c", dx_cn); ("u", ex_cu)].
Definition jx_obs (z w : C) : nested arr := Node [("u", Leaf (cvec [w] [] eq_refl)); ("c", Leaf (cvec [z] [] eq_refl))].
Definition jx_dict (z w : C) : dict string (tensor C) := [("u", tscalar w); ("c", tscalar z)].
Lemma jx_matches z w : obs_matches jx (jx_obs z w) /\ obs_shaped [] jx (jx_obs z w).
Proof.
  split.
  - cbn. split; [repeat constructor; cbn; intuition discriminate|]. split; [intros n; tauto|]. auto.
  - intros p l a Hi Ha. cbn in Hi. destruct Hi as [H|[H|[]]]; injection H as <- <-; cbn in Ha; injection Ha as <-; unfold obs_leaf.
    all: eexists _, _; (split; [reflexivity|]); (split; [reflexivity|]); split; reflexivity.
Qed.
Section S.
  Context {G : Type} (gen : @gen_mvn_t G) (solve : minimizer -> dist -> nat -> xr).
  Lemma obs_scalar q z : In q [dx_cn; ex_cu] -> observed [] [] q (cvec [z] [] eq_refl) (ScipyAgree.obs_at (tscalar z) []).
  Proof.
    intros [<-|[<-|[]]]; (split; [eexists _, _; (split; [reflexivity|]); (split; [reflexivity|]); split; reflexivity|]).
    all: intros n s j D E Hj; cbn in D, E; injection D as <-; injection E as <-; destruct j; [reflexivity|discriminate Hj].
  Qed.
  Lemma jx_agrees z w : exists cc cu r p, sj_pdf (joined [("u", cn_dist gen cu); ("c", cn_dist gen cc)]) (jx_dict z w) = Ok r /\ pdf (fam_methods solve) jx (jx_obs z w) = Ok p /\ tget p [] = Fin (tget r []).
  Proof.
    destruct (dx_cn_agrees gen solve z) as (m1 & v1 & u1 & c1 & r1 & _ & A1 & A2 & A3). destruct (ex_cu_agrees gen solve w) as (m2 & v2 & u2 & c2 & r2 & _ & B1 & B2 & B3).
    exists c1, c2. destruct (joint_pdf_agrees solve [] jx (jx_obs z w) [("u", cn_dist gen c2); ("c", cn_dist gen c1)] (jx_dict z w)) as (r & p & H1 & H2 & _ & _ & H3).
    - reflexivity.
    - intros n s [E|[E|[]]]; injection E as <- <-; reflexivity.
    - reflexivity.
    - reflexivity.
    - reflexivity.
    - apply jx_matches.
    - apply jx_matches.
    - repeat constructor; cbn; intuition discriminate.
    - repeat constructor; cbn; intuition discriminate.
    - intros n. cbn. tauto.
    - intros n. cbn. tauto.
    - intros n s d a y I1 I2 Ea I3. cbn in I1. destruct I1 as [E|[E|[]]]; injection E as <- <-; cbn in Ea; injection Ea as <-; cbn in I2, I3; (destruct I2 as [E|[E|[]]]; try discriminate E; injection E as <-); (destruct I3 as [E|[E|[]]]; try discriminate E; injection E as <-).
      + exists r1. split; [exact A1|]. split; [exact A2|]. intros i Hi. destruct i; [|discriminate Hi]. apply A3; [reflexivity|]. apply obs_scalar. now left.
      + exists r2. split; [exact B1|]. split; [exact B2|]. intros i Hi. destruct i; [|discriminate Hi]. apply B3; [reflexivity|]. apply obs_scalar. right. now left.
    - exists r, p. split; [exact H1|]. split; [exact H2|]. now apply H3.
  Qed.
End S.
(** only a variance is given; it is the variance, and the others are 0 *)
Lemma ex_var_only : let v := NArr true (@mkT C [2]%nat [RtoC 3; RtoC 5] eq_refl) in declared [2]%nat (@None narr) /\ declared [2]%nat (Some v) /\ exists c, cn_array None (Some v) None = Ok c /\
  tget (cn_variances c) [1]%nat = 5 /\ tget (cn_means c) [1]%nat = RtoC 0 /\ tget (cn_pseudos c) [1]%nat = RtoC 0.
Proof.
  intros v. assert (D0 : declared [2]%nat None) by (intros a; discriminate).
  assert (D : declared [2]%nat (Some v)). { intros a E. injection E as <-. split; [reflexivity|]. intros _ i Hi. destruct i as [|[|[|k]] [|]]; try reflexivity; discriminate Hi. }
  split; [exact D0|]. split; [exact D|]. destruct (cn_getters [2]%nat None (Some v) None) as (c & C1 & _ & _ & _ & C2); auto.
  - right. left. discriminate.
  - intros a E. now injection E as <-.
  - intros i Hi. cbn [or_else]. rewrite Cmod_0. destruct i as [|[|[|k]] [|]]; try discriminate Hi; cbn; lra.
  - exists c. split; [exact C1|]. destruct (C2 [1]%nat eq_refl) as (E1 & E2 & E3). split; [|split; [exact E1|exact E3]]. apply RtoC_inj. exact E2.
Qed.
