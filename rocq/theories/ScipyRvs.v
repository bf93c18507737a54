(** The draws of the scipy replacements for complex normal distributions (C60). *)
From Coquelicot Require Import Coquelicot.
From Coq Require Import String List Bool Arith ZArith Reals Lra Lia.
From Verif Require Import Base XReal Tensor TensorFacts BroadcastFacts Spec Scipy ScipyShaped ScipyFacts ScipyThms ScipyRest.
Import ListNotations.
Local Unset Asymmetric Patterns.
Local Open Scope R_scope.
Local Notation C := Complex.C (only parsing).
Local Existing Instance Scipy.Dflt_C.
Local Existing Instance Scipy.Dflt_R.

Section Rvs.
  Context {G : Type} (gen : @gen_mvn_t G).
  Hypothesis Hg : gen_shaped gen.

  Theorem cn_rvs c a g : exists r (st : nat -> G), sd_rvs (cn_dist gen c) a g = Ok (r, st (prods (ca_shape c))) /\ st 0%nat = g /\ shp r = (ca_shape c ++ size_of a)%list /\
    forall i, inb (ca_shape c) i = true -> let w := gen 2%nat (cn_mv_mean (ca_at c i)) (cn_mv_cov (ca_at c i)) (size_of a) (st (ravel (ca_shape c) i)) in
      st (S (ravel (ca_shape c) i)) = snd w /\
      forall j, inb (size_of a) j = true -> tget r (i ++ j)%list = cast (ca_real c) (tget (fst w) (j ++ [0%nat])%list, tget (fst w) (j ++ [1%nat])%list).
  Proof.
    destruct (rvs_spec (cn_dist gen c) a g) as (r & st & R1 & R2 & R3 & R4).
    - intros i h Hi. cbn [cn_dist sd_objects cn_obj o_rvs sd_rvs_shape]. eexists _, _. split; [reflexivity|]. rewrite shp_tbuild, Hg, removelast_snoc. symmetry. apply app_nil_r.
    - cbn [cn_dist sd_shape sd_rvs_shape] in R1, R3, R4. exists r, st. split; [exact R1|]. split; [exact R2|]. split; [now rewrite R3, app_nil_r|]. intros i Hi w. destruct (R4 i Hi) as (v & V1 & V2). cbn [cn_dist sd_objects cn_obj o_rvs] in V1. fold w in V1. injection V1 as E1 E2. split; [now symmetry|].
      intros j Hj. rewrite V2 by now rewrite app_nil_r. cbn [cn_dist sd_real]. f_equal. rewrite <- E1. rewrite tget_tbuild; [reflexivity|]. unfold w. now rewrite Hg, removelast_snoc.
  Qed.
  Theorem cm_rvs c a g : (forall i, inb (cma_shape c) i = true -> cm_size (cma_at c i) = cma_dims c) -> let n := cma_dims c in
    exists r (st : nat -> G), sd_rvs (cm_dist gen c) a g = Ok (r, st (prods (cma_shape c))) /\ st 0%nat = g /\ shp r = (cma_shape c ++ size_of a ++ [n])%list /\
    forall i, inb (cma_shape c) i = true -> let w := gen (2 * n)%nat (cm_mv_mean (cma_at c i)) (cm_mv_cov (cma_at c i)) (size_of a) (st (ravel (cma_shape c) i)) in
      st (S (ravel (cma_shape c) i)) = snd w /\
      forall j k, inb (size_of a) j = true -> (k < n)%nat -> tget r (i ++ j ++ [k])%list = cast (cma_real c) (tget (fst w) (j ++ [k])%list, tget (fst w) (j ++ [(n + k)%nat])%list).
  Proof.
    intros Sz n. destruct (rvs_spec (cm_dist gen c) a g) as (r & st & R1 & R2 & R3 & R4).
    - intros i h Hi. cbn [cm_dist sd_shape] in Hi. cbn [cm_dist sd_objects cm_obj o_rvs sd_rvs_shape]. eexists _, _. split; [reflexivity|]. rewrite shp_tbuild, Hg, removelast_snoc. now rewrite (Sz i Hi).
    - cbn [cm_dist sd_shape sd_rvs_shape] in R1, R3, R4. exists r, st. split; [exact R1|]. split; [exact R2|]. split; [exact R3|]. intros i Hi w. destruct (R4 i Hi) as (v & V1 & V2). cbn [cm_dist sd_objects cm_obj o_rvs] in V1. rewrite (Sz i Hi) in V1. fold n in V1. change (2 * n)%nat with (n + (n + 0))%nat in w. fold w in V1. injection V1 as E1 E2. split; [now symmetry|].
      intros j k Hj Hk. assert (Hjk : inb (size_of a ++ [n])%list (j ++ [k])%list = true) by now apply inb_snoc_intro. rewrite V2 by exact Hjk. cbn [cm_dist sd_real]. f_equal. rewrite <- E1. rewrite tget_tbuild; [now rewrite last_snoc, removelast_snoc|]. unfold w. now rewrite Hg, removelast_snoc.
  Qed.
  (** from real arrays only: the imaginary parts are lost *)
  Theorem cn_rvs_real m v u c a g t g' i j : cn_array (Some (NArr true m)) (Some (NArr true v)) (Some (NArr true u)) = Ok c -> sd_rvs (cn_dist gen c) a g = Ok (t, g') ->
    inb (ca_shape c) i = true -> inb (size_of a) j = true -> snd (tget t (i ++ j)%list) = 0.
  Proof.
    intros Hc Hr Hi Hj. apply (rvs_real (cn_dist gen c) a g t g' i j); [|exact Hr|exact Hi|cbn [cn_dist sd_rvs_shape]; now rewrite app_nil_r].
    unfold cn_array in Hc. cbn [bind] in Hc. destruct (mapM _ _) as [os|]; [|discriminate]. cbn [bind] in Hc. now injection Hc as <-.
  Qed.
End Rvs.
Lemma degenerate {G} (gen : @gen_mvn_t G) m v u z : Cmod u = v -> cn_init (tscalar m) true (tscalar (RtoC v)) (tscalar u) = Ok (CNormal m v u) /\ o_pdf (cn_obj gen (CNormal m v u)) z = Err ValueError.
Proof. intros H. split; [|now apply cn_pdf_degenerate]. rewrite cn_init_scalar. destruct (Rlt_dec v (Cmod u)); [lra|reflexivity]. Qed.
Lemma sticks_zero l : (forall s, In s l -> 0 < s < 1) -> length (gd_sticks l 0) = length l /\ (forall y, In y (gd_sticks l 0) -> 0 < y) /\ fold_right Rplus 0 (gd_sticks l 0) < 1 /\
  forall k, (k < length l)%nat -> nth k (gd_sticks l 0) 0 = nth k l 0 * (1 - fold_right Rplus 0 (firstn k (gd_sticks l 0))).
Proof. intros H. destruct (sticks_spec l 0 H ltac:(lra)) as (A & B & C & D). split; [exact A|]. split; [exact B|]. split; [lra|]. intros k Hk. rewrite (D k Hk). ring. Qed.
