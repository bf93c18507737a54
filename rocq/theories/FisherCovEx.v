(** C51: the Fisher information matrix of a circularly symmetric complex normal distribution is not a covariance matrix. *)
From Coquelicot Require Import Coquelicot.
From Coq Require Import String List Bool Arith Reals Lia Lra.
From Verif Require Import Base XReal Tensor Support Dist Iteration Structure Spec FlattenSpec Joint Fam SpecFun SumSpec DotSpec PointSpec LeafVal Fisher FisherSpec DensSpec SampleSpec IntSpec IntThms JointIntSpec JointInt DomConv DomConv2 Moments
  CovSpec Covar Covar2 JeffreysEx.
Import ListNotations.
Local Unset Asymmetric Patterns.
Local Open Scope R_scope.

Lemma joint_nonneg ls : forall w F v, NoDup (map fst ls) -> (forall xv, spaces_ok ls w xv -> 0 <= F xv) -> joint_integral ls w F v -> 0 <= v.
Proof.
  induction ls as [|[p [f n]] ls IH]; intros w F v Nd E; cbn [joint_integral].
  - intros ->. apply E. split; [intros; reflexivity|intros ? ? ? []].
  - cbn [map fst] in Nd. inversion Nd; subst. intros (H & A & B). apply (integral_nonneg f n H v B). intros x X. apply (IH (assign w p x) F); [assumption| |now apply A]. intros xv K. apply E. now apply (spaces_cons p f n ls w x).
Qed.
Lemma t_fisher_cov_refuted solve : exists q F, well_formed q = true /\ nat_tree q = true /\ shaped [] q = true /\ tree_in_domain q [] /\ flat_size q = 6%nat /\ fisher_matrix_of (fam_methods solve) q F /\
  ~ exists P X Y m m' D D' E, joint_pdf_is (fam_methods solve) [] [] q P /\
      integral_joint q (fun x => P x * ((X x - m) * (X x - m))) D /\ tget F [3; 3]%nat = Fin D /\
      integral_joint q (fun x => P x * ((X x - m) * (Y x - m'))) E /\ tget F [3; 5]%nat = Fin E /\
      integral_joint q (fun x => P x * ((Y x - m') * (Y x - m'))) D' /\ tget F [5; 5]%nat = Fin D'.
Proof.
  exists cs2, cs2_F. do 3 (split; [reflexivity|]). split; [exact cs2_dom|]. split; [reflexivity|]. split; [apply cs2_matrix|].
  intros (P & X & Y & m & m' & D & D' & E & HP & A1 & A2 & A3 & A4 & A5 & A6). cbn in A2, A4, A6. injection A2 as <-. injection A4 as <-. injection A6 as <-.
  assert (JP : joint_proper [] [] cs2) by (split; [reflexivity|]; split; [reflexivity|]; split; [reflexivity|]; split; [reflexivity|exact cs2_dom]).
  pose proof (joint_plus _ _ _ _ _ _ (joint_plus _ _ _ _ _ _ A1 (joint_scal _ (-2) _ _ _ A3)) A5) as Z.
  assert (0 <= 0 + -2 * 1 + 0); [|lra]. eapply joint_nonneg; [exact (spaces_nodup [] [] cs2 JP)| |exact Z]. intros xv O. cbv beta. apply spaces_good in O.
  replace (P xv * ((X xv - m) * (X xv - m)) + -2 * (P xv * ((X xv - m) * (Y xv - m'))) + P xv * ((Y xv - m') * (Y xv - m'))) with (P xv * ((X xv - m) - (Y xv - m')) ^ 2) by ring.
  apply Rmult_le_pos; [|apply pow2_ge_0]. rewrite (joint_p_val solve [] [] cs2 JP P HP xv O). apply P0_pos.
Qed.
