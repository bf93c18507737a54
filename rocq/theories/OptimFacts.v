(** Real analysis for C55: gradient descent on ln(1 + e^x) - p x. *)
From Coquelicot Require Import Coquelicot.
From Coq Require Import List Reals Lra Lia Arith.
From Verif Require Import Base XReal.
Import ListNotations.
Local Open Scope R_scope.

Definition sp (x : R) : R := ln (exp x + exp 0).
Definition ex' (x : R) : R := expit x * (1 - expit x).
Lemma expit_01 x : 0 < expit x < 1.
Proof. unfold expit. pose proof (exp_pos (- x)). split; [apply Rinv_0_lt_compat; lra|]. apply Rlt_le_trans with (/ 1); [apply Rinv_lt_contravar; lra|lra]. Qed.
Lemma sp_dv x : is_derive sp x (expit x).
Proof.
  unfold sp. pose proof (exp_pos x). pose proof (exp_pos 0). auto_derive; [lra|]. unfold expit. rewrite exp_Ropp, exp_0. field. lra.
Qed.
Lemma expit_dv x : is_derive expit x (ex' x).
Proof. unfold ex', expit. pose proof (exp_pos (- x)). auto_derive; [lra|]. field. lra. Qed.
Lemma ex'_pos x : 0 < ex' x <= / 4.
Proof. unfold ex'. pose proof (expit_01 x). split; [apply Rmult_lt_0_compat; lra|]. pose proof (Rle_0_sqr (expit x - / 2)). unfold Rsqr in *. lra. Qed.
Lemma ex'_low x M : Rabs x <= M -> / (2 + 2 * exp M) <= ex' x.
Proof.
  intros H. assert (E : ex' x = / (2 + exp x + exp (- x))).
  { unfold ex', expit. rewrite exp_Ropp. pose proof (exp_pos x) as Ex. field. repeat split; nra. }
  rewrite E. apply Rinv_le_contravar; [pose proof (exp_pos x); pose proof (exp_pos (- x)); lra|].
  apply Rabs_le_between in H as [H1 H2].
  assert (A : forall y, y <= M -> exp y <= exp M) by (intros y [Q| ->]; [left; now apply exp_increasing|right; reflexivity]).
  pose proof (A x H2). pose proof (A (- x) ltac:(lra)). lra.
Qed.
Lemma expit_mvt x y : exists c, Rmin x y <= c <= Rmax x y /\ expit y - expit x = ex' c * (y - x).
Proof.
  destruct (MVT_gen expit x y ex') as (c & C1 & C2).
  - intros z _. apply expit_dv.
  - intros z _. apply continuity_pt_filterlim. apply (ex_derive_continuous expit z). eexists. apply expit_dv.
  - exists c. auto.
Qed.
(** the loss does not increase *)
Lemma loss_step p eta x : 0 < eta <= 8 -> let d := expit x - p in sp (x - eta * d) - (x - eta * d) * p <= sp x - x * p - eta * (1 - eta / 8) * (d * d).
Proof.
  intros He d. set (y := x - eta * d).
  set (g := fun y => sp x - x * p + d * (y - x) + (y - x) * (y - x) / 8 - (sp y - y * p)).
  assert (Dg : forall z, is_derive g z ((z - x) / 4 - (expit z - expit x))).
  { intros z. unfold g. replace ((z - x) / 4 - (expit z - expit x)) with ((d + (z - x) / 4 + p) - expit z) by (unfold d; ring).
    eapply is_derive_ext with (f := fun z => (sp x - x * p + d * (z - x) + (z - x) * (z - x) / 8 + z * p) - sp z); [intros t; match goal with |- @eq _ ?u ?v => change (@eq R u v) end; field|].
    apply @is_derive_minus; [|apply sp_dv]. auto_derive; [exact Logic.I|field]. }
  destruct (MVT_gen g x y (fun y => (y - x) / 4 - (expit y - expit x))) as (c & C1 & C2).
  - intros z _. apply Dg.
  - intros z _. apply continuity_pt_filterlim. apply (ex_derive_continuous g z). eexists. apply Dg.
  - destruct (expit_mvt x c) as (w & _ & W). rewrite W in C2. pose proof (ex'_pos w) as Pw.
    assert (G : 0 <= g y - g x).
    { rewrite C2. replace (((c - x) / 4 - ex' w * (c - x)) * (y - x)) with ((/ 4 - ex' w) * ((c - x) * (y - x))) by field.
      apply Rmult_le_pos; [lra|]. unfold Rmin, Rmax in C1. destruct (Rle_dec x y); nra. }
    assert (Gx : g x = 0) by (unfold g; field). rewrite Gx in G. unfold g in G.
    assert (E : y - x = - (eta * d)) by (unfold y; ring). rewrite E in G. nra.
Qed.
(** one step contracts the distance to the solution *)
Lemma contract p eta x xs D : 0 < eta < 8 -> expit xs = p -> Rabs (x - xs) <= D ->
  exists rho, 0 <= rho < 1 /\ (forall y, Rabs (y - xs) <= D -> Rabs (y - eta * (expit y - p) - xs) <= rho * Rabs (y - xs)).
Proof.
  intros He Hp HD. set (M := Rabs xs + D). set (c0 := / (2 + 2 * exp M)). pose proof (exp_pos M) as EM.
  assert (Hc : 0 < c0) by (apply Rinv_0_lt_compat; lra).
  exists (Rmax (Rmax (1 - eta * c0) (eta / 4 - 1)) 0). split.
  { split; [apply Rmax_r|]. apply Rmax_lub_lt; [|lra]. apply Rmax_lub_lt; [nra|lra]. }
  intros y Hy. destruct (expit_mvt xs y) as (c & C1 & C2). rewrite Hp in C2. rewrite C2.
  replace (y - eta * (ex' c * (y - xs)) - xs) with ((1 - eta * ex' c) * (y - xs)) by ring. rewrite Rabs_mult. apply Rmult_le_compat_r; [apply Rabs_pos|].
  assert (Hcm : Rabs c <= M).
  { unfold M. replace c with ((c - xs) + xs) by ring. eapply Rle_trans; [apply Rabs_triang|]. assert (Rabs (c - xs) <= D); [|lra]. eapply Rle_trans; [|exact Hy].
    unfold Rmin, Rmax in C1. destruct (Rle_dec xs y); unfold Rabs; repeat destruct (Rcase_abs _); lra. }
  pose proof (ex'_low c M Hcm) as Lc. fold c0 in Lc. pose proof (ex'_pos c) as Pc.
  apply Rabs_le. split.
  - eapply Rle_trans; [apply Ropp_le_contravar; eapply Rle_trans; [apply Rmax_r|apply Rmax_l]|]. nra.
  - eapply Rle_trans; [|eapply Rle_trans; [apply Rmax_l|apply Rmax_l]]. nra.
Qed.
Definition logit (p : R) : R := ln (p / (1 - p)).
Lemma expit_logit p : 0 < p < 1 -> expit (logit p) = p.
Proof.
  intros H. unfold expit, logit. rewrite exp_Ropp, exp_ln by (apply Rdiv_lt_0_compat; lra). field. lra.
Qed.
(** the gradients of every sequence of steps tend to 0 *)
Lemma descent p eta (x : nat -> R) : 0 < eta < 8 -> 0 < p < 1 -> (forall k, x (S k) = x k - eta * (expit (x k) - p)) ->
  forall e, 0 < e -> exists N, forall k, (N <= k)%nat -> Rabs (expit (x k) - p) <= e.
Proof.
  intros He Hp Hx e Pe. set (xs := logit p). pose proof (expit_logit p Hp) as Es. fold xs in Es. set (D := Rabs (x 0%nat - xs)).
  destruct (contract p eta (x 0%nat) xs D He Es (Rle_refl _)) as (rho & Hr & C).
  assert (B : forall k, Rabs (x k - xs) <= rho ^ k * D).
  { assert (PD : 0 <= D) by apply Rabs_pos.
    assert (B' : forall k, Rabs (x k - xs) <= rho ^ k * D /\ Rabs (x k - xs) <= D).
    { induction k as [|k [I1 I2]]; [unfold D; simpl; lra|]. rewrite Hx. pose proof (C (x k) I2) as Ck. split.
      - eapply Rle_trans; [exact Ck|]. cbn [pow]. rewrite Rmult_assoc. apply Rmult_le_compat_l; lra.
      - eapply Rle_trans; [exact Ck|]. pose proof (Rabs_pos (x k - xs)). nra. }
    intros k. apply B'. }
  assert (Ar : Rabs rho < 1) by (rewrite Rabs_pos_eq; lra). assert (PD : 0 <= D) by apply Rabs_pos.
  destruct (pow_lt_1_zero rho Ar (e / (D + 1))) as [N HN]; [apply Rdiv_lt_0_compat; lra|].
  exists N. intros k Hk. destruct (expit_mvt xs (x k)) as (c & _ & W). rewrite Es in W. rewrite W, Rabs_mult. pose proof (ex'_pos c) as Pc. rewrite (Rabs_pos_eq (ex' c)) by lra.
  pose proof (B k) as Bk. specialize (HN k Hk). rewrite Rabs_pos_eq in HN by (apply pow_le; lra).
  assert (Q : rho ^ k * D <= e). { apply Rle_trans with (e / (D + 1) * D); [apply Rmult_le_compat_r; lra|]. apply Rle_trans with (e / (D + 1) * (D + 1)); [apply Rmult_le_compat_l; [apply Rlt_le, Rdiv_lt_0_compat; lra|lra]|]. right. field. lra. }
  pose proof (Rabs_pos (x k - xs)). nra.
Qed.
