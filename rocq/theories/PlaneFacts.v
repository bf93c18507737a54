(** Scalar facts: softplus, logit and the maps between a support and the plane. *)
From Coq Require Import Reals ZArith Bool Lra Lia.
From Verif Require Import Base XReal Tensor Support SupportSpec.
Local Open Scope R_scope.

Lemma xlog_pos r : 0 < r -> xlog (Fin r) = Fin (ln r).
Proof. intros H. cbn. destruct (Rlt_dec 0 r); [reflexivity|lra]. Qed.
Lemma xdiv_Fin a b : b <> 0 -> xdiv (Fin a) (Fin b) = Fin (a / b).
Proof. intros H. cbn. destruct (Req_EM_T b 0); [contradiction|reflexivity]. Qed.
Lemma xsqrt_Fin a : 0 <= a -> xsqrt (Fin a) = Fin (sqrt a).
Proof. intros H. cbn. destruct (Rle_dec 0 a); [reflexivity|lra]. Qed.
Lemma xsub_Fin a b : xsub (Fin a) (Fin b) = Fin (a - b).
Proof. reflexivity. Qed.

Lemma exp_gt_1 x : 0 < x -> 1 < exp x.
Proof. intros H. rewrite <- exp_0. now apply exp_increasing. Qed.

(** ** logit / expit *)
Definition logit (p : R) : R := ln (p / (1 - p)).
Lemma xlogit_Fin p : 0 < p < 1 -> xlogit (Fin p) = Fin (logit p).
Proof.
  intros H. unfold xlogit. rewrite xsub_Fin, xdiv_Fin by lra. apply xlog_pos.
  apply Rdiv_lt_0_compat; lra.
Qed.
Lemma expit_range y : 0 < expit y < 1.
Proof.
  unfold expit. pose proof (exp_pos (- y)). split.
  - apply Rinv_0_lt_compat. lra.
  - rewrite <- Rinv_1 at 2. apply Rinv_lt_contravar; lra.
Qed.
Lemma expit_logit p : 0 < p < 1 -> expit (logit p) = p.
Proof.
  intros H. unfold expit, logit. rewrite exp_Ropp, exp_ln by (apply Rdiv_lt_0_compat; lra).
  field. split; lra.
Qed.
Lemma logit_expit y : logit (expit y) = y.
Proof.
  unfold expit, logit. pose proof (exp_pos (- y)).
  replace (/ (1 + exp (- y)) / (1 - / (1 + exp (- y)))) with (exp y).
  - apply ln_exp.
  - rewrite exp_Ropp in *. pose proof (exp_pos y). field. repeat split; lra.
Qed.
Lemma expit_half y : 0 < y -> 1 / 2 < expit y.
Proof.
  intros H. unfold expit. assert (exp (- y) < 1) by (rewrite <- exp_0; apply exp_increasing; lra).
  pose proof (exp_pos (- y)). unfold Rdiv. rewrite Rmult_1_l. apply Rinv_lt_contravar; lra.
Qed.
Lemma logit_pos p : 1 / 2 < p < 1 -> 0 < logit p.
Proof.
  intros H. unfold logit. rewrite <- ln_1. apply ln_increasing; [lra|].
  apply Rmult_lt_reg_r with (1 - p); [lra|]. unfold Rdiv. rewrite Rmult_assoc, Rinv_l by lra. lra.
Qed.

(** ** softplus *)
Definition softplus (y : R) : R := ln (1 + exp y).
Definition inv_softplus (x : R) : R := ln (exp x - 1).
Lemma xsoftplus_Fin y : xsoftplus (Fin y) = Fin (softplus y).
Proof. unfold xsoftplus. cbn [xexp xadd]. apply xlog_pos. pose proof (exp_pos y). lra. Qed.
Lemma xinv_softplus_Fin x : 0 < x -> xinv_softplus (Fin x) = Fin (inv_softplus x).
Proof. intros H. unfold xinv_softplus. cbn [xexp]. rewrite xsub_Fin. apply xlog_pos. pose proof (exp_gt_1 x H). lra. Qed.
Lemma softplus_pos y : 0 < softplus y.
Proof. unfold softplus. rewrite <- ln_1. apply ln_increasing; pose proof (exp_pos y); lra. Qed.
Lemma softplus_inv x : 0 < x -> softplus (inv_softplus x) = x.
Proof.
  intros H. unfold softplus, inv_softplus. pose proof (exp_gt_1 x H). rewrite exp_ln by lra.
  replace (1 + (exp x - 1)) with (exp x) by ring. apply ln_exp.
Qed.
Lemma inv_softplus_softplus y : inv_softplus (softplus y) = y.
Proof.
  unfold softplus, inv_softplus. pose proof (exp_pos y). rewrite exp_ln by lra.
  replace (1 + exp y - 1) with (exp y) by ring. apply ln_exp.
Qed.

(** ** real fields *)
Definition r_to_plane (mn mx : option R) (v : R) : R :=
  match mn, mx with
  | None, Some M => - inv_softplus (M - v)
  | Some m, None => inv_softplus (v - m)
  | Some m, Some M => logit ((v - m) / (M - m))
  | None, None => v
  end.
Definition r_from_plane (mn mx : option R) (y : R) : R :=
  match mn, mx with
  | None, Some M => M - softplus (- y)
  | Some m, None => softplus y + m
  | Some m, Some M => m + expit y * (M - m)
  | None, None => y
  end.
Lemma frac_range m M v : m < v -> v < M -> 0 < (v - m) / (M - m) < 1.
Proof.
  intros H1 H2. split; [apply Rdiv_lt_0_compat; lra|].
  apply Rmult_lt_reg_r with (M - m); [lra|]. unfold Rdiv. rewrite Rmult_assoc, Rinv_l by lra. lra.
Qed.
Lemma real_to_plane_Fin mn mx v : inside mn mx v -> real_to_plane mn mx (Fin v) = Fin (r_to_plane mn mx v).
Proof.
  unfold inside, real_to_plane, r_to_plane. destruct mn as [m|], mx as [M|]; intros [H1 H2].
  - rewrite xsub_Fin, xdiv_Fin by lra. apply xlogit_Fin. now apply frac_range.
  - rewrite xsub_Fin. apply xinv_softplus_Fin. lra.
  - rewrite xsub_Fin, xinv_softplus_Fin by lra. reflexivity.
  - reflexivity.
Qed.
Lemma real_from_plane_Fin mn mx y : real_from_plane mn mx (Fin y) = Fin (r_from_plane mn mx y).
Proof.
  unfold real_from_plane, r_from_plane. destruct mn as [m|], mx as [M|]; try reflexivity.
  - rewrite xsoftplus_Fin. reflexivity.
  - cbn [xneg]. rewrite xsoftplus_Fin. reflexivity.
Qed.
Lemma r_from_plane_inside mn mx y : proper mn mx -> inside mn mx (r_from_plane mn mx y).
Proof.
  unfold inside, proper, r_from_plane. destruct mn as [m|], mx as [M|]; intros H; split; trivial.
  - pose proof (expit_range y). assert (0 < expit y * (M - m)) by (apply Rmult_lt_0_compat; lra). lra.
  - pose proof (expit_range y). assert (expit y * (M - m) < 1 * (M - m)) by (apply Rmult_lt_compat_r; lra). lra.
  - pose proof (softplus_pos y). lra.
  - pose proof (softplus_pos (- y)). lra.
Qed.
Lemma r_from_to mn mx v : inside mn mx v -> r_from_plane mn mx (r_to_plane mn mx v) = v.
Proof.
  unfold inside, r_from_plane, r_to_plane. destruct mn as [m|], mx as [M|]; intros [H1 H2].
  - rewrite expit_logit by now apply frac_range. field. lra.
  - rewrite softplus_inv; lra.
  - rewrite Ropp_involutive, softplus_inv; lra.
  - reflexivity.
Qed.
Lemma r_to_from mn mx y : proper mn mx -> r_to_plane mn mx (r_from_plane mn mx y) = y.
Proof.
  unfold proper, r_from_plane, r_to_plane. destruct mn as [m|], mx as [M|]; intros H.
  - replace ((m + expit y * (M - m) - m) / (M - m)) with (expit y) by (field; lra). apply logit_expit.
  - replace (softplus y + m - m) with (softplus y) by ring. apply inv_softplus_softplus.
  - replace (M - (M - softplus (- y))) with (softplus (- y)) by ring. rewrite inv_softplus_softplus. ring.
  - reflexivity.
Qed.
Lemma r_to_plane_inj mn mx v w : inside mn mx v -> inside mn mx w -> r_to_plane mn mx v = r_to_plane mn mx w -> v = w.
Proof. intros Hv Hw H. rewrite <- (r_from_to mn mx v Hv), <- (r_from_to mn mx w Hw). now rewrite H. Qed.

(** ** magnitudes of complex values and vectors *)
Lemma cabs_Fin a b : cabs (XC (Fin a) (Fin b)) = Fin (sqrt (a * a + b * b)).
Proof. unfold cabs, xsquare. cbn [xre xim xmul xadd]. apply xsqrt_Fin. nra. Qed.
Lemma sqrt_scale k a b : 0 <= k -> sqrt ((k * a) * (k * a) + (k * b) * (k * b)) = k * sqrt (a * a + b * b).
Proof.
  intros Hk. replace ((k * a) * (k * a) + (k * b) * (k * b)) with ((k * k) * (a * a + b * b)) by ring.
  rewrite sqrt_mult by nra. now rewrite sqrt_square.
Qed.
Lemma mag_pos a b : ~ (a = 0 /\ b = 0) -> 0 < sqrt (a * a + b * b).
Proof. intros H. apply sqrt_lt_R0. destruct (Req_dec a 0), (Req_dec b 0); [tauto|nra..]. Qed.
