(** The ratio of modified Bessel functions of consecutive orders is strictly increasing. *)
From Coquelicot Require Import Coquelicot.
From Coq Require Import Reals Lra Lia List.
From Verif Require Import SpecFun GammaFn BesselFn.
Local Open Scope R_scope.

(** The ratio of the Bessel functions of consecutive orders is strictly increasing. *)
Definition bW (v x : R) : R := bS v x * bS v x - x * (bS (v + 1) x * bS (v + 1) x) - (v + 1 / 2) * (bS v x * bS (v + 1) x).
Lemma bW_derive v x : -1 < v -> is_derive (bW v) x
  ((2 * v + 1) * (bS (v + 1) x * bS (v + 1) x) - (v + 1 / 2) * (bS (v + 1) x * bS (v + 1) x + bS v x * bS (v + 2) x)).
Proof.
  intros Hv. unfold bW. apply (is_derive_minus (K := R_AbsRing) (V := R_NormedModule)); [apply bS_wronskian, Hv|].
  pose proof (bS_derive v x Hv) as A. pose proof (bS_derive (v + 1) x ltac:(lra)) as B. replace (v + 1 + 1) with (v + 2) in B by ring.
  apply is_derive_ext with (fun y => scal (v + 1 / 2) (bS v y * bS (v + 1) y)); [reflexivity|].
  apply (is_derive_scal (fun y => bS v y * bS (v + 1) y)).
  apply (is_derive_mult (K := R_AbsRing) (bS v) (bS (v + 1)) x _ _ A B). intros; apply Rmult_comm.
Qed.
Lemma bW_0 v : - (1 / 2) <= v -> 0 < bW v 0.
Proof.
  intros Hv. unfold bW. pose proof (bS_rec v 0 ltac:(lra)) as E. pose proof (bS_pos v 0 ltac:(lra) ltac:(lra)) as P.
  pose proof (bS_pos (v + 1) 0 ltac:(lra) ltac:(lra)) as P1.
  replace (bS v 0) with ((v + 1) * bS (v + 1) 0) by lra. set (s := bS (v + 1) 0) in *.
  replace ((v + 1) * s * ((v + 1) * s) - 0 * (s * s) - (v + 1 / 2) * ((v + 1) * s * s)) with ((v + 1) / 2 * (s * s)) by field.
  apply Rmult_lt_0_compat; [lra|]. now apply Rmult_lt_0_compat.
Qed.
Lemma bW_pos v x : - (1 / 2) <= v -> 0 < x -> 0 < bW v x.
Proof.
  intros Hv Hx. assert (Hv' : -1 < v) by lra.
  assert (Cn : continuity_pt (bW v) 0).
  { apply continuity_pt_filterlim, (ex_derive_continuous (bW v)). eexists. apply bW_derive, Hv'. }
  destruct (Cn (bW v 0) (bW_0 v Hv)) as (a & Ha & N). 
  set (d := Rmin (a / 2) (x / 2)). assert (Hd : 0 < d < x /\ d < a).
  { unfold d. pose proof (Rmin_l (a / 2) (x / 2)). pose proof (Rmin_r (a / 2) (x / 2)). split; [split; [apply Rmin_glb_lt; lra|lra]|lra]. }
  assert (Wd : 0 < bW v d).
  { specialize (N d). assert (D : D_x no_cond 0 d) by (split; [exact Logic.I|lra]).
    assert (E : Rabs (d - 0) < a) by (rewrite Rminus_0_r, Rabs_pos_eq; lra). specialize (N (conj D E)).
    cbn in N. unfold R_dist in N. apply Rabs_def2 in N. lra. }
  set (g y := exp ((v + 1 / 2) * ln y) * bW v y).
  assert (G : forall y, 0 < y -> is_derive g y (exp ((v + 1 / 2) * ln y) * ((v + 1 / 2) / y * (1 / 2 * (bS v y * bS (v + 1) y))))).
  { intros y Hy. unfold g.
    replace (exp ((v + 1 / 2) * ln y) * ((v + 1 / 2) / y * (1 / 2 * (bS v y * bS (v + 1) y)))) with
      (((v + 1 / 2) / y * exp ((v + 1 / 2) * ln y)) * bW v y + exp ((v + 1 / 2) * ln y) *
       ((2 * v + 1) * (bS (v + 1) y * bS (v + 1) y) - (v + 1 / 2) * (bS (v + 1) y * bS (v + 1) y + bS v y * bS (v + 2) y))).
    2:{ pose proof (bS_rec v y Hv') as E. replace (bS (v + 2) y) with ((bS v y - (v + 1) * bS (v + 1) y) / y) by (rewrite <- E; field; lra).
        unfold bW. field. lra. }
    apply (is_derive_mult (K := R_AbsRing) (fun y => exp ((v + 1 / 2) * ln y)) (bW v)); [|apply bW_derive, Hv'|intros; apply Rmult_comm].
    auto_derive; [exact Hy|]. field. lra. }
  assert (I : g d <= g x).
  { destruct (MVT_cor2 g (fun y => exp ((v + 1 / 2) * ln y) * ((v + 1 / 2) / y * (1 / 2 * (bS v y * bS (v + 1) y)))) d x) as (c & E & C); [lra| |].
    - intros c C. apply is_derive_Reals, G. lra.
    - enough (0 <= exp ((v + 1 / 2) * ln c) * ((v + 1 / 2) / c * (1 / 2 * (bS v c * bS (v + 1) c)))) by nra.
      pose proof (exp_pos ((v + 1 / 2) * ln c)). pose proof (bS_pos v c Hv' ltac:(lra)). pose proof (bS_pos (v + 1) c ltac:(lra) ltac:(lra)).
      apply Rmult_le_pos; [lra|]. apply Rmult_le_pos; [apply Rmult_le_pos; [lra|apply Rlt_le, Rinv_0_lt_compat; lra]|].
      apply Rmult_le_pos; [lra|]. apply Rmult_le_pos; lra. }
  unfold g in I. pose proof (exp_pos ((v + 1 / 2) * ln d)). pose proof (exp_pos ((v + 1 / 2) * ln x)). nra.
Qed.
Definition bRx (v x : R) : R := ln x / 2 + ln (bS (v + 1) x) - ln (bS v x).
Lemma bRx_derive v x : -1 < v -> 0 < x -> is_derive (bRx v) x (bW v x / (x * (bS v x * bS (v + 1) x))).
Proof.
  intros Hv Hx. pose proof (bS_pos v x Hv ltac:(lra)) as P0. pose proof (bS_pos (v + 1) x ltac:(lra) ltac:(lra)) as P1.
  pose proof (bS_derive v x Hv) as A. pose proof (bS_derive (v + 1) x ltac:(lra)) as B. replace (v + 1 + 1) with (v + 2) in B by ring.
  replace (bW v x / (x * (bS v x * bS (v + 1) x))) with ((/ x / 2 + bS (v + 2) x * / bS (v + 1) x) - bS (v + 1) x * / bS v x).
  2:{ pose proof (bS_rec v x Hv) as E. replace (bS (v + 2) x) with ((bS v x - (v + 1) * bS (v + 1) x) / x) by (rewrite <- E; field; lra).
      unfold bW. field. lra. }
  unfold bRx. apply (is_derive_minus (K := R_AbsRing) (V := R_NormedModule)); [apply (is_derive_plus (K := R_AbsRing) (V := R_NormedModule))|].
  - auto_derive; [exact Hx|]. field. lra.
  - apply (is_derive_comp (K := R_AbsRing) (V := R_NormedModule) ln (bS (v + 1))); [|exact B]. apply is_derive_Reals, derivable_pt_lim_ln. exact P1.
  - apply (is_derive_comp (K := R_AbsRing) (V := R_NormedModule) ln (bS v)); [|exact A]. apply is_derive_Reals, derivable_pt_lim_ln. exact P0.
Qed.
Lemma bRx_incr v x y : - (1 / 2) <= v -> 0 < x -> x < y -> bRx v x < bRx v y.
Proof.
  intros Hv Hx Hxy. destruct (MVT_cor2 (bRx v) (fun x => bW v x / (x * (bS v x * bS (v + 1) x))) x y Hxy) as (c & E & C).
  { intros c C. apply is_derive_Reals, bRx_derive; lra. }
  enough (0 < bW v c / (c * (bS v c * bS (v + 1) c))) by nra.
  apply Rdiv_lt_0_compat; [apply bW_pos; lra|]. apply Rmult_lt_0_compat; [lra|]. apply Rmult_lt_0_compat; apply bS_pos; lra.
Qed.
Lemma bessel_ratio_incr v z w : - (1 / 2) <= v -> 0 < z -> z < w ->
  bessel_i (v + 1) z / bessel_i v z < bessel_i (v + 1) w / bessel_i v w.
Proof.
  intros Hv Hz Hw. rewrite !bessel_ratio by lra.
  assert (X : forall u, 0 < u -> 0 < u * u / 4) by (intros u Hu; assert (0 < u * u) by (now apply Rmult_lt_0_compat); lra).
  assert (P : forall u, 0 < u -> 0 < u / 2 * (bS (v + 1) (u * u / 4) / bS v (u * u / 4))).
  { intros u Hu. apply Rmult_lt_0_compat; [lra|]. apply Rdiv_lt_0_compat; apply bS_pos; try lra; apply Rlt_le, X, Hu. }
  assert (L : forall u, 0 < u -> ln (u / 2 * (bS (v + 1) (u * u / 4) / bS v (u * u / 4))) = bRx v (u * u / 4)).
  { intros u Hu. pose proof (X u Hu). pose proof (bS_pos v (u * u / 4) ltac:(lra) ltac:(lra)). pose proof (bS_pos (v + 1) (u * u / 4) ltac:(lra) ltac:(lra)).
    rewrite ln_mult; [|lra|now apply Rdiv_lt_0_compat]. rewrite (ln_div (bS (v + 1) _)) by assumption. unfold bRx.
    replace (u * u / 4) with (u / 2 * (u / 2)) at 3 by field. rewrite ln_mult by lra. lra. }
  apply ln_lt_inv; [now apply P|apply P; lra|]. rewrite !L by lra. apply bRx_incr; [exact Hv|now apply X|nra].
Qed.
