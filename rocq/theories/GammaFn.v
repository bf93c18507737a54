(** Facts about the log-gamma and digamma functions of SpecFun.v: Euler's limit converges, digamma is the
    derivative of log-gamma, the functional equations, monotonicity. *)
From Coq Require Import Reals Lra Lia List.
From Coquelicot Require Import Coquelicot.
From Verif Require Import XReal Support SpecFun.
Local Open Scope R_scope.

Lemma ln_le_sub1 y : 0 < y -> ln y <= y - 1.
Proof.
  intros H. pose proof (exp_ineq1_le (ln y)) as E. rewrite exp_ln in E by exact H. lra.
Qed.
Lemma ln_lt_sub1 y : 0 < y -> y <> 1 -> ln y < y - 1.
Proof.
  intros H N. assert (L : ln y <> 0).
  { intros E. apply N. rewrite <- (exp_ln y H), E. apply exp_0. }
  pose proof (exp_ineq1 (ln y) L) as E. rewrite exp_ln in E by exact H. lra.
Qed.
Lemma ln1_up t : 0 <= t -> ln (1 + t) <= t.
Proof. intros H. pose proof (ln_le_sub1 (1 + t)). lra. Qed.
Lemma ln1_lo t : 0 <= t -> t / (1 + t) <= ln (1 + t).
Proof.
  intros H. assert (P : 0 < 1 + t) by lra.
  pose proof (ln_le_sub1 (/ (1 + t)) (Rinv_0_lt_compat _ P)) as E.
  rewrite ln_Rinv in E by exact P.
  replace (t / (1 + t)) with (1 - / (1 + t)) by (field; lra). lra.
Qed.

(** ** sequences with telescoping increments *)
Definition tele (C : R) (u : nat -> R) : Prop :=
  forall n, (1 <= n)%nat -> 0 <= u (S n) - u n <= C * (/ INR n - / INR (S n)).

Lemma INR_pos n : (1 <= n)%nat -> 0 < INR n.
Proof. intros. apply lt_0_INR. lia. Qed.
Lemma tele_bound C u n k : tele C u -> 0 <= C -> (1 <= n)%nat ->
  0 <= u (n + k)%nat - u n <= C * (/ INR n - / INR (n + k)).
Proof.
  intros T HC Hn. induction k as [|k IH].
  - rewrite Nat.add_0_r. lra.
  - rewrite Nat.add_succ_r. specialize (T (n + k)%nat ltac:(lia)).
    split; [lra|]. eapply Rle_trans with
      ((u (S (n + k)) - u (n + k)%nat) + (u (n + k)%nat - u n)); [lra|].
    replace (C * (/ INR n - / INR (S (n + k)))) with
      (C * (/ INR (n + k) - / INR (S (n + k))) + C * (/ INR n - / INR (n + k))) by ring.
    lra.
Qed.
Lemma tele_dist C u n m : tele C u -> 0 <= C -> (1 <= n)%nat -> (n <= m)%nat ->
  0 <= u m - u n <= C / INR n.
Proof.
  intros T HC Hn Hm. replace m with (n + (m - n))%nat by lia.
  pose proof (tele_bound C u n (m - n) T HC Hn) as B. split; [lra|].
  eapply Rle_trans; [apply B|]. unfold Rdiv. apply Rmult_le_compat_l; [exact HC|].
  pose proof (Rinv_0_lt_compat _ (INR_pos (n + (m - n)) ltac:(lia))). lra.
Qed.
Lemma big_nat C (eps : posreal) : 0 <= C -> exists N, (1 <= N)%nat /\ forall n, (N <= n)%nat -> C / INR n < eps.
Proof.
  intros HC. destruct (archimed ((C + 1) / eps)) as [A _].
  exists (S (Z.to_nat (up ((C + 1) / eps)))). split; [lia|]. intros n Hn.
  assert (P : 0 < (C + 1) / eps) by (apply Rdiv_lt_0_compat; [lra|apply cond_pos]).
  assert (U : (0 <= up ((C + 1) / eps))%Z) by (apply le_IZR; lra).
  assert (L : (C + 1) / eps < INR n).
  { eapply Rlt_le_trans with (INR (S (Z.to_nat (up ((C + 1) / eps))))); [|apply le_INR; exact Hn].
    rewrite S_INR, INR_IZR_INZ, Znat.Z2Nat.id by exact U. lra. }
  pose proof (cond_pos eps) as Pe.
  apply Rlt_div_l; [lra|]. apply Rlt_div_l in L; [lra|exact Pe].
Qed.
Lemma tele_cvu (D : R -> Prop) (f : nat -> R -> R) (C : R) :
  0 <= C -> (forall x, D x -> tele C (fun n => f n x)) -> CVU_dom f D.
Proof.
  intros HC T. apply CVU_dom_cauchy. intros eps. destruct (big_nat C eps HC) as [N [N1 HN]].
  assert (H : forall n m x, D x -> (N <= n)%nat -> (n <= m)%nat -> Rabs (f n x - f m x) < eps).
  { intros n m x Dx Hn Hm. pose proof (tele_dist C _ n m (T x Dx) HC ltac:(lia) Hm) as B.
    cbv beta in B. rewrite Rabs_minus_sym, Rabs_pos_eq by lra. pose proof (HN n Hn). lra. }
  exists N. intros n m x Dx Hn Hm. destruct (Nat.le_ge_cases n m).
  - apply H; assumption.
  - rewrite Rabs_minus_sym. apply H; assumption.
Qed.
Lemma tele_lim C u : 0 <= C -> tele C u -> ex_finite_lim_seq u.
Proof.
  intros HC T. apply ex_lim_seq_cauchy_corr. intros eps. destruct (big_nat C eps HC) as [N [N1 HN]].
  assert (H : forall n m, (N <= n)%nat -> (n <= m)%nat -> Rabs (u n - u m) < eps).
  { intros n m Hn Hm. pose proof (tele_dist C _ n m T HC ltac:(lia) Hm) as B.
    rewrite Rabs_minus_sym, Rabs_pos_eq by lra. pose proof (HN n Hn). lra. }
  exists N. intros n m Hn Hm. destruct (Nat.le_ge_cases n m).
  - apply H; assumption.
  - rewrite Rabs_minus_sym. apply H; assumption.
Qed.

(** ** Euler's limit *)
Lemma ln_step n : (1 <= n)%nat -> / INR (S n) <= ln (INR (S n)) - ln (INR n) <= / INR n.
Proof.
  intros Hn. pose proof (INR_pos n Hn) as P. pose proof (Rinv_0_lt_compat _ P) as Pi.
  assert (E : ln (INR (S n)) = ln (INR n) + ln (1 + / INR n)).
  { rewrite <- ln_mult; [|exact P|lra]. f_equal. rewrite S_INR. field. lra. }
  rewrite E. pose proof (ln1_up (/ INR n) ltac:(lra)). pose proof (ln1_lo (/ INR n) ltac:(lra)) as L.
  replace (/ INR n / (1 + / INR n)) with (/ INR (S n)) in L; [lra|].
  rewrite S_INR. field. lra.
Qed.
Lemma inv_bound x n : 0 < x -> (1 <= n)%nat ->
  / INR n - / (x + INR (S n)) <= (x + 1) * (/ INR n - / INR (S n)).
Proof.
  intros Hx Hn. pose proof (INR_pos n Hn) as P. rewrite S_INR.
  assert (K : / INR n - / (x + (INR n + 1)) = (x + 1) * / (INR n * (x + (INR n + 1)))) by (field; lra).
  rewrite K. apply Rmult_le_compat_l; [lra|].
  replace (/ INR n - / (INR n + 1)) with (/ (INR n * (INR n + 1))) by (field; lra).
  apply Rinv_le_contravar; [apply Rmult_lt_0_compat; lra|]. apply Rmult_le_compat_l; lra.
Qed.
Lemma lngamma_seq_step x n : 0 < x ->
  lngamma_seq x (S n) - lngamma_seq x n =
  x * (ln (INR (S n)) - ln (INR n)) + ln (INR (S n)) - ln (x + INR (S n)).
Proof.
  intros Hx. unfold lngamma_seq. rewrite tech5.
  rewrite fact_simpl, mult_INR, ln_mult; [|apply lt_0_INR; lia|apply INR_fact_lt_0]. ring.
Qed.
Lemma ln_ratio x n : 0 < x -> (1 <= n)%nat -> x / (x + INR n) <= ln (x + INR n) - ln (INR n) <= x / INR n.
Proof.
  intros Hx Hn. pose proof (INR_pos n Hn) as P.
  assert (Q : 0 < x / INR n) by (apply Rdiv_lt_0_compat; lra).
  assert (E : ln (x + INR n) = ln (INR n) + ln (1 + x / INR n)).
  { rewrite <- ln_mult; [|exact P|lra]. f_equal. field. lra. }
  rewrite E. pose proof (ln1_up (x / INR n) ltac:(lra)). pose proof (ln1_lo (x / INR n) ltac:(lra)) as L.
  replace (x / INR n / (1 + x / INR n)) with (x / (x + INR n)) in L; [lra|]. field. lra.
Qed.
Lemma lngamma_tele x : 0 < x -> tele (x * (x + 1)) (lngamma_seq x).
Proof.
  intros Hx n Hn. rewrite lngamma_seq_step by exact Hx.
  pose proof (ln_step n Hn) as [L U]. pose proof (ln_ratio x (S n) Hx ltac:(lia)) as [L2 U2].
  pose proof (inv_bound x n Hx Hn) as IB.
  unfold Rdiv in L2, U2.
  pose proof (Rmult_le_compat_l x _ _ (Rlt_le _ _ Hx) L) as L'.
  pose proof (Rmult_le_compat_l x _ _ (Rlt_le _ _ Hx) U) as U'.
  pose proof (Rmult_le_compat_l x _ _ (Rlt_le _ _ Hx) IB) as IB'.
  split; [lra|]. rewrite Rmult_assoc. lra.
Qed.

Definition dlngamma_seq (x : R) (n : nat) : R := ln (INR n) - sum_f_R0 (fun k => / (x + INR k)) n.
Lemma dlngamma_tele x : 0 < x -> tele (x + 1) (dlngamma_seq x).
Proof.
  intros Hx n Hn. unfold dlngamma_seq. rewrite tech5.
  pose proof (ln_step n Hn) as [L U]. pose proof (inv_bound x n Hx Hn) as IB.
  pose proof (INR_pos (S n) ltac:(lia)) as P.
  assert (/ (x + INR (S n)) <= / INR (S n)) by (apply Rinv_le_contravar; lra).
  lra.
Qed.
Lemma dsum_derive x n : 0 < x ->
  is_derive (fun y => sum_f_R0 (fun k => ln (y + INR k)) n) x (sum_f_R0 (fun k => / (x + INR k)) n).
Proof.
  intros Hx. induction n as [|n IH].
  - cbn [sum_f_R0]. auto_derive; [cbn; lra|]. cbn. field. lra.
  - cbn [sum_f_R0]. apply (is_derive_plus (K := R_AbsRing) (V := R_NormedModule)); [exact IH|].
    pose proof (pos_INR (S n)) as P. revert P. generalize (INR (S n)). intros r P. auto_derive; [lra|]. field. lra.
Qed.
Lemma lngamma_seq_derive x n : 0 < x -> is_derive (fun y => lngamma_seq y n) x (dlngamma_seq x n).
Proof.
  intros Hx. unfold lngamma_seq, dlngamma_seq.
  apply (is_derive_minus (K := R_AbsRing) (V := R_NormedModule)); [|apply dsum_derive; exact Hx].
  auto_derive; [auto|ring].
Qed.

Definition seg (a b x : R) : Prop := a < x < b.
Lemma open_seg a b : open (seg a b).
Proof. apply open_and; [apply open_gt|apply open_lt]. Qed.
Lemma conn_seg a b : is_connected (seg a b).
Proof. intros x y z Hx Hy Hz. unfold seg in *. lra. Qed.

Lemma lim_cvu_lim C u : 0 <= C -> tele C u -> is_lim_seq u (real (Lim_seq u)).
Proof. intros HC T. destruct (tele_lim C u HC T) as [l Hl]. rewrite (is_lim_seq_unique _ _ Hl). exact Hl. Qed.

Lemma lngamma_lim x : 0 < x -> is_lim_seq (lngamma_seq x) (lngamma x).
Proof. intros Hx. apply (lim_cvu_lim (x * (x + 1))); [|apply lngamma_tele; exact Hx]. apply Rmult_le_pos; lra. Qed.

Lemma cont_sum_inv x n : 0 < x -> continuity_pt (fun y => sum_f_R0 (fun k => / (y + INR k)) n) x.
Proof.
  intros Hx. induction n as [|n IH].
  - cbn [sum_f_R0]. apply continuity_pt_inv; [|cbn; lra]. reg.
  - cbn [sum_f_R0]. apply (continuity_pt_plus (fun y => sum_f_R0 (fun k => / (y + INR k)) n)); [exact IH|].
    pose proof (pos_INR (S n)). apply continuity_pt_inv; [|lra]. reg.
Qed.

Lemma tele_le C C' u : tele C u -> C <= C' -> tele C' u.
Proof.
  intros T L n Hn. destruct (T n Hn) as [A B]. split; [exact A|]. eapply Rle_trans; [exact B|].
  apply Rmult_le_compat_r; [|exact L]. pose proof (ln_step n Hn). lra.
Qed.
Lemma lngamma_derive_lim x : 0 < x -> is_derive lngamma x (real (Lim_seq (dlngamma_seq x))).
Proof.
  intros Hx. set (D := seg (x / 2) (x + 1)).
  assert (Dpos : forall y, D y -> 0 < y /\ y < x + 1) by (intros y [A B]; split; lra).
  assert (E : forall n y, D y -> Derive (fun z => lngamma_seq z n) y = dlngamma_seq y n).
  { intros n y Dy. apply is_derive_unique, lngamma_seq_derive, Dpos, Dy. }
  assert (Dx : D x) by (unfold D, seg; lra).
  replace (real (Lim_seq (dlngamma_seq x))) with
    (real (Lim_seq (fun n => Derive (fun z => lngamma_seq z n) x))).
  2:{ f_equal. apply Lim_seq_ext. intros n. apply E, Dx. }
  apply (CVU_Derive (fun n z => lngamma_seq z n) D).
  - apply open_seg.
  - apply conn_seg.
  - apply (tele_cvu D _ ((x + 1) * (x + 2))); [apply Rmult_le_pos; lra|].
    intros y Dy. destruct (Dpos y Dy). eapply tele_le; [apply lngamma_tele; lra|].
    apply Rmult_le_compat; lra.
  - intros n y Dy. eexists. apply lngamma_seq_derive, Dpos, Dy.
  - intros n y Dy. destruct (Dpos y Dy) as [Py _].
    apply continuity_pt_ext_loc with (f := fun z => dlngamma_seq z n).
    + destruct (open_seg (x / 2) (x + 1) y Dy) as [d Hd]. exists d. intros z Hz. symmetry. apply E, Hd, Hz.
    + unfold dlngamma_seq. apply continuity_pt_minus; [reg|]. apply cont_sum_inv; exact Py.
  - apply (tele_cvu D _ (x + 2)); [lra|]. intros y Dy. destruct (Dpos y Dy).
    intros n Hn. rewrite !E by exact Dy. revert n Hn. change (tele (x + 2) (dlngamma_seq y)).
    eapply tele_le; [apply dlngamma_tele; lra|]. lra.
  - exact Dx.
Qed.

Lemma lim_opp u (l : R) : is_lim_seq u l -> is_lim_seq (fun n => - u n) (- l).
Proof. intros H. apply (proj1 (is_lim_seq_opp u l)), H. Qed.
Lemma lim_series (a : nat -> R) (l : R) : is_lim_seq (sum_f_R0 a) l -> is_series a l.
Proof.
  intros H. change (is_lim_seq (sum_n a) l). eapply is_lim_seq_ext; [|exact H].
  intros n. symmetry. apply sum_n_Reals.
Qed.
Lemma series_lim (a : nat -> R) (l : R) : is_series a l -> is_lim_seq (sum_f_R0 a) l.
Proof.
  intros H. change (is_lim_seq (sum_n a) l) in H. eapply is_lim_seq_ext; [|exact H].
  intros n. apply sum_n_Reals.
Qed.
(** ** Euler's constant and the digamma series *)
Lemma ln_succ_lim : is_lim_seq (fun n => ln (INR (S n)) - ln (INR n)) 0.
Proof.
  apply (is_lim_seq_le_le_loc (fun _ => 0) _ (fun n => / INR n)).
  - exists 1%nat. intros n Hn. pose proof (ln_step n Hn) as L.
    pose proof (Rinv_0_lt_compat _ (INR_pos (S n) ltac:(lia))). lra.
  - apply is_lim_seq_const.
  - apply (is_lim_seq_inv INR p_infty); [apply is_lim_seq_INR|discriminate].
Qed.
Lemma dl_lim x : 0 < x -> is_lim_seq (dlngamma_seq x) (real (Lim_seq (dlngamma_seq x))).
Proof. intros Hx. apply (lim_cvu_lim (x + 1)); [lra|apply dlngamma_tele; exact Hx]. Qed.
Lemma euler_gamma_lim :
  is_lim_seq (fun n => sum_f_R0 (fun k => / INR (S k)) n - ln (INR (S n))) euler_gamma.
Proof.
  assert (H : is_lim_seq (fun n => sum_f_R0 (fun k => / INR (S k)) n - ln (INR (S n)))
                (- real (Lim_seq (dlngamma_seq 1)) - 0)).
  { apply is_lim_seq_ext with (fun n => - dlngamma_seq 1 n - (ln (INR (S n)) - ln (INR n))).
    - intros n. unfold dlngamma_seq.
      replace (sum_f_R0 (fun k => / (1 + INR k)) n) with (sum_f_R0 (fun k => / INR (S k)) n); [ring|].
      apply sum_eq. intros k _. rewrite S_INR. f_equal. ring.
    - apply is_lim_seq_minus'; [|apply ln_succ_lim]. apply lim_opp, dl_lim. lra. }
  unfold euler_gamma. rewrite (is_lim_seq_unique _ _ H). exact H.
Qed.
Lemma digamma_series x : 0 < x ->
  is_series (fun k => / INR (S k) - / (x + INR k)) (euler_gamma + real (Lim_seq (dlngamma_seq x))).
Proof.
  intros Hx. apply lim_series, is_lim_seq_ext with (fun n =>
      (sum_f_R0 (fun k => / INR (S k)) n - ln (INR (S n))) + (dlngamma_seq x n + (ln (INR (S n)) - ln (INR n)))).
  - intros n. rewrite minus_sum. unfold dlngamma_seq. ring.
  - apply is_lim_seq_plus'; [apply euler_gamma_lim|].
    replace (real (Lim_seq (dlngamma_seq x))) with (real (Lim_seq (dlngamma_seq x)) + 0) by ring.
    apply is_lim_seq_plus'; [apply dl_lim; exact Hx|apply ln_succ_lim].
Qed.
Lemma digamma_lim x : 0 < x -> digamma x = real (Lim_seq (dlngamma_seq x)).
Proof. intros Hx. unfold digamma. rewrite (is_series_unique _ _ (digamma_series x Hx)). ring. Qed.
Lemma lngamma_derive x : 0 < x -> is_derive lngamma x (digamma x).
Proof. intros Hx. rewrite digamma_lim by exact Hx. apply lngamma_derive_lim, Hx. Qed.

(** ** functional equations *)
Lemma ln_shift_lim x : 0 < x -> is_lim_seq (fun n => ln (INR n) - ln (x + INR (S n))) 0.
Proof.
  intros Hx.
  apply is_lim_seq_ext with (fun n => - (ln (INR (S n)) - ln (INR n)) - (ln (x + INR (S n)) - ln (INR (S n)))).
  { intros n. ring. }
  replace 0 with (- 0 - 0) by ring. apply is_lim_seq_minus'; [apply lim_opp, ln_succ_lim|].
  apply (is_lim_seq_le_le (fun _ => 0) _ (fun n => x * / INR (S n))).
  - intros n. pose proof (ln_ratio x (S n) Hx ltac:(lia)) as L.
    pose proof (INR_pos (S n) ltac:(lia)).
    assert (0 < x / (x + INR (S n))) by (apply Rdiv_lt_0_compat; lra). unfold Rdiv in *. lra.
  - apply is_lim_seq_const.
  - replace 0 with (x * 0) by ring. apply (is_lim_seq_scal_l _ x 0).
    apply (is_lim_seq_inv (fun n => INR (S n)) p_infty); [|discriminate].
    apply (is_lim_seq_incr_1 INR), is_lim_seq_INR.
Qed.
Lemma sum_shift (f : nat -> R) n : sum_f_R0 (fun k => f (S k)) n = sum_f_R0 f (S n) - f O.
Proof. induction n as [|n IH]; [cbn; ring|]. rewrite tech5, IH, !tech5. ring. Qed.
Lemma lngamma_succ x : 0 < x -> lngamma (x + 1) = lngamma x + ln x.
Proof.
  intros Hx. assert (H : is_lim_seq (lngamma_seq (x + 1)) (lngamma x + (0 + ln x))).
  { apply is_lim_seq_ext with (fun n => lngamma_seq x n + ((ln (INR n) - ln (x + INR (S n))) + ln x)).
    - intros n. unfold lngamma_seq.
      rewrite (sum_eq (fun k => ln (x + 1 + INR k)) (fun k => (fun m => ln (x + INR m)) (S k))).
      + rewrite (sum_shift (fun m => ln (x + INR m))), tech5. rewrite Rplus_0_r. ring.
      + intros k _. cbv beta. rewrite S_INR. f_equal. ring.
    - apply is_lim_seq_plus'; [apply lngamma_lim, Hx|].
      apply is_lim_seq_plus'; [apply ln_shift_lim, Hx|apply is_lim_seq_const]. }
  unfold lngamma at 1. rewrite (is_lim_seq_unique _ _ H). cbn. ring.
Qed.
Lemma ln_fact_sum n : sum_f_R0 (fun k => ln (1 + INR k)) n = ln (INR (fact (S n))).
Proof.
  induction n as [|n IH]; [cbn [sum_f_R0 fact]; cbn; rewrite Rplus_0_r; reflexivity|].
  rewrite tech5, IH, (fact_simpl (S n)), mult_INR, ln_mult; [|apply lt_0_INR; lia|apply INR_fact_lt_0].
  rewrite (S_INR (S n)). rewrite (Rplus_comm 1). ring.
Qed.
Lemma lngamma_1 : lngamma 1 = 0.
Proof.
  assert (H : is_lim_seq (lngamma_seq 1) (- 0)).
  { apply is_lim_seq_ext with (fun n => - (ln (INR (S n)) - ln (INR n))).
    - intros n. unfold lngamma_seq. rewrite ln_fact_sum, fact_simpl, mult_INR, ln_mult;
        [ring|apply lt_0_INR; lia|apply INR_fact_lt_0].
    - apply lim_opp, ln_succ_lim. }
  unfold lngamma. rewrite (is_lim_seq_unique _ _ H). cbn. ring.
Qed.
Lemma lngamma_fact n : lngamma (INR n + 1) = ln (INR (fact n)).
Proof.
  induction n as [|n IH].
  - cbn. rewrite Rplus_0_l, ln_1. apply lngamma_1.
  - rewrite S_INR, lngamma_succ, IH, fact_simpl, mult_INR, ln_mult, S_INR;
      [ring|apply lt_0_INR; lia|apply INR_fact_lt_0|pose proof (pos_INR n); lra].
Qed.
Lemma lngamma_2 : lngamma 2 = 0.
Proof. replace 2 with (INR 1 + 1) by (cbn; lra). rewrite lngamma_fact. cbn. apply ln_1. Qed.

Lemma digamma_succ x : 0 < x -> digamma (x + 1) = digamma x + / x.
Proof.
  intros Hx. rewrite !digamma_lim by lra.
  assert (H : is_lim_seq (dlngamma_seq (x + 1)) (real (Lim_seq (dlngamma_seq x)) + (/ x - 0))).
  { apply is_lim_seq_ext with (fun n => dlngamma_seq x n + (/ x - / (x + INR (S n)))).
    - intros n. unfold dlngamma_seq.
      rewrite (sum_eq (fun k => / (x + 1 + INR k)) (fun k => (fun m => / (x + INR m)) (S k))).
      + rewrite (sum_shift (fun m => / (x + INR m))), tech5. rewrite Rplus_0_r. ring.
      + intros k _. cbv beta. rewrite S_INR. f_equal. ring.
    - apply is_lim_seq_plus'; [apply dl_lim, Hx|].
      apply is_lim_seq_minus'; [apply is_lim_seq_const|].
      apply (is_lim_seq_le_le (fun _ => 0) _ (fun n => / INR (S n))).
      + intros n. pose proof (INR_pos (S n) ltac:(lia)). split.
        * left. apply Rinv_0_lt_compat. lra.
        * apply Rinv_le_contravar; lra.
      + apply is_lim_seq_const.
      + apply (is_lim_seq_inv (fun n => INR (S n)) p_infty); [|discriminate].
        apply (is_lim_seq_incr_1 INR), is_lim_seq_INR. }
  rewrite (is_lim_seq_unique _ _ H). cbn. ring.
Qed.
Lemma digamma_1 : digamma 1 = - euler_gamma.
Proof.
  unfold digamma. rewrite (is_series_unique _ 0); [ring|].
  apply lim_series, is_lim_seq_ext with (fun _ => 0); [|apply is_lim_seq_const].
  intros n. symmetry. apply sum_eq_R0. intros k _. rewrite S_INR.
  rewrite (Rplus_comm 1). ring.
Qed.
Lemma series_ge (a : nat -> R) (l : R) n : is_series a l -> (forall k, 0 <= a k) -> sum_f_R0 a n <= l.
Proof.
  intros H P. apply series_lim in H.
  apply (is_lim_seq_le_loc (fun _ => sum_f_R0 a n) (sum_f_R0 a) (sum_f_R0 a n) l); [|apply is_lim_seq_const|exact H].
  exists n. intros m Hm. induction Hm as [|m Hm IH]; [lra|]. rewrite tech5. pose proof (P (S m)). lra.
Qed.
Lemma digamma_diff x y : 0 < x -> 0 < y ->
  is_series (fun k => / (x + INR k) - / (y + INR k)) (digamma y - digamma x).
Proof.
  intros Hx Hy. apply lim_series.
  pose proof (series_lim _ _ (digamma_series x Hx)) as Sx. pose proof (series_lim _ _ (digamma_series y Hy)) as Sy.
  rewrite !digamma_lim by assumption.
  replace (real (Lim_seq (dlngamma_seq y)) - real (Lim_seq (dlngamma_seq x))) with
    ((euler_gamma + real (Lim_seq (dlngamma_seq y))) - (euler_gamma + real (Lim_seq (dlngamma_seq x)))) by ring.
  eapply is_lim_seq_ext; [|apply is_lim_seq_minus'; [exact Sy|exact Sx]].
  intros n. cbv beta. rewrite <- minus_sum. apply sum_eq. intros k _. ring.
Qed.
Lemma digamma_incr x y : 0 < x -> x < y -> digamma x < digamma y.
Proof.
  intros Hx Hxy. pose proof (digamma_diff x y Hx ltac:(lra)) as M.
  apply (series_ge _ _ 0) in M.
  2:{ intros k. pose proof (pos_INR k).
      assert (/ (y + INR k) <= / (x + INR k)) by (apply Rinv_le_contravar; lra). lra. }
  cbn in M. rewrite !Rplus_0_r in M.
  assert (/ y < / x) by (apply Rinv_lt_contravar; [apply Rmult_lt_0_compat; lra|exact Hxy]). lra.
Qed.
