(** The derivative of the digamma function and the convexity facts that follow from it.  The trigamma
    function does not occur in the code: it is the second derivative of the log-normalizers made of
    [lngamma], so the strict convexity of those log-normalizers is a statement about it. *)
From Coquelicot Require Import Coquelicot.
From Coq Require Import Reals Lra Lia List.
From Verif Require Import SpecFun GammaFn.
Open Scope R_scope.

Definition trigamma (x : R) : R := Series (fun k => / (x + INR k) ^ 2).
Definition tri_seq (x : R) (n : nat) : R := sum_f_R0 (fun k => / (x + INR k) ^ 2) n.

Lemma tri_tele x : 0 < x -> tele 1 (tri_seq x).
Proof.
  intros Hx n Hn. unfold tri_seq. rewrite tech5.
  pose proof (INR_pos n ltac:(lia)) as P. 
  assert (Pu : 0 < x + INR (S n)) by (rewrite S_INR; lra).
  assert (B : / (x + INR (S n)) ^ 2 <= / INR n - / INR (S n)).
  { rewrite S_INR in *. replace (/ INR n - / (INR n + 1)) with (/ (INR n * (INR n + 1))) by (field; lra).
    apply Rinv_le_contravar; [apply Rmult_lt_0_compat; lra|]. nra. }
  assert (0 < / (x + INR (S n)) ^ 2) by (apply Rinv_0_lt_compat, pow_lt, Pu).
  split; lra.
Qed.
Lemma dl_seq_derive x n : 0 < x -> is_derive (fun y => dlngamma_seq y n) x (tri_seq x n).
Proof.
  intros Hx. unfold dlngamma_seq, tri_seq.
  replace (sum_f_R0 (fun k => / (x + INR k) ^ 2) n) with (0 - sum_f_R0 (fun k => - / (x + INR k) ^ 2) n).
  2:{ induction n; cbn [sum_f_R0]; [ring|]. rewrite <- IHn. ring. }
  apply (is_derive_minus (K := R_AbsRing) (V := R_NormedModule)); [apply (is_derive_const (K := R_AbsRing) (V := R_NormedModule))|].
  induction n as [|n IH].
  - cbn [sum_f_R0]. auto_derive; [cbn; lra|]. cbn. field. lra.
  - cbn [sum_f_R0]. apply (is_derive_plus (K := R_AbsRing) (V := R_NormedModule)); [exact IH|].
    pose proof (pos_INR (S n)) as P. revert P. generalize (INR (S n)). intros r P. auto_derive; [lra|]. field. lra.
Qed.

Lemma tri_lim x : 0 < x -> is_lim_seq (tri_seq x) (trigamma x).
Proof.
  intros Hx. assert (L : is_lim_seq (tri_seq x) (real (Lim_seq (tri_seq x)))).
  { apply (lim_cvu_lim 1); [lra|apply tri_tele, Hx]. }
  pose proof (lim_series _ _ L) as S. unfold trigamma. rewrite (is_series_unique _ _ S). exact L.
Qed.
Lemma trigamma_series x : 0 < x -> is_series (fun k => / (x + INR k) ^ 2) (trigamma x).
Proof. intros Hx. apply lim_series, (tri_lim x Hx). Qed.
Lemma cont_tri x n : 0 < x -> continuity_pt (fun y => tri_seq y n) x.
Proof.
  intros Hx. unfold tri_seq. induction n as [|n IH].
  - cbn [sum_f_R0]. apply continuity_pt_inv; [|cbn; nra]. reg.
  - cbn [sum_f_R0]. apply (continuity_pt_plus (fun y => sum_f_R0 (fun k => / (y + INR k) ^ 2) n)); [exact IH|].
    pose proof (pos_INR (S n)). apply continuity_pt_inv; [|nra]. reg.
Qed.
(** Trigamma is the derivative of digamma. *)
Lemma digamma_derive x : 0 < x -> is_derive digamma x (trigamma x).
Proof.
  intros Hx. set (D := seg (x / 2) (x + 1)).
  assert (Dpos : forall y, D y -> 0 < y /\ y < x + 1) by (intros y [A B]; split; lra).
  assert (E : forall n y, D y -> Derive (fun z => dlngamma_seq z n) y = tri_seq y n).
  { intros n y Dy. apply is_derive_unique, dl_seq_derive, Dpos, Dy. }
  assert (Dx : D x) by (unfold D, seg; lra).
  apply (is_derive_ext_loc (fun y => real (Lim_seq (dlngamma_seq y)))).
  { destruct (open_seg (x / 2) (x + 1) x Dx) as [d Hd]. exists d. intros z Hz.
    symmetry. apply digamma_lim, Dpos, Hd, Hz. }
  replace (trigamma x) with (real (Lim_seq (fun n => Derive (fun z => dlngamma_seq z n) x))).
  2:{ rewrite (is_lim_seq_unique (fun n => Derive (fun z => dlngamma_seq z n) x) (trigamma x)); [reflexivity|].
      eapply is_lim_seq_ext; [|apply (tri_lim x Hx)]. intros n. cbv beta. rewrite E by exact Dx. reflexivity. }
  apply (CVU_Derive (fun n z => dlngamma_seq z n) D).
  - apply open_seg.
  - apply conn_seg.
  - apply (tele_cvu D _ (x + 2)); [lra|]. intros y Dy. destruct (Dpos y Dy).
    eapply tele_le; [apply dlngamma_tele; lra|]. lra.
  - intros n y Dy. eexists. apply dl_seq_derive, Dpos, Dy.
  - intros n y Dy. destruct (Dpos y Dy) as [Py _].
    apply continuity_pt_ext_loc with (f := fun z => tri_seq z n).
    + destruct (open_seg (x / 2) (x + 1) y Dy) as [d Hd]. exists d. intros z Hz. symmetry. apply E, Hd, Hz.
    + apply cont_tri; exact Py.
  - apply (tele_cvu D _ 1); [lra|]. intros y Dy. destruct (Dpos y Dy).
    intros n Hn. rewrite !E by exact Dy. revert n Hn. change (tele 1 (tri_seq y)). apply tri_tele. lra.
  - exact Dx.
Qed.
Lemma trigamma_pos x : 0 < x -> 0 < trigamma x.
Proof.
  intros Hx. pose proof (series_ge _ _ 0 (trigamma_series x Hx)) as G. cbn [sum_f_R0 INR] in G.
  eapply Rlt_le_trans; [|apply G].
  - apply Rinv_0_lt_compat, pow_lt. lra.
  - intros k. pose proof (pos_INR k). apply Rlt_le, Rinv_0_lt_compat, pow_lt. lra.
Qed.

(** [x * trigamma x] is strictly decreasing: it is [1] plus a series of strictly decreasing terms. *)
Definition tH (x k : R) : R := - k / (x + k) - k / (2 * (x + k) ^ 2).
Definition tf (x k : R) : R := x / (x + k) ^ 2 - tH x k + tH x (k + 1).
Lemma tf_eq x k : 0 < x -> 0 <= k -> tf x k = x * / (x + k) ^ 2 - tH x k + tH x (k + 1).
Proof. reflexivity. Qed.
Lemma tf_derive x k : 0 < x -> 0 <= k ->
  is_derive (fun y => tf y k) x
    ((k - x) / (x + k) ^ 3 - (k / (x + k) ^ 2 + k / (x + k) ^ 3) + ((k + 1) / (x + (k + 1)) ^ 2 + (k + 1) / (x + (k + 1)) ^ 3)).
Proof.
  intros Hx Hk. unfold tf, tH. auto_derive.
  - repeat split; try lra; apply Rgt_not_eq; repeat apply Rmult_lt_0_compat; lra.
  - field. lra.
Qed.
Lemma tf_d_neg x k : 0 < x -> 0 <= k ->
  (k - x) / (x + k) ^ 3 - (k / (x + k) ^ 2 + k / (x + k) ^ 3) + ((k + 1) / (x + (k + 1)) ^ 2 + (k + 1) / (x + (k + 1)) ^ 3) < 0.
Proof.
  intros Hx Hk. set (u := x + k). replace k with (u - x) by (unfold u; ring). replace (x + (u - x + 1)) with (u + 1) by ring.
  assert (Hu : x <= u) by (unfold u; lra). clearbody u.
  match goal with |- ?a < 0 => replace a with (- ((u + 1) * u * u + x * (2 * u + 1)) / (u ^ 3 * (u + 1) ^ 3)) end.
  2:{ field. lra. }
  assert (0 < u ^ 3 * (u + 1) ^ 3) by (apply Rmult_lt_0_compat; apply pow_lt; lra).
  assert (0 < (u + 1) * u * u + x * (2 * u + 1)).
  { apply Rplus_lt_0_compat; repeat apply Rmult_lt_0_compat; lra. }
  apply Ropp_lt_cancel. rewrite Ropp_0. unfold Rdiv. rewrite Ropp_mult_distr_l, Ropp_involutive.
  apply Rmult_lt_0_compat; [assumption|]. apply Rinv_0_lt_compat. assumption.
Qed.
Lemma tf_decr x y k : 0 < x -> x < y -> 0 <= k -> tf y k < tf x k.
Proof.
  intros Hx Hxy Hk.
  destruct (MVT_cor2 (fun z => tf z k) (fun z => (k - z) / (z + k) ^ 3 - (k / (z + k) ^ 2 + k / (z + k) ^ 3)
     + ((k + 1) / (z + (k + 1)) ^ 2 + (k + 1) / (z + (k + 1)) ^ 3)) x y Hxy) as (c & E & C).
  { intros c C. apply is_derive_Reals, tf_derive; lra. }
  pose proof (tf_d_neg c k ltac:(lra) Hk) as N. cbv beta in E. nra.
Qed.
Lemma tf_sum x n : 0 < x ->
  sum_f_R0 (fun k => tf x (INR k)) n = x * tri_seq x n + tH x (INR (S n)).
Proof.
  intros Hx. unfold tri_seq. induction n as [|n IH].
  - cbn [sum_f_R0]. unfold tf, tH. cbn [INR]. field. lra.
  - rewrite !tech5, IH. rewrite (S_INR (S n)). unfold tf, Rdiv. ring.
Qed.
Lemma tH_lim x : 0 < x -> is_lim_seq (fun n => tH x (INR (S n))) (-1).
Proof.
  intros Hx.
  assert (I : is_lim_seq (fun n => / (x + INR (S n))) 0).
  { apply is_lim_seq_inv with (l := p_infty); [|discriminate].
    apply (is_lim_seq_le_p_loc INR); [|apply is_lim_seq_INR]. exists 0%nat. intros n _. rewrite S_INR. lra. }
  apply is_lim_seq_ext with (fun n => - (1 - x * / (x + INR (S n)))
      - / 2 * (/ (x + INR (S n)) * (1 - x * / (x + INR (S n))))).
  { intros n. pose proof (pos_INR (S n)). unfold tH. field. lra. }
  replace (-1) with (- (1 - x * 0) - / 2 * (0 * (1 - x * 0))) by ring.
  assert (J : is_lim_seq (fun n => 1 - x * / (x + INR (S n))) (1 - x * 0)).
  { apply is_lim_seq_minus'; [apply is_lim_seq_const|]. apply (is_lim_seq_scal_l _ x 0), I. }
  apply is_lim_seq_minus'; [apply lim_opp, J|]. apply (is_lim_seq_scal_l _ (/ 2) (Finite (0 * (1 - x * 0)))).
  apply is_lim_seq_mult'; assumption.
Qed.
Lemma tf_series x : 0 < x -> is_series (fun k => tf x (INR k)) (x * trigamma x - 1).
Proof.
  intros Hx. apply lim_series. eapply is_lim_seq_ext; [intros n; symmetry; apply tf_sum, Hx|].
  apply is_lim_seq_plus'; [|apply tH_lim, Hx]. apply (is_lim_seq_scal_l _ x (Finite (trigamma x))), tri_lim, Hx.
Qed.
Lemma series_minus (a b : nat -> R) (la lb : R) :
  is_series a la -> is_series b lb -> is_series (fun k => a k - b k) (la - lb).
Proof.
  intros A B. apply lim_series. apply series_lim in A. apply series_lim in B.
  eapply is_lim_seq_ext; [|apply is_lim_seq_minus'; [exact A|exact B]].
  intros n. cbv beta. symmetry. apply minus_sum.
Qed.
Lemma xtrigamma_decr x y : 0 < x -> x < y -> y * trigamma y < x * trigamma x.
Proof.
  intros Hx Hxy. pose proof (series_minus _ _ _ _ (tf_series x Hx) (tf_series y ltac:(lra))) as S.
  pose proof (series_ge _ _ 0 S) as G. cbn [sum_f_R0] in G.
  pose proof (tf_decr x y (INR 0) Hx Hxy ltac:(cbn; lra)) as P.
  assert (tf x (INR 0) - tf y (INR 0) <= x * trigamma x - 1 - (y * trigamma y - 1)); [|lra].
  apply G. intros k. pose proof (tf_decr x y (INR k) Hx Hxy (pos_INR k)). lra.
Qed.

(** Digamma grows faster than the logarithm. *)
Lemma digamma_ln_incr x y : 0 < x -> x < y -> digamma x - ln x < digamma y - ln y.
Proof.
  intros Hx Hxy.
  set (l := fun k : nat => ln (y + INR k) - ln (x + INR k)).
  assert (L0 : is_lim_seq (fun n => l (S n)) 0).
  { apply (is_lim_seq_le_le_loc (fun _ => 0) _ (fun n => (y - x) * / (x + INR (S n)))).
    - exists 0%nat. intros n _. unfold l. pose proof (pos_INR (S n)). set (k := INR (S n)) in *.
      assert (Q : 0 < (y + k) / (x + k)) by (apply Rdiv_lt_0_compat; lra).
      rewrite <- ln_div by lra. split.
      + rewrite <- ln_1. apply Rlt_le, ln_increasing; [lra|].
        apply (Rmult_lt_reg_r (x + k)); [lra|]. unfold Rdiv. rewrite Rmult_assoc, Rinv_l by lra. lra.
      + replace ((y - x) * / (x + k)) with ((y + k) / (x + k) - 1) by (field; lra). apply ln_le_sub1, Q.
    - apply is_lim_seq_const.
    - replace (Finite 0) with (Finite ((y - x) * 0)) by (f_equal; ring).
      apply (is_lim_seq_scal_l _ (y - x) 0).
      apply is_lim_seq_inv with (l := p_infty); [|discriminate].
      apply (is_lim_seq_le_p_loc INR); [|apply is_lim_seq_INR]. exists 0%nat. intros n _. rewrite S_INR. lra. }
  assert (S : is_series (fun k => l k - l (S k)) (l 0%nat)).
  { apply lim_series. apply is_lim_seq_ext with (fun n => l 0%nat - l (S n)).
    - induction n as [|n IH]; [reflexivity|]. rewrite tech5, <- IH. ring.
    - replace (l 0%nat) with (l 0%nat - 0) at 1 by ring. apply is_lim_seq_minus'; [apply is_lim_seq_const|exact L0]. }
  assert (T : forall k, l k - l (Datatypes.S k) < / (x + INR k) - / (y + INR k)).
  { intros k. unfold l. rewrite S_INR. pose proof (pos_INR k) as Pk. set (u := INR k) in *.
    assert (Q : 0 < (y + u) / (x + u) * ((x + (u + 1)) / (y + (u + 1)))).
    { apply Rmult_lt_0_compat; apply Rdiv_lt_0_compat; lra. }
    assert (E : ln (y + u) - ln (x + u) - (ln (y + (u + 1)) - ln (x + (u + 1)))
       = ln ((y + u) / (x + u) * ((x + (u + 1)) / (y + (u + 1))))).
    { rewrite ln_mult by (apply Rdiv_lt_0_compat; lra). rewrite !ln_div by lra. ring. }
    rewrite E. pose proof (ln_le_sub1 _ Q) as B.
    assert (F : (y + u) / (x + u) * ((x + (u + 1)) / (y + (u + 1))) - 1 = (y - x) * / (x + u) * / (y + (u + 1))) by (field; lra).
    assert (F' : / (x + u) - / (y + u) = (y - x) * / (x + u) * / (y + u)) by (field; lra).
    rewrite F in B. rewrite F'. eapply Rle_lt_trans; [exact B|].
    apply Rmult_lt_compat_l.
    - apply Rmult_lt_0_compat; [lra|]. apply Rinv_0_lt_compat. lra.
    - apply Rinv_lt_contravar; [apply Rmult_lt_0_compat; lra|lra]. }
  pose proof (series_minus _ _ _ _ (digamma_diff x y Hx ltac:(lra)) S) as M.
  pose proof (series_ge _ _ 0 M) as G. cbn [sum_f_R0] in G.
  assert (A : 0 < digamma y - digamma x - l 0%nat).
  { eapply Rlt_le_trans; [|apply G].
    - pose proof (T 0%nat). lra.
    - intros k. pose proof (T k). lra. }
  unfold l in A. cbn [INR] in A. rewrite !Rplus_0_r in A. lra.
Qed.
