(** Analysis of the modified Bessel functions of the first kind: the series of SpecFun.bessel_i, its derivative, the
    recurrence, and I_{v+1} < I_v. *)
From Coquelicot Require Import Coquelicot.
From Coq Require Import Reals List Lia Lra.
From Verif Require Import SpecFun GammaFn.
Local Open Scope R_scope.
Local Unset Asymmetric Patterns.

Definition bc (v : R) (k : nat) : R := / (INR (fact k) * exp (lngamma (v + INR k + 1))).
Definition bS (v x : R) : R := PSeries (bc v) x.

Lemma fact_pos k : 0 < INR (fact k).
Proof. apply lt_0_INR, lt_O_fact. Qed.
Lemma bc_pos v k : 0 < bc v k.
Proof. apply Rinv_0_lt_compat, Rmult_lt_0_compat; [apply fact_pos|apply exp_pos]. Qed.
Lemma bc_succ v k : -1 < v -> bc v (S k) = bc v k / (INR (S k) * (v + INR k + 1)).
Proof.
  intros Hv. unfold bc. rewrite fact_simpl, mult_INR. replace (v + INR (S k) + 1) with (v + INR k + 1 + 1) by (rewrite S_INR; ring). pose proof (pos_INR k).
  rewrite lngamma_succ, exp_plus, exp_ln by lra. pose proof (fact_pos k). pose proof (exp_pos (lngamma (v + INR k + 1))). pose proof (lt_0_INR (S k) ltac:(lia)). field. repeat split; lra.
Qed.
Lemma bc_cv v : -1 < v -> CV_radius (bc v) = p_infty.
Proof.
  intros Hv. apply CV_radius_infinite_DAlembert; [intros k; pose proof (bc_pos v k); lra|].
  apply is_lim_seq_ext with (fun k => / (INR (S k) * (v + INR k + 1))).
  - intros k. rewrite bc_succ by lra. pose proof (bc_pos v k). pose proof (pos_INR k). pose proof (lt_0_INR (S k) ltac:(lia)).
    replace (bc v k / (INR (S k) * (v + INR k + 1)) / bc v k) with (/ (INR (S k) * (v + INR k + 1))) by (field; repeat split; lra).
    rewrite Rabs_right; [reflexivity|]. left. apply Rinv_0_lt_compat, Rmult_lt_0_compat; lra.
  - replace (Finite 0) with (Rbar_inv p_infty) by reflexivity. apply is_lim_seq_inv; [|discriminate].
    replace p_infty with (Rbar_mult p_infty p_infty) by (cbn; reflexivity). apply is_lim_seq_mult with p_infty p_infty; [apply -> is_lim_seq_incr_1; apply is_lim_seq_INR| |reflexivity].
    apply is_lim_seq_ext with (fun k => INR k + (v + 1)); [intros; ring|]. eapply is_lim_seq_plus; [apply is_lim_seq_INR|apply is_lim_seq_const|reflexivity].
Qed.
Lemma bc_derive v k : PS_derive (bc v) k = bc (v + 1) k.
Proof.
  unfold PS_derive, bc. rewrite fact_simpl, mult_INR. replace (v + INR (S k) + 1) with (v + 1 + INR k + 1) by (rewrite S_INR; ring).
  pose proof (fact_pos k). pose proof (exp_pos (lngamma (v + 1 + INR k + 1))). pose proof (lt_0_INR (S k) ltac:(lia)). field. repeat split; lra.
Qed.
Lemma bS_derive v x : -1 < v -> is_derive (bS v) x (bS (v + 1) x).
Proof.
  intros Hv. unfold bS. rewrite <- (PSeries_ext (PS_derive (bc v)) (bc (v + 1)) x (bc_derive v)). apply is_derive_PSeries. rewrite bc_cv by exact Hv. exact I.
Qed.
Lemma bc_ex v x : -1 < v -> ex_pseries (bc v) x.
Proof. intros Hv. apply CV_disk_correct. apply CV_disk_inside. rewrite bc_cv by exact Hv. exact I. Qed.
Lemma bS_pos v x : -1 < v -> 0 <= x -> 0 < bS v x.
Proof.
  intros Hv Hx. unfold bS. rewrite PSeries_decr_1 by now apply bc_ex. pose proof (bc_pos v 0).
  assert (0 <= PSeries (PS_decr_1 (bc v)) x).
  { unfold PSeries. rewrite <- (Rmult_0_l (Series (fun _ => 0))) at 1. rewrite <- Series_scal_l. apply Series_le.
    - intros k. rewrite Rmult_0_l. split; [lra|]. apply Rmult_le_pos; [left; apply bc_pos|now apply pow_le].
    - assert (K : ex_pseries (PS_decr_1 (bc v)) x).
      { apply (ex_pseries_decr_1 (bc v) x); [|now apply bc_ex]. destruct (Req_dec x 0) as [E|E]; [now left|right]. exists (/ x). change (/ x * x = 1). now field. }
      exact (proj1 (ex_pseries_R _ _) K). }
  assert (0 <= x * PSeries (PS_decr_1 (bc v)) x) by now apply Rmult_le_pos. lra.
Qed.
Lemma bS_rec v x : -1 < v -> x * bS (v + 2) x = bS v x - (v + 1) * bS (v + 1) x.
Proof.
  intros Hv. unfold bS. rewrite <- PSeries_incr_1, <- (PSeries_scal (v + 1)), <- PSeries_minus; [|now apply bc_ex|apply ex_pseries_scal; [apply Rmult_comm|apply bc_ex; lra]].
  apply PSeries_ext. intros k. unfold PS_minus, PS_scal, PS_incr_1, PS_plus, PS_opp. cbn. change mult with Rmult. change scal with Rmult. change plus with Rplus. change opp with Ropp.
  destruct k as [|k].
  - change (0 = bc v 0 + - ((v + 1) * bc (v + 1) 0)). unfold bc. cbn [INR fact]. replace (v + 1 + 0 + 1) with (v + 0 + 1 + 1) by ring. rewrite (lngamma_succ (v + 0 + 1)), exp_plus, exp_ln by lra.
    pose proof (exp_pos (lngamma (v + 0 + 1))). field. split; lra.
  - change (bc (v + 2) k = bc v (S k) + - ((v + 1) * bc (v + 1) (S k))). unfold bc. rewrite fact_simpl, mult_INR. rewrite S_INR. pose proof (pos_INR k).
    replace (v + 2 + INR k + 1) with (v + (INR k + 1) + 1 + 1) by ring. replace (v + 1 + (INR k + 1) + 1) with (v + (INR k + 1) + 1 + 1) by ring.
    replace (v + (INR k + 1) + 1) with (v + INR k + 2) by ring.
    rewrite lngamma_succ, exp_plus, exp_ln by lra. pose proof (fact_pos k). pose proof (exp_pos (lngamma (v + INR k + 2))). field. repeat split; lra.
Qed.
(** I_v in terms of the series *)
Lemma bessel_bS v z : 0 < z -> bessel_i v z = Rpower (z / 2) v * bS v (z * z / 4).
Proof.
  intros Hz. unfold bessel_i, bS, PSeries. f_equal. apply Series_ext. intros k. unfold bc. rewrite pow_mult. replace ((z / 2) ^ 2) with (z * z / 4) by field.
  unfold Rdiv at 1. ring.
Qed.
Lemma bessel_pos v z : -1 < v -> 0 < z -> 0 < bessel_i v z.
Proof. intros Hv Hz. rewrite bessel_bS by exact Hz. apply Rmult_lt_0_compat; [apply exp_pos|]. apply bS_pos; [exact Hv|]. assert (0 < z * z) by now apply Rmult_lt_0_compat. lra. Qed.
Lemma bessel_ratio v z : -1 < v -> 0 < z -> bessel_i (v + 1) z / bessel_i v z = z / 2 * (bS (v + 1) (z * z / 4) / bS v (z * z / 4)).
Proof.
  intros Hv Hz. rewrite !bessel_bS by exact Hz. rewrite Rpower_plus, Rpower_1 by lra. assert (0 < z * z / 4) by (assert (0 < z * z) by (now apply Rmult_lt_0_compat); lra).
  pose proof (bS_pos v (z * z / 4) Hv ltac:(lra)). assert (0 < Rpower (z / 2) v) by apply exp_pos. field. split; lra.
Qed.
(** A^2 - x B^2 grows: its derivative is (2 v + 1) B^2 *)
Lemma bS_wronskian v x : -1 < v -> is_derive (fun x => bS v x * bS v x - x * (bS (v + 1) x * bS (v + 1) x)) x ((2 * v + 1) * (bS (v + 1) x * bS (v + 1) x)).
Proof.
  intros Hv. pose proof (bS_derive v x Hv) as D0. pose proof (bS_derive (v + 1) x ltac:(lra)) as D1. replace (v + 1 + 1) with (v + 2) in D1 by ring.
  evar_last. { apply @is_derive_minus. apply @is_derive_mult; [exact D0|exact D0|intros; apply Rmult_comm]. apply @is_derive_mult; [apply @is_derive_id| |intros; apply Rmult_comm].
    apply @is_derive_mult; [exact D1|exact D1|intros; apply Rmult_comm]. }
  change minus with Rminus. change plus with Rplus. change mult with Rmult. change one with 1. cbn.
  pose proof (bS_rec v x Hv) as E. set (a := bS v x) in *. set (b := bS (v + 1) x) in *. set (c := bS (v + 2) x) in *. replace a with (x * c + (v + 1) * b) by lra. ring.
Qed.
Lemma bS_ratio_lt v x : - (1 / 2) <= v -> 0 < x -> x * (bS (v + 1) x * bS (v + 1) x) < bS v x * bS v x.
Proof.
  intros Hv Hx. set (W := fun x => bS v x * bS v x - x * (bS (v + 1) x * bS (v + 1) x)). enough (W 0 <= W x).
  { assert (0 < W 0). { unfold W. pose proof (bS_pos v 0 ltac:(lra) ltac:(lra)). assert (0 < bS v 0 * bS v 0) by now apply Rmult_lt_0_compat. lra. } unfold W in *. lra. }
  destruct (MVT_cor2 W (fun x => (2 * v + 1) * (bS (v + 1) x * bS (v + 1) x)) 0 x Hx) as (c & E & _). { intros c _. apply is_derive_Reals. apply bS_wronskian. lra. }
  assert (0 <= (2 * v + 1) * (bS (v + 1) c * bS (v + 1) c) * (x - 0)). { apply Rmult_le_pos; [|lra]. apply Rmult_le_pos; [lra|apply Rle_0_sqr]. } lra.
Qed.
Lemma bessel_ratio_lt v z : - (1 / 2) <= v -> 0 < z -> 0 < bessel_i (v + 1) z / bessel_i v z < 1.
Proof.
  intros Hv Hz. pose proof (bessel_pos v z ltac:(lra) Hz). pose proof (bessel_pos (v + 1) z ltac:(lra) Hz). split; [now apply Rdiv_lt_0_compat|].
  rewrite bessel_ratio by lra. assert (Hx : 0 < z * z / 4) by (assert (0 < z * z) by (now apply Rmult_lt_0_compat); lra). pose proof (bS_ratio_lt v _ Hv Hx) as K.
  pose proof (bS_pos v (z * z / 4) ltac:(lra) ltac:(lra)) as A. pose proof (bS_pos (v + 1) (z * z / 4) ltac:(lra) ltac:(lra)) as B. set (a := bS v _) in *. set (b := bS (v + 1) _) in *.
  replace (z / 2 * (b / a)) with ((z / 2 * b) / a) by (field; lra). apply Rmult_lt_reg_r with a; [exact A|]. unfold Rdiv at 1. rewrite Rmult_assoc, Rinv_l, Rmult_1_r, Rmult_1_l by lra.
  apply Rsqr_incrst_0; [|apply Rmult_le_pos; lra|lra]. unfold Rsqr. replace (z / 2 * b * (z / 2 * b)) with (z * z / 4 * (b * b)) by field. exact K.
Qed.
(** d/dz (ln I_v(z) - v ln z) = I_{v+1}(z) / I_v(z) *)
Lemma bessel_log_derive v z : -1 < v -> 0 < z -> is_derive (fun z => ln (bessel_i v z) - v * ln z) z (bessel_i (v + 1) z / bessel_i v z).
Proof.
  intros Hv Hz. assert (Hx : 0 < z * z / 4) by (assert (0 < z * z) by (now apply Rmult_lt_0_compat); lra). pose proof (bS_pos v (z * z / 4) Hv ltac:(lra)) as A.
  apply is_derive_ext_loc with (fun z => - v * ln 2 + ln (bS v (z * z / 4))).
  - exists (mkposreal z Hz). intros y Hy. apply Rabs_lt_between' in Hy. cbn in Hy. assert (Hy' : 0 < y) by lra. assert (0 < y * y / 4) by (assert (0 < y * y) by (now apply Rmult_lt_0_compat); lra).
    rewrite bessel_bS by exact Hy'. rewrite ln_mult; [|apply exp_pos|apply bS_pos; lra]. unfold Rpower. rewrite ln_exp. unfold Rdiv at 2. rewrite ln_mult, ln_Rinv by lra. match goal with |- @eq _ ?a ?b => change (@eq R a b) end. ring.
  - rewrite bessel_ratio by assumption. evar_last.
    { apply @is_derive_plus; [apply @is_derive_const|]. apply (is_derive_comp (fun t => ln t) (fun z => bS v (z * z / 4))); [apply is_derive_Reals, derivable_pt_lim_ln; exact A|].
      apply (is_derive_comp (bS v) (fun z => z * z / 4)); [apply bS_derive; exact Hv|]. auto_derive; [exact I|reflexivity]. }
    change plus with Rplus. change zero with 0. change scal with Rmult. cbn. field. lra.
Qed.
