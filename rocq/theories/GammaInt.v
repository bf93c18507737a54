(** The integrals behind the normalisers: Gamma, Beta and Gauss. *)
From Coquelicot Require Import Coquelicot.
From Coq Require Import List Bool Arith Reals Lra Lia.
From Verif Require Import SpecFun GammaFn IntSpec IntFacts.
Import ListNotations.
Local Open Scope R_scope.

Lemma sg_int {X} (m : msr X) F v : sg m F v -> good m F -> (forall t, dom m t -> 0 <= F t) -> int m F v.
Proof.
  intros (A & B & a & b & HA & HB & H & ->) G P. destruct (int_dom m (F := F) HA G) as (v & Hv).
  - intros t Ht. pose proof (int_pos m HB t Ht). rewrite (H t Ht). specialize (P t Ht). rewrite (H t Ht) in P. lra.
  - replace (a - b) with v; [exact Hv|]. apply (sg_unique m F); [now apply int_sg|]. exists A, B, a, b. auto.
Qed.
Lemma pow_pos' x a : 0 < Rpower x a. Proof. apply exp_pos. Qed.
Lemma Rpower_m1 x a : 0 < x -> Rpower x (a - 1) * x = Rpower x a.
Proof. intros H. rewrite <- (Rpower_1 x H) at 2. rewrite <- Rpower_plus. f_equal. ring. Qed.
Lemma cont_pw x a : 0 < x -> continuous (fun y => Rpower y a) x.
Proof. intros H. apply (ex_derive_continuous (fun y => Rpower y a)). unfold Rpower. auto_derive. exact H. Qed.
Lemma der_pw x a : 0 < x -> is_derive (fun y => Rpower y a) x (a * Rpower x (a - 1)).
Proof.
  intros H. unfold Rpower. auto_derive; [exact H|]. replace (exp ((a - 1) * ln x)) with (exp (a * ln x) * / x); [field; lra|].
  replace ((a - 1) * ln x) with (a * ln x + - ln x) by ring. rewrite exp_plus, exp_Ropp, exp_ln by exact H. reflexivity.
Qed.
Lemma pw_small a : 0 < a -> filterlim (fun y => Rpower y a) (at_right 0) (locally 0).
Proof.
  intros Ha. intros Q [eps HQ]. pose proof (cond_pos eps) as Pe. exists (mkposreal (Rpower eps (/ a)) (pow_pos' _ _)). intros y Hy Py. apply HQ, ball_in. apply ball_out in Hy. cbn [pos] in Hy.
  assert (E : Rpower (Rpower eps (/ a)) a = eps) by (rewrite Rpower_mult, Rinv_l, Rpower_1 by lra; reflexivity).
  assert (Rpower y a < eps). { rewrite <- E. unfold Rpower at 1 2. apply exp_increasing. apply Rmult_lt_compat_l; [exact Ha|]. apply ln_increasing; lra. } pose proof (pow_pos' y a). lra.
Qed.
Lemma in01 t : inside 0 1 t -> 0 < t < 1. Proof. intros [A B]. cbn in A, B. lra. Qed.
Lemma in0p t : inside 0 p_infty t -> 0 < t. Proof. intros [A B]. exact A. Qed.
Lemma inmp t : inside m_infty p_infty t. Proof. split; exact Logic.I. Qed.
Lemma lim_at_left_cont (f : R -> R) b : continuous f b -> filterlim f (at_left b) (locally (f b)).
Proof. intros C. eapply filterlim_filter_le_1; [|exact C]. apply filter_le_within. Qed.
Lemma lim_at_right_cont (f : R -> R) b : continuous f b -> filterlim f (at_right b) (locally (f b)).
Proof. intros C. eapply filterlim_filter_le_1; [|exact C]. apply filter_le_within. Qed.
Lemma int_pw a : 0 < a -> nint 0 1 (fun u => Rpower u (a - 1)) (/ a).
Proof.
  intros Ha. replace (/ a) with (/ a * Rpower 1 a - / a * 0) by (rewrite Rpower_base_1 || (unfold Rpower; rewrite ln_1, Rmult_0_r, exp_0); ring).
  apply (nint_ftc 0 1 (fun u => Rpower u (a - 1)) (fun u => / a * Rpower u a) _ _ (1 / 2)).
  - split; cbn; lra.
  - intros t Ht. apply in01 in Ht. replace (Rpower t (a - 1)) with (/ a * (a * Rpower t (a - 1))) by (field; lra). apply (is_derive_scal (fun u => Rpower u a) t (/ a)). now apply der_pw.
  - intros t Ht. apply in01 in Ht. now apply cont_pw.
  - intros t Ht. apply Rlt_le, pow_pos'.
  - cbn. apply (filterlim_comp _ _ _ (fun u => Rpower u a) (fun y => / a * y) _ (locally 0)); [now apply pw_small|]. assert (C : continuous (fun y => / a * y) 0) by (apply (ex_derive_continuous (fun y => / a * y)); auto_derive; auto). exact C.
  - cbn. apply (lim_at_left_cont (fun u => / a * Rpower u a) 1). apply (continuous_scal_r (/ a) (fun y => Rpower y a)), cont_pw. lra.
Qed.
(** t |-> 1 - t *)
Lemma nint_flip F v : nint 0 1 F v -> nint 0 1 (fun t => F (1 - t)) v.
Proof.
  intros N. apply nint_opp in N. cbn in N. 
  assert (K := nint_subst 0 1 (- (1)) (- 0) _ v (fun t => t - 1) (fun _ => 1) N). eapply nint_ext; [|apply K].
  - intros t Ht. cbn. rewrite Rmult_1_r. f_equal. ring.
  - intros t Ht. apply in01 in Ht. split; cbn; lra.
  - intros s [A B]. cbn in A, B. exists (s + 1). split; [split; cbn; lra|ring].
  - intros t _. auto_derive; [exact Logic.I|ring].
  - intros t _. apply continuous_const.
  - intros; lra.
Qed.
Fixpoint bi (s : R) (n : nat) : R := match n with O => / s | S n' => bi s n' - bi (s + 1) n' end.
Lemma bi_int s n : 0 < s -> nint 0 1 (fun u => Rpower u (s - 1) * (1 - u) ^ n) (bi s n).
Proof.
  revert s. induction n as [|n IH]; intros s Hs.
  - cbn. eapply nint_ext; [|now apply int_pw]. intros t _. cbn. ring.
  - apply (sg_int (line 0 1)).
    + cbn [bi]. apply sg_ext with (fun u => Rpower u (s - 1) * (1 - u) ^ n - Rpower u (s + 1 - 1) * (1 - u) ^ n).
      * intros t Ht. apply in01 in Ht. cbn [pow]. replace (s + 1 - 1) with s by ring. rewrite <- (Rpower_m1 t s) by lra. ring.
      * apply sg_minus; apply int_sg; apply IH; lra.
    + cbn. intros t Ht. apply in01 in Ht. apply (continuous_mult (fun u => Rpower u (s - 1)) (fun u => (1 - u) * (1 - u) ^ n)); [apply cont_pw; lra|]. apply (ex_derive_continuous (fun u => (1 - u) * (1 - u) ^ n)). auto_derive. auto.
    + intros t Ht. apply in01 in Ht. apply Rmult_le_pos; [apply Rlt_le, pow_pos'|]. apply pow_le. lra.
Qed.
Lemma bi_pos_formula s n : 0 < s -> bi s n = exp (ln (INR (fact n)) - sum_f_R0 (fun k => ln (s + INR k)) n).
Proof.
  revert s. induction n as [|n IH]; intros s Hs.
  - cbn. rewrite ln_1, Rplus_0_r. replace (0 - ln s) with (- ln s) by ring. rewrite exp_Ropp, exp_ln by exact Hs. reflexivity.
  - cbn [bi]. rewrite IH, IH by lra.
    assert (E : sum_f_R0 (fun k => ln (s + 1 + INR k)) n = sum_f_R0 (fun k => ln (s + INR k)) (S n) - ln s).
    { pose proof (sum_shift (fun k => ln (s + INR k)) n) as Q. cbv beta in Q. change (INR 0) with 0 in Q. rewrite (Rplus_0_r s) in Q. rewrite <- Q. apply sum_eq. intros k _. f_equal. rewrite S_INR. ring. }
    rewrite E. cbn [sum_f_R0]. set (S0 := sum_f_R0 _ n). assert (Pn : 0 <= INR n) by apply pos_INR. pose proof (INR_fact_lt_0 n) as Pf.
    change (fact (S n)) with (S n * fact n)%nat. rewrite mult_INR, ln_mult by (try exact Pf; apply lt_0_INR; lia). rewrite S_INR.
    set (F := ln (INR (fact n))). replace (F - (S0 + ln (s + (INR n + 1)) - ln s)) with (F - S0 + (- ln (s + (INR n + 1)) + ln s)) by ring.
    replace (ln (INR n + 1) + F - (S0 + ln (s + (INR n + 1)))) with (F - S0 + (ln (INR n + 1) + - ln (s + (INR n + 1)))) by ring.
    rewrite !(exp_plus (F - S0)), !exp_plus, !exp_Ropp, !exp_ln by lra. field. lra.
Qed.
Lemma bi_gamma s n : 0 < s -> exp (s * ln (INR n)) * bi s n = exp (lngamma_seq s n).
Proof. intros Hs. rewrite bi_pos_formula by exact Hs. rewrite <- exp_plus. f_equal. unfold lngamma_seq. ring. Qed.

Lemma bern n t : 0 <= t <= 1 -> 1 - INR n * t <= (1 - t) ^ n.
Proof.
  intros H. induction n as [|n IH]; [cbn; lra|]. cbn [pow]. rewrite S_INR. assert (0 <= INR n) by apply pos_INR.
  apply Rle_trans with ((1 - t) * (1 - INR n * t)); [|apply Rmult_le_compat_l; lra]. assert (0 <= INR n * t * t) by (apply Rmult_le_pos; [apply Rmult_le_pos|]; lra). lra.
Qed.
Lemma exp_pow x n : exp x ^ n = exp (INR n * x).
Proof. induction n as [|n IH]; [cbn; now rewrite Rmult_0_l, exp_0|]. cbn [pow]. rewrite IH, <- exp_plus, S_INR. f_equal. ring. Qed.
Lemma pow_exp_up n x : (1 <= n)%nat -> 0 <= x <= INR n -> (1 - x / INR n) ^ n <= exp (- x).
Proof.
  intros Hn Hx. assert (Pn : 0 < INR n) by (apply INR_pos; exact Hn). apply Rle_trans with (exp (- x / INR n) ^ n).
  - apply pow_incr. split.
    + apply (Rmult_le_reg_l (INR n)); [lra|]. replace (INR n * (1 - x / INR n)) with (INR n - x) by (field; lra). lra.
    + pose proof (exp_ineq1_le (- x / INR n)). unfold Rdiv in *. lra.
  - rewrite exp_pow. right. f_equal. field. lra.
Qed.
Lemma pow_exp_lo n x : (1 <= n)%nat -> 0 <= x <= INR n -> exp (- x) * (1 - x * x / INR n) <= (1 - x / INR n) ^ n.
Proof.
  intros Hn Hx. assert (Pn : 0 < INR n) by (apply INR_pos; exact Hn). set (t := x / INR n).
  assert (T0 : 0 <= t) by (apply Rmult_le_pos; [lra|]; apply Rlt_le, Rinv_0_lt_compat; lra). assert (T1 : t <= 1) by (apply (Rmult_le_reg_l (INR n)); [lra|]; unfold t; replace (INR n * (x / INR n)) with x by (field; lra); lra).
  assert (Tt : 0 <= t * t <= 1) by (split; [apply Rmult_le_pos; lra|]; replace 1 with (1 * 1) by ring; apply Rmult_le_compat; lra).
  pose proof (bern n (t * t) Tt) as B. replace (INR n * (t * t)) with (x * x / INR n) in B by (unfold t; field; lra).
  replace (1 - t * t) with ((1 - t) * (1 + t)) in B by ring. rewrite Rpow_mult_distr in B.
  assert (U : (1 + t) ^ n <= exp x). { apply Rle_trans with (exp t ^ n); [apply pow_incr; split; [lra|apply exp_ineq1_le]|]. rewrite exp_pow. right. f_equal. unfold t. field. lra. }
  assert (Q : 1 - x * x / INR n <= (1 - t) ^ n * exp x). { eapply Rle_trans; [exact B|]. apply Rmult_le_compat_l; [apply pow_le; lra|exact U]. }
  rewrite exp_Ropp. pose proof (exp_pos x) as Px. apply (Rmult_le_reg_l (exp x)); [exact Px|]. rewrite <- Rmult_assoc, Rinv_r, Rmult_1_l by lra. lra.
Qed.
Lemma bi_int_n s n : 0 < s -> (1 <= n)%nat -> nint 0 (INR n) (fun x => Rpower x (s - 1) * (1 - x / INR n) ^ n) (exp (lngamma_seq s n)).
Proof.
  intros Hs Hn. assert (Pn : 0 < INR n) by (apply INR_pos; exact Hn). rewrite <- bi_gamma by exact Hs. change (exp (s * ln (INR n))) with (Rpower (INR n) s).
  pose proof (nint_scal 0 1 _ _ (Rpower (INR n) s) (Rlt_le _ _ (pow_pos' _ _)) (bi_int s n Hs)) as N.
  pose proof (nint_subst 0 (INR n) 0 1 _ _ (fun x => x / INR n) (fun _ => / INR n) N) as K. eapply nint_ext; [|apply K].
  - intros t [A B]. cbn in A, B |- *. assert (E : Rpower (INR n) s * Rpower (t / INR n) (s - 1) * / INR n = Rpower t (s - 1)).
    { assert (Pt : 0 < t / INR n) by (apply Rdiv_lt_0_compat; lra). replace t with (t / INR n * INR n) at 2 by (field; lra). rewrite <- (Rpower_m1 (INR n) s) by exact Pn. rewrite <- (Rpower_mult_distr (t / INR n) (INR n)) by assumption. field. lra. }
    rewrite <- E. ring.
  - intros t [A B]. cbn in A, B. split; cbn; [apply Rdiv_lt_0_compat; lra|]. apply (Rmult_lt_reg_l (INR n)); [lra|]. replace (INR n * (t / INR n)) with t by (field; lra). lra.
  - intros u [A B]. cbn in A, B. exists (INR n * u). split; [split; cbn|field; lra]. + now apply Rmult_lt_0_compat. + rewrite <- (Rmult_1_r (INR n)) at 2. apply Rmult_lt_compat_l; lra.
  - intros t _. auto_derive; [auto|]. unfold Rdiv. ring.
  - intros t _. apply continuous_const.
  - intros t _. now apply Rinv_0_lt_compat.
Qed.
Lemma cont_gamma s t : 0 < t -> continuous (fun x => Rpower x (s - 1) * exp (- x)) t.
Proof. intros H. apply (continuous_mult (fun x => Rpower x (s - 1)) (fun x => exp (- x))); [now apply cont_pw|]. apply (ex_derive_continuous (fun x => exp (- x))). auto_derive. auto. Qed.
Lemma lim_exp_lng s : 0 < s -> is_lim_seq (fun n => exp (lngamma_seq s n)) (exp (lngamma s)).
Proof. intros Hs. apply (is_lim_seq_continuous exp). - apply derivable_continuous_pt, derivable_pt_exp. - now apply lngamma_lim. Qed.
Lemma lim_div_n C : is_lim_seq (fun n => C / INR n) 0.
Proof.
  apply is_lim_seq_Reals. intros eps He. destruct (big_nat (Rabs C) (mkposreal eps He) (Rabs_pos C)) as (N & HN & H). exists N. intros n Hn. unfold R_dist. rewrite Rminus_0_r. unfold Rdiv. rewrite Rabs_mult.
  assert (0 < INR n) by (apply INR_pos; lia). rewrite (Rabs_pos_eq (/ INR n)) by (apply Rlt_le, Rinv_0_lt_compat; assumption). apply (H n). lia.
Qed.
Theorem gamma_int s : 0 < s -> nint 0 p_infty (fun x => Rpower x (s - 1) * exp (- x)) (exp (lngamma s)).
Proof.
  intros Hs. set (F := fun x => Rpower x (s - 1) * exp (- x)). assert (C : forall t, inside 0 p_infty t -> continuous F t) by (intros t Ht; apply cont_gamma; now apply in0p).
  assert (Pp : forall t, 0 <= F t) by (intros t; apply Rmult_le_pos; [apply Rlt_le, pow_pos'|apply Rlt_le, exp_pos]).
  split; [exact C|intros t _; apply Pp| |].
  - intros a b A B L. apply in0p in A as A0.
    assert (Lim : is_lim_seq (fun n => (1 - b * b / INR n) * RInt F a b) ((1 - 0) * RInt F a b)).
    { apply (is_lim_seq_mult' _ _ (1 - 0)); [|apply is_lim_seq_const]. apply (is_lim_seq_minus' _ _ 1 0); [apply is_lim_seq_const|apply lim_div_n]. }
    rewrite Rminus_0_r, Rmult_1_l in Lim. destruct (nfloor_ex b ltac:(lra)) as (N & HN).
    apply (is_lim_seq_le_loc _ _ (RInt F a b) (exp (lngamma s))) with (2 := Lim) (3 := lim_exp_lng s Hs). exists (S N). intros n Hn.
    assert (Hn1 : (1 <= n)%nat) by lia. assert (Pn : 0 < INR n) by (apply INR_pos; exact Hn1). assert (bn : b < INR n) by (apply Rlt_le_trans with (INR (S N)); [rewrite S_INR; lra|]; apply le_INR; lia).
    pose proof (bi_int_n s n Hs Hn1) as M. assert (Ia : inside 0 (INR n) a) by (split; cbn; lra). assert (Ib : inside 0 (INR n) b) by (split; cbn; lra).
    eapply Rle_trans; [|exact (ni_up _ _ _ _ M a b Ia Ib L)].
    assert (Eab : ex_RInt F a b) by (apply (ins_ex_RInt 0 p_infty); auto).
    replace ((1 - b * b / INR n) * RInt F a b) with (RInt (fun x => (1 - b * b / INR n) * F x) a b) by (apply (RInt_scal F a b); exact Eab).
    apply RInt_le; [exact L|apply (ex_RInt_scal F); exact Eab|apply (ins_ex_RInt 0 (INR n)); auto; apply (ni_cont _ _ _ _ M)|]. intros x Hx. unfold F.
    replace ((1 - b * b / INR n) * (Rpower x (s - 1) * exp (- x))) with (Rpower x (s - 1) * (exp (- x) * (1 - b * b / INR n))) by ring. apply Rmult_le_compat_l; [apply Rlt_le, pow_pos'|].
    eapply Rle_trans; [|apply pow_exp_lo; [exact Hn1|lra]]. apply Rmult_le_compat_l; [apply Rlt_le, exp_pos|].
    assert (x * x / INR n <= b * b / INR n); [|lra]. apply Rmult_le_compat_r; [apply Rlt_le, Rinv_0_lt_compat; exact Pn|]. apply Rmult_le_compat; lra.
  - intros eps He. pose proof (lim_exp_lng s Hs) as Lm. apply is_lim_seq_spec in Lm. destruct (Lm (mkposreal (eps / 2) ltac:(lra))) as (N & HN). set (n := S N). specialize (HN n ltac:(unfold n; lia)). cbn [pos] in HN. apply Rabs_def2 in HN.
    pose proof (bi_int_n s n Hs ltac:(unfold n; lia)) as M. destruct (ni_lo _ _ _ _ M (eps / 2) ltac:(lra)) as (a & b & A & B & L & E). exists a, b.
    destruct A as [A1 A2]. destruct B as [B1 B2]. change (0 < a) in A1. change (a < INR n) in A2. change (0 < b) in B1. change (b < INR n) in B2. assert (IA : inside 0 p_infty a) by (split; [exact A1|exact Logic.I]). assert (IB : inside 0 p_infty b) by (split; [exact B1|exact Logic.I]).
    do 2 (split; [assumption|]). split; [exact L|].
    assert (RInt (fun x => Rpower x (s - 1) * (1 - x / INR n) ^ n) a b <= RInt F a b).
    { apply RInt_le; [exact L|apply (ins_ex_RInt 0 (INR n)); [apply (ni_cont _ _ _ _ M)|split; assumption|split; assumption]|apply (ins_ex_RInt 0 p_infty); auto|].
      intros x Hx. unfold F. apply Rmult_le_compat_l; [apply Rlt_le, pow_pos'|]. apply pow_exp_up; [unfold n; lia|]. lra. }
    lra.
Qed.

(** ** Beta *)
Lemma pw_lt1 u a : 0 < u < 1 -> 0 < a -> Rpower u a < 1.
Proof. intros H Ha. replace 1 with (exp 0) by apply exp_0. unfold Rpower. apply exp_increasing. assert (ln u < 0) by (rewrite <- ln_1; apply ln_increasing; lra). assert (0 < a * - ln u) by (apply Rmult_lt_0_compat; lra). lra. Qed.
Definition bk (a b u : R) : R := Rpower u (a - 1) * Rpower (1 - u) (b - 1).
Lemma bk_pos a b u : 0 < bk a b u. Proof. apply Rmult_lt_0_compat; apply pow_pos'. Qed.
Lemma cont_pw1 u b : u < 1 -> continuous (fun y => Rpower (1 - y) b) u.
Proof. intros H. apply (ex_derive_continuous (fun y => Rpower (1 - y) b)). unfold Rpower. auto_derive. lra. Qed.
Lemma bk_cont a b u : 0 < u < 1 -> continuous (bk a b) u.
Proof. intros H. apply (continuous_mult (fun u => Rpower u (a - 1)) (fun u => Rpower (1 - u) (b - 1))); [apply cont_pw; lra|apply cont_pw1; lra]. Qed.
Lemma bk_ex a b : 0 < a -> 0 < b -> exists v, nint 0 1 (bk a b) v.
Proof.
  intros Ha Hb. apply (nint_dom 0 1 (bk a b) _ _ (nint_plus 0 1 _ _ _ _ (int_pw a Ha) (nint_flip _ _ (int_pw b Hb)))).
  - intros t Ht. apply bk_cont. now apply in01.
  - intros t Ht. apply in01 in Ht. split; [apply Rlt_le, bk_pos|]. unfold bk. pose proof (pow_pos' t (a - 1)) as P1. pose proof (pow_pos' (1 - t) (b - 1)) as P2.
    assert (E : Rpower t (a - 1) * Rpower (1 - t) (b - 1) = Rpower t a * Rpower (1 - t) (b - 1) + Rpower t (a - 1) * Rpower (1 - t) b) by (rewrite <- (Rpower_m1 t a), <- (Rpower_m1 (1 - t) b) by lra; ring).
    rewrite E. pose proof (pw_lt1 t a Ht Ha). pose proof (pw_lt1 (1 - t) b ltac:(lra) Hb). pose proof (Rmult_lt_compat_r _ _ _ P2 H). pose proof (Rmult_lt_compat_l _ _ _ P1 H0). lra.
Qed.
Definition Bf (a b : R) : R := RInt_gen (bk a b) (at_right 0) (at_left 1).
Lemma Bf_int a b : 0 < a -> 0 < b -> nint 0 1 (bk a b) (Bf a b).
Proof. intros Ha Hb. destruct (bk_ex a b Ha Hb) as (v & Hv). replace (Bf a b) with v; [exact Hv|]. symmetry. apply (@is_RInt_gen_unique R_CompleteNormedModule (at_right 0) (at_left 1) _ _ (bk a b) v). exact (nint_gen _ _ _ _ Hv). Qed.
Lemma ftc_signed lo hi (F : R -> R) v (Phi : R -> R) (la lb a0 : R) : sg (line lo hi) F v -> inside lo hi a0 -> (forall t, inside lo hi t -> is_derive Phi t (F t)) -> (forall t, inside lo hi t -> continuous F t) ->
  filterlim Phi (right_of lo) (locally la) -> filterlim Phi (left_of hi) (locally lb) -> v = lb - la.
Proof.
  intros S I0 D C La Lb. pose proof (sg_improper _ _ _ _ S) as G. assert (Pr : ProperFilter (right_of lo)) by (destruct lo as [l| |]; cbn; typeclasses eauto). assert (Pl : ProperFilter (left_of hi)) by (destruct hi as [l| |]; cbn; typeclasses eauto).
  destruct (Req_dec v (lb - la)) as [|Ne]; [assumption|exfalso]. set (e := Rabs (v - (lb - la)) / 3). assert (Pe : 0 < e) by (apply Rdiv_lt_0_compat; [apply Rabs_pos_lt|]; lra).
  pose proof (G _ (locally_ball v (mkposreal e Pe))) as Q. unfold filtermapi in Q.
  assert (Q1 : right_of lo (fun a => ball la e (Phi a) /\ inside lo hi a /\ a <= a0)) by (apply filter_and; [exact (La _ (locally_ball la (mkposreal e Pe)))|exact (right_of_ins lo hi a0 I0)]).
  assert (Q2 : left_of hi (fun b => ball lb e (Phi b) /\ inside lo hi b /\ a0 <= b)) by (apply filter_and; [exact (Lb _ (locally_ball lb (mkposreal e Pe)))|exact (left_of_ins lo hi a0 I0)]).
  assert (Q3 : filter_prod (right_of lo) (left_of hi) (fun ab => (ball la e (Phi (fst ab)) /\ inside lo hi (fst ab) /\ fst ab <= a0) /\ (ball lb e (Phi (snd ab)) /\ inside lo hi (snd ab) /\ a0 <= snd ab))) by (apply (Filter_prod _ _ _ _ _ Q1 Q2); intros x y Hx Hy; exact (conj Hx Hy)). pose proof (filter_and _ _ Q Q3) as Q4. apply filter_ex in Q4. destruct Q4 as ((a & b) & (y & R1 & R2) & (X1 & X2 & X3) & (Y1 & Y2 & Y3)).
  cbn [fst snd] in *. apply ball_out in R2. apply ball_out in X1. apply ball_out in Y1. cbn [pos] in *.
  apply rint_eq in R1. rewrite (rint_derive Phi F) in R1 by (intros x Hx; pose proof (ins_mm lo hi a b x X2 Y2 Hx); auto). subst y.
  unfold e in *. unfold Rabs in *. destruct (Rcase_abs (v - (lb - la))); lra.
Qed.
Lemma Bf_parts a b : 0 < a -> 0 < b -> a * Bf a (b + 1) = b * Bf (a + 1) b.
Proof.
  intros Ha Hb. assert (S : sg (line 0 1) (fun u => a * bk a (b + 1) u - b * bk (a + 1) b u) (a * Bf a (b + 1) - b * Bf (a + 1) b)).
  { apply sg_minus; apply sg_scal, int_sg, Bf_int; lra. }
  assert (K := ftc_signed 0 1 _ _ (fun u => Rpower u a * Rpower (1 - u) b) 0 0 (1 / 2) S). rewrite Rminus_0_r in K. assert (a * Bf a (b + 1) - b * Bf (a + 1) b = 0); [|lra]. apply K; clear K.
  - split; cbn; lra.
  - intros t Ht. apply in01 in Ht. unfold bk. replace (b + 1 - 1) with b by ring. replace (a + 1 - 1) with a by ring.
    replace (a * (Rpower t (a - 1) * Rpower (1 - t) b) - b * (Rpower t a * Rpower (1 - t) (b - 1))) with (plus (mult (a * Rpower t (a - 1)) (Rpower (1 - t) b)) (mult (Rpower t a) (- (b * Rpower (1 - t) (b - 1))))) by (unfold plus, mult; cbn; ring).
    apply (is_derive_mult (fun u => Rpower u a) (fun u => Rpower (1 - u) b) t); [now apply der_pw| |intros; apply Rmult_comm].
    replace (- (b * Rpower (1 - t) (b - 1))) with (scal (-1) (b * Rpower (1 - t) (b - 1))) by (unfold scal; cbn; unfold mult; cbn; ring).
    apply (is_derive_comp (fun y => Rpower y b) (fun u => 1 - u) t); [apply der_pw; lra|auto_derive; [auto|ring]].
  - intros t Ht. apply in01 in Ht. apply (continuous_minus (fun u => a * bk a (b + 1) u) (fun u => b * bk (a + 1) b u)); apply (continuous_scal_r _ (bk _ _)), bk_cont; exact Ht.
  - cbn. intros Q [eps HQ]. destruct (pw_small a Ha _ (locally_ball 0 eps)) as (d & Hd). exists (mkposreal (Rmin d 1) (Rmin_pos _ _ (cond_pos d) Rlt_0_1)). intros y Hy Py. apply HQ. pose proof (Rmin_l d 1). pose proof (Rmin_r d 1). pose proof (ball_out _ _ _ Hy) as Hy'. cbn [pos] in Hy'.
    assert (Bd : ball 0 d y) by (apply ball_in; change (0 < y) in Py; lra). specialize (Hd y Bd Py). change (0 < y) in Py. apply ball_out in Hd. apply ball_in. pose proof (pw_lt1 (1 - y) b ltac:(lra) Hb). pose proof (pow_pos' y a). pose proof (pow_pos' (1 - y) b).
    assert (Rpower y a * Rpower (1 - y) b <= Rpower y a * 1) by (apply Rmult_le_compat_l; lra). assert (0 < Rpower y a * Rpower (1 - y) b) by (apply Rmult_lt_0_compat; lra). lra.
  - cbn. intros Q [eps HQ]. destruct (pw_small b Hb _ (locally_ball 0 eps)) as (d & Hd). exists (mkposreal (Rmin d 1) (Rmin_pos _ _ (cond_pos d) Rlt_0_1)). intros y Hy Py. apply HQ. pose proof (Rmin_l d 1). pose proof (Rmin_r d 1). pose proof (ball_out _ _ _ Hy) as Hy'. cbn [pos] in Hy'.
    change (y < 1) in Py. assert (Bd : ball 0 d (1 - y)) by (apply ball_in; lra). assert (Py' : 0 < 1 - y) by lra. specialize (Hd (1 - y) Bd Py'). apply ball_out in Hd. apply ball_in. pose proof (pw_lt1 y a ltac:(lra) Ha). pose proof (pow_pos' y a). pose proof (pow_pos' (1 - y) b).
    assert (Rpower y a * Rpower (1 - y) b <= 1 * Rpower (1 - y) b) by (apply Rmult_le_compat_r; lra). assert (0 < Rpower y a * Rpower (1 - y) b) by (apply Rmult_lt_0_compat; lra). lra.
Qed.
Lemma Bf_split a b : 0 < a -> 0 < b -> Bf a b = Bf (a + 1) b + Bf a (b + 1).
Proof.
  intros Ha Hb. apply (nint_unique 0 1 (bk a b)); [now apply Bf_int|]. eapply nint_ext; [|apply nint_plus; apply Bf_int; lra]. intros t Ht. apply in01 in Ht. cbn. unfold bk. replace (a + 1 - 1) with a by ring. replace (b + 1 - 1) with b by ring.
  rewrite <- (Rpower_m1 t a), <- (Rpower_m1 (1 - t) b) by lra. ring.
Qed.
Lemma Bf_pos a b : 0 < a -> 0 < b -> 0 < Bf a b.
Proof.
  intros Ha Hb. pose proof (Bf_int a b Ha Hb) as N. assert (I1 : inside 0 1 (1 / 3)) by (split; cbn; lra). assert (I2 : inside 0 1 (2 / 3)) by (split; cbn; lra).
  eapply Rlt_le_trans; [|exact (ni_up _ _ _ _ N (1 / 3) (2 / 3) I1 I2 ltac:(lra))]. apply RInt_gt_0; [lra|intros; apply bk_pos|intros x Hx; apply bk_cont; lra].
Qed.
Lemma Bf_rec a b : 0 < a -> 0 < b -> ln (Bf a b) = ln (Bf a (b + 1)) + (ln (a + b) - ln b).
Proof.
  intros Ha Hb. pose proof (Bf_parts a b Ha Hb) as P. pose proof (Bf_split a b Ha Hb) as Q. pose proof (Bf_pos a (b + 1) Ha ltac:(lra)) as R.
  assert (E : Bf a b = Bf a (b + 1) * ((a + b) * / b)). { rewrite Q. replace (Bf (a + 1) b) with (a * Bf a (b + 1) * / b) by (rewrite P; field; lra). field. lra. }
  rewrite E, ln_mult, ln_mult, ln_Rinv; try lra. - now apply Rinv_0_lt_compat. - apply Rmult_lt_0_compat; [lra|now apply Rinv_0_lt_compat].
Qed.
Lemma Bf_rec_n a b n : 0 < a -> 0 < b -> ln (Bf a b) = ln (Bf a (b + INR n + 1)) + sum_f_R0 (fun k => ln (a + b + INR k) - ln (b + INR k)) n.
Proof.
  intros Ha Hb. induction n as [|n IH].
  - cbn. rewrite !Rplus_0_r. now apply Bf_rec.
  - rewrite IH. cbn [sum_f_R0]. pose proof (pos_INR n). rewrite (Bf_rec a (b + INR n + 1)) by lra. rewrite !S_INR. replace (b + (INR n + 1) + 1) with (b + INR n + 1 + 1) by ring. replace (a + (b + INR n + 1)) with (a + b + (INR n + 1)) by ring. replace (b + (INR n + 1)) with (b + INR n + 1) by ring. ring.
Qed.
Lemma Bf_bi a n : 0 < a -> Bf a (INR n + 1) = bi a n.
Proof.
  intros Ha. pose proof (pos_INR n). apply (nint_unique 0 1 (bk a (INR n + 1))); [apply Bf_int; lra|]. eapply nint_ext; [|now apply bi_int]. intros t Ht. apply in01 in Ht. cbn. unfold bk. replace (INR n + 1 - 1) with (INR n) by ring. rewrite Rpower_pow by lra. reflexivity.
Qed.
Lemma Bf_anti a b b' : 0 < a -> 0 < b -> b <= b' -> Bf a b' <= Bf a b.
Proof.
  intros Ha Hb L. apply (nint_le 0 1 (bk a b') (bk a b)); [apply Bf_int; lra|apply Bf_int; lra|]. intros t Ht. apply in01 in Ht. unfold bk. apply Rmult_le_compat_l; [apply Rlt_le, pow_pos'|].
  replace (b' - 1) with (b - 1 + (b' - b)) by ring. rewrite Rpower_plus. pose proof (pow_pos' (1 - t) (b - 1)). rewrite <- (Rmult_1_r (Rpower (1 - t) (b - 1))) at 2. apply Rmult_le_compat_l; [lra|].
  destruct (Req_dec b b') as [->|Ne]; [unfold Rpower; rewrite Rminus_diag_eq, Rmult_0_l, exp_0 by reflexivity; lra|]. apply Rlt_le, pw_lt1; lra.
Qed.
Lemma ln_bi a n : 0 < a -> ln (bi a n) + a * ln (INR n) = lngamma_seq a n.
Proof. intros Ha. rewrite bi_pos_formula by exact Ha. rewrite ln_exp. unfold lngamma_seq. ring. Qed.
Theorem Bf_gamma a b : 0 < a -> 0 < b -> ln (Bf a b) = lngamma a + lngamma b - lngamma (a + b).
Proof.
  intros Ha Hb. destruct (nfloor_ex b ltac:(lra)) as (m0 & Hm). set (m := S m0). assert (bm : b <= INR m) by (unfold m; rewrite S_INR; lra).
  set (u := fun n => ln (Bf a (b + INR n + 1)) + a * ln (INR n)).
  assert (E : forall n, ln (Bf a b) = u n + (lngamma_seq b n - lngamma_seq (a + b) n)).
  { intros n. rewrite (Bf_rec_n a b n Ha Hb). unfold u, lngamma_seq. rewrite (minus_sum (fun k => ln (a + b + INR k)) (fun k => ln (b + INR k)) n). ring. }
  assert (U : is_lim_seq u (lngamma a)).
  { apply (is_lim_seq_le_le_loc (fun n => lngamma_seq a (n + m) + a * - (INR m / INR n)) u (lngamma_seq a)).
    - exists 1%nat. intros n Hn. assert (Pn : 0 < INR n) by (apply INR_pos; exact Hn). pose proof (pos_INR m) as Pm. unfold u. split.
      + assert (A : Bf a (INR (n + m) + 1) <= Bf a (b + INR n + 1)) by (apply Bf_anti; [exact Ha|lra|rewrite plus_INR; lra]). rewrite Bf_bi in A by exact Ha.
        assert (Pb : 0 < bi a (n + m)) by (rewrite bi_pos_formula by exact Ha; apply exp_pos). apply ln_le in A; [|exact Pb]. rewrite <- ln_bi by exact Ha.
        assert (ln (INR (n + m)) - ln (INR n) <= INR m / INR n).
        { rewrite plus_INR. replace (INR n + INR m) with (INR n * (1 + INR m / INR n)) by (field; lra). assert (0 <= INR m / INR n) by (apply Rmult_le_pos; [lra|apply Rlt_le, Rinv_0_lt_compat; lra]). rewrite ln_mult by lra. pose proof (ln1_up (INR m / INR n) H). lra. }
        pose proof (Rmult_le_compat_l a _ _ (Rlt_le _ _ Ha) H). lra.
      + assert (A : Bf a (b + INR n + 1) <= Bf a (INR n + 1)) by (apply Bf_anti; lra). rewrite Bf_bi in A by exact Ha. apply ln_le in A; [|apply Bf_pos; lra]. rewrite <- ln_bi by exact Ha. lra.
    - replace (Finite (lngamma a)) with (Finite (lngamma a + a * - 0)) by (f_equal; ring). apply is_lim_seq_plus'; [apply (is_lim_seq_incr_n (lngamma_seq a) m), lngamma_lim; exact Ha|].
      apply (is_lim_seq_scal_l (fun n => - (INR m / INR n)) a (- 0)). apply lim_opp, lim_div_n.
    - now apply lngamma_lim. }
  assert (L : is_lim_seq (fun _ : nat => ln (Bf a b)) (lngamma a + (lngamma b - lngamma (a + b)))).
  { apply is_lim_seq_ext with (fun n => u n + (lngamma_seq b n - lngamma_seq (a + b) n)); [intros n; symmetry; apply E|]. apply is_lim_seq_plus'; [exact U|]. apply is_lim_seq_minus'; apply lngamma_lim; lra. }
  apply is_lim_seq_unique in L. rewrite Lim_seq_const in L. injection L as ->. ring.
Qed.
Theorem beta_int a b : 0 < a -> 0 < b -> nint 0 1 (bk a b) (exp (lngamma a + lngamma b - lngamma (a + b))).
Proof. intros Ha Hb. rewrite <- Bf_gamma by assumption. rewrite exp_ln by now apply Bf_pos. now apply Bf_int. Qed.

(** ** Gauss *)
Lemma Bf_half : Bf (1 / 2) (1 / 2) = PI.
Proof.
  pose proof (Bf_int (1 / 2) (1 / 2) ltac:(lra) ltac:(lra)) as N. pose proof PI_RGT_0 as Pp.
  assert (K := nint_subst 0 (PI / 2) 0 1 _ _ (fun t => sin t * sin t) (fun t => 2 * (sin t * cos t)) N).
  assert (Tr : forall t, inside 0 (PI / 2) t -> 0 < t < PI / 2 /\ 0 < sin t /\ 0 < cos t).
  { intros t [A B]. change (0 < t) in A. change (t < PI / 2) in B. split; [lra|]. split; [apply sin_gt_0; lra|apply cos_gt_0; lra]. }
  assert (M : nint 0 (PI / 2) (fun t => bk (1 / 2) (1 / 2) (sin t * sin t) * (2 * (sin t * cos t))) (Bf (1 / 2) (1 / 2))).
  { apply K.
    - intros t Ht. destruct (Tr t Ht) as (_ & A & B). pose proof (sin2_cos2 t) as Q. unfold Rsqr in Q. pose proof (Rmult_lt_0_compat _ _ A A). pose proof (Rmult_lt_0_compat _ _ B B). split; cbn; lra.
    - intros s Hs. apply in01 in Hs. exists (asin (sqrt s)). assert (S0 : 0 < sqrt s) by (apply sqrt_lt_R0; lra). assert (S1 : sqrt s < 1) by (rewrite <- sqrt_1; apply sqrt_lt_1; lra).
      rewrite sin_asin by lra. split; [|apply sqrt_sqrt; lra]. split; cbn.
      + rewrite <- asin_0. apply asin_increasing || idtac. all: try lra. 
        pose proof (asin_bound_lt (sqrt s) ltac:(lra)) as Bd. destruct (Rlt_le_dec (asin 0) (asin (sqrt s))) as [|K']; [assumption|exfalso]. rewrite asin_0 in K'. assert (sin (asin (sqrt s)) <= 0).
        { replace (asin (sqrt s)) with (- - asin (sqrt s)) by ring. rewrite sin_neg. assert (0 <= sin (- asin (sqrt s))) by (apply sin_ge_0; lra). lra. } rewrite sin_asin in H by lra. lra.
      + apply asin_bound_lt. lra.
    - intros t _. auto_derive; [auto|ring].
    - intros t _. apply (ex_derive_continuous (fun t => 2 * (sin t * cos t))). auto_derive. auto.
    - intros t Ht. destruct (Tr t Ht) as (_ & A & B). pose proof (Rmult_lt_0_compat _ _ A B). lra. }
  assert (C : nint 0 (PI / 2) (fun _ => 2) (2 * (PI / 2) - 2 * 0)).
  { apply (nint_ftc 0 (PI / 2) (fun _ => 2) (fun t => 2 * t) (2 * 0) (2 * (PI / 2)) (PI / 4)).
    - split; cbn; lra.
    - intros t _. auto_derive; [auto|ring].
    - intros t _. apply continuous_const.
    - intros; lra.
    - apply (lim_at_right_cont (fun t => 2 * t) 0). apply (ex_derive_continuous (fun t => 2 * t)). auto_derive. auto.
    - apply (lim_at_left_cont (fun t => 2 * t) (PI / 2)). apply (ex_derive_continuous (fun t => 2 * t)). auto_derive. auto. }
  replace PI with (2 * (PI / 2) - 2 * 0) by field. apply (nint_unique 0 (PI / 2) (fun _ => 2)); [|exact C]. eapply nint_ext; [|exact M]. intros t Ht. cbv beta. destruct (Tr t Ht) as (_ & A & B).
  unfold bk. replace (1 - sin t * sin t) with (cos t * cos t) by (pose proof (sin2_cos2 t) as Q; unfold Rsqr in Q; lra).
  assert (H : forall x, 0 < x -> Rpower (x * x) (1 / 2 - 1) = / x). { intros x Hx. unfold Rpower. rewrite ln_mult by exact Hx. replace ((1 / 2 - 1) * (ln x + ln x)) with (- ln x) by field. now rewrite exp_Ropp, exp_ln. }
  rewrite !H by assumption. field. lra.
Qed.
Lemma lngamma_half : lngamma (1 / 2) = ln (sqrt PI).
Proof.
  pose proof (Bf_gamma (1 / 2) (1 / 2) ltac:(lra) ltac:(lra)) as E. rewrite Bf_half in E. replace (1 / 2 + 1 / 2) with 1 in E by field. rewrite lngamma_1 in E. pose proof PI_RGT_0. 
  assert (S : 0 < sqrt PI) by now apply sqrt_lt_R0. rewrite <- (sqrt_sqrt PI) in E at 1 by lra. rewrite ln_mult in E by exact S. lra.
Qed.
(** gluing two neighbouring intervals *)
Lemma nint_glue lo hi c (F : R -> R) v w M : inside lo hi c -> (forall t, inside lo hi t -> continuous F t) -> (forall t, inside lo hi t -> 0 <= F t <= M) -> nint lo c F v -> nint c hi F w -> nint lo hi F (v + w).
Proof.
  intros Ic C B N1 N2. assert (V : 0 <= v) by exact (nint_nonneg _ _ _ _ N1). assert (W : 0 <= w) by exact (nint_nonneg _ _ _ _ N2). pose proof (B c Ic) as Bc.
  assert (PM : 0 <= M) by lra.
  assert (L : forall a, inside lo hi a -> a <= c -> RInt F a c <= v).
  { intros a Ia L. destruct (Req_dec a c) as [->|Ne]; [rewrite RInt_point; exact V|]. apply Rnot_lt_le. intros K. set (e := RInt F a c - v) in *. assert (Pe : 0 < e) by (unfold e; lra).
    set (d := Rmin (c - a) (e / (M + 1)) / 2). assert (Pd : 0 < d). { unfold d. assert (0 < Rmin (c - a) (e / (M + 1))); [|lra]. apply Rmin_pos; [lra|]. apply Rdiv_lt_0_compat; lra. }
    assert (a < c) by (apply Rnot_le_lt; intros ?; apply Ne; lra). assert (d < c - a) by (unfold d; pose proof (Rmin_l (c - a) (e / (M + 1))); lra). assert (Pq : 0 < e / (M + 1)) by (apply Rdiv_lt_0_compat; lra). assert (Hd : d < e / (M + 1)) by (unfold d; pose proof (Rmin_r (c - a) (e / (M + 1))); lra).
    assert (Id : inside lo hi (c - d)) by (apply (ins_between lo hi a c); auto; lra).
    assert (E : RInt F a c = RInt F a (c - d) + RInt F (c - d) c) by (symmetry; apply (RInt_Chasles F); apply (ins_ex_RInt lo hi); auto).
    assert (X : RInt F a (c - d) <= v). { apply (ni_up _ _ _ _ N1); [split; [apply Ia|cbn; lra]|split; [apply Id|cbn; lra]|lra]. }
    assert (Y : RInt F (c - d) c <= M * d). { replace (M * d) with (RInt (fun _ => M) (c - d) c) by (rewrite RInt_const; unfold scal; cbn; unfold mult; cbn; ring). apply RInt_le; [lra|apply (ins_ex_RInt lo hi); auto|apply ex_RInt_const|]. intros t Ht. apply B, (ins_between lo hi (c - d) c); auto; lra. }
    assert (M * d <= M * (e / (M + 1))) by (apply Rmult_le_compat_l; lra). assert (M * (e / (M + 1)) < e). { assert (0 < e / (M + 1)) by (apply Rdiv_lt_0_compat; lra). replace e with ((M + 1) * (e / (M + 1))) at 2 by (field; lra). lra. } unfold e in *. lra. }
  assert (U : forall b, inside lo hi b -> c <= b -> RInt F c b <= w).
  { intros a Ia L'. destruct (Req_dec a c) as [->|Ne]; [rewrite RInt_point; exact W|]. apply Rnot_lt_le. intros K. set (e := RInt F c a - w) in *. assert (Pe : 0 < e) by (unfold e; lra).
    set (d := Rmin (a - c) (e / (M + 1)) / 2). assert (Pd : 0 < d). { unfold d. assert (0 < Rmin (a - c) (e / (M + 1))); [|lra]. apply Rmin_pos; [lra|]. apply Rdiv_lt_0_compat; lra. }
    assert (c < a) by (apply Rnot_le_lt; intros ?; apply Ne; lra). assert (d < a - c) by (unfold d; pose proof (Rmin_l (a - c) (e / (M + 1))); lra). assert (Pq : 0 < e / (M + 1)) by (apply Rdiv_lt_0_compat; lra). assert (Hd : d < e / (M + 1)) by (unfold d; pose proof (Rmin_r (a - c) (e / (M + 1))); lra).
    assert (Id : inside lo hi (c + d)) by (apply (ins_between lo hi c a); auto; lra).
    assert (E : RInt F c a = RInt F c (c + d) + RInt F (c + d) a) by (symmetry; apply (RInt_Chasles F); apply (ins_ex_RInt lo hi); auto).
    assert (X : RInt F (c + d) a <= w). { apply (ni_up _ _ _ _ N2); [split; [cbn; lra|apply Id]|split; [cbn; lra|apply Ia]|lra]. }
    assert (Y : RInt F c (c + d) <= M * d). { replace (M * d) with (RInt (fun _ => M) c (c + d)) by (rewrite RInt_const; unfold scal; cbn; unfold mult; cbn; ring). apply RInt_le; [lra|apply (ins_ex_RInt lo hi); auto|apply ex_RInt_const|]. intros t Ht. apply B, (ins_between lo hi c (c + d)); auto; lra. }
    assert (M * d <= M * (e / (M + 1))) by (apply Rmult_le_compat_l; lra). assert (M * (e / (M + 1)) < e). { assert (0 < e / (M + 1)) by (apply Rdiv_lt_0_compat; lra). replace e with ((M + 1) * (e / (M + 1))) at 2 by (field; lra). lra. } unfold e in *. lra. }
  split; [exact C|intros t Ht; apply B; exact Ht| |].
  - intros a b Ia Ib Lab. set (a' := Rmin a c). set (b' := Rmax b c). assert (Ia' : inside lo hi a') by (unfold a', Rmin; destruct (Rle_dec a c); auto). assert (Ib' : inside lo hi b') by (unfold b', Rmax; destruct (Rle_dec b c); auto).
    pose proof (Rmin_l a c : a' <= a) as Q1. pose proof (Rmin_r a c : a' <= c) as Q2. pose proof (Rmax_l b c : b <= b') as Q3. pose proof (Rmax_r b c : c <= b') as Q4.
    eapply Rle_trans; [apply (rint_grow lo hi F a b a' b'); auto; intros t Ht; apply B; exact Ht|]. rewrite <- (RInt_Chasles F a' c b') by (apply (ins_ex_RInt lo hi); auto). apply Rplus_le_compat; auto.
  - intros eps He. destruct (ni_lo _ _ _ _ N1 (eps / 2) ltac:(lra)) as (a & b & A & Bb & Lab & E). destruct (ni_lo _ _ _ _ N2 (eps / 2) ltac:(lra)) as (a' & b' & A' & Bb' & Lab' & E').
    destruct A as [A1 A2]. destruct Bb as [B1 B2]. destruct A' as [A1' A2']. destruct Bb' as [B1' B2']. change (a < c) in A2. change (b < c) in B2. change (c < a') in A1'. change (c < b') in B1'.
    assert (Ia : inside lo hi a) by (split; [exact A1|]; apply (Rbar_lt_trans a c hi); [exact A2|apply Ic]). assert (Ib : inside lo hi b') by (split; [|exact B2']; apply (Rbar_lt_trans lo c b'); [apply Ic|exact B1']).
    exists a, b'. do 2 (split; [assumption|]). split; [lra|]. rewrite <- (RInt_Chasles F a c b') by (apply (ins_ex_RInt lo hi); auto). change (plus (RInt F a c) (RInt F c b')) with (RInt F a c + RInt F c b').
    pose proof (rint_grow lo hi F a b a c C (fun t Ht => proj1 (B t Ht)) Ia Ic ltac:(lra) Lab ltac:(lra)). pose proof (rint_grow lo hi F a' b' c b' C (fun t Ht => proj1 (B t Ht)) Ic Ib ltac:(lra) Lab' ltac:(lra)). lra.
Qed.
Lemma gauss_half : nint 0 p_infty (fun x => exp (- (x * x))) (sqrt PI / 2).
Proof.
  pose proof (gamma_int (1 / 2) ltac:(lra)) as N. rewrite lngamma_half, exp_ln in N by (apply sqrt_lt_R0, PI_RGT_0).
  pose proof (nint_subst 0 p_infty 0 p_infty _ _ (fun x => x * x) (fun x => 2 * x) N) as K.
  assert (M : nint 0 p_infty (fun t => Rpower (t * t) (1 / 2 - 1) * exp (- (t * t)) * (2 * t)) (sqrt PI)).
  { apply K.
    - intros t Ht. apply in0p in Ht. split; [|exact Logic.I]. cbn. now apply Rmult_lt_0_compat.
    - intros s Hs. apply in0p in Hs. exists (sqrt s). split; [split; [|exact Logic.I]; cbn; now apply sqrt_lt_R0|apply sqrt_sqrt; lra].
    - intros t _. auto_derive; [auto|ring].
    - intros t _. apply (ex_derive_continuous (fun x => 2 * x)). auto_derive. auto.
    - intros t Ht. apply in0p in Ht. lra. }
  replace (sqrt PI / 2) with (/ 2 * sqrt PI) by field. eapply nint_ext; [|exact (nint_scal _ _ _ _ (/ 2) ltac:(lra) M)]. intros t Ht. apply in0p in Ht. cbv beta.
  replace (Rpower (t * t) (1 / 2 - 1)) with (/ t). - field. lra. - unfold Rpower. rewrite ln_mult by exact Ht. replace ((1 / 2 - 1) * (ln t + ln t)) with (- ln t) by field. now rewrite exp_Ropp, exp_ln.
Qed.
Lemma gauss_unit : nint m_infty p_infty (fun x => exp (- (x * x))) (sqrt PI).
Proof.
  replace (sqrt PI) with (sqrt PI / 2 + sqrt PI / 2) by field. apply (nint_glue m_infty p_infty 0 _ _ _ 1).
  - apply inmp.
  - intros t _. apply (ex_derive_continuous (fun x => exp (- (x * x)))). auto_derive. auto.
  - intros t _. split; [apply Rlt_le, exp_pos|]. rewrite <- exp_0. pose proof (Rle_0_sqr t) as Q. unfold Rsqr in Q. destruct (Rle_lt_or_eq_dec _ _ Q) as [L| <-]; [apply Rlt_le, exp_increasing; lra|]. rewrite Ropp_0. lra.
  - pose proof (nint_opp _ _ _ _ gauss_half) as N. cbn in N. rewrite Ropp_0 in N. eapply nint_ext; [|exact N]. intros t _. cbv beta. f_equal. ring.
  - exact gauss_half.
Qed.
(** the normal integral with centre mu and variance s2 *)
Theorem gauss_int mu s2 : 0 < s2 -> nint m_infty p_infty (fun x => exp (- ((x - mu) * (x - mu)) / (2 * s2))) (sqrt (2 * PI * s2)).
Proof.
  intros Hs. pose proof PI_RGT_0 as Pp. set (r := sqrt (2 * s2)). assert (Pr : 0 < r) by (apply sqrt_lt_R0; lra). assert (Er : r * r = 2 * s2) by (apply sqrt_sqrt; lra).
  replace (2 * PI * s2) with (2 * s2 * PI) by ring. rewrite sqrt_mult by lra. fold r.
  pose proof (nint_subst m_infty p_infty m_infty p_infty _ _ (fun x => (x - mu) / r) (fun _ => / r) gauss_unit) as K.
  eapply nint_ext; [|eapply nint_scal; [exact (Rlt_le _ _ Pr)|apply K]].
  - intros t _. cbv beta. replace ((t - mu) / r * ((t - mu) / r)) with ((t - mu) * (t - mu) / (r * r)) by (field; lra). rewrite Er. rewrite (Rmult_comm _ (/ r)), <- Rmult_assoc, Rinv_r, Rmult_1_l by lra. f_equal. field. lra.
  - intros; apply inmp.
  - intros s _. exists (mu + r * s). split; [apply inmp|field; lra].
  - intros t _. auto_derive; [auto|]. field. lra.
  - intros t _. apply continuous_const.
  - intros t _. now apply Rinv_0_lt_compat.
Qed.
