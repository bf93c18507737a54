(** Moments from a moment generating function. *)
From Coquelicot Require Import Coquelicot.
From Coq Require Import String List Bool Arith Reals Lia Lra.
From Verif Require Import Base XReal Tensor TensorFacts Support Dist Iteration Structure Spec SumSpec DotSpec Tools Joint SampleSpec IntSpec IntFacts GammaInt IntThms JointIntSpec DomConv DomConv2.
Import ListNotations.
Local Unset Asymmetric Patterns.
Local Open Scope R_scope.

(** ** inequalities by derivatives *)
Lemma mono (F G dF dG : R -> R) y : 0 <= y -> (forall t, 0 <= t <= y -> is_derive F t (dF t)) -> (forall t, 0 <= t <= y -> is_derive G t (dG t)) -> (forall t, 0 <= t <= y -> dF t <= dG t) ->
  F 0 <= G 0 -> F y <= G y.
Proof.
  intros Y HF HG B B0. destruct (MVT_gen (fun t => G t - F t) 0 y (fun t => dG t - dF t)) as (c & C1 & C2).
  - intros t T. rewrite Rmin_left, Rmax_right in T by lra. apply @is_derive_minus; [apply HG|apply HF]; lra.
  - intros t T. rewrite Rmin_left, Rmax_right in T by lra. apply continuity_pt_minus; apply continuity_pt_filterlim, @ex_derive_continuous; eexists; [apply HG|apply HF]; lra.
  - rewrite Rmin_left, Rmax_right in C1 by lra. specialize (B c C1). cbv beta in C2. assert (0 <= (dG c - dF c) * (y - 0)) by (apply Rmult_le_pos; lra). lra.
Qed.
Lemma exp_ge y : 1 + y <= exp y. Proof. destruct (Req_dec y 0) as [->|N]; [rewrite exp_0; lra|left; now apply exp_ineq1]. Qed.
Lemma exp_1 y : 0 <= y -> 0 <= exp y - 1 <= y * exp y.
Proof.
  intros Y. pose proof (exp_ge y). pose proof (exp_ge (- y)) as N. split; [lra|]. rewrite exp_Ropp in N. pose proof (exp_pos y) as P. apply (Rmult_le_compat_r (exp y)) in N; [|lra]. rewrite Rinv_l in N by lra. lra.
Qed.
Lemma exp_2 y : 0 <= y -> 0 <= exp y - 1 - y <= y ^ 2 * exp y.
Proof.
  intros Y. pose proof (exp_ge y). split; [lra|]. apply (mono (fun t => exp t - 1 - t) (fun t => t ^ 2 * exp t) (fun t => exp t - 1) (fun t => (2 * t + t ^ 2) * exp t)); [exact Y| | | |].
  - intros t _. auto_derive; [trivial|ring].
  - intros t _. auto_derive; [trivial|ring].
  - intros t T. destruct (exp_1 t (proj1 T)) as [_ K]. pose proof (exp_pos t). assert (0 <= (t + t ^ 2) * exp t) by (apply Rmult_le_pos; [|lra]; assert (0 <= t ^ 2) by (apply pow_le; lra); lra). lra.
  - rewrite exp_0. lra.
Qed.
Lemma exp_3 y : 0 <= y -> 0 <= exp y - 1 - y - y ^ 2 / 2 <= y ^ 3 * exp y.
Proof.
  intros Y. split.
  - assert (K : 1 + y + y ^ 2 / 2 <= exp y); [|lra]. apply (mono (fun t => 1 + t + t ^ 2 / 2) exp (fun t => 1 + t) exp); [exact Y| | | |].
    + intros t _. auto_derive; [trivial|field].
    + intros t _. auto_derive; [trivial|ring].
    + intros t _. apply exp_ge.
    + rewrite exp_0. lra.
  - apply (mono (fun t => exp t - 1 - t - t ^ 2 / 2) (fun t => t ^ 3 * exp t) (fun t => exp t - 1 - t) (fun t => (3 * t ^ 2 + t ^ 3) * exp t)); [exact Y| | | |].
    + intros t _. auto_derive; [trivial|field].
    + intros t _. auto_derive; [trivial|ring].
    + intros t T. destruct (exp_2 t (proj1 T)) as [_ K]. pose proof (exp_pos t). assert (0 <= (2 * t ^ 2 + t ^ 3) * exp t) by (apply Rmult_le_pos; [|lra]; assert (0 <= t ^ 2) by (apply pow_le; lra); assert (0 <= t ^ 3) by (apply pow_le; lra); lra). lra.
    + rewrite exp_0. lra.
Qed.
Lemma exp_m2 y : 0 <= y -> 0 <= exp (- y) - 1 + y <= y ^ 2.
Proof.
  intros Y. pose proof (exp_ge (- y)). split; [lra|]. apply (mono (fun t => exp (- t) - 1 + t) (fun t => t ^ 2) (fun t => 1 - exp (- t)) (fun t => 2 * t)); [exact Y| | | |].
  - intros t _. auto_derive; [trivial|ring].
  - intros t _. auto_derive; [trivial|ring].
  - intros t T. pose proof (exp_ge (- t)). lra.
  - rewrite Ropp_0, exp_0. lra.
Qed.
Lemma exp_m3 y : 0 <= y -> 0 <= 1 - y + y ^ 2 / 2 - exp (- y) <= y ^ 3.
Proof.
  intros Y. split.
  - assert (K : exp (- y) <= 1 - y + y ^ 2 / 2); [|lra]. apply (mono (fun t => exp (- t)) (fun t => 1 - t + t ^ 2 / 2) (fun t => - exp (- t)) (fun t => - 1 + t)); [exact Y| | | |].
    + intros t _. auto_derive; [trivial|ring].
    + intros t _. auto_derive; [trivial|field].
    + intros t _. pose proof (exp_ge (- t)). lra.
    + rewrite Ropp_0, exp_0. lra.
  - apply (mono (fun t => 1 - t + t ^ 2 / 2 - exp (- t)) (fun t => t ^ 3) (fun t => - 1 + t + exp (- t)) (fun t => 3 * t ^ 2)); [exact Y| | | |].
    + intros t _. auto_derive; [trivial|field].
    + intros t _. auto_derive; [trivial|ring].
    + intros t T. destruct (exp_m2 t (proj1 T)). assert (0 <= t ^ 2) by (apply pow_le; lra). lra.
    + rewrite Ropp_0, exp_0. lra.
Qed.
Lemma exp_abs1 y : 1 <= exp (Rabs y). Proof. pose proof (exp_ge (Rabs y)). pose proof (Rabs_pos y). lra. Qed.
Lemma exp_lin y : Rabs (exp y - 1 - y) <= Rabs y ^ 2 * exp (Rabs y).
Proof.
  destruct (Rle_dec 0 y) as [Y|Y].
  - rewrite (Rabs_pos_eq y Y). destruct (exp_2 y Y). rewrite Rabs_pos_eq; lra.
  - pose proof (exp_abs1 y) as E. rewrite (Rabs_left y) in * by lra. destruct (exp_m2 (- y)) as [K1 K2]; [lra|]. rewrite Ropp_involutive in K1, K2. rewrite Rabs_pos_eq by lra.
    assert (Z : (- y) ^ 2 * 1 <= (- y) ^ 2 * exp (- y)) by (apply Rmult_le_compat_l; [apply pow_le; lra|exact E]). lra.
Qed.
Lemma exp_quad y : Rabs (exp y - 1 - y - y ^ 2 / 2) <= Rabs y ^ 3 * exp (Rabs y).
Proof.
  destruct (Rle_dec 0 y) as [Y|Y].
  - rewrite (Rabs_pos_eq y Y). destruct (exp_3 y Y). rewrite Rabs_pos_eq; lra.
  - pose proof (exp_abs1 y) as E. rewrite (Rabs_left y) in * by lra. destruct (exp_m3 (- y)) as [K1 K2]; [lra|]. rewrite Ropp_involutive in K1, K2.
    assert (Z : (- y) ^ 3 * 1 <= (- y) ^ 3 * exp (- y)) by (apply Rmult_le_compat_l; [apply pow_le; lra|exact E]).
    apply Rabs_le. split; lra.
Qed.
Lemma exp_cosh y : Rabs (exp y + exp (- y) - 2 - y ^ 2) <= 2 * (Rabs y ^ 3 * exp (Rabs y)).
Proof.
  pose proof (exp_quad y) as A. pose proof (exp_quad (- y)) as B. rewrite Rabs_Ropp in B. replace (exp y + exp (- y) - 2 - y ^ 2) with ((exp y - 1 - y - y ^ 2 / 2) + (exp (- y) - 1 - - y - (- y) ^ 2 / 2)) by field.
  eapply Rle_trans; [apply Rabs_triang|]. lra.
Qed.
(** powers are dominated by exponentials *)
Lemma pow_exp k t : 0 <= t -> t ^ k <= (INR k) ^ k * exp t.
Proof.
  intros T. destruct k as [|k]; [cbn; pose proof (exp_ge t); lra|]. set (n := Datatypes.S k). assert (Pn : 0 < INR n) by (apply lt_0_INR; lia).
  assert (A : t / INR n <= exp (t / INR n)) by (pose proof (exp_ge (t / INR n)); lra). assert (Z : 0 <= t / INR n) by (apply Rmult_le_pos; [exact T|left; now apply Rinv_0_lt_compat]).
  pose proof (pow_incr (t / INR n) (exp (t / INR n)) n (conj Z A)) as B. rewrite exp_pow in B. replace (INR n * (t / INR n)) with t in B by (field; lra).
  replace t with (INR n * (t / INR n)) at 1 by (field; lra). rewrite Rpow_mult_distr. apply Rmult_le_compat_l; [apply pow_le; lra|]. eapply Rle_trans; [exact B|]. apply Req_le. f_equal. 
Qed.
Lemma dominated a s x k : 0 < a -> 0 < s <= a / 2 -> Rabs x ^ k * exp (s * Rabs x) <= (INR k) ^ k * (2 / a) ^ k * (exp (a * x) + exp (- a * x)).
Proof.
  intros A S. pose proof (Rabs_pos x) as X. assert (T : 0 <= a / 2 * Rabs x) by (apply Rmult_le_pos; lra). pose proof (pow_exp k _ T) as K.
  assert (E1 : exp (s * Rabs x) <= exp (a / 2 * Rabs x)). { assert (H : s * Rabs x <= a / 2 * Rabs x) by (apply Rmult_le_compat_r; lra). destruct (Rle_lt_or_eq_dec _ _ H) as [H'|H']; [left; now apply exp_increasing|rewrite H'; lra]. }
  assert (E2 : Rabs x ^ k = (2 / a) ^ k * (a / 2 * Rabs x) ^ k). { rewrite <- Rpow_mult_distr. f_equal. field. lra. }
  assert (P : 0 <= (2 / a) ^ k). { apply pow_le. apply Rmult_le_pos; [lra|left; now apply Rinv_0_lt_compat]. } assert (Q : 0 <= INR k ^ k) by (apply pow_le, pos_INR).
  assert (E3 : exp (a * Rabs x) <= exp (a * x) + exp (- a * x)). { pose proof (exp_pos (a * x)). pose proof (exp_pos (- a * x)). unfold Rabs. destruct (Rcase_abs x); [replace (a * - x) with (- a * x) by ring|]; lra. }
  rewrite E2. eapply Rle_trans; [apply Rmult_le_compat_l; [apply Rmult_le_pos; [exact P|now apply pow_le]|exact E1]|].
  eapply Rle_trans; [apply Rmult_le_compat_r; [left; apply exp_pos|]; apply Rmult_le_compat_l; [exact P|exact K]|].
  replace ((2 / a) ^ k * (INR k ^ k * exp (a / 2 * Rabs x)) * exp (a / 2 * Rabs x)) with (INR k ^ k * (2 / a) ^ k * exp (a * Rabs x)).
  - apply Rmult_le_compat_l; [now apply Rmult_le_pos|exact E3].
  - rewrite !Rmult_assoc, (Rmult_comm (INR k ^ k)), !Rmult_assoc. rewrite <- exp_plus. f_equal. rewrite Rmult_comm. f_equal. f_equal. field.
Qed.

(** ** difference quotients *)
Lemma seq_pos a j : 0 < a -> 0 < a / 2 * / (INR j + 1) <= a / 2.
Proof.
  intros A. pose proof (inv_pos j) as P. split; [apply Rmult_lt_0_compat; lra|]. assert (/ (INR j + 1) <= / 1) by (apply Rinv_le_contravar; [lra|]; pose proof (pos_INR j); lra). rewrite Rinv_1 in H. rewrite <- (Rmult_1_r (a / 2)) at 2. apply Rmult_le_compat_l; lra.
Qed.
Lemma seq_lim a : is_lim_seq (fun j => a / 2 * / (INR j + 1)) 0.
Proof. replace (Finite 0) with (Rbar_mult (a / 2) 0) by (cbn; now rewrite Rmult_0_r). apply is_lim_seq_scal_l, inv_lim. Qed.
Lemma seq_small (s : nat -> R) (d : R) : is_lim_seq s 0 -> (forall j, 0 < s j) -> 0 < d -> exists N, forall j, (N <= j)%nat -> 0 < s j < d.
Proof.
  intros H Sp Pd. destruct (proj1 (is_lim_seq_Reals s 0) H d Pd) as [N HN]. exists N. intros j Hj. specialize (HN j Hj). unfold R_dist in HN. rewrite Rminus_0_r, Rabs_pos_eq in HN by (left; apply Sp). split; [apply Sp|exact HN].
Qed.
Lemma quot1 (M : R -> R) m (s : nat -> R) : is_derive M 0 m -> is_lim_seq s 0 -> (forall j, 0 < s j) -> is_lim_seq (fun j => (M (s j) - M 0) / s j) m.
Proof.
  intros D H Sp. apply is_lim_seq_Reals. intros eps Pe. apply is_derive_Reals in D. destruct (D eps Pe) as [d Hd]. destruct (seq_small s d H Sp (cond_pos d)) as [N HN]. exists N. intros j Hj. specialize (HN j Hj).
  unfold R_dist. specialize (Hd (s j)). rewrite Rplus_0_l in Hd. apply Hd; [lra|]. rewrite Rabs_pos_eq; lra.
Qed.
Lemma quot2 (M N : R -> R) E eps (s : nat -> R) : 0 < eps -> (forall t, Rabs t < eps -> is_derive M t (N t)) -> is_derive N 0 E -> is_lim_seq s 0 -> (forall j, 0 < s j) ->
  is_lim_seq (fun j => (M (s j) + M (- s j) - 2 * M 0) / (s j) ^ 2) E.
Proof.
  intros Pe HM HN H Sp. apply is_lim_seq_Reals. intros e He. apply is_derive_Reals in HN. destruct (HN (e / 2) ltac:(lra)) as [d Hd]. destruct (seq_small s (Rmin d eps) H Sp (Rmin_glb_lt _ _ _ (cond_pos d) Pe)) as [K HK].
  exists K. intros j Hj. specialize (HK j Hj). set (x := s j) in *. pose proof (Rmin_l d eps). pose proof (Rmin_r d eps).
  assert (B : forall t, Rabs t < d -> Rabs (N t - N 0 - E * t) <= e / 2 * Rabs t).
  { intros t T. destruct (Req_dec t 0) as [->|Nz]; [rewrite Rmult_0_r, Rabs_R0, Rmult_0_r, Rminus_0_r, Rminus_eq_0, Rabs_R0; lra|]. specialize (Hd t Nz T). rewrite Rplus_0_l in Hd.
    replace (N t - N 0 - E * t) with (((N t - N 0) / t - E) * t) by (field; exact Nz). rewrite Rabs_mult. apply Rmult_le_compat_r; [apply Rabs_pos|lra]. }
  assert (Dp : forall t, 0 <= t <= x -> is_derive (fun t => M t + M (- t) - 2 * M 0 - E * t ^ 2) t (N t - N (- t) - 2 * E * t)).
  { intros t T. assert (D1 : is_derive M t (N t)) by (apply HM; rewrite Rabs_pos_eq; lra). assert (D2 : is_derive M (- t) (N (- t))) by (apply HM; rewrite Rabs_Ropp, Rabs_pos_eq; lra).
    assert (D3 : is_derive (fun t => M (- t)) t (- N (- t))). { replace (- N (- t)) with (scal (-1) (N (- t))) by (unfold scal; cbn; unfold mult; cbn; ring). apply (is_derive_comp M (fun t => - t) t); [exact D2|]. auto_derive; [trivial|ring]. }
    assert (D4 : is_derive (fun t => - 2 * M 0 - E * t ^ 2) t (- (2 * E * t))) by (auto_derive; [trivial|ring]).
    replace (N t - N (- t) - 2 * E * t) with ((N t + - N (- t)) + - (2 * E * t)) by ring. eapply is_derive_ext; [|exact (is_derive_plus _ _ _ _ _ (is_derive_plus _ _ _ _ _ D1 D3) D4)]. intros u. unfold plus; cbn. ring. }
  assert (Bd : forall t, 0 <= t <= x -> - (e * t) <= N t - N (- t) - 2 * E * t <= e * t).
  { intros t T. pose proof (B t) as B1. pose proof (B (- t)) as B2. rewrite Rabs_Ropp in B2. rewrite (Rabs_pos_eq t) in B1, B2 by lra. specialize (B1 ltac:(lra)). specialize (B2 ltac:(lra)). apply Rabs_le_between in B1. apply Rabs_le_between in B2. lra. }
  assert (U : M x + M (- x) - 2 * M 0 - E * x ^ 2 <= e / 2 * x ^ 2).
  { apply (mono (fun t => M t + M (- t) - 2 * M 0 - E * t ^ 2) (fun t => e / 2 * t ^ 2) (fun t => N t - N (- t) - 2 * E * t) (fun t => e * t)); [lra|exact Dp| | |].
    - intros t _. auto_derive; [trivial|field].
    - intros t T. now apply Bd.
    - rewrite Ropp_0. lra. }
  assert (V : - (e / 2 * x ^ 2) <= M x + M (- x) - 2 * M 0 - E * x ^ 2).
  { apply (mono (fun t => - (e / 2 * t ^ 2)) (fun t => M t + M (- t) - 2 * M 0 - E * t ^ 2) (fun t => - (e * t)) (fun t => N t - N (- t) - 2 * E * t)); [lra| |exact Dp| |].
    - intros t _. auto_derive; [trivial|field].
    - intros t T. now apply Bd.
    - rewrite Ropp_0. lra. }
  unfold R_dist. assert (X2 : 0 < x ^ 2) by (apply pow_lt; lra). replace ((M x + M (- x) - 2 * M 0) / x ^ 2 - E) with ((M x + M (- x) - 2 * M 0 - E * x ^ 2) / x ^ 2) by (field; lra).
  apply Rle_lt_trans with (e / 2); [|lra]. unfold Rdiv. rewrite Rabs_mult, (Rabs_pos_eq (/ x ^ 2)) by (left; now apply Rinv_0_lt_compat).
  apply (Rmult_le_reg_r (x ^ 2)); [exact X2|]. rewrite Rmult_assoc, Rinv_l, Rmult_1_r by lra. apply Rabs_le. lra.
Qed.

(** ** the moments *)
Section M.
  Variables (ls : list (path * (family * nat))) (w : jobs) (P X : jobs -> R) (M : R -> R) (eps : R).
  Hypotheses (Nd : NoDup (map fst ls)) (Pp : forall xv, spaces_ok ls w xv -> 0 <= P xv) (Pe : 0 < eps) (HM : forall s, Rabs s < eps -> joint_integral ls w (fun xv => P xv * exp (s * X xv)) (M s)).
  Let a := eps / 2.
  Let s (j : nat) := a / 2 * / (INR j + 1).
  Let Ap : 0 < a. Proof. unfold a. lra. Qed.
  Let Sp j : 0 < s j. Proof. now apply seq_pos. Qed.
  Let Sa j : s j <= a / 2. Proof. now apply seq_pos. Qed.
  Let Sl : is_lim_seq s 0 := seq_lim a.
  Let I_s j : joint_integral ls w (fun xv => P xv * exp (s j * X xv)) (M (s j)). Proof. apply HM. rewrite Rabs_pos_eq by (left; apply Sp). pose proof (Sa j). unfold a in *. lra. Qed.
  Let I_ms j : joint_integral ls w (fun xv => P xv * exp (- s j * X xv)) (M (- s j)). Proof. apply HM. rewrite Rabs_Ropp, Rabs_pos_eq by (left; apply Sp). pose proof (Sa j). unfold a in *. lra. Qed.
  Let I_0 : joint_integral ls w P (M 0). Proof. eapply joint_ext; [exact Nd| |apply (HM 0)]; [|rewrite Rabs_R0; exact Pe]. intros xv _. cbv beta. rewrite Rmult_0_l, exp_0. ring. Qed.
  Let K xv := P xv * exp (a * X xv) + P xv * exp (- a * X xv).
  Let I_K : joint_integral ls w K (M a + M (- a)).
  Proof. unfold K. apply joint_plus; apply HM; [rewrite Rabs_pos_eq by lra|rewrite Rabs_Ropp, Rabs_pos_eq by lra]; unfold a; lra. Qed.
  Let Kp xv : spaces_ok ls w xv -> 0 <= K xv. Proof. intros O. specialize (Pp xv O). unfold K. apply Rplus_le_le_0_compat; (apply Rmult_le_pos; [exact Pp|left; apply exp_pos]). Qed.
  Let C (k : nat) := INR k ^ k * (2 / a) ^ k.
  Let Cp k : 0 <= C k. Proof. unfold C. apply Rmult_le_pos; [apply pow_le, pos_INR|]. apply pow_le, Rmult_le_pos; [lra|left; now apply Rinv_0_lt_compat]. Qed.
  Let dom j k xv : spaces_ok ls w xv -> P xv * (Rabs (X xv) ^ k * exp (s j * Rabs (X xv))) <= C k * K xv.
  Proof.
    intros O. specialize (Pp xv O). replace (C k * K xv) with (P xv * (C k * (exp (a * X xv) + exp (- a * X xv)))) by (unfold K; ring). apply Rmult_le_compat_l; [exact Pp|]. apply dominated; [exact Ap|]. split; [apply Sp|apply Sa].
  Qed.
  Let d_lim c : is_lim_seq (fun j => c * s j) 0. Proof. replace (Finite 0) with (Rbar_mult c 0) by (cbn; now rewrite Rmult_0_r). now apply is_lim_seq_scal_l. Qed.
  Lemma moment1 m : is_derive M 0 m -> joint_integral ls w (fun xv => P xv * X xv) m.
  Proof.
    intros D. destruct (dc_joint ls w (fun j xv => / s j * (P xv * exp (s j * X xv) + -1 * P xv)) (fun xv => P xv * X xv) K (fun j => C 2 * s j) (fun j => (M (s j) - M 0) / s j) (M a + M (- a)) Nd) as (_ & v & V1 & V2).
    - intros j. replace ((M (s j) - M 0) / s j) with (/ s j * (M (s j) + -1 * M 0)) by (unfold Rdiv; ring). apply joint_scal, joint_plus; [apply I_s|now apply joint_scal].
    - exact I_K.
    - intros j xv O. pose proof (Sp j) as S0. specialize (Pp xv O) as P0. pose proof (exp_lin (s j * X xv)) as E. rewrite Rabs_mult, (Rabs_pos_eq (s j)) in E by lra.
      replace (/ s j * (P xv * exp (s j * X xv) + -1 * P xv) - P xv * X xv) with (/ s j * P xv * (exp (s j * X xv) - 1 - s j * X xv)) by (field; lra). rewrite !Rabs_mult, (Rabs_pos_eq (P xv)) by exact P0. rewrite (Rabs_pos_eq (/ s j)) by (left; now apply Rinv_0_lt_compat).
      eapply Rle_trans; [apply Rmult_le_compat_l; [apply Rmult_le_pos; [left; now apply Rinv_0_lt_compat|exact P0]|exact E]|].
      replace (/ s j * P xv * ((s j * Rabs (X xv)) ^ 2 * exp (s j * Rabs (X xv)))) with (s j * (P xv * (Rabs (X xv) ^ 2 * exp (s j * Rabs (X xv))))) by (field; lra).
      replace (C 2 * s j * K xv) with (s j * (C 2 * K xv)) by ring. apply Rmult_le_compat_l; [lra|now apply dom].
    - exact Kp.
    - intros j. apply Rmult_le_pos; [apply Cp|left; apply Sp].
    - apply d_lim.
    - assert (Q : v = m); [|now rewrite <- Q]. pose proof (is_lim_seq_unique _ _ (lim_of _ _ _ _ V2 (d_lim (C 2)))) as L1. pose proof (is_lim_seq_unique _ _ (quot1 M m s D Sl Sp)) as L2. rewrite L1 in L2. now injection L2.
  Qed.
  Lemma moment2 N E : (forall t, Rabs t < eps -> is_derive M t (N t)) -> is_derive N 0 E -> joint_integral ls w (fun xv => P xv * (X xv) ^ 2) E.
  Proof.
    intros D1 D2. destruct (dc_joint ls w (fun j xv => / (s j) ^ 2 * (P xv * exp (s j * X xv) + (P xv * exp (- s j * X xv) + -2 * P xv))) (fun xv => P xv * (X xv) ^ 2) K (fun j => 2 * C 3 * s j) (fun j => (M (s j) + M (- s j) - 2 * M 0) / (s j) ^ 2) (M a + M (- a)) Nd) as (_ & v & V1 & V2).
    - intros j. replace ((M (s j) + M (- s j) - 2 * M 0) / (s j) ^ 2) with (/ (s j) ^ 2 * (M (s j) + (M (- s j) + -2 * M 0))) by (unfold Rdiv; ring). apply joint_scal, joint_plus; [apply I_s|]. apply joint_plus; [apply I_ms|now apply joint_scal].
    - exact I_K.
    - intros j xv O. pose proof (Sp j) as S0. specialize (Pp xv O) as P0. pose proof (exp_cosh (s j * X xv)) as Q. rewrite Rabs_mult, (Rabs_pos_eq (s j)) in Q by lra. assert (S2 : 0 < s j ^ 2) by (apply pow_lt; lra).
      replace (/ s j ^ 2 * (P xv * exp (s j * X xv) + (P xv * exp (- s j * X xv) + -2 * P xv)) - P xv * X xv ^ 2) with (/ s j ^ 2 * P xv * (exp (s j * X xv) + exp (- (s j * X xv)) - 2 - (s j * X xv) ^ 2)) by (replace (- s j * X xv) with (- (s j * X xv)) by ring; field; lra).
      rewrite !Rabs_mult, (Rabs_pos_eq (P xv)) by exact P0. rewrite (Rabs_pos_eq (/ s j ^ 2)) by (left; now apply Rinv_0_lt_compat).
      eapply Rle_trans; [apply Rmult_le_compat_l; [apply Rmult_le_pos; [left; now apply Rinv_0_lt_compat|exact P0]|exact Q]|].
      replace (/ s j ^ 2 * P xv * (2 * ((s j * Rabs (X xv)) ^ 3 * exp (s j * Rabs (X xv))))) with (2 * s j * (P xv * (Rabs (X xv) ^ 3 * exp (s j * Rabs (X xv))))) by (field; lra).
      replace (2 * C 3 * s j * K xv) with (2 * s j * (C 3 * K xv)) by ring. apply Rmult_le_compat_l; [lra|now apply dom].
    - exact Kp.
    - intros j. apply Rmult_le_pos; [|left; apply Sp]. pose proof (Cp 3). lra.
    - apply d_lim.
    - assert (Q : v = E); [|now rewrite <- Q]. pose proof (is_lim_seq_unique _ _ (lim_of _ _ _ _ V2 (d_lim (2 * C 3)))) as L1. pose proof (is_lim_seq_unique _ _ (quot2 M N E eps s Pe D1 D2 Sl Sp)) as L2. rewrite L1 in L2. now injection L2.
  Qed.
End M.
