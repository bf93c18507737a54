(** The range of the mean functions of the families whose to_nat is a search. *)
From Coquelicot Require Import Coquelicot.
From Coq Require Import String List Bool Arith Reals Lia Lra Ranalysis5.
From Verif Require Import SpecFun GammaFn TrigammaFn BesselFn BesselFn2 PointSpec SumFacts Val ConvFacts BregFacts.
Import ListNotations.
Local Unset Asymmetric Patterns.
Local Open Scope R_scope.

Lemma ivt f a b y : a < b -> (forall x, a <= x <= b -> continuity_pt f x) -> f a <= y <= f b -> {x | a <= x <= b /\ f x = y}.
Proof. intros A C Y. exact (f_interv_is_interv f a b y A Y C). Qed.
Lemma ivt_pos f a b y : 0 < a -> 0 < b -> (forall x, 0 < x -> continuity_pt f x) -> f a <= y <= f b -> {x | 0 < x /\ f x = y}.
Proof.
  intros A B C Y. destruct (total_order_T a b) as [[Lt|Eq]|Gt].
  - destruct (ivt f a b y Lt) as (x & X1 & X2); [intros; apply C; lra|exact Y|]. exists x. split; [lra|exact X2].
  - exists b. split; [exact B|]. rewrite Eq in Y. lra.
  - destruct (ivt (fun x => - f x) b a (- y) Gt) as (x & X1 & X2); [intros; apply continuity_pt_opp, C; lra|lra|]. exists x. split; [lra|lra].
Qed.
Lemma der_cont f x d : is_derive f x d -> continuity_pt f x.
Proof. intros D. apply is_derive_Reals in D. apply derivable_continuous_pt. now exists d. Qed.
Lemma digamma_cont x : 0 < x -> continuity_pt digamma x. Proof. intros X. exact (der_cont _ _ _ (digamma_derive x X)). Qed.
Lemma ln_cont x : 0 < x -> continuity_pt ln x. Proof. intros X. apply derivable_continuous_pt. exists (/ x). now apply derivable_pt_lim_ln. Qed.

(** ** digamma takes every value once *)
Lemma digamma_onto y : {x | 0 < x /\ digamma x = y}.
Proof.
  set (a := / (2 + Rabs (y - digamma 2))). pose proof (Rabs_pos (y - digamma 2)) as P. assert (A : 0 < a) by (apply Rinv_0_lt_compat; lra).
  assert (A1 : a < 1) by (unfold a; rewrite <- Rinv_1; apply Rinv_lt_contravar; lra).
  apply (ivt_pos digamma a (exp y + 1) y A); [pose proof (exp_pos y); lra|exact digamma_cont|]. split.
  - pose proof (digamma_succ a A) as E. assert (digamma (a + 1) < digamma 2) by (apply digamma_incr; lra). unfold a in E at 3. rewrite Rinv_inv in E. pose proof (Rle_abs (- (y - digamma 2))) as Q. rewrite Rabs_Ropp in Q. lra.
  - pose proof (digamma_gt_ln (exp y) (exp_pos y)) as E. rewrite ln_exp in E. lra.
Qed.
Lemma digamma_inj x y : 0 < x -> 0 < y -> digamma x = digamma y -> x = y.
Proof. intros X Y E. destruct (Rtotal_order x y) as [L|[L|L]]; [|exact L|]; [pose proof (digamma_incr x y X L)|pose proof (digamma_incr y x Y L)]; lra. Qed.
Lemma dinv_exists : exists g : R -> R, forall y, 0 < g y /\ digamma (g y) = y.
Proof. exists (fun y => proj1_sig (digamma_onto y)). intros y. exact (proj2_sig (digamma_onto y)). Qed.
Section Dinv.
  Variable g : R -> R.
  Hypothesis G : forall y, 0 < g y /\ digamma (g y) = y.
  Lemma dinv_lt y z : y < z -> g y < g z.
  Proof. intros L. destruct (G y) as [Y1 Y2], (G z) as [Z1 Z2]. destruct (Rlt_le_dec (g y) (g z)) as [K|[K|K]]; [exact K| |]; [pose proof (digamma_incr _ _ Z1 K); lra|rewrite K in Z2; lra]. Qed.
  Lemma dinv_of x : 0 < x -> g (digamma x) = x. Proof. intros X. destruct (G (digamma x)) as [A B]. now apply digamma_inj. Qed.
  Lemma dinv_cont y : continuity_pt g y.
  Proof.
    intros e E. destruct (G y) as [Y1 Y2]. set (x := g y) in *. set (lo := Rmax (x / 2) (x - e / 2)). assert (L1 : 0 < lo < x). { unfold lo. split; [eapply Rlt_le_trans; [|apply Rmax_l]; lra|apply Rmax_lub_lt; lra]. }
    assert (L2 : x - e / 2 <= lo) by apply Rmax_r. pose proof (digamma_incr lo x ltac:(lra) ltac:(lra)) as D1. pose proof (digamma_incr x (x + e / 2) Y1 ltac:(lra)) as D2. rewrite Y2 in D1, D2.
    exists (Rmin (y - digamma lo) (digamma (x + e / 2) - y)). split; [apply Rmin_glb_lt; lra|]. intros z [_ Z]. cbn in Z |- *. unfold R_dist in *. 
    assert (Z1 : Rabs (z - y) < y - digamma lo) by (eapply Rlt_le_trans; [exact Z|apply Rmin_l]). assert (Z2 : Rabs (z - y) < digamma (x + e / 2) - y) by (eapply Rlt_le_trans; [exact Z|apply Rmin_r]).
    apply Rabs_def2 in Z1. apply Rabs_def2 in Z2. assert (K1 : lo < g z) by (rewrite <- (dinv_of lo) by lra; apply dinv_lt; lra). assert (K2 : g z < x + e / 2) by (rewrite <- (dinv_of (x + e / 2)) by lra; apply dinv_lt; lra).
    fold x. apply Rabs_def1; lra.
  Qed.
End Dinv.

(** ** ln - digamma takes every positive value once *)
Lemma ln_digamma_onto y : 0 < y -> {x | 0 < x /\ ln x - digamma x = y}.
Proof.
  intros Y. set (K := y + digamma 2 + 3). set (a := / (4 + K * K)). assert (D : 0 < 4 + K * K) by nra. assert (A : 0 < a) by (now apply Rinv_0_lt_compat).
  assert (A1 : a < 1) by (unfold a; rewrite <- Rinv_1; apply Rinv_lt_contravar; nra). assert (B : 0 < / y) by (now apply Rinv_0_lt_compat).
  apply (ivt_pos (fun x => ln x - digamma x) (/ y) a y B A).
  - intros x X. apply continuity_pt_minus; [now apply ln_cont|now apply digamma_cont].
  - split.
    + pose proof (digamma_gt_ln _ B) as E. rewrite (digamma_succ _ B), Rinv_inv in E. lra.
    + pose proof (digamma_succ a A) as E. assert (digamma (a + 1) < digamma 2) by (apply digamma_incr; lra).
      assert (Ia : / a = 4 + K * K) by (unfold a; apply Rinv_inv). rewrite Ia in E.
      assert (La : - ln a <= (4 + K * K) / 2). { unfold a. rewrite ln_Rinv by exact D. pose proof (ln_le_sub1 ((4 + K * K) / 2) ltac:(lra)) as Q. unfold Rdiv in Q. rewrite ln_mult in Q by lra. rewrite ln_Rinv in Q by lra. pose proof (ln_le_sub1 2 ltac:(lra)). lra. }
      assert (K <= (4 + K * K) / 2) by nra. unfold K in *. lra.
Qed.

(** ** the ratio of the Bessel functions takes every value between 0 and 1 *)
Definition brat (v z : R) : R := bessel_i (v + 1) z / bessel_i v z.
Lemma brat_cont v z : - (1 / 2) <= v -> 0 < z -> continuity_pt (brat v) z.
Proof.
  intros V Z. apply (continuity_pt_locally_ext (fun z => z / 2 * (bS (v + 1) (z * z / 4) / bS v (z * z / 4))) (brat v) z z Z).
  - intros y Hy. unfold brat. rewrite bessel_ratio; [reflexivity|lra|]. unfold R_dist in Hy. apply Rabs_def2 in Hy. lra.
  - apply (der_cont _ z (Derive (fun z => z / 2 * (bS (v + 1) (z * z / 4) / bS v (z * z / 4))) z)). apply Derive_correct. auto_derive.
    assert (0 <= z * z / 4) by (assert (0 <= z * z) by nra; lra). pose proof (bS_pos v (z * z / 4) ltac:(lra) H). split; [eexists; apply bS_derive; lra|]. split; [eexists; apply bS_derive; lra|]. split; [apply Rgt_not_eq; exact H0|exact Logic.I].
Qed.
Lemma brat_small v z : - (1 / 2) <= v -> 0 < z -> brat v z < z.
Proof.
  intros V Z. unfold brat. rewrite bessel_ratio by lra. set (x := z * z / 4). assert (X : 0 < x) by (unfold x; nra). pose proof (bS_rec v x ltac:(lra)) as E. pose proof (bS_pos (v + 2) x ltac:(lra) ltac:(lra)). pose proof (bS_pos (v + 1) x ltac:(lra) ltac:(lra)). pose proof (bS_pos v x ltac:(lra) ltac:(lra)).
  assert (bS (v + 1) x / bS v x < 2). { apply (Rmult_lt_reg_r (bS v x)); [assumption|]. unfold Rdiv. rewrite Rmult_assoc, Rinv_l, Rmult_1_r by lra. assert (0 < x * bS (v + 2) x) by (now apply Rmult_lt_0_compat). nra. }
  nra.
Qed.
Lemma brat_large v z : - (1 / 2) <= v -> 0 < z -> z / (z + 2 * (v + 1)) < brat v z.
Proof.
  intros V Z. pose proof (bessel_ratio_lt (v + 1) z ltac:(lra) Z) as [_ R1]. unfold brat. rewrite !bessel_ratio in * by lra. replace (v + 1 + 1) with (v + 2) in R1 by ring. set (x := z * z / 4) in *. assert (X : 0 < x) by (unfold x; nra).
  pose proof (bS_rec v x ltac:(lra)) as E. set (s2 := bS (v + 2) x) in *. set (s1 := bS (v + 1) x) in *. set (s0 := bS v x) in *. assert (P2 : 0 < s2) by (apply bS_pos; lra). assert (P1 : 0 < s1) by (apply bS_pos; lra). assert (P0 : 0 < s0) by (apply bS_pos; lra).
  assert (S2 : z / 2 * s2 < s1). { apply (Rmult_lt_reg_r (/ s1)); [now apply Rinv_0_lt_compat|]. rewrite Rinv_r by lra. unfold Rdiv in *. lra. }
  assert (E2 : s0 = z / 2 * (z / 2 * s2) + (v + 1) * s1) by (unfold x in E; lra). assert (L : s0 < (z / 2 + (v + 1)) * s1) by (rewrite E2; nra).
  apply (Rmult_lt_reg_r ((z + 2 * (v + 1)) * s0)); [apply Rmult_lt_0_compat; lra|]. replace (z / (z + 2 * (v + 1)) * ((z + 2 * (v + 1)) * s0)) with (z * s0) by (field; lra). replace (z / 2 * (s1 / s0) * ((z + 2 * (v + 1)) * s0)) with (z * ((z / 2 + (v + 1)) * s1)) by (field; lra). now apply Rmult_lt_compat_l.
Qed.
Lemma brat_onto v m : - (1 / 2) <= v -> 0 < m < 1 -> {z | 0 < z /\ brat v z = m}.
Proof.
  intros V M. set (c := 2 * (v + 1)). set (B := m * c / (1 - m)). assert (C : 0 < c) by (unfold c; lra). assert (Bp : 0 < B) by (unfold B; apply Rdiv_lt_0_compat; [nra|lra]).
  apply (ivt_pos (brat v) m B m ltac:(lra) Bp); [intros x X; now apply brat_cont|]. split; [left; apply brat_small; lra|]. left. eapply Rle_lt_trans; [|now apply brat_large]. fold c. right. unfold B. field. lra.
Qed.

(** ** the mean of the logarithmic distribution *)
Definition chi_of (l : R) : R := exp l / ((exp l - 1) * ln (1 + - exp l)).
Lemma chi_incr p q : q < 0 -> p < q -> chi_of p < chi_of q.
Proof. intros Q P. pose proof (log_conv p q ltac:(lra) Q ltac:(lra)) as A. pose proof (log_conv q p Q ltac:(lra) ltac:(lra)) as B. fold (chi_of p) in A. fold (chi_of q) in B. nra. Qed.
Lemma chi_cont l : l < 0 -> continuity_pt chi_of l.
Proof.
  intros H. pose proof (exp_pos l). assert (exp l < 1) by (rewrite <- exp_0; now apply exp_increasing). assert (ln (1 + - exp l) < 0) by (rewrite <- ln_1; apply ln_increasing; lra).
  apply (der_cont _ l (Derive chi_of l)). apply Derive_correct. unfold chi_of. auto_derive. split; [lra|]. split; [|exact Logic.I]. apply Rmult_integral_contrapositive. split; lra.
Qed.
Lemma chi_onto a b y : a < b -> b < 0 -> chi_of a <= y <= chi_of b -> {l | a <= l <= b /\ chi_of l = y}.
Proof. intros A B Y. apply ivt; [exact A|intros; apply chi_cont; lra|exact Y]. Qed.

(** ** the expected logarithms of a Dirichlet distribution *)
Lemma dirichlet_range n (al : nat -> R) : (2 <= n)%nat -> (forall k, (k < n)%nat -> 0 < al k) -> sumR n (fun k => exp (digamma (al k) - digamma (sumR n al))) < 1.
Proof.
  intros N H. assert (S0 : 0 < sumR n al) by (apply sumR_pos; [exact H|lia]). apply Rlt_le_trans with (sumR n (fun k => / sumR n al * al k)).
  - apply sumR_lt; [|exists 0%nat; split; [lia|]].
    + intros k K. left. pose proof (H k K) as P. pose proof (digamma_ln_incr (al k) (sumR n al) P (sumR_gt n al k K N H)) as D. replace (/ sumR n al * al k) with (exp (ln (al k) - ln (sumR n al))); [apply exp_increasing; lra|].
      unfold Rminus. rewrite exp_plus, exp_Ropp, !exp_ln by assumption. ring.
    + pose proof (H 0%nat ltac:(lia)) as P. pose proof (digamma_ln_incr (al 0%nat) (sumR n al) P (sumR_gt n al 0 ltac:(lia) N H)) as D. replace (/ sumR n al * al 0%nat) with (exp (ln (al 0%nat) - ln (sumR n al))); [apply exp_increasing; lra|].
      unfold Rminus. rewrite exp_plus, exp_Ropp, !exp_ln by assumption. ring.
  - rewrite sumR_scal, Rinv_l by lra. lra.
Qed.
Lemma sumR_const' n (c : R) : sumR n (fun _ => c) = INR n * c.
Proof. induction n; [cbn; ring|]. rewrite sumR_S, IHn, S_INR. ring. Qed.
Lemma sumR_ge1 n g k : (k < n)%nat -> (forall m, (m < n)%nat -> 0 <= g m) -> g k <= sumR n g.
Proof.
  induction n; intros K H; [lia|]. rewrite sumR_S. assert (0 <= sumR n g) by (clear - H; induction n; [cbn; lra|rewrite sumR_S; pose proof (H n ltac:(lia)); assert (0 <= sumR n g) by (apply IHn; intros; apply H; lia); lra]).
  destruct (Nat.eq_dec k n) as [->|Ne]; [lra|]. pose proof (H n ltac:(lia)). assert (g k <= sumR n g) by (apply IHn; [lia|intros; apply H; lia]). lra.
Qed.
Lemma sumR_cont n (g : nat -> R -> R) x : (forall k, (k < n)%nat -> continuity_pt (g k) x) -> continuity_pt (fun y => sumR n (fun k => g k y)) x.
Proof.
  induction n; intros H.
  - cbn. apply continuity_pt_const. intros a b. reflexivity.
  - apply continuity_pt_ext with (f := fun y => sumR n (fun k => g k y) + g n y). { intros y. now rewrite sumR_S. } apply continuity_pt_plus; [apply IHn; intros; apply H; lia|apply H; lia].
Qed.
Lemma dirichlet_onto n (m : nat -> R) : (2 <= n)%nat -> sumR n (fun k => exp (m k)) < 1 -> exists al, (forall k, (k < n)%nat -> 0 < al k /\ digamma (al k) - digamma (sumR n al) = m k).
Proof.
  intros N H. destruct dinv_exists as [g G]. set (M := sumR n (fun k => Rabs (m k))). assert (M0 : 0 <= M) by (unfold M; clear; induction n; [cbn; lra|rewrite sumR_S; pose proof (Rabs_pos (m n)); lra]).
  assert (Mk : forall k, (k < n)%nat -> Rabs (m k) <= M) by (intros k K; apply (sumR_ge1 n (fun k => Rabs (m k)) k K); intros; apply Rabs_pos).
  set (S := sumR n (fun k => exp (m k))) in *. assert (S0 : 0 < S) by (apply sumR_pos; [intros; apply exp_pos|lia]).
  set (h := fun A => sumR n (fun k => g (digamma A + m k)) - A).
  assert (Hc : forall A, 0 < A -> continuity_pt h A).
  { intros A PA. unfold h. apply continuity_pt_minus; [|apply derivable_continuous_pt, derivable_pt_id]. apply sumR_cont. intros k K. apply (continuity_pt_comp (fun A => digamma A + m k) g); [|now apply dinv_cont]. apply continuity_pt_plus; [now apply digamma_cont|]. apply continuity_pt_const. intros a b. reflexivity. }
  (* small A *)
  set (A1 := / (1 + M)). assert (P1 : 0 < A1) by (apply Rinv_0_lt_compat; lra).
  assert (H1 : 0 <= h A1).
  { unfold h. assert (K : forall k, (k < n)%nat -> A1 / 2 <= g (digamma A1 + m k)).
    { intros k K. left. rewrite <- (dinv_of g G (A1 / 2)) by lra. apply dinv_lt; [exact G|]. pose proof (digamma_succ A1 P1) as E1. pose proof (digamma_succ (A1 / 2) ltac:(lra)) as E2. pose proof (digamma_incr (A1 / 2 + 1) (A1 + 1) ltac:(lra) ltac:(lra)) as E3.
      assert (I1 : / A1 = 1 + M) by (unfold A1; apply Rinv_inv). assert (I2 : / (A1 / 2) = 2 * (1 + M)) by (rewrite <- I1; field; lra). rewrite I1 in E1. rewrite I2 in E2. pose proof (Mk k K) as Q. apply Rabs_le_between in Q. lra. }
    apply sumR_le in K. rewrite sumR_const' in K. assert (2 <= INR n) by (apply (le_INR 2); exact N). nra. }
  (* large A *)
  set (L := - ln S). assert (L0 : 0 < L) by (unfold L; assert (ln S < 0) by (rewrite <- ln_1; now apply ln_increasing); lra). set (K0 := / L). assert (PK : 0 < K0) by (now apply Rinv_0_lt_compat).
  destruct (G (digamma K0 + M)) as [P2 E2]. set (A2 := g (digamma K0 + M)) in *.
  assert (H2 : h A2 <= 0).
  { unfold h. assert (K : forall k, (k < n)%nat -> g (digamma A2 + m k) <= A2 / S * exp (m k)).
    { intros k K. destruct (G (digamma A2 + m k)) as [Px Ex]. set (x := g (digamma A2 + m k)) in *. assert (X : K0 <= x).
      { apply Rnot_lt_le. intros Lt. pose proof (digamma_incr x K0 Px Lt) as D. pose proof (Mk k K) as Q. apply Rabs_le_between in Q. lra. }
      pose proof (digamma_gt_ln x Px) as D1. rewrite (digamma_succ x Px) in D1. pose proof (digamma_lt_ln A2 P2) as D2. assert (I : / x <= L). { unfold K0 in X. rewrite <- (Rinv_inv L). apply Rinv_le_contravar; [now apply Rinv_0_lt_compat|exact X]. }
      left. rewrite <- (exp_ln x Px). replace (A2 / S * exp (m k)) with (exp (ln A2 + L + m k)); [apply exp_increasing; lra|]. unfold L. rewrite !exp_plus, exp_Ropp, !exp_ln by assumption. unfold Rdiv. ring. }
    apply sumR_le in K. rewrite sumR_scal in K. fold S in K. replace (A2 / S * S) with A2 in K by (field; lra). lra. }
  destruct (ivt_pos h A2 A1 0 P2 P1 Hc) as (A & PA & EA); [lra|]. exists (fun k => g (digamma A + m k)). intros k K. destruct (G (digamma A + m k)) as [B1 B2]. split; [exact B1|]. unfold h in EA. replace (sumR n (fun k => g (digamma A + m k))) with A by lra. lra.
Qed.
