(** The textbook densities in exponential form (C56): vector families. *)
From Coquelicot Require Import Coquelicot.
From Coq Require Import String List Bool Arith ZArith Reals Lra Lia.
From Verif Require Import Base XReal Tensor Support Dist Iteration Structure Tools Joint Spec SumSpec DotSpec PointSpec DensSpec SpecFun GammaFn BesselFn Val FamR FamVal DerivFacts DensVal DensThms ConvFacts IntSpec IntFacts GammaInt IntNorm IntGen IntMulti IntFam
  MatFacts IntMat DetInv TextSpec TextFacts.
Import ListNotations.
Local Unset Asymmetric Patterns.
Local Open Scope string_scope.
Local Open Scope R_scope.

Lemma prodR_S n g : prodR (S n) g = prodR n g * g n.
Proof. unfold prodR. rewrite seq_S, map_app, fold_right_app. cbn [map fold_right Nat.add]. rewrite Rmult_1_r. induction (map g (seq 0 n)) as [|a l IH]; cbn [fold_right]; [ring|]. rewrite IH. ring. Qed.
Lemma prodR_e n g h : (forall k, (k < n)%nat -> g k = exp (h k)) -> prodR n g = exp (sumR n h).
Proof. induction n as [|n IH]; intros E; [unfold prodR, sumR; cbn; now rewrite exp_0|]. rewrite prodR_S, sumR_S, exp_plus, IH by auto. f_equal. apply E. lia. Qed.
Lemma one_hot n (h : nat -> R) : (forall k, (k < n)%nat -> h k = 0 \/ h k = 1) -> sumR n h <= 1 ->
  (forall k, (k < n)%nat -> h k = 0) \/ exists j, (j < n)%nat /\ h j = 1 /\ forall k, (k < n)%nat -> k <> j -> h k = 0.
Proof.
  induction n as [|n IH]; intros H S; [left; intros; lia|]. rewrite sumR_S in S. destruct (H n ltac:(lia)) as [E|E].
  - destruct IH as [K|(j & J1 & J2 & J3)]; [auto|lra| |].
    + left. intros k Hk. destruct (Nat.eq_dec k n) as [->|]; [exact E|apply K; lia].
    + right. exists j. repeat split; [lia|exact J2|]. intros k Hk Nk. destruct (Nat.eq_dec k n) as [->|]; [exact E|apply J3; lia].
  - right. exists n. repeat split; [lia|exact E|]. intros k Hk Nk. assert (Hn : (k < n)%nat) by lia. destruct (H k Hk) as [U|U]; [exact U|]. exfalso.
    assert (h k <= sumR n h). { apply (sumR_term n h k); [|exact Hn]. intros j J. destruct (H j ltac:(lia)); lra. } lra.
Qed.
Lemma sumR_single n j (g : nat -> R) : (j < n)%nat -> (forall k, (k < n)%nat -> k <> j -> g k = 0) -> sumR n g = g j.
Proof.
  induction n as [|n IH]; intros J H; [lia|]. rewrite sumR_S. destruct (Nat.eq_dec j n) as [->|N].
  - rewrite sumR_zero; [ring|]. intros k K. apply H; lia.
  - rewrite IH, (H n); [ring|lia|lia|lia|]. intros. apply H; lia.
Qed.
Lemma t_multinomial : text_ok Multinomial.
Proof.
  intros n p x d _ _ [Hx Hs] (q & Hq & Hq1 & E & Ed). rewrite Ed. lp.
  rewrite (sumR_ext n (fun k => p false "log_odds" [k] * x false [k] - p true "log_odds" [k] * 0) (fun k => x false [k] * ln (q k / (1 - sumR n q)))) by (intros k K; rewrite E by exact K; ring).
  rewrite (sumR_ext n (fun k => exp (p false "log_odds" [k])) (fun k => / (1 - sumR n q) * q k)).
  2:{ intros k K. rewrite E by exact K. rewrite exp_ln; [field; lra|]. apply Rdiv_lt_0_compat; [now apply Hq|lra]. }
  rewrite sumR_scal. replace (1 + / (1 - sumR n q) * sumR n q) with (/ (1 - sumR n q)) by (field; lra). rewrite ln_Rinv by lra. unfold categorical_pmf.
  destruct (one_hot n (fun k => x false [k]) Hx Hs) as [Z|(j & J1 & J2 & J3)].
  - rewrite (sumR_zero n (fun k => x false [k] * ln _)), (sumR_zero n (fun k => x false [k] * q k)), (sumR_zero n (fun k => x false [k])) by (intros k K; rewrite Z by exact K; ring). match goal with |- exp ?u = _ => replace u with (ln (1 - sumR n q)) by ring end. rewrite exp_ln by lra. ring.
  - rewrite (sumR_single n j (fun k => x false [k] * ln _)), (sumR_single n j (fun k => x false [k] * q k)) by first [exact J1|intros k K N; rewrite J3 by assumption; ring].
    rewrite (sumR_single n j (fun k => x false [k])) by first [exact J1|intros k K N; now rewrite J3 by assumption]. rewrite J2. rewrite ln_div by (auto; lra). match goal with |- exp ?u = _ => replace u with (ln (q j)) by ring end. rewrite exp_ln by auto. ring.
Qed.
Lemma t_dirichlet : text_ok Dirichlet.
Proof.
  intros n p x d _ [Hn _] [Hx Hs] (a & Ha & Ed). rewrite Ed. lp. unfold dirichlet_pdf.
  rewrite (prodR_e n _ (fun k => (a k - 1) * ln (if (k <? n - 1)%nat then x false [k] else 1 - sumR (n - 1) (fun k => x false [k])))) by reflexivity.
  rewrite (prodR_e n _ (fun k => lngamma (a k))) by reflexivity. unfold GammaF. rewrite <- exp_plus, div_exp. f_equal.
  rewrite (sumR_ext n (fun k => lngamma _) (fun k => lngamma (a k))) by (intros k K; rewrite (proj2 (Ha k K)); f_equal; ring).
  rewrite (sumR_ext n (fun k => p false "alpha_minus_one" [k]) (fun k => a k - 1)) by (intros k K; apply (Ha k K)). assert (Q : sumR n (fun k => a k - 1) + INR n = sumR n a) by (rewrite (sumR_minus n a (fun _ => 1)), (sumR_const n 1); ring). rewrite Q.
  rewrite (sumR_ext n _ (fun k => (a k - 1) * ln (if (k <? n - 1)%nat then x false [k] else 1 - sumR (n - 1) (fun k => x false [k])))). { ring. }
  intros k K. rewrite (proj2 (Ha k K)). destruct (k <? n - 1)%nat; ring.
Qed.
Lemma gd_a n p (a b : nat -> R) : (forall k, (k < n)%nat -> 0 < a k /\ 0 < b k /\ p false "alpha_minus_one" [k] = a k - 1 /\ p false "gamma" [k] = if (S k =? n)%nat then b k - 1 else b k - (a (S k) + b (S k))) ->
  (forall k, (k < n)%nat -> gdR_alpha p k = a k) /\ forall j k, (k < n)%nat -> j = (n - 1 - k)%nat -> gdR_beta n p k = b k.
Proof.
  intros H. assert (A : forall k, (k < n)%nat -> gdR_alpha p k = a k). { intros k K. unfold gdR_alpha. destruct (H k K) as (_ & _ & -> & _). ring. }
  split; [exact A|]. induction j as [|j IH]; intros k K J; unfold gdR_beta; rewrite <- J.
  - assert (k = n - 1)%nat by lia. subst k. rewrite sumR_S, !sumR_0. replace (n - 1 - 0)%nat with (n - 1)%nat by lia. destruct (H _ K) as (_ & _ & _ & ->). replace (S (n - 1)) with n by lia. rewrite Nat.eqb_refl. ring.
  - specialize (IH (S k) ltac:(lia) ltac:(lia)). unfold gdR_beta in IH. replace (n - 1 - S k)%nat with j in IH by lia. rewrite (sumR_S (S j)), (sumR_S j (fun m => gdR_alpha p (n - 1 - m))). replace (n - 1 - S j)%nat with k by lia. replace (n - 1 - j)%nat with (S k) by lia. rewrite (A (S k)) by lia.
    destruct (H k K) as (_ & _ & _ & ->). rewrite (proj2 (Nat.eqb_neq (S k) n)) by lia. lra.
Qed.
Lemma t_generalized_dirichlet : text_ok GeneralizedDirichlet.
Proof.
  intros n p x d _ _ [Hx Hs] (a & b & H & Ed). rewrite Ed. lp. destruct (gd_a n p a b H) as [A B]. unfold generalized_dirichlet_pdf.
  rewrite (prodR_e n _ (fun k => (a k - 1) * ln (x false [k]) + (if (S k =? n)%nat then b k - 1 else b k - (a (S k) + b (S k))) * ln (1 - sumR (S k) (fun k => x false [k])) - (lngamma (a k) + lngamma (b k) - lngamma (a k + b k)))).
  2:{ intros k K. rewrite beta_e. unfold Rpower. rewrite <- exp_plus, div_exp. reflexivity. }
  f_equal. rewrite (sumR_ext n (fun k => lngamma (gdR_alpha p k) + _ - _) (fun k => lngamma (a k) + lngamma (b k) - lngamma (a k + b k))) by (intros k K; rewrite (A k K), (B _ k K eq_refl); reflexivity).
  rewrite (sumR_ext n (fun k => p false "alpha_minus_one" [k] * _ - _) (fun k => (a k - 1) * ln (x false [k]))) by (intros k K; destruct (H k K) as (_ & _ & -> & _); ring).
  rewrite (sumR_ext n (fun k => p false "gamma" [k] * _ - _) (fun k => (if (S k =? n)%nat then b k - 1 else b k - (a (S k) + b (S k))) * ln (1 - sumR (S k) (fun k => x false [k])))).
  - rewrite !Rplus_0_r. sums. apply sumR_ext. intros; ring.
  - intros k K. destruct (H k K) as (_ & _ & _ & ->). replace (1 + - sumR (S k) (fun k => x false [k])) with (1 - sumR (S k) (fun k => x false [k])) by ring. ring.
Qed.
Lemma t_von_mises_fisher : text_ok VonMisesFisher.
Proof.
  intros n p x d D [k0 [K0 _]] Hx (kap & mu & Hk & Hm & E & Ed). rewrite Ed. lp. unfold norm2, sumsq.
  rewrite (sumR_ext n (fun k => p false "mean_times_concentration" [k] * p false "mean_times_concentration" [k]) (fun k => kap * kap * (mu k * mu k))) by (intros k K; rewrite E by exact K; ring).
  rewrite sumR_scal, Hm, Rmult_1_r, sqrt_square by lra. unfold von_mises_fisher_pdf. replace (INR n * (1 / 2)) with (INR n / 2) by field.
  assert (Hn : 1 <= INR n). { change 1 with (INR 1). apply le_INR. lia. }
  rewrite (eln (bessel_i (INR n / 2 - 1) kap)) at 2 by (apply bessel_pos; lra). unfold Rpower. rewrite <- exp_plus, div_exp, <- exp_plus. f_equal.
  rewrite (sumR_ext n (fun k => p false "mean_times_concentration" [k] * x false [k] - p true "mean_times_concentration" [k] * 0) (fun k => kap * (mu k * x false [k]))) by (intros k K; rewrite E by exact K; ring). rewrite sumR_scal. ring.
Qed.
