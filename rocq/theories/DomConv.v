(** Limits under the sums and integrals over sample spaces: if g k tends to h and |g k - h| <= d k * K with K integrable and d k -> 0,
    then h is integrable and its integral is the limit of those of g k. *)
From Coquelicot Require Import Coquelicot.
From Coq Require Import String List Bool Arith Reals Lia Lra.
From Verif Require Import Base XReal Tensor TensorFacts Support Dist Iteration Structure Spec SumSpec DotSpec Tools Joint SpecFun GammaFn Expr Fam DotFacts BatchFacts
  PointSpec PointFacts Val FamR FamVal ConvFacts LeafVal DerivFacts DerivThms DensSpec DensVal DensThms IntSpec IntFacts GammaInt IntNorm IntGen IntMulti IntSphere.
Import ListNotations.
Local Unset Asymmetric Patterns.
Local Open Scope string_scope.
Local Open Scope R_scope.

Lemma lim_small (d : nat -> R) c : is_lim_seq d 0 -> forall eps, 0 < eps -> exists N, forall k, (N <= k)%nat -> Rabs (d k * c) < eps.
Proof.
  intros H eps E. assert (H' : is_lim_seq (fun k => d k * c) 0). { pose proof (is_lim_seq_scal_r d c 0 H) as Q. cbn in Q. now rewrite Rmult_0_l in Q. }
  apply is_lim_seq_spec in H'. destruct (H' (mkposreal eps E)) as [N HN]. exists N. intros k Hk. specialize (HN k Hk). cbn in HN. now rewrite Rminus_0_r in HN.
Qed.
Lemma lim_of (u d : nat -> R) l c : (forall k, Rabs (u k - l) <= d k * c) -> is_lim_seq d 0 -> is_lim_seq u l.
Proof.
  intros H D. apply is_lim_seq_spec. intros eps. destruct (lim_small d c D eps (cond_pos eps)) as [N HN]. exists N. intros k Hk. eapply Rle_lt_trans; [apply H|]. eapply Rle_lt_trans; [apply Rle_abs|]. now apply HN.
Qed.
Lemma lim_eq (u d : nat -> R) l c : (forall k, Rabs (u k - l) <= d k * c) -> is_lim_seq d 0 -> real (Lim_seq u) = l.
Proof. intros H D. now rewrite (is_lim_seq_unique _ _ (lim_of u d l c H D)). Qed.
Lemma cauchy_lim (u d : nat -> R) c : (forall j k, Rabs (u j - u k) <= (d j + d k) * c) -> is_lim_seq d 0 -> exists l : R, is_lim_seq u l /\ forall k, Rabs (u k - l) <= d k * c.
Proof.
  intros H D. assert (Ex : ex_finite_lim_seq u).
  { apply ex_lim_seq_cauchy_corr. intros eps. destruct (lim_small d c D (eps / 2)) as [N HN]; [destruct eps; cbn; lra|]. exists N. intros j k Hj Hk. eapply Rle_lt_trans; [apply H|].
    pose proof (HN j Hj) as A. pose proof (HN k Hk) as B. apply Rabs_def2 in A. apply Rabs_def2 in B. lra. }
  destruct Ex as [l Hl]. exists l. split; [exact Hl|]. intros k.
  assert (Q : is_lim_seq (fun j => (d j + d k) * c) (d k * c)). { pose proof (is_lim_seq_scal_r _ c _ (is_lim_seq_plus' _ _ _ _ D (is_lim_seq_const (d k)))) as Q. cbn in Q. now rewrite Rplus_0_l in Q. }
  assert (Q2 : is_lim_seq (fun j => Rabs (u j - u k)) (Rabs (l - u k))). { apply (is_lim_seq_abs _ (l - u k)). apply is_lim_seq_minus'; [exact Hl|apply is_lim_seq_const]. }
  rewrite Rabs_minus_sym. exact (is_lim_seq_le _ _ _ _ (fun j => H j k) Q2 Q).
Qed.

(** ** over a bounded interval *)
Definition mask (a b : R) (F : R -> R) (t : R) : R := if Rlt_dec a t then if Rlt_dec t b then F t else 0 else 0.
Lemma mask_in a b F t : a < t < b -> mask a b F t = F t.
Proof. intros [H1 H2]. unfold mask. destruct (Rlt_dec a t); [|contradiction]. destruct (Rlt_dec t b); [reflexivity|contradiction]. Qed.
Lemma mask_rint a b F (y : R) : a <= b -> is_RInt F a b y -> is_RInt (mask a b F) a b y.
Proof. intros L H. eapply is_RInt_ext; [|exact H]. intros t T. rewrite Rmin_left, Rmax_right in T by exact L. symmetry. now apply mask_in. Qed.
Lemma dc_rint a b (g : nat -> R -> R) (h K : R -> R) (d y : nat -> R) (c : R) : a <= b -> (forall k, is_RInt (g k) a b (y k)) -> is_RInt K a b c ->
  (forall k t, a < t < b -> Rabs (g k t - h t) <= d k * K t) -> is_lim_seq d 0 -> exists l : R, is_RInt h a b l /\ forall k, Rabs (y k - l) <= d k * c.
Proof.
  intros L Hg HK B D. pose proof (mask_rint a b K c L HK) as MK. destruct (ex_RInt_ub (V := R_NormedModule) (mask a b K) a b (ex_intro _ c MK)) as [M HM].
  rewrite Rmin_left, Rmax_right in HM by exact L.
  assert (U : forall k t, Rabs (mask a b (g k) t - mask a b h t) <= Rabs (d k * M)).
  { intros k t. destruct (Rlt_dec a t) as [A1|A1]; [destruct (Rlt_dec t b) as [A2|A2]|].
    - rewrite !mask_in by (split; assumption). eapply Rle_trans; [apply B; split; assumption|]. eapply Rle_trans; [apply Rle_abs|]. rewrite !Rabs_mult. apply Rmult_le_compat_l; [apply Rabs_pos|].
      assert (Q : norm (mask a b K t) <= M) by (apply HM; lra). unfold norm in Q. cbn in Q. unfold abs in Q. cbn in Q. rewrite mask_in in Q by (split; assumption). eapply Rle_trans; [exact Q|apply Rle_abs].
    - unfold mask. destruct (Rlt_dec a t); [|contradiction]. destruct (Rlt_dec t b); [contradiction|]. rewrite Rminus_0_r, Rabs_R0. apply Rabs_pos.
    - unfold mask. destruct (Rlt_dec a t); [contradiction|]. rewrite Rminus_0_r, Rabs_R0. apply Rabs_pos. }
  destruct (filterlim_RInt (V := R_CompleteNormedModule) (fun k => mask a b (g k)) a b Hierarchy.eventually _ (mask a b h) y) as (l & _ & Hl).
  { intros k. now apply mask_rint. }
  { apply filterlim_locally. intros eps. destruct (lim_small d M D eps (cond_pos eps)) as [N HN]. exists N. intros k Hk t. apply ball_in. specialize (HN k Hk). specialize (U k t).
    assert (Q : Rabs (mask a b (g k) t - mask a b h t) < eps) by lra. apply Rabs_def2 in Q. cbn. lra. }
  exists l. assert (Hh : is_RInt h a b l). { eapply is_RInt_ext; [|exact Hl]. intros t T. rewrite Rmin_left, Rmax_right in T by exact L. now apply mask_in. }
  split; [exact Hh|]. intros k.
  assert (S : is_RInt (fun t => d k * K t) a b (d k * c)) by exact (is_RInt_scal (V := R_NormedModule) K a b (d k) c HK).
  apply Rabs_le. split.
  - assert (Q : l - y k <= d k * c). { apply (is_RInt_le (fun t => h t - g k t) (fun t => d k * K t) a b); [exact L|exact (is_RInt_minus (V := R_NormedModule) h (g k) a b l (y k) Hh (Hg k))|exact S|]. intros t T. specialize (B k t T). apply Rabs_le_between in B. lra. }
    lra.
  - apply (is_RInt_le (fun t => g k t - h t) (fun t => d k * K t) a b); [exact L|exact (is_RInt_minus (V := R_NormedModule) (g k) h a b (y k) l (Hg k) Hh)|exact S|]. intros t T. specialize (B k t T). apply Rabs_le_between in B. lra.
Qed.

(** ** improper integrals *)
Lemma improper_near lo hi (F : R -> R) v a0 eps : inside lo hi a0 -> 0 < eps -> improper lo hi F v ->
  filter_prod (right_of lo) (left_of hi) (fun ab => inside lo hi (fst ab) /\ inside lo hi (snd ab) /\ fst ab <= snd ab /\ exists y, is_RInt F (fst ab) (snd ab) y /\ Rabs (y - v) < eps).
Proof.
  intros I0 E H. assert (Pr : ProperFilter (right_of lo)) by (destruct lo as [l| |]; cbn; typeclasses eauto). assert (Pl : ProperFilter (left_of hi)) by (destruct hi as [l| |]; cbn; typeclasses eauto).
  assert (P1 : filter_prod (right_of lo) (left_of hi) (fun ab => (inside lo hi (fst ab) /\ fst ab <= a0) /\ (inside lo hi (snd ab) /\ a0 <= snd ab))).
  { apply (Filter_prod _ _ _ _ _ (right_of_ins lo hi a0 I0) (left_of_ins lo hi a0 I0)). intros x y Hx Hy. cbn. tauto. }
  assert (P2 : filter_prod (right_of lo) (left_of hi) (fun ab => exists y, is_RInt F (fst ab) (snd ab) y /\ Rabs (y - v) < eps)).
  { apply (H (fun y => Rabs (y - v) < eps)). exists (mkposreal eps E). intros y Hy. exact Hy. }
  generalize (filter_and _ _ P1 P2). apply filter_imp. intros [a b]. cbn. intros [[[A1 A2] [B1 B2]] Q]. repeat (split; [assumption|]). split; [lra|exact Q].
Qed.
Lemma improper_ex lo hi (F : R -> R) v a b : improper lo hi F v -> inside lo hi a -> inside lo hi b -> a <= b -> ex_RInt F a b.
Proof.
  intros H Ia Ib Lab. assert (Pr : ProperFilter (right_of lo)) by (destruct lo as [l| |]; cbn; typeclasses eauto). assert (Pl : ProperFilter (left_of hi)) by (destruct hi as [l| |]; cbn; typeclasses eauto).
  assert (P1 : filter_prod (right_of lo) (left_of hi) (fun ab => (inside lo hi (fst ab) /\ fst ab <= a) /\ (inside lo hi (snd ab) /\ b <= snd ab))).
  { apply (Filter_prod _ _ _ _ _ (right_of_ins lo hi a Ia) (left_of_ins lo hi b Ib)). intros x y Hx Hy. cbn. tauto. }
  destruct (filter_ex _ (filter_and _ _ P1 (improper_near lo hi F v a 1 Ia Rlt_0_1 H))) as ((a', b') & [[A1 A2] [B1 B2]] & _ & _ & _ & y & Y & _). cbn in *.
  apply (ex_RInt_Chasles_2 (V := R_CompleteNormedModule) F a' a b); [lra|]. apply (ex_RInt_Chasles_1 (V := R_CompleteNormedModule) F a' b b'); [lra|]. now exists y.
Qed.
Lemma eps_le x y c : 0 <= c -> (forall eps, 0 < eps -> x <= y + c * eps) -> x <= y.
Proof.
  intros C H. destruct (Rle_lt_dec x y) as [|N]; [assumption|]. exfalso. specialize (H ((x - y) / (2 * (c + 1)))). assert (P : 0 < (x - y) / (2 * (c + 1))) by (apply Rdiv_lt_0_compat; lra). specialize (H P).
  assert (Q : c * ((x - y) / (2 * (c + 1))) <= (x - y) / 2). { replace ((x - y) / 2) with ((c + 1) * ((x - y) / (2 * (c + 1)))) by (field; lra). apply Rmult_le_compat_r; lra. } lra.
Qed.
Lemma improper_le lo hi (F G : R -> R) v w a0 : inside lo hi a0 -> (forall t, inside lo hi t -> F t <= G t) -> improper lo hi F v -> improper lo hi G w -> v <= w.
Proof.
  intros I0 E HF HG. apply (eps_le v w 2); [lra|]. intros eps Pe.
  assert (Pr : ProperFilter (right_of lo)) by (destruct lo as [l| |]; cbn; typeclasses eauto). assert (Pl : ProperFilter (left_of hi)) by (destruct hi as [l| |]; cbn; typeclasses eauto).
  destruct (filter_ex _ (filter_and _ _ (improper_near lo hi F v a0 eps I0 Pe HF) (improper_near lo hi G w a0 eps I0 Pe HG))) as ((a, b) & (A1 & A2 & A3 & y & Y1 & Y2) & (_ & _ & _ & z & Z1 & Z2)). cbn in *.
  assert (Q : y <= z). { apply (is_RInt_le F G a b); [exact A3|exact Y1|exact Z1|]. intros t T. apply E. apply (ins_mm lo hi a b); auto. rewrite Rmin_left, Rmax_right by lra. lra. }
  apply Rabs_def2 in Y2. apply Rabs_def2 in Z2. lra.
Qed.
Lemma improper_fun lo hi (F : R -> R) v w a0 : inside lo hi a0 -> improper lo hi F v -> improper lo hi F w -> v = w.
Proof. intros I A B. apply Rle_antisym; eapply improper_le; eauto; intros; apply Rle_refl. Qed.
Lemma dc_improper lo hi (g : nat -> R -> R) (h K : R -> R) (d y : nat -> R) (c : R) a0 : inside lo hi a0 -> (forall k, improper lo hi (g k) (y k)) -> improper lo hi K c ->
  (forall k t, inside lo hi t -> Rabs (g k t - h t) <= d k * K t) -> (forall k, 0 <= d k) -> is_lim_seq d 0 -> exists l : R, improper lo hi h l /\ forall k, Rabs (y k - l) <= d k * c.
Proof.
  intros I0 Hg HK B Dp D. assert (Pr : ProperFilter (right_of lo)) by (destruct lo as [l| |]; cbn; typeclasses eauto). assert (Pl : ProperFilter (left_of hi)) by (destruct hi as [l| |]; cbn; typeclasses eauto).
  assert (C : forall j k, Rabs (y j - y k) <= (d j + d k) * c).
  { intros j k. apply Rabs_le. pose proof (improper_scal lo hi K c (d j + d k) HK) as S.
    assert (W : forall j k, y j - y k <= (d j + d k) * c).
    { clear j k S. intros j k. apply (improper_le lo hi (fun t => g j t + -1 * g k t) (fun t => (d j + d k) * K t) _ _ a0 I0); [|apply (improper_to _ _ _ (y j + -1 * y k)); [ring|]; apply improper_plus; [apply Hg|apply improper_scal, Hg]|now apply improper_scal].
      intros t T. pose proof (B j t T) as B1. pose proof (B k t T) as B2. apply Rabs_le_between in B1. apply Rabs_le_between in B2. lra. }
    pose proof (W j k). pose proof (W k j). lra. }
  destruct (cauchy_lim y d c C D) as (l & _ & Hl). exists l. split; [|exact Hl].
  intros P [eps HP].
  assert (Pe : 0 < eps / 4) by (destruct eps; cbn; lra). destruct (lim_small d (c + 1) D (eps / 4) Pe) as [N1 HN1]. destruct (lim_small d c D (eps / 4) Pe) as [N2 HN2].
  set (k := (N1 + N2)%nat). specialize (HN1 k ltac:(unfold k; lia)). specialize (HN2 k ltac:(unfold k; lia)).
  generalize (filter_and _ _ (improper_near lo hi (g k) (y k) a0 (eps / 4) I0 Pe (Hg k)) (improper_near lo hi K c a0 1 I0 Rlt_0_1 HK)). unfold filtermapi. apply filter_imp. intros [a b] [(A1 & A2 & A3 & u & U1 & U2) (_ & _ & _ & m & M1 & M2)]. cbn in *.
  assert (Ex : forall j, is_RInt (g j) a b (RInt (g j) a b)). { intros j. apply (RInt_correct (V := R_CompleteNormedModule)). exact (improper_ex lo hi (g j) (y j) a b (Hg j) A1 A2 A3). }
  destruct (dc_rint a b g h K d (fun j => RInt (g j) a b) m A3 Ex M1) as (z & Z1 & Z2); [|exact D|].
  { intros j t T. apply B. apply (ins_mm lo hi a b); auto. rewrite Rmin_left, Rmax_right by lra. lra. }
  exists z. split; [exact Z1|]. apply HP. specialize (Z2 k). rewrite (is_RInt_unique _ _ _ _ U1) in Z2. specialize (Hl k).
  assert (Q : d k * m <= d k * (c + 1)) by (apply Rmult_le_compat_l; [apply Dp|]; apply Rabs_def2 in M2; lra).
  pose proof (Rle_abs (d k * (c + 1))). pose proof (Rle_abs (d k * c)). apply Rabs_le_between in Z2. apply Rabs_le_between in Hl. apply Rabs_def2 in U2. apply ball_in. destruct eps as [eps Heps]; cbn in *. lra.
Qed.

(** ** the value of a functional relation *)
Definition val (E : R -> Prop) : R := real (Lub_Rbar E).
Lemma val_eq (E : R -> Prop) v : E v -> (forall w, E w -> w = v) -> val E = v.
Proof.
  intros H U. unfold val. rewrite (is_lub_Rbar_unique E v); [reflexivity|]. split; [intros w Hw; rewrite (U w Hw); apply Rbar_le_refl|]. intros b Hb. exact (Hb v H).
Qed.

(** ** iterated integrals *)
Section It.
  Variables lo hi : list R -> Rbar.
  Hypothesis box : proper_box lo hi.
  Lemma iterated_fun k : forall l F v w, valid lo hi [] l -> iterated k lo hi l F v -> iterated k lo hi l F w -> v = w.
  Proof.
    induction k as [|k IH]; intros l F v w Hl; cbn [iterated]; [now intros -> ->|]. intros (G & G1 & G2) (H & H1 & H2). destruct (box l Hl) as [a0 I0].
    apply (improper_fun (lo l) (hi l) G v w a0 I0 G2). apply (improper_ext (lo l) (hi l) H G w a0 I0); [|exact H2]. intros t T. apply (IH (l ++ [t])%list F); auto. now apply valid_snoc.
  Qed.
  Lemma dc_iterated k : forall l (g : nat -> list R -> R) (h K : list R -> R) (d y : nat -> R) c, valid lo hi [] l -> (forall j, iterated k lo hi l (g j) (y j)) -> iterated k lo hi l K c ->
    (forall j x, Rabs (g j x - h x) <= d j * K x) -> (forall j, 0 <= d j) -> is_lim_seq d 0 -> exists v, iterated k lo hi l h v /\ forall j, Rabs (y j - v) <= d j * c.
  Proof.
    induction k as [|k IH]; intros l g h K d y c Hl Hg HK B Dp D; cbn [iterated] in *.
    - exists (h l). split; [reflexivity|]. intros j. rewrite Hg, HK. apply B.
    - destruct HK as (Kt & K1 & K2). destruct (box l Hl) as [a0 I0].
      set (G := fun j t => val (fun r => iterated k lo hi (l ++ [t])%list (g j) r)). set (H := fun t => val (fun r => iterated k lo hi (l ++ [t])%list h r)).
      assert (V : forall F t v, inside (lo l) (hi l) t -> iterated k lo hi (l ++ [t])%list F v -> val (fun r => iterated k lo hi (l ++ [t])%list F r) = v).
      { intros F t v T Hv. apply val_eq; [exact Hv|]. intros w Hw. apply (iterated_fun k (l ++ [t])%list F); auto. now apply valid_snoc. }
      assert (Gi : forall j t, inside (lo l) (hi l) t -> iterated k lo hi (l ++ [t])%list (g j) (G j t)).
      { intros j t T. destruct (Hg j) as (Gj & J1 & _). unfold G. rewrite (V _ _ _ T (J1 t T)). now apply J1. }
      assert (Hh : forall t, inside (lo l) (hi l) t -> iterated k lo hi (l ++ [t])%list h (H t) /\ forall j, Rabs (G j t - H t) <= d j * Kt t).
      { intros t T. destruct (IH (l ++ [t])%list g h K d (fun j => G j t) (Kt t)) as (v & V1 & V2); auto; [now apply valid_snoc|]. unfold H. rewrite (V _ _ _ T V1). now split. }
      destruct (dc_improper (lo l) (hi l) G H Kt d y c a0 I0) as (v & V1 & V2); auto.
      + intros j. destruct (Hg j) as (Gj & J1 & J2). apply (improper_ext (lo l) (hi l) Gj (G j) (y j) a0 I0); [|exact J2]. intros t T. symmetry. apply V; auto.
      + intros j t T. now apply Hh.
      + exists v. split; [|exact V2]. exists H. split; [|exact V1]. intros t T. now apply Hh.
  Qed.
End It.
(** ** spheres *)
Lemma dc_sphere k : forall s l (g : nat -> list R -> R) (h K : list R -> R) (d y : nat -> R) c, (forall j, sphere k s l (g j) (y j)) -> sphere k s l K c ->
  (forall j x, Rabs (g j x - h x) <= d j * K x) -> is_lim_seq d 0 -> exists v, sphere k s l h v /\ forall j, Rabs (y j - v) <= d j * c.
Proof.
  induction k as [|k IH]; intros s l g h K d y c Hg HK B D; cbn [sphere] in *.
  - eexists. split; [reflexivity|]. intros j. rewrite Hg, HK. pose proof (B j (l ++ [s])%list) as B1. pose proof (B j (l ++ [- s])%list) as B2. apply Rabs_le_between in B1. apply Rabs_le_between in B2. apply Rabs_le. lra.
  - destruct HK as (Kt & K1 & K2).
    set (G := fun j t => val (fun r => sphere k (s * sin t) (l ++ [s * cos t])%list (g j) r)). set (H := fun t => val (fun r => sphere k (s * sin t) (l ++ [s * cos t])%list h r)).
    assert (V : forall F t v, sphere k (s * sin t) (l ++ [s * cos t])%list F v -> val (fun r => sphere k (s * sin t) (l ++ [s * cos t])%list F r) = v).
    { intros F t v Hv. apply val_eq; [exact Hv|]. intros w Hw. exact (sphere_fun _ _ _ _ _ _ Hw Hv). }
    assert (Gi : forall j t, 0 < t < PI -> sphere k (s * sin t) (l ++ [s * cos t])%list (g j) (G j t)).
    { intros j t T. destruct (Hg j) as (Gj & J1 & _). unfold G. rewrite (V _ _ _ (J1 t T)). now apply J1. }
    assert (Hh : forall t, 0 < t < PI -> sphere k (s * sin t) (l ++ [s * cos t])%list h (H t) /\ forall j, Rabs (G j t - H t) <= d j * Kt t).
    { intros t T. destruct (IH (s * sin t) (l ++ [s * cos t])%list g h K d (fun j => G j t) (Kt t)) as (v & V1 & V2); auto. unfold H. rewrite (V _ _ _ V1). now split. }
    assert (LP : 0 <= PI) by (left; apply PI_RGT_0).
    destruct (dc_rint 0 PI (fun j t => sin t ^ k * G j t) (fun t => sin t ^ k * H t) (fun t => sin t ^ k * Kt t) d y c LP) as (v & V1 & V2); auto.
    + intros j. destruct (Hg j) as (Gj & J1 & J2). eapply is_RInt_ext; [|exact J2]. intros t T. rewrite Rmin_left, Rmax_right in T by exact LP. cbv beta. R_eq. f_equal. symmetry. apply V. now apply J1.
    + intros j t T. cbv beta. rewrite <- Rmult_minus_distr_l, Rabs_mult. assert (P : 0 <= sin t ^ k) by (apply pow_le; left; now apply sin_pos). rewrite (Rabs_pos_eq _ P).
      replace (d j * (sin t ^ k * Kt t)) with (sin t ^ k * (d j * Kt t)) by ring. apply Rmult_le_compat_l; [exact P|]. now apply Hh.
    + exists v. split; [|exact V2]. exists H. split; [|exact V1]. intros t T. now apply Hh.
Qed.
(** ** series *)
Lemma dc_series (g : nat -> nat -> R) (h K : nat -> R) (d y : nat -> R) (c : R) : (forall j, is_series (g j) (y j)) -> is_series K c ->
  (forall j n, Rabs (g j n - h n) <= d j * K n) -> exists v : R, is_series h v /\ forall j, Rabs (y j - v) <= d j * c.
Proof.
  intros Hg HK B. assert (SK : forall j, is_series (fun n => d j * K n) (d j * c)) by (intros j; exact (is_series_scal (d j) K c HK)).
  assert (Ex : forall j, ex_series (fun n => g j n - h n)). { intros j. apply (ex_series_le (V := R_CompleteNormedModule) _ (fun n => d j * K n)); [intros n; exact (B j n)|now exists (d j * c)]. }
  destruct (Ex 0%nat) as [e He]. exists (y 0%nat - e). assert (Sh : is_series h (y 0%nat - e)).
  { eapply is_series_ext_R; [|exact (is_series_minus _ _ _ _ (Hg 0%nat) He)]. intros n. unfold plus, opp. cbn. ring. }
  split; [exact Sh|]. intros j. set (v := y 0%nat - e) in *.
  assert (Q : is_series (fun n => g j n - h n) (y j - v)) by (eapply is_series_ext_R; [|exact (is_series_minus _ _ _ _ (Hg j) Sh)]; intros n; unfold plus, opp; cbn; ring).
  rewrite <- (is_series_unique _ _ Q), <- (is_series_unique _ _ (SK j)).
  assert (Ea : ex_series (fun n => Rabs (g j n - h n))). { apply (ex_series_le (V := R_CompleteNormedModule) _ (fun n => d j * K n)); [intros n|now exists (d j * c)]. unfold norm; cbn. unfold abs; cbn. rewrite Rabs_Rabsolu. apply B. }
  eapply Rle_trans; [exact (Series_Rabs _ Ea)|]. apply Series_le; [|now exists (d j * c)]. intros n. split; [apply Rabs_pos|apply B].
Qed.
