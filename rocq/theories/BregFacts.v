(** C19: the divergence of the log-normalizer between two points of the domain is positive unless the points are equal. *)
From Coquelicot Require Import Coquelicot.
From Coq Require Import String List Bool Arith Reals Lia Lra.
From Verif Require Import Base XReal Tensor TensorFacts Support Dist Iteration Spec SumSpec DotSpec SpecFun GammaFn BesselFn BesselFn2 TrigammaFn Expr Fam ExprFacts FamTy FamFacts PointSpec PointFacts Val FamR FamVal ConvFacts DerivFacts.
Import ListNotations.
Local Unset Asymmetric Patterns.
Local Open Scope string_scope.
Local Open Scope R_scope.

Definition psub (q p : point) : point := fun c nm j => q c nm j - p c nm j.
Definition brR (f : family) (n : nat) (p q : point) : R := lnR n q f - lnR n p f - dotP (NP f) (EP f) n (psub q p) (expR n p f).

(** ** convexity of functions of one variable *)
Lemma conv1 (g g' : R -> R) a b : (forall x, Rmin a b <= x <= Rmax a b -> is_derive g x (g' x)) ->
  (forall x y, Rmin a b <= x -> x < y -> y <= Rmax a b -> g' x < g' y) -> a <> b -> 0 < g b - g a - (b - a) * g' a.
Proof.
  intros D I N. destruct (Rlt_or_le a b) as [L|L].
  - rewrite Rmin_left, Rmax_right in * by lra. destruct (MVT_cor2 g g' a b L) as (c & E & C); [intros c C; apply is_derive_Reals, D; lra|].
    pose proof (I a c ltac:(lra) ltac:(lra) ltac:(lra)). nra.
  - rewrite Rmin_right, Rmax_left in * by lra. destruct (MVT_cor2 g g' b a ltac:(lra)) as (c & E & C); [intros c C; apply is_derive_Reals, D; lra|].
    pose proof (I c a ltac:(lra) ltac:(lra) ltac:(lra)). nra.
Qed.
Lemma minmax_pos a b x : 0 < a -> 0 < b -> Rmin a b <= x -> 0 < x.
Proof. intros A B H. unfold Rmin in H. destruct (Rle_dec a b); lra. Qed.
Lemma lngamma_conv a b : 0 < a -> 0 < b -> a <> b -> 0 < lngamma b - lngamma a - (b - a) * digamma a.
Proof.
  intros A B N. apply conv1; [| |exact N].
  - intros x X. apply lngamma_derive. apply (minmax_pos a b x A B). lra.
  - intros x y X XY _. apply digamma_incr; [|exact XY]. now apply (minmax_pos a b x A B).
Qed.
Lemma ln_conv r : 0 < r -> r <> 1 -> 0 < r - 1 - ln r. Proof. intros A B. pose proof (ln_lt_sub1 r A B). lra. Qed.
Lemma ln_conv_le r : 0 < r -> 0 <= r - 1 - ln r. Proof. intros A. pose proof (ln_le_sub1 r A). lra. Qed.
Lemma exp_conv d : d <> 0 -> 0 < exp d - 1 - d. Proof. intros A. pose proof (exp_ineq1 d A). lra. Qed.
Lemma exp_conv_le d : 0 <= exp d - 1 - d. Proof. pose proof (exp_ineq1_le d). lra. Qed.
(** -ln(-x) on the negative half line *)
Lemma nln_conv p q : p < 0 -> q < 0 -> p <> q -> 0 < - ln (- q) + ln (- p) - (q - p) * (-1 / p).
Proof.
  intros P Q N. assert (R : 0 < q / p). { replace (q / p) with (- q / - p) by (field; lra). apply Rdiv_lt_0_compat; lra. }
  assert (E : ln (- q) - ln (- p) = ln (q / p)). { rewrite <- ln_div by lra. f_equal. field. lra. }
  assert (R1 : q / p <> 1). { intros E1. apply N. apply (Rmult_eq_compat_r p) in E1. unfold Rdiv in E1. rewrite Rmult_assoc, Rinv_l in E1 by lra. lra. }
  pose proof (ln_conv _ R R1) as L. replace ((q - p) * (-1 / p)) with (1 - q / p) by (field; lra). lra.
Qed.
(** log sum exp *)
Lemma sumR_lt n g h : (forall k, (k < n)%nat -> g k <= h k) -> (exists k, (k < n)%nat /\ g k < h k) -> sumR n g < sumR n h.
Proof.
  induction n as [|n IH]; intros H (k & K & L); [lia|]. rewrite !sumR_S. pose proof (sumR_le n g h ltac:(intros; apply H; lia)) as S. pose proof (H n ltac:(lia)) as T.
  destruct (Nat.eq_dec k n) as [->|Nk]; [lra|]. assert (sumR n g < sumR n h) by (apply IH; [intros; apply H; lia|exists k; split; [lia|exact L]]). lra.
Qed.
Lemma vec_dec n (g h : nat -> R) : (forall k, (k < n)%nat -> g k = h k) \/ exists k, (k < n)%nat /\ g k <> h k.
Proof.
  induction n as [|n [IH|(k & K & N)]]; [left; intros; lia| |right; exists k; split; [lia|exact N]].
  destruct (Req_dec (g n) (h n)) as [E|E]; [left|right; exists n; split; [lia|exact E]]. intros k K. destruct (Nat.eq_dec k n) as [->|]; [exact E|apply IH; lia].
Qed.
(** weights w0 + sum w = W, exponents 0 and d *)
Lemma lse_conv n (w0 : R) (w d : nat -> R) : 0 < w0 -> (forall k, (k < n)%nat -> 0 < w k) -> (exists k, (k < n)%nat /\ d k <> 0) ->
  0 < ln ((w0 + sumR n (fun k => w k * exp (d k))) / (w0 + sumR n w)) - sumR n (fun k => d k * w k) / (w0 + sumR n w).
Proof.
  intros H0 H (k & K & N). set (W := w0 + sumR n w). assert (HW : 0 < W). { unfold W. assert (0 <= sumR n w); [|lra]. apply sumR_nonneg. intros j J. specialize (H j J). lra. }
  set (D := sumR n (fun k => d k * w k) / W).
  assert (E : exp D < (w0 + sumR n (fun k => w k * exp (d k))) / W).
  { apply Rmult_lt_reg_r with W; [exact HW|]. unfold Rdiv. rewrite Rmult_assoc, Rinv_l, Rmult_1_r by lra.
    assert (T : forall x, exp D * (1 + (x - D)) <= exp x). { intros x. pose proof (exp_ineq1_le (x - D)). pose proof (exp_pos D). replace (exp x) with (exp D * exp (x - D)) by (rewrite <- exp_plus; f_equal; ring). apply Rmult_le_compat_l; lra. }
    assert (T' : forall x, x <> D -> exp D * (1 + (x - D)) < exp x). { intros x X. pose proof (exp_ineq1 (x - D) ltac:(lra)). pose proof (exp_pos D). replace (exp x) with (exp D * exp (x - D)) by (rewrite <- exp_plus; f_equal; ring). apply Rmult_lt_compat_l; lra. }
    assert (S : w0 * (exp D * (1 + (0 - D))) + sumR n (fun k => w k * (exp D * (1 + (d k - D)))) = exp D * W).
    { rewrite (sumR_ext n _ (fun k => exp D * (w k + (d k * w k + (- D) * w k)))) by (intros; ring). rewrite sumR_scal, !sumR_plus, sumR_scal.
      replace (sumR n (fun k => d k * w k)) with (D * W) by (unfold D; field; lra). unfold W. ring. }
    rewrite <- S. pose proof (T 0) as T0. rewrite exp_0 in T0.
    destruct (Req_dec (d k) D) as [Ed|Ed].
    - pose proof (T' 0 ltac:(lra)) as T0'. rewrite exp_0 in T0'.
      assert (sumR n (fun k => w k * (exp D * (1 + (d k - D)))) <= sumR n (fun k => w k * exp (d k))). { apply sumR_le. intros j J. apply Rmult_le_compat_l; [specialize (H j J); lra|apply T]. }
      assert (w0 * (exp D * (1 + (0 - D))) < w0 * 1) by (apply Rmult_lt_compat_l; lra). lra.
    - assert (sumR n (fun k => w k * (exp D * (1 + (d k - D)))) < sumR n (fun k => w k * exp (d k))).
      { apply sumR_lt; [intros j J; apply Rmult_le_compat_l; [specialize (H j J); lra|apply T]|]. exists k. split; [exact K|]. apply Rmult_lt_compat_l; [now apply H|now apply T']. }
      assert (w0 * (exp D * (1 + (0 - D))) <= w0 * 1) by (apply Rmult_le_compat_l; lra). lra. }
  fold D. rewrite <- (ln_exp D). apply ln_increasing in E; [lra|apply exp_pos].
Qed.
(** -ln(1 - exp x) on the negative half line *)
Lemma geo_conv p q : p < 0 -> q < 0 -> p <> q -> 0 < - ln (1 + - exp q) + ln (1 + - exp p) - (q - p) * (1 / (exp (- p) - 1)).
Proof.
  intros P Q N. pose proof (exp_lt1 p P) as P1. pose proof (exp_lt1 q Q) as Q1. pose proof (exp_pos p) as P0. set (u := exp p) in *.
  assert (Eq : exp q = u * exp (q - p)) by (unfold u; rewrite <- exp_plus; f_equal; ring). pose proof (exp_ineq1 (q - p) ltac:(lra)) as I.
  set (y := (1 + - exp q) / (1 + - u)). assert (Hy : 0 < y) by (apply Rdiv_lt_0_compat; lra).
  assert (E : ln (1 + - exp q) - ln (1 + - u) = ln y) by (unfold y; rewrite ln_div by lra; ring).
  pose proof (ln_le_sub1 y Hy) as L. rewrite exp_Ropp. fold u. replace ((q - p) * (1 / (/ u - 1))) with ((q - p) * u / (1 - u)) by (field; lra).
  assert (Y : y - 1 = - (u * (exp (q - p) - 1)) / (1 - u)) by (unfold y; rewrite Eq; field; lra).
  assert ((q - p) * u / (1 - u) < (u * (exp (q - p) - 1)) / (1 - u)).
  { apply Rmult_lt_compat_r; [apply Rinv_0_lt_compat; lra|]. rewrite Rmult_comm. apply Rmult_lt_compat_l; lra. }
  assert (- (u * (exp (q - p) - 1)) / (1 - u) = - ((u * (exp (q - p) - 1)) / (1 - u))) by (field; lra). lra.
Qed.
(** the logarithmic distribution *)
Lemma log_chi_incr p q : p < q -> q < 0 -> exp p / ((exp p - 1) * ln (1 + - exp p)) < exp q / ((exp q - 1) * ln (1 + - exp q)).
Proof.
  intros L Q. pose proof (exp_pos p) as P0. pose proof (exp_lt1 q Q) as Q1. pose proof (exp_increasing p q L) as PQ. set (u := exp p) in *. set (w := exp q) in *.
  set (g x := (x - 1) * ln (1 + - x) / x). set (g' x := (ln (1 + - x) + x) / (x * x)).
  assert (G : forall x, 0 < x < 1 -> is_derive g x (g' x)). { intros x X. unfold g, g'. auto_derive; [split; [lra|split; [lra|exact Logic.I]]|]. field. lra. }
  assert (Gp : forall x, 0 < x < 1 -> 0 < g x). { intros x X. unfold g. pose proof (log1m_neg x X). apply Rdiv_lt_0_compat; [|lra]. nra. }
  destruct (MVT_cor2 g g' u w PQ) as (c & E & C); [intros c C; apply is_derive_Reals, G; lra|].
  assert (g' c < 0). { unfold g'. pose proof (ln_lt_sub1 (1 + - c) ltac:(lra) ltac:(lra)). assert (0 < / (c * c)) by (apply Rinv_0_lt_compat, Rmult_lt_0_compat; lra). unfold Rdiv. nra. }
  assert (I : g w < g u) by nra.
  pose proof (log1m_neg u ltac:(lra)) as Lu. pose proof (log1m_neg w ltac:(lra)) as Lw.
  replace (u / ((u - 1) * ln (1 + - u))) with (/ g u) by (unfold g; field; split; [lra|split; lra]). replace (w / ((w - 1) * ln (1 + - w))) with (/ g w) by (unfold g; field; split; [lra|split; lra]).
  apply Rinv_lt_contravar; [|exact I]. apply Rmult_lt_0_compat; apply Gp; lra.
Qed.
Lemma log_conv p q : p < 0 -> q < 0 -> p <> q -> 0 < ln (- ln (1 + - exp q)) - ln (- ln (1 + - exp p)) - (q - p) * (exp p / ((exp p - 1) * ln (1 + - exp p))).
Proof.
  intros P Q N. apply (conv1 (fun x => ln (- ln (1 + - exp x))) (fun x => exp x / ((exp x - 1) * ln (1 + - exp x)))); [| |exact N].
  - intros x X. assert (x < 0). { unfold Rmax in X. destruct (Rle_dec p q); lra. } pose proof (exp_lt1 x ltac:(lra)) as E1. pose proof (exp_pos x) as E0. pose proof (log1m_neg (exp x) ltac:(lra)) as L.
    auto_derive; [split; [lra|split; [lra|exact Logic.I]]|]. field. lra.
  - intros x y X XY Y. apply log_chi_incr; [exact XY|]. unfold Rmax in Y. destruct (Rle_dec p q); lra.
Qed.
(** the gamma distribution: shape a, rate b *)
Lemma gamma_conv a b a' b' : 0 < a -> 0 < b -> 0 < a' -> 0 < b' -> (a <> a' \/ b <> b') ->
  0 < (lngamma a' - a' * ln b') - (lngamma a - a * ln b) - ((a' - a) * (digamma a - ln b) + (- b' - - b) * (a / b)).
Proof.
  intros A B A' B' N. set (x := b' / b). assert (X : 0 < x) by (apply Rdiv_lt_0_compat; lra).
  assert (Lx : ln b' = ln x + ln b) by (unfold x; rewrite ln_div by lra; ring).
  assert (E : (lngamma a' - a' * ln b') - (lngamma a - a * ln b) - ((a' - a) * (digamma a - ln b) + (- b' - - b) * (a / b))
    = (lngamma a' - lngamma a - (a' - a) * digamma a) - a' * ln x + a * (x - 1)).
  { rewrite Lx. replace ((- b' - - b) * (a / b)) with (- (a * (x - 1))) by (unfold x; field; lra). ring. }
  rewrite E. clear E. set (y := a * x / a'). assert (Y : 0 < y) by (apply Rdiv_lt_0_compat; [apply Rmult_lt_0_compat; lra|lra]).
  assert (Ly : ln y = ln x + ln a - ln a'). { unfold y. rewrite ln_div; [rewrite ln_mult by lra; ring|apply Rmult_lt_0_compat; lra|lra]. }
  assert (Ey : a * x = a' * y) by (unfold y; field; lra).
  replace (lngamma a' - lngamma a - (a' - a) * digamma a - a' * ln x + a * (x - 1)) with
    ((lngamma a' - lngamma a - (a' - a) * digamma a - a' * (ln a' - ln a) + a' - a) + a' * (y - 1 - ln y)) by (rewrite Ly; replace (a * (x - 1)) with (a' * y - a) by (rewrite <- Ey; ring); ring).
  set (h z := lngamma z - (z * ln z - z)).
  assert (H : forall z, 0 < z -> is_derive h z (digamma z - ln z)).
  { intros z Z. unfold h. apply (is_derive_minus (K := R_AbsRing) (V := R_NormedModule)); [now apply lngamma_derive|]. auto_derive; [exact Z|]. field. lra. }
  assert (Hc : a <> a' -> 0 < h a' - h a - (a' - a) * (digamma a - ln a)).
  { intros Na. apply (conv1 h (fun z => digamma z - ln z)); [| |exact Na].
    - intros z Z. apply H. apply (minmax_pos a a' z A A'). lra.
    - intros z w Z ZW _. apply digamma_ln_incr; [|exact ZW]. now apply (minmax_pos a a' z A A'). }
  assert (Eh : lngamma a' - lngamma a - (a' - a) * digamma a - a' * (ln a' - ln a) + a' - a = h a' - h a - (a' - a) * (digamma a - ln a)) by (unfold h; ring).
  rewrite Eh. pose proof (ln_conv_le y Y) as L. assert (0 <= a' * (y - 1 - ln y)) by (apply Rmult_le_pos; lra).
  destruct (Req_dec a a') as [Ea|Ea]; [|specialize (Hc Ea); lra].
  destruct N as [N|N]; [lra|]. assert (Y1 : y <> 1).
  { intros Y1. apply N. rewrite Y1, Rmult_1_r, <- Ea in Ey. assert (Ex : x = 1) by (apply (Rmult_eq_reg_l a); lra). unfold x in Ex. apply (Rmult_eq_compat_r b) in Ex. unfold Rdiv in Ex. rewrite Rmult_assoc, Rinv_l in Ex by lra. lra. }
  pose proof (ln_conv y Y Y1). assert (0 < a' * (y - 1 - ln y)) by (apply Rmult_lt_0_compat; lra).
  replace (h a' - h a - (a' - a) * (digamma a - ln a)) with 0 by (rewrite <- Ea; ring). lra.
Qed.
(** Dirichlet *)
Lemma is_derive_sumR n (g : nat -> R -> R) x d : (forall k, (k < n)%nat -> is_derive (g k) x (d k)) -> is_derive (fun s => sumR n (fun k => g k s)) x (sumR n d).
Proof.
  induction n as [|n IH]; intros H.
  - unfold sumR. cbn. apply @is_derive_const.
  - rewrite !sumR_S. eapply is_derive_ext; [intros s; symmetry; apply sumR_S|]. apply (is_derive_plus (K := R_AbsRing) (V := R_NormedModule)); [apply IH; intros; apply H; lia|apply H; lia].
Qed.
Lemma cauchy_weighted n (a v : nat -> R) : (forall k, (k < n)%nat -> 0 < a k) -> 0 < sumR n a -> sumR n v * sumR n v <= sumR n a * sumR n (fun k => v k * v k / a k).
Proof.
  intros H P. set (A := sumR n a) in *. set (V := sumR n v). set (m := V / A).
  assert (S : 0 <= sumR n (fun k => v k * v k / a k + (- (2 * m) * v k + (m * m) * a k))).
  { apply sumR_nonneg. intros k K. specialize (H k K). replace (v k * v k / a k + (- (2 * m) * v k + m * m * a k)) with (a k * ((v k / a k - m) * (v k / a k - m))) by (field; lra). apply Rmult_le_pos; [lra|apply Rle_0_sqr]. }
  rewrite !sumR_plus, !sumR_scal in S. fold A V in S. set (Q := sumR n (fun k => v k * v k / a k)) in *.
  assert (M : m * A = V) by (unfold m; field; lra). replace (- (2 * m) * V + m * m * A) with (- (m * V)) in S by (rewrite <- M; ring).
  apply (Rmult_le_compat_l A) in S; [|lra]. rewrite Rmult_0_r in S. replace (V * V) with (A * (m * V)) by (rewrite <- M; ring). lra.
Qed.
Lemma sum_gt_term n (a : nat -> R) k : (2 <= n)%nat -> (forall k, (k < n)%nat -> 0 < a k) -> (k < n)%nat -> a k < sumR n a.
Proof.
  intros N H K. destruct n as [|n]; [lia|]. rewrite sumR_S. destruct (Nat.eq_dec k n) as [->|Nk].
  - assert (0 < sumR n a) by (apply sumR_pos; [intros; apply H; lia|lia]). lra.
  - pose proof (sumR_term n a k ltac:(intros j J; specialize (H j ltac:(lia)); lra) ltac:(lia)). specialize (H n ltac:(lia)). lra.
Qed.
Lemma dir_hess n (a v : nat -> R) : (2 <= n)%nat -> (forall k, (k < n)%nat -> 0 < a k) -> (exists k, (k < n)%nat /\ v k <> 0) ->
  sumR n v * sumR n v * trigamma (sumR n a) < sumR n (fun k => v k * v k * trigamma (a k)).
Proof.
  intros N H (k & K & V). assert (P : 0 < sumR n a) by (apply sumR_pos; [exact H|lia]). set (A := sumR n a) in *. pose proof (trigamma_pos A P) as T.
  assert (L : forall j, (j < n)%nat -> A * trigamma A / a j < trigamma (a j)).
  { intros j J. pose proof (xtrigamma_decr (a j) A (H j J) (sum_gt_term n a j N H J)) as X. specialize (H j J). apply Rmult_lt_reg_l with (a j); [exact H|]. unfold Rdiv. rewrite (Rmult_comm (a j) (_ * / _)), Rmult_assoc, Rinv_l by lra. lra. }
  apply Rle_lt_trans with (sumR n (fun j => v j * v j * (A * trigamma A / a j))).
  - rewrite (sumR_ext n (fun j => v j * v j * (A * trigamma A / a j)) (fun j => (A * trigamma A) * (v j * v j / a j))). 2:{ intros j J. specialize (H j J). field. lra. }
    rewrite sumR_scal. pose proof (cauchy_weighted n a v H P) as C. fold A in C. apply (Rmult_le_compat_r (trigamma A)) in C; lra.
  - apply sumR_lt; [intros j J; apply Rmult_le_compat_l; [apply Rle_0_sqr|specialize (L j J); lra]|]. exists k. split; [exact K|]. apply Rmult_lt_compat_l; [|now apply L]. apply Rsqr_pos_lt in V. exact V.
Qed.
Lemma dir_conv n (a b : nat -> R) : (2 <= n)%nat -> (forall k, (k < n)%nat -> 0 < a k) -> (forall k, (k < n)%nat -> 0 < b k) -> (exists k, (k < n)%nat /\ b k <> a k) ->
  0 < (sumR n (fun k => lngamma (b k)) - lngamma (sumR n b)) - (sumR n (fun k => lngamma (a k)) - lngamma (sumR n a)) - sumR n (fun k => (b k - a k) * (digamma (a k) - digamma (sumR n a))).
Proof.
  intros N Ha Hb Hn. set (v k := b k - a k). set (L (k : nat) t := a k + t * v k).
  assert (Lp : forall t k, 0 <= t <= 1 -> (k < n)%nat -> 0 < L k t). { intros t k T K. unfold L, v. specialize (Ha k K). specialize (Hb k K). replace (a k + t * (b k - a k)) with ((1 - t) * a k + t * b k) by ring. destruct (Req_dec t 0) as [->|]; [lra|]. assert (0 < t * b k) by (apply Rmult_lt_0_compat; lra). assert (0 <= (1 - t) * a k) by (apply Rmult_le_pos; lra). lra. }
  assert (LA : forall t, sumR n (fun k => L k t) = sumR n a + t * sumR n v). { intros t. unfold L. now rewrite sumR_plus, sumR_scal. }
  assert (Sp : forall t, 0 <= t <= 1 -> 0 < sumR n a + t * sumR n v). { intros t T. rewrite <- LA. apply sumR_pos; [intros; now apply Lp|lia]. }
  set (g t := sumR n (fun k => lngamma (L k t)) - lngamma (sumR n a + t * sumR n v)). set (g' t := sumR n (fun k => v k * digamma (L k t)) - sumR n v * digamma (sumR n a + t * sumR n v)).
  set (g2 t := sumR n (fun k => v k * (v k * trigamma (L k t))) - sumR n v * (sumR n v * trigamma (sumR n a + t * sumR n v))).
  assert (Dl : forall c d t, is_derive (fun s => c + s * d) t d). { intros c d t. auto_derive; [exact Logic.I|ring]. }
  assert (D1 : forall t, 0 <= t <= 1 -> is_derive g t (g' t)).
  { intros t T. unfold g, g'. apply (is_derive_minus (K := R_AbsRing) (V := R_NormedModule)).
    - apply is_derive_sumR. intros k K. apply (is_derive_comp (K := R_AbsRing) (V := R_NormedModule) lngamma (L k)); [apply lngamma_derive; now apply Lp|apply Dl].
    - apply (is_derive_comp (K := R_AbsRing) (V := R_NormedModule) lngamma (fun s => sumR n a + s * sumR n v)); [apply lngamma_derive; now apply Sp|apply Dl]. }
  assert (D2 : forall t, 0 <= t <= 1 -> is_derive g' t (g2 t)).
  { intros t T. unfold g', g2. apply (is_derive_minus (K := R_AbsRing) (V := R_NormedModule)).
    - apply is_derive_sumR. intros k K. apply (is_derive_scal (fun s => digamma (L k s))). apply (is_derive_comp (K := R_AbsRing) (V := R_NormedModule) digamma (L k)); [apply digamma_derive; now apply Lp|apply Dl].
    - apply (is_derive_scal (fun s => digamma (sumR n a + s * sumR n v))). apply (is_derive_comp (K := R_AbsRing) (V := R_NormedModule) digamma (fun s => sumR n a + s * sumR n v)); [apply digamma_derive; now apply Sp|apply Dl]. }
  assert (P2 : forall t, 0 <= t <= 1 -> 0 < g2 t).
  { intros t T. unfold g2. pose proof (dir_hess n (fun k => L k t) v N ltac:(intros; now apply Lp)) as Q. cbv beta in Q. rewrite LA in Q.
    rewrite (sumR_ext n (fun k => v k * (v k * trigamma (L k t))) (fun k => v k * v k * trigamma (L k t))) by (intros; ring). assert (X : exists k, (k < n)%nat /\ v k <> 0). { destruct Hn as (k & K & E). exists k. split; [exact K|]. unfold v. lra. } specialize (Q X). lra. }
  pose proof (conv1 g g' 0 1) as C. rewrite Rmin_left, Rmax_right in C by lra.
  assert (C' : 0 < g 1 - g 0 - (1 - 0) * g' 0).
  { apply C; [exact D1| |lra]. intros x y X XY Y. destruct (MVT_cor2 g' g2 x y XY) as (c & E & Hc); [intros c Hc; apply is_derive_Reals, D2; lra|]. pose proof (P2 c ltac:(lra)). nra. }
  assert (E1 : g 1 = sumR n (fun k => lngamma (b k)) - lngamma (sumR n b)).
  { unfold g. f_equal; [apply sumR_ext; intros; f_equal; unfold L, v; ring|]. f_equal. unfold v. rewrite sumR_minus. ring. }
  assert (E0 : g 0 = sumR n (fun k => lngamma (a k)) - lngamma (sumR n a)).
  { unfold g. f_equal; [apply sumR_ext; intros; f_equal; unfold L; ring|]. f_equal. ring. }
  assert (E' : g' 0 = sumR n (fun k => (b k - a k) * (digamma (a k) - digamma (sumR n a)))).
  { unfold g'. rewrite (sumR_ext n (fun k => (b k - a k) * (digamma (a k) - digamma (sumR n a))) (fun k => v k * digamma (a k) - digamma (sumR n a) * v k)) by (intros; unfold v; ring). rewrite sumR_minus, (sumR_scal n (digamma (sumR n a)) v).
    rewrite Rmult_0_l, Rplus_0_r. f_equal; [|change (sumR n (fun k => v k)) with (sumR n v); ring]. apply sumR_ext. intros. f_equal. f_equal. unfold L. ring. }
  rewrite E1, E0, E' in C'. lra.
Qed.
(** the two parameters of a beta distribution *)
Lemma beta_conv a b a' b' : 0 < a -> 0 < b -> 0 < a' -> 0 < b' -> (a' <> a \/ b' <> b) ->
  0 < (lngamma a' + lngamma b' - lngamma (a' + b')) - (lngamma a + lngamma b - lngamma (a + b)) - ((a' - a) * (digamma a - digamma (a + b)) + (b' - b) * (digamma b - digamma (a + b))).
Proof.
  intros A B A' B' N. pose proof (dir_conv 2 (fun k => match k with 0%nat => a | _ => b end) (fun k => match k with 0%nat => a' | _ => b' end)) as D. unfold sumR in D. cbn in D. rewrite !Rplus_0_r in D.
  assert (X : forall u w : R, 0 < u -> 0 < w -> forall k : nat, (k < 2)%nat -> 0 < match k with 0%nat => u | _ => w end) by (intros u w U W [|k] _; assumption).
  specialize (D ltac:(lia) (X a b A B) (X a' b' A' B')).
  assert (Y : exists k, (k < 2)%nat /\ match k with 0%nat => a' | _ => b' end <> match k with 0%nat => a | _ => b end). { destruct N; [exists 0%nat|exists 1%nat]; split; (lia || assumption). }
  specialize (D Y). lra.
Qed.
(** normal distributions *)
Lemma ratio_1 h h' : h <> 0 -> h' / h = 1 -> h' = h.
Proof. intros N E. apply (Rmult_eq_compat_r h) in E. unfold Rdiv in E. rewrite Rmult_assoc, Rinv_l in E by exact N. lra. Qed.
Lemma sq_pos x : x <> 0 -> 0 < x * x. Proof. intros N. apply Rsqr_pos_lt in N. exact N. Qed.
Lemma normal_le x h x' h' : h < 0 -> h' < 0 ->
  0 <= (- (x' * x') / (4 * h') + 1 / 2 * ln (- PI / h')) - (- (x * x) / (4 * h) + 1 / 2 * ln (- PI / h)) - ((x' - x) * (- x / (2 * h)) + (h' - h) * (- x / (2 * h) * (- x / (2 * h)) - 1 / 2 / h)) /\
  (x' <> x \/ h' <> h -> 0 < (- (x' * x') / (4 * h') + 1 / 2 * ln (- PI / h')) - (- (x * x) / (4 * h) + 1 / 2 * ln (- PI / h)) - ((x' - x) * (- x / (2 * h)) + (h' - h) * (- x / (2 * h) * (- x / (2 * h)) - 1 / 2 / h))).
Proof.
  intros H H'. pose proof PI_RGT_0 as HPI. set (r := h' / h). assert (R : 0 < r). { unfold r. replace (h' / h) with (- h' / - h) by (field; lra). apply Rdiv_lt_0_compat; lra. }
  assert (L : ln (- PI / h') - ln (- PI / h) = - ln r).
  { replace (- PI / h') with (PI / - h') by (field; lra). replace (- PI / h) with (PI / - h) by (field; lra). unfold r. replace (h' / h) with (- h' / - h) by (field; lra). rewrite !ln_div by lra. ring. }
  set (y := x' - h' * x / h).
  assert (E : (- (x' * x') / (4 * h') + 1 / 2 * ln (- PI / h')) - (- (x * x) / (4 * h) + 1 / 2 * ln (- PI / h)) - ((x' - x) * (- x / (2 * h)) + (h' - h) * (- x / (2 * h) * (- x / (2 * h)) - 1 / 2 / h))
    = y * y / (4 * - h') + 1 / 2 * (r - 1 - ln r)).
  { replace (ln (- PI / h')) with (ln (- PI / h) - ln r) by lra. unfold y, r. field. lra. }
  rewrite E. pose proof (ln_conv_le r R) as LC. assert (Y : 0 <= y * y / (4 * - h')) by (apply Rmult_le_pos; [apply Rle_0_sqr|apply Rlt_le, Rinv_0_lt_compat; lra]).
  split; [lra|]. intros N. destruct (Req_dec r 1) as [R1|R1]; [|pose proof (ln_conv r R R1); lra]. apply ratio_1 in R1; [|lra]. destruct N as [N|N]; [|lra].
  assert (Ny : y <> 0). { unfold y. rewrite R1. replace (h * x / h) with x by (field; lra). lra. }
  assert (0 < y * y / (4 * - h')); [|lra]. apply Rdiv_lt_0_compat; [now apply sq_pos|lra].
Qed.
Lemma iso_conv n (x x' : nat -> R) h h' : (1 <= n)%nat -> h < 0 -> h' < 0 -> ((exists k, (k < n)%nat /\ x' k <> x k) \/ h' <> h) ->
  0 < 1 / 2 * (-1 / 2 * sumR n (fun k => x' k * x' k) / h' + INR n * ln (PI / - h')) - 1 / 2 * (-1 / 2 * sumR n (fun k => x k * x k) / h + INR n * ln (PI / - h))
    - (sumR n (fun k => (x' k - x k) * (x k / (-2 * h))) + (h' - h) * (sumR n (fun k => x k / (-2 * h) * (x k / (-2 * h))) + INR n / (-2 * h))).
Proof.
  intros Hn H H' N. pose proof PI_RGT_0 as HPI. set (r := h' / h). assert (R : 0 < r). { unfold r. replace (h' / h) with (- h' / - h) by (field; lra). apply Rdiv_lt_0_compat; lra. }
  assert (Nn : 1 <= INR n) by (destruct n; [lia|rewrite S_INR; pose proof (pos_INR n); lra]).
  assert (L : ln (PI / - h') = ln (PI / - h) - ln r). { unfold r. replace (h' / h) with (- h' / - h) by (field; lra). rewrite !ln_div by lra. ring. }
  set (y k := x' k - h' * x k / h).
  assert (E : 1 / 2 * (-1 / 2 * sumR n (fun k => x' k * x' k) / h' + INR n * ln (PI / - h')) - 1 / 2 * (-1 / 2 * sumR n (fun k => x k * x k) / h + INR n * ln (PI / - h))
    - (sumR n (fun k => (x' k - x k) * (x k / (-2 * h))) + (h' - h) * (sumR n (fun k => x k / (-2 * h) * (x k / (-2 * h))) + INR n / (-2 * h)))
    = sumR n (fun k => y k * y k / (4 * - h')) + INR n / 2 * (r - 1 - ln r)).
  { rewrite L. rewrite (sumR_ext n (fun k => y k * y k / (4 * - h')) (fun k => / (4 * - h') * (x' k * x' k) + (/ (2 * h) * (x' k * x k) + (- h' / (4 * h * h)) * (x k * x k)))) by (intros; unfold y; field; lra).
    rewrite (sumR_ext n (fun k => (x' k - x k) * (x k / (-2 * h))) (fun k => - / (2 * h) * (x' k * x k) + / (2 * h) * (x k * x k))) by (intros; field; lra).
    rewrite (sumR_ext n (fun k => x k / (-2 * h) * (x k / (-2 * h))) (fun k => / (4 * h * h) * (x k * x k))) by (intros; field; lra).
    rewrite !sumR_plus, !sumR_scal. unfold r. field. lra. }
  rewrite E. pose proof (ln_conv_le r R) as LC. assert (Y : 0 <= sumR n (fun k => y k * y k / (4 * - h'))). { apply sumR_nonneg. intros k _. apply Rmult_le_pos; [apply Rle_0_sqr|apply Rlt_le, Rinv_0_lt_compat; lra]. }
  assert (LC' : 0 <= INR n / 2 * (r - 1 - ln r)) by (apply Rmult_le_pos; lra).
  destruct (Req_dec r 1) as [R1|R1]; [|assert (0 < INR n / 2 * (r - 1 - ln r)) by (apply Rmult_lt_0_compat; [lra|now apply ln_conv]); lra]. apply ratio_1 in R1; [|lra]. destruct N as [(k & K & N)|N]; [|lra].
  assert (Ny : y k <> 0). { unfold y. rewrite R1. replace (h * x k / h) with (x k) by (field; lra). lra. }
  assert (y k * y k / (4 * - h') <= sumR n (fun k => y k * y k / (4 * - h'))). { apply (sumR_term n (fun k => y k * y k / (4 * - h'))); [|exact K]. intros j _. apply Rmult_le_pos; [apply Rle_0_sqr|apply Rlt_le, Rinv_0_lt_compat; lra]. }
  assert (0 < y k * y k / (4 * - h')); [|lra]. apply Rdiv_lt_0_compat; [now apply sq_pos|lra].
Qed.
Lemma quad_conv n (x y : nat -> R) : (exists k, (k < n)%nat /\ y k <> x k) -> 0 < sumR n (fun k => y k * y k) - sumR n (fun k => x k * x k) - 2 * sumR n (fun k => (y k - x k) * x k).
Proof.
  intros (k & K & N). rewrite <- sumR_scal, <- !sumR_minus. rewrite (sumR_ext n _ (fun k => (y k - x k) * (y k - x k))) by (intros; ring). apply (sumsq_pos n (fun k => y k - x k)). exists k. split; [exact K|lra].
Qed.
(** von Mises-Fisher *)
Lemma dot_le_norms n (x y : nat -> R) : sumR n (fun k => x k * y k) <= sqrt (sumR n (fun k => x k * x k)) * sqrt (sumR n (fun k => y k * y k)).
Proof.
  set (X := sumR n (fun k => x k * x k)). set (Y := sumR n (fun k => y k * y k)). set (D := sumR n (fun k => x k * y k)).
  assert (PX : 0 <= X) by (apply sumR_nonneg; intros; apply Rle_0_sqr). assert (PY : 0 <= Y) by (apply sumR_nonneg; intros; apply Rle_0_sqr).
  pose proof (sqrt_pos X). pose proof (sqrt_pos Y). pose proof (sqrt_sqrt X PX) as SX. pose proof (sqrt_sqrt Y PY) as SY. set (a := sqrt X) in *. set (b := sqrt Y) in *.
  assert (Q : 0 <= sumR n (fun k => (b * x k - a * y k) * (b * x k - a * y k))) by (apply sumR_nonneg; intros; apply Rle_0_sqr).
  rewrite (sumR_ext n _ (fun k => (b * b) * (x k * x k) + ((a * a) * (y k * y k) + (- 2 * (a * b)) * (x k * y k)))) in Q by (intros; ring). rewrite !sumR_plus, !sumR_scal in Q. fold X Y D in Q. rewrite <- SX, <- SY in Q.
  destruct (Req_dec (a * b) 0) as [Z|Z].
  - assert (E : D = 0). { unfold D. apply sumR_zero. intros k K. destruct (Rmult_integral _ _ Z) as [Z0|Z0].
      - rewrite Z0, Rmult_0_l in SX. pose proof (sumR_term n (fun k => x k * x k) k ltac:(intros; apply Rle_0_sqr) K) as T. fold X in T. cbv beta in T. assert (x k = 0); [|nra]. destruct (Req_dec (x k) 0); [assumption|]. pose proof (sq_pos (x k) ltac:(assumption)). lra.
      - rewrite Z0, Rmult_0_l in SY. pose proof (sumR_term n (fun k => y k * y k) k ltac:(intros; apply Rle_0_sqr) K) as T. fold Y in T. cbv beta in T. assert (y k = 0); [|nra]. destruct (Req_dec (y k) 0); [assumption|]. pose proof (sq_pos (y k) ltac:(assumption)). lra. }
    lra.
  - assert (P : 0 < a * b) by (assert (0 <= a * b) by (now apply Rmult_le_pos); lra). apply Rmult_le_reg_l with (2 * (a * b)); [lra|]. lra.
Qed.
Lemma vmf_conv n (x y : nat -> R) (u := INR n * (1 / 2) - 1) (h := fun z => ln (bessel_i u z) - u * ln z) (a := sqrt (sumR n (fun k => x k * x k))) (b := sqrt (sumR n (fun k => y k * y k))) :
  0 < a -> 0 < b -> (exists k, (k < n)%nat /\ y k <> x k) -> 0 < h b - h a - sumR n (fun k => (y k - x k) * (x k * (bessel_i (u + 1) a / bessel_i u a / a))).
Proof.
  intros A B (k & K & N). assert (Nn : 1 <= INR n) by (destruct n; [lia|rewrite S_INR; pose proof (pos_INR n); lra]). assert (U : - (1 / 2) <= u) by (unfold u; lra).
  set (r := fun z => bessel_i (u + 1) z / bessel_i u z). assert (Ra : 0 < r a) by (apply bessel_ratio_lt; assumption).
  assert (PX : 0 <= sumR n (fun k => x k * x k)) by (apply sumR_nonneg; intros; apply Rle_0_sqr). assert (PY : 0 <= sumR n (fun k => y k * y k)) by (apply sumR_nonneg; intros; apply Rle_0_sqr).
  pose proof (sqrt_sqrt _ PX) as SX. pose proof (sqrt_sqrt _ PY) as SY. fold a in SX. fold b in SY. set (D := sumR n (fun k => y k * x k)).
  assert (E : sumR n (fun k => (y k - x k) * (x k * (bessel_i (u + 1) a / bessel_i u a / a))) = r a / a * (D - a * a)).
  { rewrite SX. unfold D. rewrite <- sumR_minus, <- sumR_scal. apply sumR_ext. intros. unfold r. unfold Rdiv. ring. }
  rewrite E. assert (C : D <= b * a) by (apply dot_le_norms).
  assert (Ca : r a / a * (D - a * a) <= r a * (b - a)).
  { replace (r a * (b - a)) with (r a / a * (b * a - a * a)) by (field; lra). apply Rmult_le_compat_l; [apply Rlt_le, Rdiv_lt_0_compat; assumption|lra]. }
  destruct (Req_dec a b) as [Eab|Nab].
  - rewrite <- Eab. unfold Rminus at 1 2. rewrite Rplus_opp_r, Rplus_0_l. enough (r a / a * (D - a * a) < 0) by lra.
    assert (D < a * a). { pose proof (quad_conv n x y ltac:(exists k; split; assumption)) as Q. rewrite <- SX, <- SY, <- Eab in Q.
      rewrite (sumR_ext n _ (fun k => y k * x k - x k * x k)) in Q by (intros; ring). rewrite sumR_minus, <- SX in Q. fold D in Q. lra. }
    assert (0 < r a / a) by (apply Rdiv_lt_0_compat; assumption). nra.
  - assert (V : 0 < h b - h a - (b - a) * r a).
    { apply (conv1 h r); [| |exact Nab].
      - intros z Z. apply bessel_log_derive; [lra|]. apply (minmax_pos a b z A B). lra.
      - intros z w Z ZW _. apply bessel_ratio_incr; [exact U|now apply (minmax_pos a b z A B)|exact ZW]. }
    lra.
Qed.
(** complex normal *)
Definition cnL (a b c x y : R) : R := ((a - c) * (x * x) + 2 * (b * (x * y)) - (a + c) * (y * y)) / (4 * (c * c - (a * a + b * b))) - 1 / 2 * ln (c * c - (a * a + b * b)).
Lemma lorentz a b c a' b' c' (dl := c * c - (a * a + b * b)) (dl' := c' * c' - (a' * a' + b' * b')) (t := c * c' - a * a' - b * b') :
  c < 0 -> 0 < dl -> c' < 0 -> 0 < dl' -> dl * dl' <= t * t /\ 0 < t /\ (t * t = dl * dl' -> dl' = dl -> a' = a /\ b' = b /\ c' = c).
Proof.
  intros C D C' D'. set (u := c * a' - c' * a). set (w := c * b' - c' * b).
  assert (I : t * t - dl * dl' = (u * u + w * w) - (a * b' - b * a') * (a * b' - b * a')) by (unfold t, dl, dl', u, w; ring).
  assert (X : c * (a * b' - b * a') = a * w - b * u) by (unfold u, w; ring).
  assert (Y : (a * w - b * u) * (a * w - b * u) <= (a * a + b * b) * (u * u + w * w)). { replace ((a * a + b * b) * (u * u + w * w)) with ((a * w - b * u) * (a * w - b * u) + (a * u + b * w) * (a * u + b * w)) by ring. pose proof (Rle_0_sqr (a * u + b * w)) as Q. unfold Rsqr in Q. lra. }
  assert (CC : 0 < c * c) by (apply sq_pos; lra). set (z := a * b' - b * a') in *.
  assert (Z : (c * c) * (z * z) <= (c * c - dl) * (u * u + w * w)). { replace (c * c - dl) with (a * a + b * b) by (unfold dl; ring). replace (c * c * (z * z)) with ((c * z) * (c * z)) by ring. rewrite X. exact Y. }
  assert (U : 0 <= u * u + w * w) by (pose proof (Rle_0_sqr u) as Q1; pose proof (Rle_0_sqr w) as Q2; unfold Rsqr in *; lra).
  assert (K : dl * (u * u + w * w) <= (c * c) * (t * t - dl * dl')) by (rewrite I; lra).
  assert (P : 0 <= t * t - dl * dl'). { assert (0 <= (c * c) * (t * t - dl * dl')) by (assert (0 <= dl * (u * u + w * w)) by (apply Rmult_le_pos; lra); lra). apply Rmult_le_reg_l with (c * c); lra. }
  split; [lra|]. split.
  - (* t > 0 *) assert (V : (a * a' + b * b') * (a * a' + b * b') <= (a * a + b * b) * (a' * a' + b' * b')). { replace ((a * a + b * b) * (a' * a' + b' * b')) with ((a * a' + b * b') * (a * a' + b * b') + (a * b' - b * a') * (a * b' - b * a')) by ring. pose proof (Rle_0_sqr (a * b' - b * a')) as Q. unfold Rsqr in Q. lra. }
    assert (CC' : 0 < c * c') by nra. assert (W : (a * a + b * b) * (a' * a' + b' * b') < (c * c) * (c' * c')).
    { assert (0 <= a * a + b * b) by nra. assert (0 <= a' * a' + b' * b') by nra. unfold dl, dl' in *. apply Rmult_le_0_lt_compat; lra. }
    unfold t. assert ((a * a' + b * b') < c * c'); [|lra]. destruct (Rlt_or_le (a * a' + b * b') (c * c')) as [|Hle]; [assumption|]. assert ((c * c') * (c * c') <= (a * a' + b * b') * (a * a' + b * b')) by (apply Rmult_le_compat; lra). lra.
  - intros E E'. assert (U0 : u * u + w * w = 0). { replace (t * t - dl * dl') with 0 in K by lra. assert (u * u + w * w <= 0); [|lra]. apply Rmult_le_reg_l with dl; lra. }
    assert (u = 0 /\ w = 0) as [U1 W1]. { pose proof (Rle_0_sqr u) as Q1. pose proof (Rle_0_sqr w) as Q2. unfold Rsqr in *. split; apply Rsqr_0_uniq; unfold Rsqr; lra. }
    set (k := c' / c). assert (Ek : c' = k * c) by (unfold k; field; lra). assert (Ea : a' = k * a). { unfold u in U1. apply (Rmult_eq_reg_l c); [|lra]. rewrite Ek in U1. lra. } assert (Eb : b' = k * b). { unfold w in W1. apply (Rmult_eq_reg_l c); [|lra]. rewrite Ek in W1. lra. }
    assert (Kk : k * k = 1). { assert (E2 : k * k * dl = dl) by (rewrite <- E' at 2; unfold dl', dl; rewrite Ek, Ea, Eb; ring). apply (Rmult_eq_reg_r dl); lra. }
    assert (Kp : 0 < k). { unfold k. replace (c' / c) with (- c' / - c) by (field; lra). apply Rdiv_lt_0_compat; lra. }
    assert (k = 1) by nra. rewrite Ek, Ea, Eb. replace k with 1. repeat split; ring.
Qed.
Lemma cn_quad A B b w1 w2 : 0 < A -> 0 < B -> 0 < A * B - b * b -> 0 <= A * (w1 * w1) + 2 * (b * (w1 * w2)) + B * (w2 * w2) /\ (w1 <> 0 \/ w2 <> 0 -> 0 < A * (w1 * w1) + 2 * (b * (w1 * w2)) + B * (w2 * w2)).
Proof.
  intros HA HB H. assert (E : A * (A * (w1 * w1) + 2 * (b * (w1 * w2)) + B * (w2 * w2)) = (A * w1 + b * w2) * (A * w1 + b * w2) + (A * B - b * b) * (w2 * w2)) by ring.
  pose proof (Rle_0_sqr (A * w1 + b * w2)) as Q. pose proof (Rle_0_sqr w2) as Q2. unfold Rsqr in *. set (X := A * (w1 * w1) + 2 * (b * (w1 * w2)) + B * (w2 * w2)) in *.
  assert (P2 : 0 <= (A * B - b * b) * (w2 * w2)) by (apply Rmult_le_pos; lra). split.
  - apply Rmult_le_reg_l with A; [exact HA|]. lra.
  - intros N. apply Rmult_lt_reg_l with A; [exact HA|]. rewrite Rmult_0_r, E. destruct (Req_dec w2 0) as [Z|Z].
    + destruct N as [N|N]; [|lra]. rewrite Z. replace ((A * w1 + b * 0) * (A * w1 + b * 0) + (A * B - b * b) * (0 * 0)) with ((A * A) * (w1 * w1)) by ring. apply Rmult_lt_0_compat; apply sq_pos; lra.
    + assert (0 < (A * B - b * b) * (w2 * w2)) by (apply Rmult_lt_0_compat; [lra|now apply sq_pos]). lra.
Qed.
Lemma cn_conv a b c x y a' b' c' x' y' (dl := c * c - (a * a + b * b)) (dl' := c' * c' - (a' * a' + b' * b'))
    (m := 1 / 2 * ((a * x + b * y) - c * x) / dl) (k := 1 / 2 * (c * y + (a * y - b * x)) / dl) :
  c < 0 -> 0 < dl -> c' < 0 -> 0 < dl' -> (a' <> a \/ b' <> b \/ c' <> c \/ x' <> x \/ y' <> y) ->
  0 < cnL a' b' c' x' y' - cnL a b c x y
    - ((x' - x) * m - (y' - y) * k + (c' - c) * (- c / dl + (m * m + k * k)) + ((a' - a) * (a / dl + (m * m - k * k)) - (b' - b) * (- (b / dl) + 2 * (m * k)))).
Proof.
  intros C D C' D' N. set (t := c * c' - a * a' - b * b'). destruct (lorentz a b c a' b' c' C D C' D') as (L1 & L2 & L3). fold dl dl' t in L1, L2, L3.
  set (w1 := 2 * ((- c' - a') * m + b' * k) - x'). set (w2 := 2 * (- b' * m - (- c' + a') * k) - y').
  assert (Ex : x = 2 * ((- c - a) * m + b * k)). { unfold m, k. apply (Rmult_eq_reg_r dl); [|lra]. field_simplify; [|lra]. unfold dl. ring. }
  assert (Ey : y = 2 * (- b * m - (- c + a) * k)). { unfold m, k. apply (Rmult_eq_reg_r dl); [|lra]. field_simplify; [|lra]. unfold dl. ring. }
  clearbody m k.
  assert (Q : ((a' - c') * (w1 * w1) + 2 * (b' * (w1 * w2)) + (- (a' + c')) * (w2 * w2)) / (4 * dl') + (t / dl - 1)
    = ((a' - c') * (x' * x') + 2 * (b' * (x' * y')) - (a' + c') * (y' * y')) / (4 * dl') - ((a - c) * (x * x) + 2 * (b * (x * y)) - (a + c) * (y * y)) / (4 * dl)
     - ((x' - x) * m - (y' - y) * k + (c' - c) * (- c / dl + (m * m + k * k)) + ((a' - a) * (a / dl + (m * m - k * k)) - (b' - b) * (- (b / dl) + 2 * (m * k))))).
  { assert (Q1 : ((a - c) * (x * x) + 2 * (b * (x * y)) - (a + c) * (y * y)) / (4 * dl) = (- c - a) * (m * m) + 2 * (b * (m * k)) + (- c + a) * (k * k)).
    { apply (Rmult_eq_reg_r (4 * dl)); [|lra]. unfold Rdiv at 1. rewrite Rmult_assoc, Rinv_l, Rmult_1_r by lra. rewrite Ex, Ey. unfold dl. ring. }
    assert (Q2 : ((a' - c') * (w1 * w1) + 2 * (b' * (w1 * w2)) + (- (a' + c')) * (w2 * w2)) / (4 * dl') = ((a' - c') * (x' * x') + 2 * (b' * (x' * y')) - (a' + c') * (y' * y')) / (4 * dl')
       + ((- c' - a') * (m * m) + 2 * (b' * (m * k)) + (- c' + a') * (k * k)) - (m * x' - k * y')).
    { assert (Z : forall X Y V W, X = Y + (V - W) * (4 * dl') -> X / (4 * dl') = Y / (4 * dl') + V - W) by (intros X Y V W ->; field; lra). apply Z. unfold w1, w2, dl'. ring. }
    rewrite Q2, Q1. assert (Q3 : t / dl - 1 = - ((c' - c) * (- c / dl) + ((a' - a) * (a / dl) - (b' - b) * (- (b / dl))))). { transitivity ((t - dl) / dl); [field; lra|]. replace (t - dl) with (- ((c' - c) * - c + ((a' - a) * a - (b' - b) * - b))) by (unfold t, dl; ring). field. lra. }
    rewrite Q3. rewrite Ex, Ey. ring. }
  unfold cnL. fold dl dl'. set (q := ((a' - c') * (w1 * w1) + 2 * (b' * (w1 * w2)) + (- (a' + c')) * (w2 * w2)) / (4 * dl')) in *.
  set (s := t / dl) in *. assert (S : 0 < s) by now apply Rdiv_lt_0_compat. set (dd := dl' / dl). assert (Dd : 0 < dd) by now apply Rdiv_lt_0_compat.
  assert (Ldd : ln dl' - ln dl = ln dd) by (unfold dd; rewrite ln_div by lra; ring).
  assert (SD : dd <= s * s). { unfold dd, s. replace (t / dl * (t / dl)) with ((t * t) / (dl * dl)) by (field; lra). replace (dl' / dl) with ((dl * dl') / (dl * dl)) by (field; lra). apply Rmult_le_compat_r; [apply Rlt_le, Rinv_0_lt_compat, Rmult_lt_0_compat; lra|exact L1]. }
  assert (Ls : ln dd <= 2 * ln s). { replace (2 * ln s) with (ln (s * s)) by (rewrite ln_mult by lra; ring). destruct SD as [SD| ->]; [apply Rlt_le, ln_increasing; [exact Dd|exact SD]|lra]. }
  match goal with |- 0 < ?X => replace X with (q + (s - 1 - 1 / 2 * ln dd)) by (rewrite <- Ldd; lra) end.
  assert (Pa : 0 < a' - c' /\ 0 < - (a' + c')). { unfold dl' in D'. pose proof (Rle_0_sqr b') as Qb. unfold Rsqr in Qb. assert (a' * a' < c' * c') by lra. split; nra. }
  destruct (cn_quad (a' - c') (- (a' + c')) b' w1 w2 (proj1 Pa) (proj2 Pa)) as [G1 G2]. { unfold dl' in D'. lra. }
  assert (G : 0 <= q). { unfold q. apply Rmult_le_pos; [exact G1|apply Rlt_le, Rinv_0_lt_compat; lra]. }
  pose proof (ln_conv_le s S) as LC.
  destruct (Req_dec s 1) as [S1|S1]; [|pose proof (ln_conv s S S1); lra].
  destruct (Req_dec dd 1) as [D1|D1].
  - apply ratio_1 in D1; [|lra]. apply ratio_1 in S1; [|lra]. destruct (L3 ltac:(rewrite S1, D1; ring) D1) as (-> & -> & ->).
    assert (Nw : w1 <> 0 \/ w2 <> 0). { destruct N as [N|[N|[N|[N|N]]]]; try (exfalso; now apply N); [left|right]; [unfold w1; rewrite <- Ex; lra|unfold w2; rewrite <- Ey; lra]. }
    assert (0 < q) by (unfold q; apply Rdiv_lt_0_compat; [now apply G2|lra]). unfold s. rewrite S1. replace (dl / dl) with 1 by (field; lra). unfold dd. rewrite D1. replace (dl / dl) with 1 by (field; lra). rewrite ln_1. lra.
  - rewrite S1 in *. assert (dd < 1) by lra. assert (ln dd < 0) by (rewrite <- ln_1; now apply ln_increasing). lra.
Qed.
