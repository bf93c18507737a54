(** The real scipy replacements have the density of the natural parametrization (C61). *)
From Coquelicot Require Import Coquelicot.
From Coq Require Import String List Bool Arith ZArith Reals Lra Lia.
From Verif Require Import Base XReal Tensor TensorFacts BroadcastFacts DictFacts Support Dist Iteration Structure Tools Joint Spec SumSpec DotSpec PointSpec PointFacts DensSpec SpecFun Expr FamTy Val Fam FamR FamVal DerivFacts DensVal DensThms ConvFacts LeafVal ConvThms IntSpec IntFacts IntFam
  DotFacts DotLaws MatFacts MatVal MatDeriv IntMat DetInv TextSpec TextFacts TextVec TextMat TextThms IntThms SampleThms VarThms MethodSpec Kappa KappaThms Law2 BlockDet Scipy ScipyShaped ScipyFacts ScipyThms ScipyAgree ScipyRest ScipyDir ScipyMv.
Import ListNotations.
Local Unset Asymmetric Patterns.
Local Open Scope string_scope.
Local Open Scope R_scope.
Local Notation C := Complex.C (only parsing).
Local Existing Instance Scipy.Dflt_C.
Local Existing Instance Scipy.Dflt_R.

(** ** diagonal covariance matrices *)
Definition diag (w : nat -> R) (a b : nat) : R := if Nat.eqb a b then w a else 0.
Lemma diag_sum n w (y : nat -> R) a : (a < n)%nat -> sumR n (fun b => diag w a b * y b) = w a * y a.
Proof.
  intros Ha. transitivity (sumR n (fun b => dr a b * (w a * y b))).
  - apply sumR_exti. intros b _. unfold diag, dr. destruct (Nat.eqb a b); ring.
  - exact (Law2.sumR_dr n (fun b => w a * y b) a Ha).
Qed.
Lemma diag_form n w z : sumR n (fun a => sumR n (fun b => z a * diag w a b * z b)) = sumR n (fun a => w a * (z a * z a)).
Proof. apply sumR_exti. intros a Ha. transitivity (sumR n (fun b => diag w a b * (z a * z b))); [apply sumR_exti; intros; ring|]. now rewrite (diag_sum n w (fun b => z a * z b) a Ha). Qed.
Lemma diag_spd n w : (forall k, (k < n)%nat -> 0 < w k) -> spd n (diag w).
Proof.
  intros H. split; [intros a b _ _; unfold diag; rewrite (Nat.eqb_sym b a); destruct (Nat.eqb_spec a b) as [->|]; reflexivity|]. intros z (a & Ha & Na). rewrite diag_form.
  apply Rlt_le_trans with (w a * (z a * z a)); [apply Rmult_lt_0_compat; [now apply H|nra]|]. apply (sumR_term n (fun a => w a * (z a * z a))); [|exact Ha]. intros k Hk. apply Rmult_le_pos; [left; now apply H|apply Rle_0_sqr].
Qed.
Lemma diag_det n w : (forall k, (k < n)%nat -> 0 < w k) -> rdet n (diag w) = prodR n w.
Proof.
  induction n as [|n IH]; intros H; [reflexivity|]. assert (N : diag w n n = w n) by (unfold diag; now rewrite Nat.eqb_refl). pose proof (H n ltac:(lia)). rewrite rdet_sch by lra. rewrite N, prodR_S, <- IH by (intros; apply H; lia). rewrite Rmult_comm. f_equal.
  apply rdet_ext. intros a b Ha Hb. unfold rsch. assert (Z : diag w a n = 0) by (unfold diag; rewrite (proj2 (Nat.eqb_neq a n)); [reflexivity|lia]). rewrite Z. unfold Rdiv. ring.
Qed.
Lemma diag_inv n w a b : (forall k, (k < n)%nat -> 0 < w k) -> (a < n)%nat -> (b < n)%nat -> rinv n (diag w) a b = diag (fun k => / w k) a b.
Proof.
  intros H Ha Hb. symmetry. pose proof (diag_spd n w H) as P. apply (rinv_unique n (diag w) _ (proj1 P) (spd_ne _ _ P)); try assumption. intros i k Hi Hk. rewrite (diag_sum n w (fun j => diag (fun k => / w k) j k) i Hi). unfold diag, dr. destruct (Nat.eqb_spec i k) as [->|]; [|ring]. field. specialize (H k Hk). lra.
Qed.
Lemma prodR_pos n g : (forall k, (k < n)%nat -> 0 < g k) -> 0 < prodR n g.
Proof. induction n as [|n IH]; intros H; [unfold prodR; cbn; lra|]. rewrite prodR_S. apply Rmult_lt_0_compat; [apply IH; intros; apply H; lia|apply H; lia]. Qed.
Lemma diag_pdf n m w x : (forall k, (k < n)%nat -> 0 < w k) -> multivariate_normal_pdf n m (diag w) x = prodR n (fun k => normal_pdf (m k) (w k) (x k)).
Proof.
  intros H. pose proof PI_RGT_0 as Pi. unfold multivariate_normal_pdf. rewrite (diag_det n w H).
  assert (E : sumR n (fun a => sumR n (fun b => (x a - m a) * rinv n (diag w) a b * (x b - m b))) = sumR n (fun a => / w a * ((x a - m a) * (x a - m a)))).
  { rewrite <- (diag_form n (fun k => / w k) (fun a => x a - m a)). apply sumR_exti. intros a Ha. apply sumR_exti. intros b Hb. now rewrite diag_inv. }
  rewrite E. clear E. induction n as [|n IH].
  - unfold sumR, prodR. cbn. rewrite Rmult_0_r, Ropp_0, exp_0, Rmult_1_l, sqrt_1. field.
  - assert (P : 0 < prodR n w) by (apply prodR_pos; intros; apply H; lia). pose proof (H n ltac:(lia)) as Hn. rewrite sumR_S, !prodR_S, <- IH by (intros; apply H; lia).
    replace ((2 * PI) ^ S n * (prodR n w * w n)) with ((2 * PI) ^ n * prodR n w * (2 * PI * w n)) by (cbn [pow]; ring).
    assert (A1 : 0 < (2 * PI) ^ n) by (apply pow_lt; lra). assert (A2 : 0 < 2 * PI) by lra. pose proof (Rmult_lt_0_compat _ _ A1 P) as A3. pose proof (Rmult_lt_0_compat _ _ A2 Hn) as A4. rewrite sqrt_mult by lra. unfold normal_pdf.
    replace (- (1 / 2 * (sumR n (fun a => / w a * ((x a - m a) * (x a - m a))) + / w n * ((x n - m n) * (x n - m n))))) with (- (1 / 2 * sumR n (fun a => / w a * ((x a - m a) * (x a - m a)))) + - ((x n - m n) * (x n - m n) / (2 * w n))) by (field; lra).
    rewrite exp_plus. assert (sqrt ((2 * PI) ^ n * prodR n w) <> 0) by (apply Rgt_not_eq, sqrt_lt_R0; lra). assert (sqrt (2 * PI * w n) <> 0) by (apply Rgt_not_eq, sqrt_lt_R0; lra). field. split; assumption.
Qed.

(** ** from_mc *)
Section Mc.
  Context {G : Type} (gen : @gen_mvn_t G).
  Theorem mc_pdf b n (m c : tensor R) x : shp m = (b ++ [n])%list -> shp c = (b ++ [n; n])%list -> (forall i, inb b i = true -> spd n (fun k l => tget c (i ++ [k; l])%list)) -> shp x = (b ++ [n])%list ->
    exists d r, mc_dist gen (Some m) (Some c) = Ok d /\ sd_pdf d x = Ok r /\ shp r = b /\
      forall i, inb b i = true -> tget r i = multivariate_normal_pdf n (fun k => tget m (i ++ [k])%list) (fun k l => tget c (i ++ [k; l])%list) (fun k => fst (tget x (i ++ [k])%list)).
  Proof.
    intros Em Ec H Ex. unfold mc_dist. rewrite Em, app_length. rewrite (proj2 (Nat.eqb_neq _ 0)) by (cbn; lia). rewrite last_snoc, removelast_snoc.
    assert (Cv : forall i, inb b i = true -> (let* ci := tindex c i in cov_of n ci) = Ok (fun k l => tget (tsub c i) [k; l])).
    { intros i Hi. destruct (tindex_ok b [n; n] c i Ec Hi) as (T1 & T2 & _). rewrite T1. cbn [bind]. unfold cov_of. rewrite T2. now rewrite Nat.eqb_refl. }
    assert (Sp : forall i, inb b i = true -> spd n (fun k l => tget (tsub c i) [k; l])).
    { intros i Hi. destruct (tindex_ok b [n; n] c i Ec Hi) as (_ & _ & T3). apply (MatFacts.spd_ext n (fun k l => tget c (i ++ [k; l])%list)); [|now apply H]. intros k l Hk Hl. symmetry. apply T3. now apply in2. }
    assert (M : forall i, inb b i = true -> (let* Sg := (let* ci := tindex c i in cov_of n ci) in if pd_test n Sg then Ok tt else Err ValueError) = Ok tt).
    { intros i Hi. rewrite Cv by exact Hi. cbn [bind]. now rewrite (pd_test_spd n _ (Sp i Hi)). }
    rewrite (mapM_ok (fun i => let* Sg := (let* ci := tindex c i in cov_of n ci) in if pd_test n Sg then Ok tt else Err ValueError) (fun _ => tt)) by (intros i Hi; apply M; now apply in_indices). cbn [bind].
    match goal with |- exists d r, Ok ?w = Ok d /\ _ => set (D := w); exists D end.
    assert (K : forall i, inb b i = true -> exists w, o_pdf (sd_objects D i) (tsub x i) = Ok w /\ shp w = [] /\ tget w [] = multivariate_normal_pdf n (fun k => tget m (i ++ [k])%list) (fun k l => tget c (i ++ [k; l])%list) (fun k => fst (tget x (i ++ [k])%list))).
    { intros i Hi. cbn [D sd_objects]. rewrite (Cv i Hi). destruct (tindex_ok b [n] x i Ex Hi) as (_ & T2 & T3). destruct (tindex_ok b [n; n] c i Ec Hi) as (_ & _ & U3).
      destruct (mvn_pdf_ok gen n (fun k => tget m (i ++ [k])%list) (fun k l => tget (tsub c i) [k; l]) (tsub x i) (Sp i Hi)) as (r & R1 & R2 & R3); [now rewrite T2|]. exists r. split; [exact R1|]. rewrite T2 in *. split; [exact R2|]. rewrite R3 by reflexivity.
      apply mvn_pdf_ext; [reflexivity|intros k l Hk Hl; apply U3; now apply in2|]. intros k Hk. unfold col. cbn [app]. now rewrite T3 by now apply in1. }
    destruct (pdf_spec D x [n] Ex) as (r & P1 & P2 & P3).
    - intros i Hi. destruct (K i Hi) as (w & W1 & W2 & _). eauto.
    - exists r. split; [reflexivity|]. split; [exact P1|]. split; [exact P2|]. intros i Hi. destruct (K i Hi) as (w & W1 & W2 & W3). specialize (P3 i Hi). rewrite W1 in P3. injection P3 as ->. rewrite <- W3. reflexivity.
  Qed.
  (** the defaults *)
  Theorem mc_default_cov b n (m : tensor R) : shp m = (b ++ [n])%list -> mc_dist gen (Some m) None = mc_dist gen (Some m) (Some (tbuild (b ++ [n; n])%list (fun i => if (last (removelast i) 0 =? last i 0)%nat then 1 else 0))).
  Proof. intros Em. unfold mc_dist. now rewrite Em, last_snoc, removelast_snoc. Qed.
  Theorem mc_default_mean c : mc_dist gen None (Some c) = mc_dist gen (Some (tfull (removelast (shp c)) 0)) (Some c).
  Proof. reflexivity. Qed.
  Theorem mc_zero_mean b n (c : tensor R) (x : tensor C) : shp c = (b ++ [n; n])%list -> (forall i, inb b i = true -> spd n (fun k l => tget c (i ++ [k; l])%list)) -> shp x = (b ++ [n])%list ->
    exists d r, mc_dist gen None (Some c) = Ok d /\ sd_pdf d x = Ok r /\ shp r = b /\
      forall i, inb b i = true -> tget r i = multivariate_normal_pdf n (fun _ => 0) (fun k l => tget c (i ++ [k; l])%list) (fun k => fst (tget x (i ++ [k])%list)).
  Proof.
    intros Ec Hc Ex. rewrite mc_default_mean. assert (Em : removelast (shp c) = (b ++ [n])%list) by (rewrite Ec; change [n; n] with ([n] ++ [n])%list; rewrite app_assoc; apply removelast_snoc).
    destruct (mc_pdf b n (tfull (removelast (shp c)) 0) c x Em Ec Hc Ex) as (d & r & D1 & D2 & D3 & D4). exists d, r. repeat (split; [assumption|]). intros i Hi. rewrite (D4 i Hi).
    unfold multivariate_normal_pdf. f_equal. f_equal. f_equal. f_equal. assert (Z : forall k, (k < n)%nat -> tget (tfull (removelast (shp c)) 0) (i ++ [k])%list = 0); [|apply sumR_ext; intros k Hk; apply sumR_ext; intros l Hl; rewrite !Z by assumption; reflexivity]. intros k Hk. unfold tfull. rewrite tget_tbuild; [reflexivity|]. rewrite Em, inb_app by (now apply inb_length). rewrite Hi. cbn [inb]. assert (H : (k <? n)%nat = true) by now apply Nat.ltb_lt. now rewrite H.
  Qed.
  (** a covariance matrix that is not positive definite *)
  Lemma mc_reject b n (m c : tensor R) i k : shp m = (b ++ [n])%list -> shp c = (b ++ [n; n])%list -> inb b i = true -> (1 <= k <= n)%nat -> rdet k (fun k l => tget c (i ++ [k; l])%list) <= 0 -> mc_dist gen (Some m) (Some c) = Err ValueError.
  Proof.
    intros Em Ec Hi Hk H. unfold mc_dist. rewrite Em, app_length. rewrite (proj2 (Nat.eqb_neq _ 0)) by (cbn; lia). rewrite last_snoc, removelast_snoc.
    rewrite (mapM_err (fun i => let* Sg := (let* ci := tindex c i in cov_of n ci) in if pd_test n Sg then Ok tt else Err ValueError) (fun _ => tt) (indices b) i ValueError); [reflexivity| | |].
    - intros j Hj. apply in_indices in Hj. destruct (tindex_ok b [n; n] c j Ec Hj) as (T1 & T2 & _). rewrite T1. cbn [bind]. unfold cov_of. rewrite T2, Nat.eqb_refl. cbn [bind andb]. destruct (pd_test n _); [now left|now right].
    - now apply in_indices.
    - destruct (tindex_ok b [n; n] c i Ec Hi) as (T1 & T2 & T3). rewrite T1. cbn [bind]. unfold cov_of. rewrite T2, Nat.eqb_refl. cbn [bind andb]. replace (pd_test n _) with false; [reflexivity|]. symmetry. apply not_true_iff_false. intros T. unfold pd_test in T. rewrite forallb_forall in T. specialize (T k (proj2 (in_seq n 1 k) ltac:(lia))).
      rewrite (rdet_ext k _ (fun k l => tget c (i ++ [k; l])%list)) in T by (intros a d Ha Hd; apply T3; apply in2; lia). destruct (Rlt_dec _ _) in T; [lra|discriminate].
  Qed.
End Mc.

(** mean and covariance of a real normal family, from its expectation parameters *)
Definition normal_cov (f : family) (n : nat) (e : dist) (i : list nat) (a b : nat) : R :=
  let m k := par e i "mean" [k] in
  match f with
  | MultivariateNormal => par e i "second_moment" [a; b] - m a * m b
  | MultivariateDiagonalNormal => if Nat.eqb a b then par e i "second_moment" [a] - m a * m a else 0
  | MultivariateFixedVarianceNormal => if Nat.eqb a b then par e i "variance" [] else 0
  | IsotropicNormal => if Nat.eqb a b then (par e i "total_second_moment" [] - sumR n (fun k => m k * m k)) / INR n else 0
  | MultivariateUnitNormal => if Nat.eqb a b then 1 else 0
  | _ => 0
  end.
Definition real_normal (f : family) : Prop := In f [MultivariateNormal; MultivariateDiagonalNormal; MultivariateFixedVarianceNormal; IsotropicNormal; MultivariateUnitNormal].
Lemma par_exp f n p e i g j : pt_eq (EP f) n p (point_of e i) -> In g (fields (EP f)) -> inb (supp_shape (fd_support g) n) j = true -> par e i (fd_name g) j = p false (fd_name g) j.
Proof. intros P I Hj. symmetry. exact (pt_re (EP f) n _ _ g j P I Hj). Qed.
Definition is_normal (f : family) (n : nat) (q : dist) (i : list nat) (m : nat -> R) (Sg : nat -> nat -> R) : Prop :=
  spd n Sg /\ exists d, classical f n (point_of q i) d /\ forall x : obs, d x = multivariate_normal_pdf n m Sg (fun k => x false [k]).

Section Agree.
  Context (solve : minimizer -> dist -> nat -> xr) (b : list nat) (q e : dist) (n : nat).
  Hypothesis (D : dims_of q = Ok n) (E : to_exp (fam_methods solve) q = Ok e).
  Notation mean i := (fun k => par e i "mean" [k]).

  Lemma n_unit i : inb b i = true -> (forall i, inb b i = true -> proper b i MultivariateUnitNormal q) -> is_normal MultivariateUnitNormal n q i (mean i) (normal_cov MultivariateUnitNormal n e i).
  Proof.
    intros Hi Pq. destruct (exp_params solve b MultivariateUnitNormal q n e eq_refl Pq D E i Hi) as (P & Hd & Dk). change (normal_cov MultivariateUnitNormal n e i) with (diag (fun _ => 1)). split; [apply diag_spd; intros; lra|]. eexists. split; [intros x; reflexivity|]. intros x. cbv beta. rewrite diag_pdf by (intros; lra).
    unfold prodR. f_equal. apply map_ext_in. intros k Hk. apply in_seq in Hk. f_equal. symmetry. exact (par_exp MultivariateUnitNormal n _ e i (var "mean" (VectorS real_field)) [k] P ltac:(cbn; tauto) (in1 n k ltac:(lia))).
  Qed.
  Lemma n_fixed i : inb b i = true -> (forall i, inb b i = true -> proper b i MultivariateFixedVarianceNormal q) -> is_normal MultivariateFixedVarianceNormal n q i (mean i) (normal_cov MultivariateFixedVarianceNormal n e i).
  Proof.
    intros Hi Pq. destruct (exp_params solve b MultivariateFixedVarianceNormal q n e eq_refl Pq D E i Hi) as (P & Hd & Dk). set (p := point_of q i) in *. cbn [nat_dom] in Hd.
    assert (Ev : par e i "variance" [] = p false "variance" []) by exact (par_exp MultivariateFixedVarianceNormal n _ e i (fixd "variance" (ScalarS positive_support)) [] P ltac:(cbn; tauto) eq_refl).
    assert (Em : forall k, (k < n)%nat -> par e i "mean" [k] = p false "mean_times_precision" [k] * p false "variance" []) by (intros k Hk; exact (par_exp MultivariateFixedVarianceNormal n _ e i (var "mean" (VectorS real_field)) [k] P ltac:(cbn; tauto) (in1 n k Hk))).
    change (normal_cov MultivariateFixedVarianceNormal n e i) with (diag (fun _ => par e i "variance" [])). rewrite Ev. split; [apply diag_spd; intros; exact Hd|]. eexists. split; [exists (mean i); split; [intros k Hk; cbv beta; rewrite (Em k Hk); unfold p; field; unfold p in Hd; lra|intros x; reflexivity]|]. intros x. cbv beta. now rewrite diag_pdf by (intros; exact Hd).
  Qed.
  Lemma n_diagonal i : inb b i = true -> (forall i, inb b i = true -> proper b i MultivariateDiagonalNormal q) -> is_normal MultivariateDiagonalNormal n q i (mean i) (normal_cov MultivariateDiagonalNormal n e i).
  Proof.
    intros Hi Pq. destruct (exp_params solve b MultivariateDiagonalNormal q n e eq_refl Pq D E i Hi) as (P & Hd & Dk). set (p := point_of q i) in *. cbn [nat_dom] in Hd. cbn zeta in Hd. set (w := fun k => -1 / 2 / p false "negative_half_precision" [k]).
    assert (Em : forall k, (k < n)%nat -> par e i "mean" [k] = - p false "mean_times_precision" [k] / (2 * p false "negative_half_precision" [k])) by (intros k Hk; exact (par_exp MultivariateDiagonalNormal n _ e i (var "mean" (VectorS real_field)) [k] P ltac:(cbn; tauto) (in1 n k Hk))).
    assert (Es : forall k, (k < n)%nat -> par e i "second_moment" [k] - par e i "mean" [k] * par e i "mean" [k] = w k).
    { intros k Hk. rewrite (Em k Hk). assert (S2 : par e i "second_moment" [k] = - p false "mean_times_precision" [k] / (2 * p false "negative_half_precision" [k]) * (- p false "mean_times_precision" [k] / (2 * p false "negative_half_precision" [k])) - 1 / 2 / p false "negative_half_precision" [k]) by exact (par_exp MultivariateDiagonalNormal n _ e i (var "second_moment" (VectorS positive_support)) [k] P ltac:(cbn; tauto) (in1 n k Hk)).
      rewrite S2. unfold w. field. specialize (Hd k Hk). lra. }
    assert (Pw : forall k, (k < n)%nat -> 0 < par e i "second_moment" [k] - par e i "mean" [k] * par e i "mean" [k]). { intros k Hk. rewrite (Es k Hk). unfold w. specialize (Hd k Hk). replace (-1 / 2 / p false "negative_half_precision" [k]) with (1 / 2 * / - p false "negative_half_precision" [k]) by (field; lra). apply Rmult_lt_0_compat; [lra|]. apply Rinv_0_lt_compat. lra. }
    change (normal_cov MultivariateDiagonalNormal n e i) with (diag (fun a => par e i "second_moment" [a] - par e i "mean" [a] * par e i "mean" [a])). split; [now apply diag_spd|]. eexists. split.
    - exists (mean i), (fun a => par e i "second_moment" [a] - par e i "mean" [a] * par e i "mean" [a]). split; [|intros x; reflexivity]. intros k Hk. split; [now apply Pw|]. fold p. rewrite (Es k Hk). cbv beta. rewrite (Em k Hk). unfold w. specialize (Hd k Hk). split; field; lra.
    - intros x. cbv beta. now rewrite diag_pdf by exact Pw.
  Qed.
  Lemma n_isotropic i : inb b i = true -> (forall i, inb b i = true -> proper b i IsotropicNormal q) -> is_normal IsotropicNormal n q i (mean i) (normal_cov IsotropicNormal n e i).
  Proof.
    intros Hi Pq. destruct (exp_params solve b IsotropicNormal q n e eq_refl Pq D E i Hi) as (P & Hd & Dk). set (p := point_of q i) in *. destruct Hd as [Hn Hd]. cbn zeta in Hd. set (h := p false "negative_half_precision" []) in *. set (w := / (-2 * h)).
    assert (N : INR n <> 0) by (apply not_0_INR; lia).
    assert (Em : forall k, (k < n)%nat -> par e i "mean" [k] = p false "mean_times_precision" [k] / (-2 * h)) by (intros k Hk; exact (par_exp IsotropicNormal n _ e i (var "mean" (VectorS real_field)) [k] P ltac:(cbn; tauto) (in1 n k Hk))).
    assert (Es : (par e i "total_second_moment" [] - sumR n (fun k => par e i "mean" [k] * par e i "mean" [k])) / INR n = w).
    { assert (S2 : par e i "total_second_moment" [] = sumR n (fun k => p false "mean_times_precision" [k] / (-2 * h) * (p false "mean_times_precision" [k] / (-2 * h))) + INR n / (-2 * h)) by exact (par_exp IsotropicNormal n _ e i (var "total_second_moment" (ScalarS positive_support)) [] P ltac:(cbn; tauto) eq_refl).
      rewrite S2. rewrite (sumR_ext n (fun k => par e i "mean" [k] * par e i "mean" [k]) (fun k => p false "mean_times_precision" [k] / (-2 * h) * (p false "mean_times_precision" [k] / (-2 * h)))) by (intros k Hk; now rewrite Em). unfold w. field. split; [lra|exact N]. }
    assert (Pw : 0 < w) by (apply Rinv_0_lt_compat; lra).
    change (normal_cov IsotropicNormal n e i) with (diag (fun _ => (par e i "total_second_moment" [] - sumR n (fun k => par e i "mean" [k] * par e i "mean" [k])) / INR n)). rewrite Es. split; [apply diag_spd; intros; exact Pw|]. eexists. split.
    - exists (mean i), w. split; [exact Pw|]. split; [intros k Hk; cbv beta; fold p; rewrite (Em k Hk); unfold w; field; lra|]. split; [fold p; fold h; unfold w; field; lra|]. intros x. reflexivity.
    - intros x. cbv beta. now rewrite diag_pdf by (intros; exact Pw).
  Qed.
  Lemma n_full i : inb b i = true -> (forall i, inb b i = true -> proper b i MultivariateNormal q) -> is_normal MultivariateNormal n q i (mean i) (normal_cov MultivariateNormal n e i).
  Proof.
    intros Hi Pq. destruct (exp_params solve b MultivariateNormal q n e eq_refl Pq D E i Hi) as (P & Hd & Dk). set (p := point_of q i) in *. cbn [nat_dom] in Hd. set (A := fun a b => - p false "negative_half_precision" [a; b]). change (spd n A) in Hd.
    assert (H2 : spd n (fun a b => 2 * A a b)) by (apply spd_scal; [lra|exact Hd]). pose proof (spd_inv n _ H2) as H3. set (S0 := rinv n (fun a b => 2 * A a b)) in *. set (m0 := fun a => sumR n (fun b => S0 a b * p false "mean_times_precision" [b])).
    set (hi := rinv n (fun a b => p false "negative_half_precision" [a; b])). set (he := fun a => sumR n (fun b => hi a b * p false "mean_times_precision" [b])).
    assert (Hh : forall a c, (a < n)%nat -> (c < n)%nat -> hi a c = -2 * S0 a c).
    { intros a c Ha Hc. unfold S0. rewrite rinv_scal by (try assumption; lra). unfold hi. rewrite (MatFacts.rinv_ext n (fun a b => p false "negative_half_precision" [a; b]) (fun a b => - A a b)) by (try assumption; intros; unfold A; ring). rewrite rinv_opp by (try assumption; now apply spd_ne). field. }
    assert (Hhe : forall a, (a < n)%nat -> he a = -2 * m0 a). { intros a Ha. unfold he, m0. rewrite <- sumR_scal. apply sumR_exti. intros c Hc. rewrite (Hh a c Ha Hc). ring. }
    assert (Em : forall k, (k < n)%nat -> par e i "mean" [k] = m0 k). { intros k Hk. transitivity (-1 / 2 * he k); [exact (par_exp MultivariateNormal n _ e i (var "mean" (VectorS real_field)) [k] P ltac:(cbn; tauto) (in1 n k Hk))|]. rewrite (Hhe k Hk). field. }
    assert (Es : forall a c, (a < n)%nat -> (c < n)%nat -> normal_cov MultivariateNormal n e i a c = S0 a c).
    { intros a c Ha Hc. cbn [normal_cov]. rewrite (Em a Ha), (Em c Hc). assert (S2 : par e i "second_moment" [a; c] = 1 / 4 * (he a * he c) - 1 / 2 * hi a c) by exact (par_exp MultivariateNormal n _ e i (var "second_moment" (SymS real_field false true false)) [a; c] P ltac:(cbn; tauto) (in2 n a c Ha Hc)).
      rewrite S2, (Hhe a Ha), (Hhe c Hc), (Hh a c Ha Hc). field. }
    split; [apply (MatFacts.spd_ext n S0); [intros; symmetry; now apply Es|exact H3]|]. eexists. split.
    - exists m0, S0. split; [exact H3|]. split; [|split].
      + intros a Ha. symmetry. rewrite (sumR_ext n _ (fun b => 2 * A a b * sumR n (fun c => S0 b c * p false "mean_times_precision" [c]))).
        * exact (rapply_inv n (fun a b => 2 * A a b) (fun c => p false "mean_times_precision" [c]) a (spd_ne _ _ H2) Ha).
        * intros c Hc. unfold m0. f_equal. unfold S0. now rewrite rinv_inv by assumption.
      + intros a c Ha Hc. unfold S0. rewrite rinv_inv by assumption. unfold A. fold p. field.
      + intros x. reflexivity.
    - intros x. cbv beta. apply mvn_pdf_ext; [intros; symmetry; now apply Em|intros; symmetry; now apply Es|reflexivity].
  Qed.
  Theorem n_all f i : real_normal f -> inb b i = true -> (forall i, inb b i = true -> proper b i f q) -> is_normal f n q i (mean i) (normal_cov f n e i).
  Proof. intros Hf Hi Pq. cbn in Hf. destruct Hf as [<-|[<-|[<-|[<-|[<-|[]]]]]]; [now apply n_full|now apply n_diagonal|now apply n_fixed|now apply n_isotropic|now apply n_unit]. Qed.

  Theorem agree_normal {G} (gen : @gen_mvn_t G) f (m c : tensor R) (x : tensor C) : real_normal f -> (forall i, inb b i = true -> proper b i f q) -> shp m = (b ++ [n])%list -> shp c = (b ++ [n; n])%list ->
    (forall i k, inb b i = true -> (k < n)%nat -> tget m (i ++ [k])%list = par e i "mean" [k]) ->
    (forall i k l, inb b i = true -> (k < n)%nat -> (l < n)%nat -> tget c (i ++ [k; l])%list = normal_cov f n e i k l) -> shp x = (b ++ [n])%list ->
    exists d r, mc_dist gen (Some m) (Some c) = Ok d /\ sd_pdf d x = Ok r /\ shp r = b /\
      forall i xe, inb b i = true -> observed b i q xe (obs_at x i) -> density (fam_methods solve) b i q xe (tget r i).
  Proof.
    intros Hf Pq Em Ec Hm Hc Ex. destruct (mc_pdf gen b n m c x Em Ec) as (d & r & R1 & R2 & R3 & R4).
    - intros i Hi. destruct (n_all f i Hf Hi Pq) as [Sp _]. apply (MatFacts.spd_ext n (normal_cov f n e i)); [intros; symmetry; now apply Hc|exact Sp].
    - exact Ex.
    - exists d, r. split; [exact R1|]. split; [exact R2|]. split; [exact R3|]. intros i xe Hi O. rewrite (R4 i Hi). destruct (n_all f i Hf Hi Pq) as (_ & d0 & Cl & Hd).
      apply (density_eq (fam_methods solve) b i q xe (d0 (obs_at x i))).
      + apply (textbook solve b i f q n xe (obs_at x i) d0 (Pq i Hi) D O); [|exact Cl]. cbn in Hf. destruct Hf as [<-|[<-|[<-|[<-|[<-|[]]]]]]; exact Logic.I.
      + rewrite Hd. symmetry. apply mvn_pdf_ext; [intros; now apply Hm|intros; now apply Hc|reflexivity].
  Qed.
  (** the default covariance is the unit matrix, as in tests/create_info.py *)
  Theorem agree_unit_default {G} (gen : @gen_mvn_t G) (m : tensor R) (x : tensor C) : (forall i, inb b i = true -> proper b i MultivariateUnitNormal q) -> shp m = (b ++ [n])%list ->
    (forall i k, inb b i = true -> (k < n)%nat -> tget m (i ++ [k])%list = par e i "mean" [k]) -> shp x = (b ++ [n])%list ->
    exists d r, mc_dist gen (Some m) None = Ok d /\ sd_pdf d x = Ok r /\ shp r = b /\
      forall i xe, inb b i = true -> observed b i q xe (obs_at x i) -> density (fam_methods solve) b i q xe (tget r i).
  Proof.
    intros Pq Em Hm Ex. rewrite (mc_default_cov gen b n m Em). apply (agree_normal gen MultivariateUnitNormal); try assumption; [right; right; right; right; now left|reflexivity|].
    intros i k l Hi Hk Hl. rewrite tget_tbuild; [|apply inb_app_intro; [exact Hi|now apply in2]]. replace (i ++ [k; l])%list with ((i ++ [k]) ++ [l])%list by (rewrite <- app_assoc; reflexivity). rewrite removelast_snoc, !last_snoc. reflexivity.
  Qed.
End Agree.
Theorem agree_normal_cov solve b q e n (D : dims_of q = Ok n) (E : to_exp (fam_methods solve) q = Ok e) {G} (gen : @gen_mvn_t G) f (m c : tensor R) (x : tensor C) : real_normal f -> (forall i, inb b i = true -> proper b i f q) -> shp m = (b ++ [n])%list -> shp c = (b ++ [n; n])%list ->
  (forall i k, inb b i = true -> (k < n)%nat -> tget m (i ++ [k])%list = par e i "mean" [k]) ->
  (forall i k l, inb b i = true -> (k < n)%nat -> (l < n)%nat -> tget c (i ++ [k; l])%list =
     match f with
     | MultivariateNormal => par e i "second_moment" [k; l] - par e i "mean" [k] * par e i "mean" [l]
     | MultivariateDiagonalNormal => if Nat.eqb k l then par e i "second_moment" [k] - par e i "mean" [k] * par e i "mean" [k] else 0
     | MultivariateFixedVarianceNormal => if Nat.eqb k l then par e i "variance" [] else 0
     | IsotropicNormal => if Nat.eqb k l then (par e i "total_second_moment" [] - sumR n (fun k => par e i "mean" [k] * par e i "mean" [k])) / INR n else 0
     | _ => if Nat.eqb k l then 1 else 0
     end) -> shp x = (b ++ [n])%list ->
  exists d r, mc_dist gen (Some m) (Some c) = Ok d /\ sd_pdf d x = Ok r /\ shp r = b /\
    forall i xe, inb b i = true -> observed b i q xe (obs_at x i) -> density (fam_methods solve) b i q xe (tget r i).
Proof.
  intros F Pq Em Ec Hm Hc Ex. apply (agree_normal solve b q e n D E gen f m c x F Pq Em Ec Hm); [|exact Ex]. intros i k l Hi Hk Hl. rewrite (Hc i k l Hi Hk Hl). cbn in F. destruct F as [<-|[<-|[<-|[<-|[<-|[]]]]]]; reflexivity.
Qed.
