(** The expected sufficient statistics of a one-dimensional family are the derivatives of its log-normaliser. *)
From Coquelicot Require Import Coquelicot.
From Coq Require Import String List Bool Arith Reals Lia Lra.
From Verif Require Import Base XReal Tensor TensorFacts Support Dist Iteration Structure Spec SumSpec DotSpec Tools Joint SpecFun GammaFn Expr Fam DotFacts BatchFacts
  PointSpec PointFacts Val FamR FamVal ConvFacts LeafVal DerivFacts DerivThms DensSpec DensVal DensThms IntSpec IntFacts GammaInt IntNorm.
Import ListNotations.
Local Unset Asymmetric Patterns.
Local Open Scope string_scope.
Local Open Scope R_scope.

Lemma rsum_lin {A} (l : list A) g u h : rsum (map (fun a => g a + h * u a) l) = rsum (map g l) + h * rsum (map u l).
Proof. induction l as [|a l IH]; [cbn; ring|]. cbn [map rsum]. rewrite IH. ring. Qed.
Lemma rsum_ext_in {A} (l : list A) g u : (forall a, In a l -> g a = u a) -> rsum (map g l) = rsum (map u l).
Proof. intros H. f_equal. apply map_ext_in. exact H. Qed.
Lemma dot_padd c c' n p v h e : dotP c c' n (padd c p v h) e = dotP c c' n p e + h * dotP c c' n v e.
Proof.
  unfold dotP. rewrite <- rsum_lin. apply rsum_ext_in. intros [f g] I. cbn [fst snd]. rewrite <- rsum_lin. apply rsum_ext_in. intros j _. cbv beta.
  apply in_combine_l in I. unfold var_fields in I. apply filter_In in I as [I1 I2]. apply negb_true_iff in I2. unfold padd. rewrite (fixed_names c f I1), I2. ring.
Qed.
Lemma ss_padd f n p v h x : ssR n (padd (NP f) p v h) x f = ssR n p x f.
Proof. destruct f; reflexivity. Qed.
Lemma cm_padd f n p v h x : cmR n (padd (NP f) p v h) x f = cmR n p x f.
Proof. destruct f; reflexivity. Qed.
Lemma lp_line f n p v h x : lpR n (padd (NP f) p v h) x f = lpR n p x f + h * dotP (NP f) (EP f) n v (ssR n p x f) - (lnR n (padd (NP f) p v h) f - lnR n p f).
Proof. unfold lpR. rewrite ss_padd, cm_padd, dot_padd. ring. Qed.

Theorem gen_expect {X} (m : msr X) (emb : X -> obs) f n p v : mat f = false -> (forall p, nat_dom f n p -> int m (fun t => exp (lpR n p (emb t) f)) 1) -> nat_dom f n p ->
  good m (fun t => exp (lpR n p (emb t) f) * dotP (NP f) (EP f) n v (ssR n p (emb t) f)) ->
  sg m (fun t => exp (lpR n p (emb t) f) * dotP (NP f) (EP f) n v (ssR n p (emb t) f)) (dotP (NP f) (EP f) n v (expR n p f)).
Proof.
  intros M N H G. destruct (dom_open f n p v M H) as (d & Hd). destruct (ln_dv f n p v M H) as (Z0 & Z1).
  apply (sg_derive m _ _ (fun h => exp (lnR n (padd (NP f) p v h) f - lnR n p f)) _ d (cond_pos d)); [| |exact G].
  - intros h Hh. assert (B : ball 0 d h) by (apply ball_in; lra). specialize (N _ (Hd h B)).
    set (c := lnR n (padd (NP f) p v h) f - lnR n p f). assert (K := int_scal m (c := exp c) (Rlt_le _ _ (exp_pos c)) N). rewrite Rmult_1_r in K. eapply int_ext; [|exact K].
    intros t Ht. cbv beta. rewrite <- !exp_plus. f_equal. rewrite lp_line. fold c. ring.
  - assert (E : is_derive (fun h => exp (lnR n (padd (NP f) p v h) f - lnR n p f)) 0 (dotP (NP f) (EP f) n v (expR n p f) * exp (lnR n (padd (NP f) p v 0) f - lnR n p f))).
    { apply (is_derive_comp exp (fun h => lnR n (padd (NP f) p v h) f - lnR n p f) 0); [apply is_derive_exp|].
      pose proof (is_derive_minus (fun h => lnR n (padd (NP f) p v h) f) (fun _ => lnR n p f) 0 _ _ Z1 (is_derive_const (lnR n p f) 0)) as Q. rewrite minus_zero_r in Q. exact Q. }
    replace (lnR n (padd (NP f) p v 0) f - lnR n p f) with 0 in E by (rewrite Z0; ring). rewrite exp_0, Rmult_1_r in E. exact E.
Qed.

(** ** negative binomial *)
Definition nbc (r k : nat) : R := exp (lngamma (INR k + INR r + 1) - lngamma (INR k + 1) - lngamma (INR r + 1)).
Lemma nbc_step r k : nbc (S r) k = (INR k + INR r + 1) / (INR r + 1) * nbc r k.
Proof.
  unfold nbc. rewrite !S_INR. pose proof (pos_INR k). pose proof (pos_INR r). replace (INR k + (INR r + 1) + 1) with (INR k + INR r + 1 + 1) by ring.
  rewrite lngamma_succ, (lngamma_succ (INR r + 1)) by lra. replace (lngamma (INR k + INR r + 1) + ln (INR k + INR r + 1) - lngamma (INR k + 1) - (lngamma (INR r + 1) + ln (INR r + 1)))
    with (ln (INR k + INR r + 1) + - ln (INR r + 1) + (lngamma (INR k + INR r + 1) - lngamma (INR k + 1) - lngamma (INR r + 1))) by ring.
  rewrite !exp_plus, exp_Ropp, !exp_ln by lra. reflexivity.
Qed.
Lemma nb_series r th : th < 0 -> nser (fun k => nbc r k * exp (th * INR k)) (exp (- (INR r + 1) * ln (1 - exp th))).
Proof.
  revert th. induction r as [|r IH]; intros th Hth; pose proof (exp_lt1 th Hth) as E.
  - split; [intros k; apply Rmult_le_pos; apply Rlt_le, exp_pos|]. apply (is_series_ext_R (fun k => exp th ^ k)).
    + intros k. unfold nbc. cbn [INR]. rewrite Rplus_0_r, Rplus_0_l, lngamma_1. replace (lngamma (INR k + 1) - lngamma (INR k + 1) - 0) with 0 by ring. rewrite exp_0, exp_pow, Rmult_1_l. f_equal. ring.
    + apply (series_to _ (/ (1 - exp th))); [|now apply geom_series]. cbn [INR]. replace (- (0 + 1) * ln (1 - exp th)) with (- ln (1 - exp th)) by ring. rewrite exp_Ropp, exp_ln by lra. reflexivity.
  - pose proof (pos_INR r) as Pr. set (Z := fun h => exp (- (INR r + 1) * ln (1 - exp (th + h)))).
    assert (S : sg sums (fun k => nbc r k * exp (th * INR k) * INR k) ((INR r + 1) * (exp th / (1 - exp th)) * exp (- (INR r + 1) * ln (1 - exp th)))).
    { apply (sg_derive sums _ _ Z _ (- th)); [lra| | |exact Logic.I].
      - intros h Hh. eapply (int_ext sums); [|exact (IH (th + h) ltac:(lra))]. intros k _. cbv beta. rewrite (Rmult_assoc (nbc r k)), <- exp_plus. do 2 f_equal. ring.
      - unfold Z. auto_derive; [rewrite Rplus_0_r; lra|]. rewrite !Rplus_0_r. change (1 + - exp th) with (1 - exp th). field. lra. }
    assert (N := int_sg sums _ _ (IH th Hth)).
    assert (Q : sg sums (fun k => nbc (Datatypes.S r) k * exp (th * INR k)) (exp (- (INR (Datatypes.S r) + 1) * ln (1 - exp th)))).
    { assert (V : exp (- (INR (Datatypes.S r) + 1) * ln (1 - exp th)) = / (INR r + 1) * ((INR r + 1) * (exp th / (1 - exp th)) * exp (- (INR r + 1) * ln (1 - exp th))) + exp (- (INR r + 1) * ln (1 - exp th))).
      { rewrite S_INR. replace (- (INR r + 1 + 1) * ln (1 - exp th)) with (- (INR r + 1) * ln (1 - exp th) + - ln (1 - exp th)) by ring. rewrite exp_plus, (exp_Ropp (ln _)), exp_ln by lra. field. lra. }
      rewrite V. eapply sg_ext; [|apply sg_plus; [apply (sg_scal sums _ _ (/ (INR r + 1)) S)|exact N]]. intros k _. cbv beta. rewrite nbc_step. field. lra. }
    apply (sg_int sums); [exact Q|exact Logic.I|]. intros k _. apply Rmult_le_pos; apply Rlt_le, exp_pos.
Qed.
Lemma norm_nb n p : nat_dom NegativeBinomial n p -> nser (fun k => exp (lpR n p (scalar_obs (INR k)) NegativeBinomial)) 1.
Proof.
  cbn [nat_dom]. intros [H (r & Hr)]. set (th := p false "log_not_p" []) in *. pose proof (exp_lt1 th H) as E. pose proof (nb_series r th H) as N. pose proof (pos_INR r).
  set (a := - (INR r + 1) * ln (1 - exp th)) in *. assert (K := int_scal sums (c := exp (- a)) (Rlt_le _ _ (exp_pos _)) N). cbv beta in K.
  replace (exp (- a) * exp a) with 1 in K by (rewrite <- exp_plus; replace (- a + a) with 0 by ring; now rewrite exp_0). eapply (int_ext sums); [|exact K].
  intros k _. cbv beta. unfold nbc. rewrite <- !exp_plus. f_equal. lpe. fold th. rewrite Hr, S_INR. unfold a. replace (INR k + (INR r + 1) - 1 + 1) with (INR k + INR r + 1) by ring. replace (INR k + (INR r + 1) - 1 - INR k + 1) with (INR r + 1) by ring. unfold Rminus. ring.
Qed.
(** ** logarithmic *)
Definition lser (n : nat) (t : R) : R := sum_f_R0 (fun k => t ^ S k / INR (S k)) n.
Lemma pow_quot m t : 0 < INR (S m) -> is_derive (fun t => t ^ S m / INR (S m)) t (t ^ m).
Proof.
  intros P. replace (t ^ m) with (/ INR (S m) * (INR (S m) * t ^ m)) by (field; lra). apply (is_derive_ext (fun t => / INR (S m) * t ^ S m)); [intros s; apply Rmult_comm|].
  apply (is_derive_scal (fun t => t ^ S m) t (/ INR (S m))). apply is_derive_Reals, derivable_pt_lim_pow.
Qed.
Lemma lser_derive n t : t <> 1 -> is_derive (lser n) t ((1 - t ^ S n) / (1 - t)).
Proof.
  intros Ht. induction n as [|n IH].
  - unfold lser. cbn [sum_f_R0]. assert (X : forall s : R, s = s ^ 1 / INR 1) by (intros s; cbn; field). apply (is_derive_ext (fun t => t)); [exact X|]. replace ((1 - t ^ 1) / (1 - t)) with 1 by (cbn; field; lra). apply @is_derive_id.
  - unfold lser. cbn [sum_f_R0]. fold (lser n).
    replace ((1 - t ^ S (S n)) / (1 - t)) with (plus ((1 - t ^ S n) / (1 - t)) (t ^ S n)) by (unfold plus; cbn; field; lra).
    apply (is_derive_plus (fun t => sum_f_R0 (fun k => t ^ S k / INR (S k)) n) (fun t => t ^ S (S n) / INR (S (S n)))); [exact IH|].
    assert (P : 0 < INR (S (S n))) by (apply lt_0_INR; lia). apply pow_quot; exact P.
Qed.
Lemma log_remainder n q : 0 < q < 1 -> 0 <= - ln (1 - q) - lser n q <= q ^ S n / (1 - q) * q.
Proof.
  intros Hq. set (F := fun t => - ln (1 - t) - lser n t).
  assert (D : forall t, 0 <= t <= q -> is_derive F t (t ^ S n / (1 - t))).
  { intros t Ht. unfold F. replace (t ^ S n / (1 - t)) with (minus (/ (1 - t)) ((1 - t ^ S n) / (1 - t))) by (unfold minus, plus, opp; cbn; field; lra).
    apply (is_derive_minus (fun t => - ln (1 - t)) (lser n)); [|apply lser_derive; lra]. auto_derive; [lra|]. field. lra. }
  destruct (MVT_gen F 0 q (fun t => t ^ S n / (1 - t))) as (c & Hc & E).
  - intros x Hx. rewrite Rmin_left, Rmax_right in Hx by lra. apply D. lra.
  - intros x Hx. rewrite Rmin_left, Rmax_right in Hx by lra. apply derivable_continuous_pt. exists (x ^ S n / (1 - x)). apply is_derive_Reals, D. lra.
  - rewrite Rmin_left, Rmax_right in Hc by lra. assert (Z : F 0 = 0).
    { unfold F. rewrite Rminus_0_r, ln_1, Ropp_0. assert (L : lser n 0 = 0); [|rewrite L; ring]. unfold lser. clear. induction n as [|n IH]; cbn [sum_f_R0]; [cbn; field|]. rewrite IH. cbn [pow]. unfold Rdiv. ring. }
    rewrite Z, !Rminus_0_r in E. fold (F q). rewrite E.
    assert (B : 0 <= c ^ S n / (1 - c) <= q ^ S n / (1 - q)).
    { assert (0 <= c ^ S n) by (apply pow_le; lra). assert (c ^ S n <= q ^ S n) by (apply pow_incr; lra). assert (0 < / (1 - c)) by (apply Rinv_0_lt_compat; lra). assert (/ (1 - c) <= / (1 - q)) by (apply Rinv_le_contravar; lra).
      split; [apply Rmult_le_pos; lra|apply Rmult_le_compat; lra]. }
    split; [apply Rmult_le_pos; lra|apply Rmult_le_compat_r; lra].
Qed.
Lemma log_series q : 0 < q < 1 -> is_series (fun k => q ^ S k / INR (S k)) (- ln (1 - q)).
Proof.
  intros Hq. apply lim_series. apply (is_lim_seq_le_le (fun n => - ln (1 - q) - q ^ S n / (1 - q) * q) _ (fun _ => - ln (1 - q))).
  - intros n. pose proof (log_remainder n q Hq) as R. unfold lser in R. lra.
  - replace (Finite (- ln (1 - q))) with (Finite (- ln (1 - q) - 0)) by (f_equal; ring). apply is_lim_seq_minus'; [apply is_lim_seq_const|].
    apply is_lim_seq_ext with (fun n => q ^ S n * (/ (1 - q) * q)); [intros n; unfold Rdiv; ring|].
    replace (Finite 0) with (Rbar_mult 0 (/ (1 - q) * q)) by (cbn; f_equal; ring). apply is_lim_seq_mult with (Finite 0) (Finite (/ (1 - q) * q)); [|apply is_lim_seq_const|reflexivity].
    apply (is_lim_seq_incr_1 (fun n => q ^ n)). apply is_lim_seq_geom. rewrite Rabs_pos_eq; lra.
  - apply is_lim_seq_const.
Qed.
Lemma norm_log n p : nat_dom Logarithmic n p -> nser (fun k => exp (lpR n p (scalar_obs (INR (S k))) Logarithmic)) 1.
Proof.
  cbn [nat_dom]. intros H. split; [intros; apply Rlt_le, exp_pos|]. set (th := p false "log_probability" []) in *. pose proof (exp_lt1 th H) as E. assert (L : 0 < - ln (1 - exp th)) by (assert (ln (1 - exp th) < 0); [|lra]; rewrite <- ln_1; apply ln_increasing; lra).
  apply (is_series_ext_R (fun k => / (- ln (1 - exp th)) * (exp th ^ S k / INR (S k)))).
  - intros k. assert (P : 0 < INR (S k)) by (apply lt_0_INR; lia). rewrite exp_pow. unfold Rdiv. rewrite <- (exp_ln (- ln (1 - exp th))) at 1 by exact L. rewrite <- exp_Ropp. replace (/ INR (S k)) with (exp (- ln (INR (S k)))) by (rewrite exp_Ropp, exp_ln by exact P; reflexivity).
    rewrite <- !exp_plus. f_equal. lpe. fold th. unfold Rminus. ring.
  - apply (series_to _ (/ - ln (1 - exp th) * - ln (1 - exp th)) 1); [field; lra|]. apply (is_series_scal_l _ _ _ (log_series _ E)).
Qed.
