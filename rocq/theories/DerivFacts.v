(** C20: the directional derivatives of the closed forms of log_normalizer are given by the closed forms of to_exp. *)
From Coquelicot Require Import Coquelicot.
From Coq Require Import String List Bool Arith Reals Lia Lra.
From Verif Require Import Base XReal Tensor TensorFacts Support Dist Iteration Spec SumSpec DotSpec SpecFun GammaFn BesselFn Expr Fam ExprFacts FamTy FamFacts DotFacts PointSpec PointFacts Val FamR FamVal ConvFacts.
Import ListNotations.
Local Unset Asymmetric Patterns.
Local Open Scope string_scope.
Local Open Scope R_scope.

(** ** values and derivatives at 0 *)
Definition DV (g : R -> R) (v d : R) : Prop := g 0 = v /\ is_derive g 0 d.
Lemma DV_ext g h v d : (forall s, g s = h s) -> DV g v d -> DV h v d.
Proof. intros E [A B]. split; [now rewrite <- E|]. eapply is_derive_ext; [|exact B]. auto. Qed.
Lemma DV_eq g v d v' d' : DV g v d -> v = v' -> d = d' -> DV g v' d'. Proof. now intros H -> ->. Qed.
Lemma DV_const c : DV (fun _ => c) c 0. Proof. split; [reflexivity|]. apply @is_derive_const. Qed.
Lemma DV_lin a b : DV (fun s => a + s * b) a b.
Proof. split; [ring|]. auto_derive; [exact Logic.I|ring]. Qed.
Lemma DV_plus g h a b c d : DV g a b -> DV h c d -> DV (fun s => g s + h s) (a + c) (b + d).
Proof. intros [A B] [C D]. split; [congruence|]. apply @is_derive_plus; assumption. Qed.
Lemma DV_minus g h a b c d : DV g a b -> DV h c d -> DV (fun s => g s - h s) (a - c) (b - d).
Proof. intros [A B] [C D]. split; [congruence|]. apply @is_derive_minus; assumption. Qed.
Lemma DV_opp g a b : DV g a b -> DV (fun s => - g s) (- a) (- b).
Proof. intros [A B]. split; [congruence|]. apply @is_derive_opp; assumption. Qed.
Lemma DV_mult g h a b c d : DV g a b -> DV h c d -> DV (fun s => g s * h s) (a * c) (b * c + a * d).
Proof.
  intros [A B] [C D]. split; [congruence|]. evar_last. { apply @is_derive_mult; [exact B|exact D|intros; apply Rmult_comm]. } cbn. change mult with Rmult. change plus with Rplus. rewrite A, C. ring.
Qed.
Lemma DV_comp g h a b d : DV g a b -> is_derive h a d -> DV (fun s => h (g s)) (h a) (b * d).
Proof.
  intros [A B] D. split; [congruence|]. subst a. evar_last. { apply (is_derive_comp h g); [exact D|exact B]. } reflexivity.
Qed.
Lemma DV_div g h a b c d : DV g a b -> DV h c d -> c <> 0 -> DV (fun s => g s / h s) (a / c) ((b * c - a * d) / (c * c)).
Proof.
  intros [A B] [C D] N. split; [congruence|]. evar_last. { apply is_derive_div; [exact B|exact D|]. now rewrite C. } rewrite A, C. field. exact N.
Qed.
Lemma DV_ln g a b : DV g a b -> 0 < a -> DV (fun s => ln (g s)) (ln a) (b / a).
Proof. intros H P. eapply DV_eq; [eapply DV_comp; [exact H|apply is_derive_Reals, derivable_pt_lim_ln; exact P]|reflexivity|reflexivity]. Qed.
Lemma DV_exp g a b : DV g a b -> DV (fun s => exp (g s)) (exp a) (b * exp a).
Proof. intros H. eapply DV_comp; [exact H|apply is_derive_Reals, derivable_pt_lim_exp]. Qed.
Lemma DV_lngamma g a b : DV g a b -> 0 < a -> DV (fun s => lngamma (g s)) (lngamma a) (b * digamma a).
Proof. intros H P. eapply DV_comp; [exact H|now apply lngamma_derive]. Qed.
Lemma DV_sqrt g a b : DV g a b -> 0 < a -> DV (fun s => sqrt (g s)) (sqrt a) (b / (2 * sqrt a)).
Proof. intros H P. eapply DV_eq; [eapply DV_comp; [exact H|apply is_derive_Reals, derivable_pt_lim_sqrt; exact P]|reflexivity|reflexivity]. Qed.
Lemma DV_sum n (g : nat -> R -> R) v d : (forall k, (k < n)%nat -> DV (g k) (v k) (d k)) -> DV (fun s => sumR n (fun k => g k s)) (sumR n v) (sumR n d).
Proof.
  induction n as [|n IH]; intros H.
  - unfold sumR. cbn. apply DV_const.
  - rewrite !sumR_S. eapply DV_ext; [intros s; symmetry; apply sumR_S|]. apply DV_plus; [apply IH; intros; apply H; lia|apply H; lia].
Qed.

(** ** the inner product of two points and the points of a line *)
Definition dotP (c c' : cls) (n : nat) (v e : point) : R :=
  rsum (map (fun fg : field_desc * field_desc => rsum (map (fun j => v false (fd_name (fst fg)) j * e false (fd_name (snd fg)) j - v true (fd_name (fst fg)) j * e true (fd_name (snd fg)) j)
                                      (indices (supp_shape (fd_support (fst fg)) n)))) (combine (var_fields c) (var_fields c'))).
Definition padd (c : cls) (p v : point) (s : R) : point := fun k nm j =>
  if existsb (fun f => fd_fixed f && String.eqb (fd_name f) nm) (fields c) then p k nm j else p k nm j + s * v k nm j.
Lemma rsum_indices1 n g : rsum (map g (indices [n])) = sumR n (fun k => g [k]).
Proof.
  cbn [indices]. unfold sumR. generalize 0%nat. induction n as [|n IH]; intros m; [reflexivity|]. cbn [seq flat_map map app rsum fold_right]. now rewrite IH.
Qed.
Ltac dots := unfold dotP, var_fields; cbn [filter fields fd_fixed var fixd negb combine map fst snd fd_name fd_support]; cbn [supp_shape]; rewrite ?rsum_indices1; cbn [indices map rsum].
Ltac adds := unfold padd; cbn [existsb fields fd_fixed var fixd andb orb fd_name String.eqb Ascii.eqb Bool.eqb].
(** the values of lnR on a line *)
Ltac lns := cbv beta iota zeta delta [lnR sumsq norm2 cpt csq_abs]; cbn [fst snd]; adds.
Ltac dv1 := cbv beta; match goal with
  | |- DV (fun _ => ?c) _ _ => apply (DV_const c)
  | |- DV (fun s => ?a + s * ?b) _ _ => apply (DV_lin a b)
  | |- DV (fun s => sumR ?n _) _ _ => eapply (DV_sum n); let k := fresh "k" in let K := fresh "K" in intros k K
  | |- DV (fun s => _ + _) _ _ => eapply DV_plus
  | |- DV (fun s => _ - _) _ _ => eapply DV_minus
  | |- DV (fun s => _ / _) _ _ => eapply DV_div
  | |- DV (fun s => _ * _) _ _ => eapply DV_mult
  | |- DV (fun s => - _) _ _ => eapply DV_opp
  | |- DV (fun s => ln _) _ _ => eapply DV_ln
  | |- DV (fun s => exp _) _ _ => eapply DV_exp
  | |- DV (fun s => sqrt _) _ _ => eapply DV_sqrt
  | |- DV (fun s => lngamma _) _ _ => eapply DV_lngamma
  end.
Ltac dv := repeat dv1.
Definition simple_ln (f : family) : bool := match f with ComplexNormal | GeneralizedDirichlet | VonMisesFisher => false | _ => negb (mat f) end.
Lemma ln_dv_simple f n p v : simple_ln f = true -> nat_dom f n p ->
  DV (fun s => lnR n (padd (NP f) p v s) f) (lnR n p f) (dotP (NP f) (EP f) n v (expR n p f)).
Proof.
  intros M H. pose proof PI_RGT_0 as HPI. destruct f; try discriminate M; clear M; cbn [nat_dom] in H; dots; mk; lns.
  - eapply DV_eq; [dv|..]; [pose proof (exp_pos (p false "log_odds" [])); pose proof (exp_pos 0); lra|reflexivity|]. unfold expit. rewrite exp_Ropp. rewrite exp_0. pose proof (exp_pos (p false "log_odds" [])). field. lra.
  - destruct H as [N H]. eapply DV_eq; [dv|..]; [specialize (H k K); lra| |reflexivity|].
    + rewrite <- (Rmult_1_r (INR n)), <- sumR_const, <- sumR_plus. apply sumR_pos; [|lia]. intros k K. specialize (H k K). lra.
    + rewrite !Rplus_0_r. rewrite (sumR_ext n (fun k => (v false "alpha_minus_one" [k] + 0) * _) (fun k => v false "alpha_minus_one" [k] * digamma (p false "alpha_minus_one" [k] + 1))) by (intros; ring).
      rewrite Rmult_comm, <- sumR_scal, <- sumR_minus. apply sumR_ext. intros. ring.
  - eapply DV_eq; [dv|..]; [lra|reflexivity|]. ring.
  - eapply DV_eq; [dv|..]; [lra|reflexivity|]. ring.
  - eapply DV_eq; [dv|reflexivity|]. rewrite !Rplus_0_r. rewrite Rplus_0_r || idtac. apply sumR_ext. intros. field.
  - eapply DV_eq; [dv|reflexivity|]. field.
  - destruct H as [N H]. eapply DV_eq; [dv|..]; [specialize (H k K); lra| |reflexivity|].
    + rewrite <- (Rmult_1_r (INR n)), <- sumR_const, <- sumR_plus. apply sumR_pos; [|lia]. intros k K. specialize (H k K). lra.
    + rewrite !Rplus_0_r. rewrite (sumR_ext n (fun k => (v false "alpha_minus_one" [k] + 0) * _) (fun k => v false "alpha_minus_one" [k] * digamma (p false "alpha_minus_one" [k] + 1))) by (intros; ring).
      rewrite Rmult_comm, <- sumR_scal, <- sumR_minus. apply sumR_ext. intros. ring.
  - eapply DV_eq; [dv|..]; [lra|reflexivity|]. field. lra.
  - destruct H as [H1 H2]. eapply DV_eq; [dv|..]; [lra|lra|reflexivity|]. field. lra.
  - assert (E : 0 < 1 + - exp (p false "log_not_p" [])) by (pose proof (exp_lt1 _ H); lra). eapply DV_eq; [dv|..]; [exact E|reflexivity|]. rewrite exp_Ropp. pose proof (exp_pos (p false "log_not_p" [])). field. lra.
  - pose proof (exp_lt1 _ H) as E1. pose proof (exp_pos (p false "log_probability" [])) as E2. pose proof (log1m_neg (exp (p false "log_probability" [])) (conj E2 E1)) as E3. replace (1 - exp (p false "log_probability" [])) with (1 + - exp (p false "log_probability" [])) in E3 by ring.
    eapply DV_eq; [dv|..]; [lra|lra|reflexivity|]. field. lra.
  - assert (E : 0 < 1 + sumR n (fun k => exp (p false "log_odds" [k]))). { assert (0 <= sumR n (fun k => exp (p false "log_odds" [k]))); [apply sumR_nonneg; intros; apply Rlt_le, exp_pos|lra]. }
    eapply DV_eq; [dv|..]; [exact E|reflexivity|]. rewrite Rplus_0_l, !Rplus_0_r. unfold Rdiv at 1. rewrite Rmult_comm, <- sumR_scal. apply sumR_ext. intros. field. lra.
  - eapply DV_eq; [dv|..]; [specialize (H k K); lra|specialize (H k K); lra| |reflexivity|].
    + specialize (H k K). replace (- PI / p false "negative_half_precision" [k]) with (PI / - p false "negative_half_precision" [k]) by (field; lra). apply Rdiv_lt_0_compat; lra.
    + rewrite !Rplus_0_r. rewrite <- sumR_plus. apply sumR_ext. intros k K. specialize (H k K). field. lra.
  - eapply DV_eq; [dv|reflexivity|]. rewrite !Rplus_0_r, Rmult_0_l, Rplus_0_l, Rmult_0_r, !Rplus_0_r, (Rmult_comm (sumR _ _)), <- !sumR_scal. apply sumR_ext. intros k K. field.
  - destruct H as [N H]. eapply DV_eq; [dv|..]; [lra|lra|apply Rdiv_lt_0_compat; lra|reflexivity|]. set (np := p false "negative_half_precision" []) in *. set (vp := v false "negative_half_precision" []).
    rewrite (sumR_ext n (fun k => v false "mean_times_precision" [k] * p false "mean_times_precision" [k] + _) (fun k => 2 * (v false "mean_times_precision" [k] * p false "mean_times_precision" [k]))) by (intros; ring). rewrite sumR_scal.
    rewrite (sumR_ext n (fun k => v false "mean_times_precision" [k] * (p false "mean_times_precision" [k] / (-2 * np)) - v true "mean_times_precision" [k] * 0) (fun k => (/ (-2 * np)) * (v false "mean_times_precision" [k] * p false "mean_times_precision" [k]))) by (intros; field; lra). rewrite sumR_scal.
    rewrite (sumR_ext n (fun k => p false "mean_times_precision" [k] / (-2 * np) * (p false "mean_times_precision" [k] / (-2 * np))) (fun k => (/ (-2 * np) * / (-2 * np)) * (p false "mean_times_precision" [k] * p false "mean_times_precision" [k]))) by (intros; field; lra). rewrite sumR_scal.
    field. lra.
  - eapply DV_eq; [dv|reflexivity|]. rewrite !Rplus_0_r, Rmult_0_l, Rplus_0_l, <- !sumR_scal. apply sumR_ext. intros k K. field.
  - destruct H as [H _]. assert (E : 0 < 1 + - exp (p false "log_not_p" [])) by (pose proof (exp_lt1 _ H); lra). eapply DV_eq; [dv|..]; [exact E|reflexivity|]. rewrite exp_Ropp. pose proof (exp_pos (p false "log_not_p" [])). field. lra.
  - eapply DV_eq; [dv|..]; [lra|lra| |reflexivity|].
    + replace (- PI / p false "negative_half_precision" []) with (PI / - p false "negative_half_precision" []) by (field; lra). apply Rdiv_lt_0_compat; lra.
    + field. lra.
  - eapply DV_eq; [dv|reflexivity|]. field.
  - eapply DV_eq; [dv|reflexivity|]. ring.
  - eapply DV_eq; [dv|..]; [lra|reflexivity|]. field. lra.
  - eapply DV_eq; [dv|..]; [lra|reflexivity|]. field. lra.
Qed.
(** von Mises-Fisher *)
Lemma ln_dv_vmf n p v : nat_dom VonMisesFisher n p ->
  DV (fun s => lnR n (padd (NP VonMisesFisher) p v s) VonMisesFisher) (lnR n p VonMisesFisher) (dotP (NP VonMisesFisher) (EP VonMisesFisher) n v (expR n p VonMisesFisher)).
Proof.
  intros H. pose proof H as (k0 & K0 & _). assert (Hs : 0 < sumsq n p "mean_times_concentration") by now apply sumsq_pos. assert (Hk : 0 < norm2 n p "mean_times_concentration") by now apply sqrt_lt_R0.
  assert (N : 1 <= INR n) by (destruct n; [lia|rewrite S_INR; pose proof (pos_INR n); lra]).
  set (u := INR n * (1 / 2) - 1).
  assert (Kd : DV (fun s => norm2 n (padd (NP VonMisesFisher) p v s) "mean_times_concentration") (norm2 n p "mean_times_concentration")
    (sumR n (fun k => v false "mean_times_concentration" [k] * p false "mean_times_concentration" [k]) / norm2 n p "mean_times_concentration")).
  { unfold norm2 in Hk |- *. unfold sumsq in *. adds. eapply DV_eq; [dv|reflexivity|]; [exact Hs|]. cbv beta.
    rewrite (sumR_ext n (fun k => v false "mean_times_concentration" [k] * p false "mean_times_concentration" [k] + _) (fun k => 2 * (v false "mean_times_concentration" [k] * p false "mean_times_concentration" [k]))) by (intros; ring).
    rewrite sumR_scal. field. lra. }
  pose proof (DV_comp _ (fun z => ln (bessel_i u z) - u * ln z) _ _ _ Kd (bessel_log_derive u _ ltac:(unfold u; lra) Hk)) as B.
  cbv beta iota zeta delta [lnR]. fold u. set (c := INR n * (1 / 2) * ln (2 * PI)).
  eapply DV_ext with (g := fun s => (ln (bessel_i u (norm2 n (padd (NP VonMisesFisher) p v s) "mean_times_concentration")) - u * ln (norm2 n (padd (NP VonMisesFisher) p v s) "mean_times_concentration")) + c); [intros; ring|].
  eapply DV_eq; [eapply DV_plus; [exact B|apply DV_const]|ring|]. dots. mk. replace (u + 1) with (INR n * (1 / 2)) by (unfold u; ring). fold u. set (w := bessel_i (INR n * (1 / 2)) _ / bessel_i u _). set (kp := norm2 _ _ _) in *.
  rewrite !Rplus_0_r. unfold Rdiv at 1. rewrite Rmult_assoc, Rmult_comm, <- sumR_scal. apply sumR_ext. intros. field. lra.
Qed.
(** ** the domains are open *)
Lemma loc_pos g v d : DV g v d -> 0 < v -> locally 0 (fun s => 0 < g s).
Proof.
  intros [A B] P. assert (C : continuous g 0) by (apply (ex_derive_continuous g 0); eexists; exact B). apply (C (fun y => 0 < y)). rewrite A. exists (mkposreal v P). intros y Hy. apply Rabs_lt_between' in Hy. cbn in Hy. lra.
Qed.
Lemma loc_lt g h a b c d : DV g a b -> DV h c d -> a < c -> locally 0 (fun s => g s < h s).
Proof. intros A B P. pose proof (DV_minus _ _ _ _ _ _ B A) as D. apply loc_pos in D; [|lra]. eapply filter_imp; [|exact D]. intros s Hs. cbn in Hs. lra. Qed.
Lemma loc_all n (P : nat -> R -> Prop) : (forall k, (k < n)%nat -> locally 0 (P k)) -> locally 0 (fun s => forall k, (k < n)%nat -> P k s).
Proof.
  induction n as [|n IH]; intros H; [apply filter_forall; intros; lia|]. eapply filter_imp; [|apply filter_and; [apply IH; intros; apply H; lia|apply (H n); lia]].
  cbv beta. intros s [A B] k K. destruct (Nat.eq_dec k n) as [->|N]; [exact B|apply A; lia].
Qed.
Lemma loc_neq g v d : DV g v d -> v <> 0 -> locally 0 (fun s => g s <> 0).
Proof.
  intros D N. destruct (Rtotal_order v 0) as [H|[H|H]]; [|contradiction|].
  - pose proof (loc_pos _ _ _ (DV_opp _ _ _ D) ltac:(lra)) as L. eapply filter_imp; [|exact L]. intros s Hs E. cbn in Hs. lra.
  - pose proof (loc_pos _ _ _ D H) as L. eapply filter_imp; [|exact L]. intros s Hs E. cbn in Hs. lra.
Qed.
Lemma loc_true (P : R -> Prop) : (forall s, P s) -> locally 0 P. Proof. intros. now apply filter_forall. Qed.
Lemma dom_open f n p v : mat f = false -> nat_dom f n p -> locally 0 (fun s => nat_dom f n (padd (NP f) p v s)).
Proof.
  intros M H. destruct f; try discriminate M; cbn [nat_dom] in *; adds; try (apply loc_true; intros; exact Logic.I).
  - apply filter_and; [apply loc_true; intros; tauto|]. destruct H as [_ H]. apply loc_all. intros k K. eapply loc_lt; [apply DV_const|apply DV_lin|]. auto.
  - eapply loc_lt; [apply DV_const|apply DV_lin|]. auto.
  - eapply loc_lt; [apply DV_const|apply DV_lin|]. auto.
  - destruct H as [H1 H2]. apply filter_and; [eapply loc_lt; [apply DV_lin|apply DV_const|]; auto|]. eapply loc_lt; [dv|dv|]. auto.
  - apply filter_and; [apply loc_true; intros; tauto|]. destruct H as [_ H]. apply loc_all. intros k K. eapply loc_lt; [apply DV_const|apply DV_lin|]. auto.
  - eapply loc_lt; [apply DV_lin|apply DV_const|]. auto.
  - destruct H as [H1 H2]. apply filter_and; eapply loc_lt; try apply DV_lin; try apply DV_const; auto.
  - apply loc_all. intros k K. destruct (H k K). apply filter_and; eapply loc_lt; try apply DV_lin; try apply DV_const; auto.
  - eapply loc_lt; [apply DV_lin|apply DV_const|]. auto.
  - eapply loc_lt; [apply DV_lin|apply DV_const|]. auto.
  - apply loc_all. intros k K. eapply loc_lt; [apply DV_lin|apply DV_const|]. auto.
  - apply loc_true. auto.
  - destruct H as [H1 H2]. apply filter_and; [apply loc_true; auto|]. eapply loc_lt; [apply DV_lin|apply DV_const|]. auto.
  - destruct H as [H1 H2]. apply filter_and; [|apply loc_true; auto]. eapply loc_lt; [apply DV_lin|apply DV_const|]. auto.
  - eapply loc_lt; [apply DV_lin|apply DV_const|]. auto.
  - eapply loc_lt; [apply DV_lin|apply DV_const|]. auto.
  - destruct H as (k & K & H). eapply filter_imp; [|eapply loc_neq; [apply DV_lin|exact H]]. cbv beta. intros s Hs. exists k. split; [exact K|exact Hs].
  - destruct H as [H1 H2]. apply filter_and; [apply loc_true; auto|]. eapply loc_lt; [apply DV_lin|apply DV_const|]. auto.
Qed.
Lemma DV_ext_loc g h v d : locally 0 (fun s => g s = h s) -> DV g v d -> DV h v d.
Proof. intros E [A B]. split; [rewrite <- A; symmetry; now apply (locally_singleton 0 _ E)|]. eapply is_derive_ext_loc; [exact E|exact B]. Qed.
(** complex normal *)
Lemma cn_ln n p : nat_dom ComplexNormal n p -> lnR n p ComplexNormal =
  let a := p false "pseudo_precision" [] in let b := p true "pseudo_precision" [] in let c := p false "negative_precision" [] in
  let x := p false "mean_times_precision" [] in let y := p true "mean_times_precision" [] in
  ((a - c) * (x * x) + 2 * (b * (x * y)) - (a + c) * (y * y)) / (4 * (c * c - (a * a + b * b))) - 1 / 2 * ln (c * c - (a * a + b * b)) + ln PI.
Proof.
  intros [H1 H2]. cbn zeta in *. cbv beta iota delta [lnR]. rewrite (cn_s_eq p H1) by lra. rewrite (cn_mu_eq p H1) by lra. unfold cnR_np, csq_abs, Cmult, cpt. cbn [fst snd].
  set (a := p false "pseudo_precision" []) in *. set (b := p true "pseudo_precision" []) in *. set (c := p false "negative_precision" []) in *.
  set (x := p false "mean_times_precision" []). set (y := p true "mean_times_precision" []). set (dl := c * c - (a * a + b * b)). assert (D : 0 < dl) by (unfold dl; lra).
  rewrite ln_div by lra. enough (E : forall m k, m = 1 / 2 * ((a * x + b * y) - c * x) / dl -> k = 1 / 2 * (c * y + (a * y - b * x)) / dl ->
    - (m * m + k * k) * c - ((m * m - k * k) * a - (m * k + k * m) * b) = ((a - c) * (x * x) + 2 * (b * (x * y)) - (a + c) * (y * y)) / (4 * dl)).
  { rewrite (E _ _ eq_refl eq_refl). ring. }
  intros m k Em Ek. apply Rmult_eq_reg_r with (4 * dl * dl); [|nra]. 
  transitivity (- ((2 * (m * dl)) * (2 * (m * dl)) + (2 * (k * dl)) * (2 * (k * dl))) * c - (((2 * (m * dl)) * (2 * (m * dl)) - (2 * (k * dl)) * (2 * (k * dl))) * a - 2 * ((2 * (m * dl)) * (2 * (k * dl))) * b)); [ring|].
  replace (2 * (m * dl)) with ((a * x + b * y) - c * x) by (rewrite Em; field; lra). replace (2 * (k * dl)) with (c * y + (a * y - b * x)) by (rewrite Ek; field; lra).
  transitivity (dl * ((a - c) * (x * x) + 2 * (b * (x * y)) - (a + c) * (y * y))); [unfold dl; ring|field; lra].
Qed.
Lemma ln_dv_cn n p v : nat_dom ComplexNormal n p ->
  DV (fun s => lnR n (padd (NP ComplexNormal) p v s) ComplexNormal) (lnR n p ComplexNormal) (dotP (NP ComplexNormal) (EP ComplexNormal) n v (expR n p ComplexNormal)).
Proof.
  intros H. eapply DV_ext_loc. { eapply filter_imp; [|exact (dom_open ComplexNormal n p v eq_refl H)]. cbv beta. intros s Hs. symmetry. exact (cn_ln n _ Hs). }
  cbv zeta. adds. pose proof H as [H1 H2]. cbn zeta in H1, H2. eapply DV_eq; [dv|..]; [lra|lra|symmetry; exact (cn_ln n p H)|].
  dots. mk. rewrite (cn_s_eq p H1) by lra. rewrite (cn_mu_eq p H1) by lra. unfold cnR_r, cnR_np, csq_abs, Cmult, Cplus, Cconj, Copp, cpt. cbn [fst snd].
  set (a := p false "pseudo_precision" []) in *. set (b := p true "pseudo_precision" []) in *. set (c := p false "negative_precision" []) in *.
  set (x := p false "mean_times_precision" []). set (y := p true "mean_times_precision" []). field. repeat split; lra.
Qed.
(** generalized Dirichlet *)
Lemma rev_tail g n k : (k <= n)%nat -> sumR (S n - k) (fun m => g (S n - 1 - m)%nat) = g n + sumR (n - k) (fun m => g (n - 1 - m)%nat).
Proof.
  intros K. replace (S n - k)%nat with (S (n - k)) by lia. rewrite sumR_Sl. f_equal; [f_equal; lia|]. apply sumR_ext. intros m Hm. f_equal. lia.
Qed.
Lemma swap_le g w n : sumR n (fun k => w k * sumR (n - k) (fun m => g (n - 1 - m)%nat)) = sumR n (fun j => g j * sumR (S j) w).
Proof.
  induction n as [|n IH]; [reflexivity|]. rewrite (sumR_S n (fun j => g j * _)), <- IH. rewrite (sumR_ext (S n) _ (fun k => g n * w k + w k * sumR (n - k) (fun m => g (n - 1 - m)%nat))).
  - rewrite sumR_plus, sumR_scal, (sumR_S n (fun k => w k * _)). rewrite Nat.sub_diag, sumR_0. ring.
  - intros k K. rewrite (rev_tail g n k) by lia. ring.
Qed.
Lemma swap_lt g w n : sumR n (fun k => w k * sumR (n - S k) (fun m => g (n - 1 - m)%nat)) = sumR n (fun j => g j * sumR j w).
Proof.
  induction n as [|n IH]; [reflexivity|]. rewrite !sumR_S, <- IH, Nat.sub_diag, sumR_0. rewrite (sumR_ext n _ (fun k => g n * w k + w k * sumR (n - S k) (fun m => g (n - 1 - m)%nat))).
  - rewrite sumR_plus, sumR_scal. ring.
  - intros k K. rewrite (rev_tail g n (S k)) by lia. ring.
Qed.
Lemma ln_dv_gd n p v : nat_dom GeneralizedDirichlet n p ->
  DV (fun s => lnR n (padd (NP GeneralizedDirichlet) p v s) GeneralizedDirichlet) (lnR n p GeneralizedDirichlet) (dotP (NP GeneralizedDirichlet) (EP GeneralizedDirichlet) n v (expR n p GeneralizedDirichlet)).
Proof.
  intros H. set (va k := v false "alpha_minus_one" [k]). set (vg k := v false "gamma" [k]).
  assert (A : forall k, DV (fun s => gdR_alpha (padd (NP GeneralizedDirichlet) p v s) k) (gdR_alpha p k) (va k)).
  { intros k. unfold gdR_alpha. adds. eapply DV_eq; [dv|reflexivity|]. unfold va. ring. }
  assert (B : forall k, (k < n)%nat -> DV (fun s => gdR_beta n (padd (NP GeneralizedDirichlet) p v s) k) (gdR_beta n p k) (sumR (n - k) (fun m => vg (n - 1 - m)%nat) + sumR (n - S k) (fun m => va (n - 1 - m)%nat))).
  { intros k K. unfold gdR_beta. adds. eapply DV_eq; [eapply DV_plus; [eapply DV_plus; [eapply DV_sum; intros; apply DV_lin|eapply DV_sum; intros; apply A]|apply DV_const]|reflexivity|].
    rewrite Rplus_0_r. replace (S (n - 1 - k)) with (n - k)%nat by lia. replace (n - 1 - k)%nat with (n - S k)%nat by lia. reflexivity. }
  lns. eapply DV_eq.
  { eapply DV_sum. intros k K. pose proof (gd_alpha_pos n p H k K). pose proof (gd_beta_pos n p H k K). eapply DV_minus; [eapply DV_plus; eapply DV_lngamma; [apply A|assumption|apply B; exact K|assumption]|].
    eapply DV_lngamma; [eapply DV_plus; [apply A|apply B; exact K]|lra]. }
  { reflexivity. }
  dots. mk. fold va vg. set (w m := digamma (gdR_beta n p m) - digamma (gdR_alpha p m + gdR_beta n p m)).
  rewrite (sumR_ext n _ (fun k => va k * (digamma (gdR_alpha p k) - digamma (gdR_alpha p k + gdR_beta n p k)) + (w k * sumR (n - k) (fun m => vg (n - 1 - m)%nat) + w k * sumR (n - S k) (fun m => va (n - 1 - m)%nat)))).
  2: { intros k K. unfold w. ring. }
  rewrite !sumR_plus, swap_le, swap_lt, !Rplus_0_r.
  rewrite (sumR_ext n (fun k => v false "alpha_minus_one" [k] * _ - _) (fun k => va k * (digamma (gdR_alpha p k) - digamma (gdR_alpha p k + gdR_beta n p k)) + va k * sumR k w)) by (intros; unfold va, w; ring).
  rewrite (sumR_ext n (fun k => v false "gamma" [k] * _ - _) (fun k => vg k * sumR (S k) w)) by (intros; unfold vg, w; ring).
  rewrite sumR_plus. ring.
Qed.
Theorem ln_dv f n p v : mat f = false -> nat_dom f n p ->
  DV (fun s => lnR n (padd (NP f) p v s) f) (lnR n p f) (dotP (NP f) (EP f) n v (expR n p f)).
Proof.
  intros M H. destruct (simple_ln f) eqn:E; [now apply ln_dv_simple|]. destruct f; try discriminate M; try discriminate E; [now apply ln_dv_cn|now apply ln_dv_gd|now apply ln_dv_vmf].
Qed.
