(** C30: the expectation parameters are differentiable in the natural parameters; the derivative is a symmetric, positive semidefinite form. *)
From Coquelicot Require Import Coquelicot.
From Coq Require Import String List Bool Arith Reals Lia Lra.
From Verif Require Import Base XReal Tensor TensorFacts Support Dist Iteration Spec SumSpec DotSpec SpecFun GammaFn TrigammaFn BesselFn Expr Fam ExprFacts FamTy FamFacts DotFacts PointSpec PointFacts Val FamR FamVal ConvFacts DerivFacts MatDeriv MatHess MatBreg BregFacts BregThms DerivThms KlPos InjThms StructThms MapFacts SumFacts JointThms JointThms2 DotLaws TensorFacts2 BatchFacts.
Import ListNotations.
Local Unset Asymmetric Patterns.
Local Open Scope string_scope.
Local Open Scope R_scope.

Lemma DV_digamma g a b : DV g a b -> 0 < a -> DV (fun s => digamma (g s)) (digamma a) (b * trigamma a).
Proof. intros H P. eapply DV_comp; [exact H|now apply digamma_derive]. Qed.
Lemma DV_inv g a b : DV g a b -> a <> 0 -> DV (fun s => / g s) (/ a) (- b / (a * a)).
Proof. intros H N. eapply DV_eq; [eapply DV_ext; [|eapply (DV_div (fun _ => 1) g); [apply DV_const|exact H|exact N]]|..]; [intros; cbn; unfold Rdiv; ring|unfold Rdiv; ring|]. field. exact N. Qed.
(** the derivative of <u, to_exp> along v *)
Definition has_hess (f : family) (n : nat) (p : point) : Prop := exists H : point -> point -> R,
  (forall u v, DV (fun s => dotP (NP f) (EP f) n u (expR n (padd (NP f) p v s) f)) (dotP (NP f) (EP f) n u (expR n p f)) (H u v)) /\ (forall u v, H u v = H v u).
Ltac dvh1 := first [dv1 | cbv beta; match goal with |- DV (fun s => digamma _) _ _ => eapply DV_digamma | |- DV (fun s => / _) _ _ => eapply DV_inv end].
Ltac dvh := repeat dvh1.
Ltac dots' := unfold dotP, var_fields; cbn [filter fields fd_fixed var fixd negb combine map fst snd fd_name fd_support]; cbn [supp_shape]; repeat match goal with |- context [rsum (map ?g (indices [?m]))] => rewrite (rsum_indices1 m g) end; cbn [indices map rsum].
Ltac hs := eapply DV_ext; [let s := fresh "s" in intros s; symmetry; dots'; mk; adds; reflexivity|]; dots; mk.
Lemma DV_val g v d v' : DV g v d -> v = v' -> DV g v' d. Proof. now intros H <-. Qed.
Lemma hess_bernoulli n p : nat_dom Bernoulli n p -> has_hess Bernoulli n p.
Proof.
  intros _. set (l := p false "log_odds" []). exists (fun u v => u false "log_odds" [] * v false "log_odds" [] * (exp (- l) / ((1 + exp (- l)) * (1 + exp (- l))))). split; [|intros; ring].
  intros u v. hs. unfold expit. fold l. pose proof (exp_pos (- l)). eapply DV_eq; [dvh; lra|reflexivity|]. field. lra.
Qed.
Lemma hess_dir n p : ((2 <= n)%nat /\ forall k, (k < n)%nat -> -1 < p false "alpha_minus_one" [k]) -> has_hess Beta n p /\ has_hess Dirichlet n p.
Proof.
  intros [N H]. set (a k := p false "alpha_minus_one" [k]). 
  assert (P : 0 < sumR n a + INR n). { rewrite <- (Rmult_1_r (INR n)), <- sumR_const, <- sumR_plus. apply sumR_pos; [|lia]. intros k K. specialize (H k K). unfold a. lra. }
  split; (exists (fun u v => sumR n (fun k => u false "alpha_minus_one" [k] * v false "alpha_minus_one" [k] * trigamma (a k + 1)) - sumR n (fun k => u false "alpha_minus_one" [k]) * sumR n (fun k => v false "alpha_minus_one" [k]) * trigamma (sumR n a + INR n));
  split; [|intros; f_equal; [apply sumR_ext; intros; ring|ring]]; intros u v; hs; eapply DV_eq; [dvh; [specialize (H k K); lra|exact P]|reflexivity|];
  rewrite !Rplus_0_r; rewrite (sumR_ext n _ (fun k => u false "alpha_minus_one" [k] * v false "alpha_minus_one" [k] * trigamma (a k + 1) - (sumR n (fun k => v false "alpha_minus_one" [k]) * trigamma (sumR n a + INR n)) * u false "alpha_minus_one" [k])) by (intros; unfold a; ring);
  rewrite sumR_minus, sumR_scal; ring).
Qed.
Lemma hess_chi n p : -1 < p false "k_over_two_minus_one" [] -> has_hess Chi n p /\ has_hess ChiSquare n p.
Proof.
  intros H. split; (exists (fun u v => u false "k_over_two_minus_one" [] * v false "k_over_two_minus_one" [] * trigamma (p false "k_over_two_minus_one" [] + 1)); split; [|intros; ring]; intros u v; hs; eapply DV_eq; [dvh; lra|reflexivity|]; ring).
Qed.
Lemma hess_cmu n p : has_hess ComplexMultivariateUnitNormal n p.
Proof.
  set (t := "two_mean_conjugate"). exists (fun u v => sumR n (fun k => 1 / 2 * (u false t [k] * v false t [k] + u true t [k] * v true t [k]))). split; [|intros; apply sumR_ext; intros; ring].
  intros u v. hs. eapply DV_eq; [dvh|reflexivity|]. rewrite Rplus_0_r. apply sumR_ext. intros. unfold t. ring.
Qed.
Lemma hess_cu n p : has_hess ComplexUnitNormal n p.
Proof.
  set (t := "two_mean_conjugate"). exists (fun u v => 1 / 2 * (u false t [] * v false t [] + u true t [] * v true t [])). split; [|intros; ring].
  intros u v. hs. eapply DV_eq; [dvh|reflexivity|]. unfold t. ring.
Qed.
Lemma hess_exponential n p : nat_dom Exponential n p -> has_hess Exponential n p.
Proof.
  cbn [nat_dom]. intros H. set (l := p false "negative_rate" []) in *. exists (fun u v => u false "negative_rate" [] * v false "negative_rate" [] / (l * l)). split; [|intros; unfold Rdiv; ring].
  intros u v. hs. eapply DV_eq; [dvh; unfold l in H; lra|reflexivity|]. fold l. field. lra.
Qed.
Lemma hess_rayleigh n p : nat_dom Rayleigh n p -> has_hess Rayleigh n p.
Proof.
  cbn [nat_dom]. intros H. set (l := p false "eta" []) in *. exists (fun u v => u false "eta" [] * v false "eta" [] / (l * l)). split; [|intros; unfold Rdiv; ring].
  intros u v. hs. eapply DV_eq; [dvh; unfold l in H; lra|reflexivity|]. fold l. field. lra.
Qed.
Lemma hess_weibull n p : nat_dom Weibull n p -> has_hess Weibull n p.
Proof.
  cbn [nat_dom]. intros [_ H]. set (l := p false "eta" []) in *. exists (fun u v => u false "eta" [] * v false "eta" [] / (l * l)). split; [|intros; unfold Rdiv; ring].
  intros u v. hs. eapply DV_eq; [dvh; unfold l in H; lra|reflexivity|]. fold l. field. lra.
Qed.
Lemma hess_gamma n p : nat_dom Gamma n p -> has_hess Gamma n p.
Proof.
  cbn [nat_dom]. intros [H1 H2]. set (l := p false "negative_rate" []) in *. set (k := p false "shape_minus_one" [] + 1).
  exists (fun u v => u false "negative_rate" [] * v false "negative_rate" [] * (k / (l * l)) - (u false "negative_rate" [] * v false "shape_minus_one" [] + u false "shape_minus_one" [] * v false "negative_rate" []) / l + u false "shape_minus_one" [] * v false "shape_minus_one" [] * trigamma k).
  split; [|intros; unfold Rdiv; ring]. intros u v. hs. eapply DV_eq; [dvh; unfold l in *; lra|reflexivity|]. fold l. fold k. replace (- (p false "shape_minus_one" [] + 1)) with (- k) by reflexivity. field. lra.
Qed.
Lemma geo_dv a b : a < 0 -> DV (fun s => exp (- (a + s * b)) - 1) (exp (- a) - 1) (- b * exp (- a)) /\ 0 < exp (- a) - 1.
Proof. intros H. split; [eapply DV_eq; [dvh|reflexivity|ring]|]. pose proof (exp_increasing 0 (- a) ltac:(lra)) as E. rewrite exp_0 in E. lra. Qed.
Lemma hess_geometric n p : nat_dom Geometric n p -> has_hess Geometric n p.
Proof.
  cbn [nat_dom]. intros H. set (l := p false "log_not_p" []) in *. exists (fun u v => u false "log_not_p" [] * v false "log_not_p" [] * (exp (- l) / ((exp (- l) - 1) * (exp (- l) - 1)))). split; [|intros; unfold Rdiv; ring].
  intros u v. hs. destruct (geo_dv l (v false "log_not_p" []) H) as [_ E]. eapply DV_eq; [dvh; unfold l in E; lra|reflexivity|]. fold l. field. lra.
Qed.
Lemma hess_negbin n p : nat_dom NegativeBinomial n p -> has_hess NegativeBinomial n p.
Proof.
  cbn [nat_dom]. intros [H _]. set (l := p false "log_not_p" []) in *. exists (fun u v => p false "failures" [] * (u false "log_not_p" [] * v false "log_not_p" []) * (exp (- l) / ((exp (- l) - 1) * (exp (- l) - 1)))). split; [|intros; unfold Rdiv; ring].
  intros u v. hs. destruct (geo_dv l (v false "log_not_p" []) H) as [_ E]. eapply DV_eq; [dvh; unfold l in E; lra|reflexivity|]. fold l. field. lra.
Qed.
Lemma hess_log n p : nat_dom Logarithmic n p -> has_hess Logarithmic n p.
Proof.
  cbn [nat_dom]. intros H. set (l := p false "log_probability" []) in *. pose proof (exp_lt1 _ H) as E1. pose proof (exp_pos l) as E2. pose proof (log1m_neg (exp l) (conj E2 E1)) as E3. replace (1 - exp l) with (1 + - exp l) in E3 by ring.
  set (e := exp l) in *. set (L := ln (1 + - e)) in *.
  exists (fun u v => u false "log_probability" [] * v false "log_probability" [] * ((e * ((e - 1) * L) - e * (e * L + (e - 1) * (- e / (1 + - e)))) / ((e - 1) * L * ((e - 1) * L)))). split; [|intros; unfold Rdiv; ring].
  assert (N : (e - 1) * L <> 0) by (apply Rmult_integral_contrapositive_currified; lra).
  intros u v. hs. eapply DV_eq; [dvh; [unfold e, l in *; lra|exact N]|reflexivity|]. fold l. fold e. fold L. field. repeat split; lra.
Qed.
Lemma hess_multinomial n p : has_hess Multinomial n p.
Proof.
  set (w k := exp (p false "log_odds" [k])). set (S := 1 + sumR n w).
  assert (E : 0 < S). { assert (0 <= sumR n w); [apply sumR_nonneg; intros; apply Rlt_le, exp_pos|unfold S; lra]. }
  exists (fun u v => sumR n (fun k => u false "log_odds" [k] * v false "log_odds" [k] * w k) / S - sumR n (fun k => u false "log_odds" [k] * w k) * sumR n (fun k => v false "log_odds" [k] * w k) / (S * S)).
  split; [|intros; rewrite (sumR_ext n (fun k => u false "log_odds" [k] * v false "log_odds" [k] * w k) (fun k => v false "log_odds" [k] * u false "log_odds" [k] * w k)) by (intros; ring); unfold Rdiv; ring].
  intros u v. hs. eapply DV_eq; [dvh; exact (Rgt_not_eq _ _ E)|reflexivity|]. rewrite !Rplus_0_r, !Rplus_0_l. change (fun k => exp (p false "log_odds" [k])) with w. change (1 + sumR n w) with S. set (Q := sumR n (fun k => v false "log_odds" [k] * _)).
  rewrite (sumR_ext n _ (fun k => / S * (u false "log_odds" [k] * v false "log_odds" [k] * w k) - (Q / (S * S)) * (u false "log_odds" [k] * w k))). 2: { intros. change (exp (p false "log_odds" [k])) with (w k). field. lra. }
  rewrite sumR_minus, !sumR_scal. unfold Q, w. field. lra.
Qed.
Lemma hess_diag n p : nat_dom MultivariateDiagonalNormal n p -> has_hess MultivariateDiagonalNormal n p.
Proof.
  cbn [nat_dom]. intros H. set (m k := p false "mean_times_precision" [k]) in *. set (h k := p false "negative_half_precision" [k]) in *. set (mt := "mean_times_precision") in *. set (nh := "negative_half_precision") in *.
  exists (fun u v => sumR n (fun k => - (u false mt [k] * v false mt [k]) / (2 * h k) + (u false mt [k] * v false nh [k] + u false nh [k] * v false mt [k]) * (m k / (2 * (h k * h k))) + u false nh [k] * v false nh [k] * (- (m k * m k) / (2 * (h k * (h k * h k))) + 1 / (2 * (h k * h k))))).
  split; [|intros; apply sumR_ext; intros; unfold Rdiv; ring].
  intros u v. hs. eapply DV_eq; [dvh; specialize (H k K); unfold h, nh in H; lra|reflexivity|]. rewrite !Rplus_0_r, <- sumR_plus. apply sumR_ext. intros k K. specialize (H k K). unfold m, h, mt, nh in *. field. lra.
Qed.
Lemma hess_normal n p : nat_dom Normal n p -> has_hess Normal n p.
Proof.
  cbn [nat_dom]. intros H. set (m := p false "mean_times_precision" []) in *. set (h := p false "negative_half_precision" []) in *. set (mt := "mean_times_precision") in *. set (nh := "negative_half_precision") in *.
  exists (fun u v => - (u false mt [] * v false mt []) / (2 * h) + (u false mt [] * v false nh [] + u false nh [] * v false mt []) * (m / (2 * (h * h))) + u false nh [] * v false nh [] * (- (m * m) / (2 * (h * (h * h))) + 1 / (2 * (h * h)))).
  split; [|intros; unfold Rdiv; ring].
  intros u v. hs. eapply DV_eq; [dvh; unfold h, nh in H; lra|reflexivity|]. unfold m, h, mt, nh in *. field. lra.
Qed.
Lemma hess_fixed n p : has_hess MultivariateFixedVarianceNormal n p.
Proof.
  set (mt := "mean_times_precision"). exists (fun u v => sumR n (fun k => u false mt [k] * v false mt [k] * p false "variance" [])). split; [|intros; apply sumR_ext; intros; ring].
  intros u v. hs. eapply DV_eq; [dvh|reflexivity|]. rewrite !Rplus_0_r. apply sumR_ext. intros. unfold mt. ring.
Qed.
Lemma hess_mvu n p : has_hess MultivariateUnitNormal n p.
Proof.
  exists (fun u v => sumR n (fun k => u false "mean" [k] * v false "mean" [k])). split; [|intros; apply sumR_ext; intros; ring].
  intros u v. hs. eapply DV_eq; [dvh|reflexivity|]. rewrite !Rplus_0_r. apply sumR_ext. intros. ring.
Qed.
Lemma hess_unit n p : has_hess UnitNormal n p.
Proof. exists (fun u v => u false "mean" [] * v false "mean" []). split; [|intros; ring]. intros u v. hs. eapply DV_eq; [dvh|reflexivity|]. ring. Qed.
Lemma hess_poisson n p : has_hess Poisson n p.
Proof. exists (fun u v => u false "log_mean" [] * v false "log_mean" [] * exp (p false "log_mean" [])). split; [|intros; ring]. intros u v. hs. eapply DV_eq; [dvh|reflexivity|]. ring. Qed.
Lemma hess_iso n p : nat_dom IsotropicNormal n p -> has_hess IsotropicNormal n p.
Proof.
  cbn [nat_dom]. intros [_ H]. set (mt := "mean_times_precision") in *. set (nh := "negative_half_precision") in *. set (h := p false nh []) in *. 
  exists (fun u v => - sumR n (fun k => u false mt [k] * v false mt [k]) / (2 * h) + (sumR n (fun k => u false mt [k] * p false mt [k]) * v false nh [] + u false nh [] * sumR n (fun k => v false mt [k] * p false mt [k])) / (2 * (h * h))
     + u false nh [] * v false nh [] * (- sumR n (fun k => p false mt [k] * p false mt [k]) / (2 * (h * (h * h))) + INR n / (2 * (h * h)))).
  split. 2: { intros. rewrite (sumR_ext n (fun k => u false mt [k] * v false mt [k]) (fun k => v false mt [k] * u false mt [k])) by (intros; ring). unfold Rdiv. ring. }
  intros u v. hs. eapply DV_eq; [dvh; unfold h, nh in H; lra|reflexivity|]. fold mt nh. fold h.
  rewrite (sumR_ext n _ (fun k => / (-2 * h) * (u false mt [k] * v false mt [k]) + (2 * v false nh [] / ((-2 * h) * (-2 * h))) * (u false mt [k] * p false mt [k]))) by (intros; field; lra).
  match goal with |- context [u false nh [] * (sumR n ?g + _)] => rewrite (sumR_ext n g (fun k => (2 / ((-2 * h) * (-2 * h))) * (v false mt [k] * p false mt [k]) + (4 * v false nh [] / ((-2 * h) * ((-2 * h) * (-2 * h)))) * (p false mt [k] * p false mt [k]))) by (intros; field; lra) end.
  rewrite !sumR_plus, !sumR_scal. field. lra.
Qed.
(** von Mises-Fisher *)
Definition vG (n : nat) (t : R) : R := 1 / 2 * (bS (INR n * (1 / 2) - 1 + 1) (t / 4) / bS (INR n * (1 / 2) - 1) (t / 4)).
Lemma vG_eq n p : (1 <= n)%nat -> 0 < sumsq n p "mean_times_concentration" ->
  bessel_i (INR n * (1 / 2)) (norm2 n p "mean_times_concentration") / bessel_i (INR n * (1 / 2) - 1) (norm2 n p "mean_times_concentration") / norm2 n p "mean_times_concentration" = vG n (sumsq n p "mean_times_concentration").
Proof.
  intros N Hs. assert (Hk : 0 < norm2 n p "mean_times_concentration") by now apply sqrt_lt_R0. assert (N1 : 1 <= INR n) by (apply (le_INR 1); exact N).
  set (u := INR n * (1 / 2) - 1). replace (INR n * (1 / 2)) with (u + 1) at 1 by (unfold u; ring). rewrite bessel_ratio by (unfold u in *; lra). unfold vG. fold u.
  unfold norm2 in *. replace (sqrt (sumsq n p "mean_times_concentration") * sqrt (sumsq n p "mean_times_concentration")) with (sumsq n p "mean_times_concentration") by (symmetry; apply sqrt_sqrt; lra).
  assert (0 < bS u (sumsq n p "mean_times_concentration" / 4)) by (apply bS_pos; unfold u; lra). field. split; lra.
Qed.
Lemma vG_derive n t : (1 <= n)%nat -> 0 < t -> exists d, is_derive (vG n) t d.
Proof.
  intros N T. assert (N1 : 1 <= INR n) by (apply (le_INR 1); exact N). unfold vG. set (u := INR n * (1 / 2) - 1). assert (U : -1 < u) by (unfold u; lra).
  eexists. apply is_derive_scal. apply is_derive_div.
  - apply (is_derive_comp (bS (u + 1)) (fun t => t / 4)); [apply bS_derive; lra|]. apply is_derive_Reals. apply (derivable_pt_lim_scal_right id t 1 4 (derivable_pt_lim_id t)) || idtac.
    evar_last; [apply is_derive_Reals; auto_derive; [exact Logic.I|reflexivity]|reflexivity].
  - apply (is_derive_comp (bS u) (fun t => t / 4)); [apply bS_derive; lra|]. evar_last; [auto_derive; [exact Logic.I|reflexivity]|reflexivity].
  - apply Rgt_not_eq, bS_pos; lra.
Qed.
Lemma hess_vmf n p : nat_dom VonMisesFisher n p -> has_hess VonMisesFisher n p.
Proof.
  intros H. pose proof H as (k0 & K0 & _). assert (Hs : 0 < sumsq n p "mean_times_concentration") by now apply sumsq_pos. assert (N : (1 <= n)%nat) by lia.
  destruct (vG_derive n _ N Hs) as [d Hd]. set (mt := "mean_times_concentration") in *.
  exists (fun u v => vG n (sumsq n p mt) * sumR n (fun k => u false mt [k] * v false mt [k]) + 2 * d * (sumR n (fun k => u false mt [k] * p false mt [k]) * sumR n (fun k => v false mt [k] * p false mt [k]))).
  split. 2: { intros. rewrite (sumR_ext n (fun k => u false mt [k] * v false mt [k]) (fun k => v false mt [k] * u false mt [k])) by (intros; ring). ring. }
  intros u v. assert (Kd : DV (fun s => sumsq n (padd (NP VonMisesFisher) p v s) mt) (sumsq n p mt) (2 * sumR n (fun k => v false mt [k] * p false mt [k]))).
  { unfold sumsq, mt. adds. eapply DV_eq; [dvh|reflexivity|]. rewrite <- sumR_scal. apply sumR_ext. intros. ring. }
  assert (F : forall q, nat_dom VonMisesFisher n q -> dotP (NP VonMisesFisher) (EP VonMisesFisher) n u (expR n q VonMisesFisher) = vG n (sumsq n q mt) * sumR n (fun k => u false mt [k] * q false mt [k])).
  { intros q Q. assert (Qs : 0 < sumsq n q mt) by now apply sumsq_pos. dots. mk. rewrite (vG_eq n q N Qs). rewrite !Rplus_0_r, <- sumR_scal. apply sumR_ext. intros. unfold mt, sumsq. ring. }
  eapply DV_ext_loc. { eapply filter_imp; [|exact (dom_open VonMisesFisher n p v eq_refl H)]. cbv beta. intros s S. symmetry. exact (F _ S). }
  eapply DV_eq; [eapply DV_mult; [exact (DV_comp _ _ _ _ _ Kd Hd)|]|symmetry; exact (F p H)|]. { unfold mt. adds. dvh. } cbv beta.
  rewrite (sumR_ext n (fun k => 0 * _ + _) (fun k => u false mt [k] * v false mt [k])) by (intros; unfold mt; ring). unfold mt. ring.
Qed.
(** generalized Dirichlet *)
Definition gB (n : nat) (u : point) (k : nat) : R := sumR (n - k) (fun m => u false "gamma" [n - 1 - m]%nat) + sumR (n - S k) (fun m => u false "alpha_minus_one" [n - 1 - m]%nat).
Lemma gd_dot n u q : dotP (NP GeneralizedDirichlet) (EP GeneralizedDirichlet) n u (expR n q GeneralizedDirichlet) =
  sumR n (fun k => u false "alpha_minus_one" [k] * (digamma (gdR_alpha q k) - digamma (gdR_alpha q k + gdR_beta n q k)) + gB n u k * (digamma (gdR_beta n q k) - digamma (gdR_alpha q k + gdR_beta n q k))).
Proof.
  set (va k := u false "alpha_minus_one" [k]). set (vg k := u false "gamma" [k]). dots. mk. fold va vg. set (w m := digamma (gdR_beta n q m) - digamma (gdR_alpha q m + gdR_beta n q m)). symmetry.
  rewrite (sumR_ext n _ (fun k => va k * (digamma (gdR_alpha q k) - digamma (gdR_alpha q k + gdR_beta n q k)) + (w k * sumR (n - k) (fun m => vg (n - 1 - m)%nat) + w k * sumR (n - S k) (fun m => va (n - 1 - m)%nat)))).
  2: { intros k K. unfold w, gB, va, vg. ring. }
  rewrite !sumR_plus, swap_le, swap_lt, !Rplus_0_r.
  rewrite (sumR_ext n (fun k => u false "alpha_minus_one" [k] * _ - _) (fun k => va k * (digamma (gdR_alpha q k) - digamma (gdR_alpha q k + gdR_beta n q k)) + va k * sumR k w)) by (intros; unfold va, w; ring).
  rewrite (sumR_ext n (fun k => u false "gamma" [k] * _ - _) (fun k => vg k * sumR (S k) w)) by (intros; unfold vg, w; ring).
  rewrite sumR_plus. ring.
Qed.
Lemma hess_gd n p : nat_dom GeneralizedDirichlet n p -> has_hess GeneralizedDirichlet n p.
Proof.
  intros H. set (al := gdR_alpha p). set (be := gdR_beta n p). set (A (u : point) (k : nat) := u false "alpha_minus_one" [k]).
  exists (fun u v => sumR n (fun k => A u k * A v k * trigamma (al k) + gB n u k * gB n v k * trigamma (be k) - (A u k + gB n u k) * (A v k + gB n v k) * trigamma (al k + be k))). split; [|intros; apply sumR_ext; intros; ring].
  intros u v.
  assert (Da : forall k, DV (fun s => gdR_alpha (padd (NP GeneralizedDirichlet) p v s) k) (gdR_alpha p k) (A v k)).
  { intros k. unfold gdR_alpha. adds. eapply DV_eq; [dv|reflexivity|]. unfold A. ring. }
  assert (Db : forall k, (k < n)%nat -> DV (fun s => gdR_beta n (padd (NP GeneralizedDirichlet) p v s) k) (gdR_beta n p k) (gB n v k)).
  { intros k K. unfold gdR_beta. adds. eapply DV_eq; [eapply DV_plus; [eapply DV_plus; [eapply DV_sum; intros; apply DV_lin|eapply DV_sum; intros; apply Da]|apply DV_const]|reflexivity|].
    rewrite Rplus_0_r. unfold gB. replace (S (n - 1 - k)) with (n - k)%nat by lia. replace (n - 1 - k)%nat with (n - S k)%nat by lia. reflexivity. }
  eapply DV_ext; [intros s; symmetry; apply gd_dot|]. eapply DV_eq; [|symmetry; apply gd_dot|].
  { eapply DV_sum. intros k K. pose proof (gd_alpha_pos n p H k K). pose proof (gd_beta_pos n p H k K).
    assert (Dab := DV_plus _ _ _ _ _ _ (Da k) (Db k K)). assert (0 < gdR_alpha p k + gdR_beta n p k) by lra.
    eapply DV_plus; (eapply DV_mult; [apply DV_const|eapply DV_minus; (eapply DV_digamma; [first [apply Da|apply Db; exact K|exact Dab]|assumption])]). }
  cbv beta. apply sumR_ext. intros k K. unfold A, al, be. ring.
Qed.
(** complex normal *)
Lemma cn_dot n u q : nat_dom ComplexNormal n q -> dotP (NP ComplexNormal) (EP ComplexNormal) n u (expR n q ComplexNormal) =
  let a := q false "pseudo_precision" [] in let b := q true "pseudo_precision" [] in let c := q false "negative_precision" [] in
  let x := q false "mean_times_precision" [] in let y := q true "mean_times_precision" [] in
  let D := c * c - (a * a + b * b) in let M := (a - c) * (x * x) + 2 * (b * (x * y)) - (a + c) * (y * y) in
  u false "mean_times_precision" [] * (((a - c) * x + b * y) / (2 * D)) + u true "mean_times_precision" [] * ((b * x - (a + c) * y) / (2 * D)) +
  u false "negative_precision" [] * (- (x * x + y * y) / (4 * D) - c * M / (2 * (D * D)) - c / D) +
  u false "pseudo_precision" [] * ((x * x - y * y) / (4 * D) + a * M / (2 * (D * D)) + a / D) +
  u true "pseudo_precision" [] * (x * y / (2 * D) + b * M / (2 * (D * D)) + b / D).
Proof.
  intros [H1 H2]. cbn zeta in H1, H2 |- *. dots. mk. rewrite (cn_s_eq q H1) by lra. rewrite (cn_mu_eq q H1) by lra. unfold cnR_r, cnR_np, csq_abs, Cmult, Cplus, Cconj, Copp, cpt. cbn [fst snd].
  set (a := q false "pseudo_precision" []) in *. set (b := q true "pseudo_precision" []) in *. set (c := q false "negative_precision" []) in *.
  set (x := q false "mean_times_precision" []). set (y := q true "mean_times_precision" []). field. repeat split; lra.
Qed.
Lemma hess_cn n p : nat_dom ComplexNormal n p -> has_hess ComplexNormal n p.
Proof.
  intros H. eexists. split.
  - intros u v. eapply DV_ext_loc. { eapply filter_imp; [|exact (dom_open ComplexNormal n p v eq_refl H)]. cbv beta. intros s S. symmetry. exact (cn_dot n u _ S). }
    cbv zeta. adds. pose proof H as [H1 H2]. cbn zeta in H1, H2. eapply DV_eq; [dvh; nra|symmetry; exact (cn_dot n u p H)|]. reflexivity.
  - intros u v. cbn beta. pose proof H as [H1 H2]. cbn zeta in H1, H2. 
    set (a := p false "pseudo_precision" []) in *. set (b := p true "pseudo_precision" []) in *. set (c := p false "negative_precision" []) in *.
    set (x := p false "mean_times_precision" []). set (y := p true "mean_times_precision" []). field. repeat split; lra.
Qed.
Theorem hess0 f n p : mat f = false -> nat_dom f n p -> has_hess f n p.
Proof.
  intros M H. destruct f; try discriminate M.
  - now apply hess_bernoulli. - now apply (hess_dir n p H). - now apply (hess_chi n p H). - now apply (hess_chi n p H). - apply hess_cmu. - now apply hess_cn. - apply hess_cu. - now apply (hess_dir n p H).
  - now apply hess_exponential. - now apply hess_gamma. - now apply hess_gd. - now apply hess_geometric. - now apply hess_log. - apply hess_multinomial. - now apply hess_diag. - apply hess_fixed.
  - now apply hess_iso. - apply hess_mvu. - now apply hess_negbin. - now apply hess_normal. - apply hess_unit. - apply hess_poisson. - now apply hess_rayleigh. - now apply hess_vmf. - now apply hess_weibull.
Qed.
(** all families, in directions that keep a matrix parameter Hermitian *)
Definition has_hess_s (f : family) (n : nat) (p : point) : Prop := exists H : point -> point -> R,
  (forall u v, sym_dir f n u -> sym_dir f n v -> DV (fun s => dotP (NP f) (EP f) n u (expR n (padd (NP f) p v s) f)) (dotP (NP f) (EP f) n u (expR n p f)) (H u v)) /\ (forall u v, H u v = H v u).
Theorem hess f n p : nat_dom f n p -> has_hess_s f n p.
Proof.
  intros H. destruct (mat f) eqn:M.
  - destruct f; try discriminate M; [exists (ccsH n p)|exists (mvnH n p)]; (split; [intros u v Su Sv|]); [now apply ccs_hess_dv|apply ccsH_sym|now apply mvn_hess_dv|now apply mvnH_sym].
  - destruct (hess0 f n p M H) as (K & A & B). exists K. split; [intros; apply A|exact B].
Qed.
(** ** the form is positive semidefinite *)
Lemma rsum_zero {A} (g : A -> R) l : (forall a, In a l -> g a = 0) -> rsum (map g l) = 0.
Proof. induction l as [|a l IH]; intros H; cbn [map rsum fold_right]; [reflexivity|]. rewrite (H a (or_introl eq_refl)), IH; [ring|]. intros; apply H; now right. Qed.
Lemma dot_line f n p v e s : dotP (NP f) (EP f) n (psub (padd (NP f) p v s) p) e = s * dotP (NP f) (EP f) n v e.
Proof.
  unfold dotP. rewrite <- rsum_scale. apply rsum_ext. intros [g h] I. cbn [fst snd]. rewrite <- rsum_scale. apply rsum_ext. intros j _. apply in_combine_both in I as [I _]. cbn in I. apply filter_In in I as [I X].
  unfold psub, padd. rewrite (fixed_names (NP f) g I). apply negb_true_iff in X. rewrite X. ring.
Qed.
Lemma deriv_sign (h : R -> R) d : is_derive h 0 d -> locally 0 (fun s => 0 < s -> h 0 <= h s) -> 0 <= d.
Proof.
  intros D [e L]. destruct (Rle_or_lt 0 d) as [|N]; [assumption|exfalso]. apply is_derive_Reals in D. destruct (D (- d / 2) ltac:(lra)) as [de Hd]. pose proof (cond_pos e). pose proof (cond_pos de).
  set (s := Rmin e de / 2). assert (S : 0 < s < e /\ s < de). { unfold s. pose proof (Rmin_l e de). pose proof (Rmin_r e de). pose proof (Rmin_glb_lt e de 0 ltac:(lra) ltac:(lra)). lra. }
  specialize (Hd s ltac:(lra)). rewrite Rabs_right in Hd by lra. specialize (Hd ltac:(lra)). rewrite Rplus_0_l in Hd.
  assert (B : h 0 <= h s). { apply L; [|lra]. unfold ball; cbn; unfold AbsRing_ball, abs, minus, plus, opp; cbn. rewrite Ropp_0, Rplus_0_r, Rabs_right; lra. }
  apply Rabs_lt_between in Hd. assert (0 <= (h s - h 0) / s); [|lra]. apply Rmult_le_pos; [lra|]. apply Rlt_le, Rinv_0_lt_compat. lra.
Qed.
Lemma hess_psd f n p v d : sym_dir f n v -> nat_dom f n p -> real_im (NP f) v -> is_derive (fun s => dotP (NP f) (EP f) n v (expR n (padd (NP f) p v s) f)) 0 d -> 0 <= d.
Proof.
  intros M H Rv D. eapply deriv_sign; [exact D|]. eapply filter_imp; [|exact (dom_open_s f n p v M H)]. cbv beta. intros s Hs S.
  assert (Fx : fix_eq (NP f) n p (padd (NP f) p v s)).
  { apply Forall_forall. intros g I X j Hj. unfold padd. rewrite (fixed_names (NP f) g I), X. split; [reflexivity|intros; reflexivity]. }
  set (q := padd (NP f) p v s) in *.
  assert (P0 : dotP (NP f) (EP f) n v (expR n (padd (NP f) p v 0) f) = dotP (NP f) (EP f) n v (expR n p f)).
  { destruct (hess f n p H) as (Hs' & A & _). exact (proj1 (A v v M M)). }
  assert (V0 : pt_eq (NP f) n p q -> forall e, dotP (NP f) (EP f) n v e = 0).
  { intros E e. unfold dotP. apply rsum_zero. intros [g h] I. cbn [fst snd]. apply rsum_zero. intros j Hj. apply in_indices in Hj. apply in_combine_both in I as [I _]. cbn [fst] in I. apply filter_In in I as [I X]. apply negb_true_iff in X.
    assert (V1 : v false (fd_name g) j = 0). { pose proof (pt_re _ _ _ _ g j E I Hj) as Q. unfold q, padd in Q. rewrite (fixed_names (NP f) g I), X in Q. nra. }
    assert (V2 : v true (fd_name g) j = 0). { destruct (kind_of (fd_support g)) eqn:K; [exact (Rv g j I K)|]. pose proof (pt_im _ _ _ _ g j E I K Hj) as Q. unfold q, padd in Q. rewrite (fixed_names (NP f) g I), X in Q. nra. }
    rewrite V1, V2. ring. }
  assert (Fx' : fix_eq (NP f) n q p). { apply Forall_forall. intros g I X j Hj. pose proof (proj1 (Forall_forall _ _) Fx g I X j Hj) as [F1 F2]. split; [congruence|]. intros K. symmetry. now apply F2. }
  rewrite P0. destruct (br_pos f n p q H Hs Fx) as [E|B1]; [rewrite !(V0 E); lra|]. destruct (br_pos f n q p Hs H Fx') as [E|B2]; [apply pt_sym in E; rewrite !(V0 E); lra|].
  unfold brR in B1, B2. rewrite (dot_neg _ _ _ p q) in B2. unfold q in B1, B2. rewrite dot_line in B1, B2. fold q in B1, B2. nra.
Qed.
