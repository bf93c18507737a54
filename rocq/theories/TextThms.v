(** Every family has its textbook density (C56). *)
From Coquelicot Require Import Coquelicot.
From Coq Require Import String List Bool Arith ZArith Reals Lra Lia.
From Verif Require Import Base XReal Tensor Support Dist Iteration Structure Tools Joint Spec SumSpec DotSpec PointSpec DensSpec SpecFun GammaFn BesselFn Val Fam FamR FamVal DerivFacts DensVal DensThms ConvFacts LeafVal ConvThms IntSpec IntFacts GammaInt IntNorm IntGen IntMulti IntFam
  DotFacts DotLaws MatFacts MatVal MatDeriv IntMat DetInv TextSpec TextFacts TextVec TextMat IntThms.
Import ListNotations.
Local Unset Asymmetric Patterns.
Local Open Scope string_scope.
Local Open Scope R_scope.
Local Notation C := Complex.C (only parsing).

Lemma text_all f : text_ok f.
Proof.
  destruct f; first [exact t_bernoulli | exact t_geometric | exact t_poisson | exact t_logarithmic | exact t_negative_binomial | exact t_beta | exact t_chi | exact t_chi_square | exact t_exponential | exact t_gamma | exact t_normal | exact t_unit_normal | exact t_rayleigh | exact t_weibull
    | exact t_multinomial | exact t_dirichlet | exact t_generalized_dirichlet | exact t_von_mises_fisher | exact t_diagonal | exact t_fixed | exact t_isotropic | exact t_unit | exact t_mvn | exact t_complex_unit | exact t_complex_multivariate_unit | exact t_ccs | exact t_complex_normal].
Qed.
Theorem textbook solve b i f q n x xv d : proper b i f q -> dims_of q = Ok n -> observed b i q x xv -> sample_space f n xv -> classical f n (point_of q i) d -> density (fam_methods solve) b i q x (d xv).
Proof.
  intros Pq D O X K. destruct (proper_dims b i f q Pq) as (n' & D1 & _ & D3 & D4 & _). assert (n' = n) by congruence. subst n'. rewrite <- (text_all f n _ xv d D4 D3 X K). exact (pdf_dens solve b i f q n Pq D x xv O X).
Qed.

(** ** every natural parameter is that of a textbook distribution *)
Definition knat (x : R) : nat := Z.to_nat (Int_part x).
Lemma knat_INR k : knat (INR k) = k. Proof. unfold knat. rewrite Int_part_INR. apply Nat2Z.id. Qed.
Lemma exp_lt1 y : y < 0 -> 0 < exp y < 1. Proof. intros H. split; [apply exp_pos|]. rewrite <- exp_0. now apply exp_increasing. Qed.
Lemma cn_total n p : nat_dom ComplexNormal n p -> exists d, classical ComplexNormal n p d.
Proof.
  intros [H1 H2]. cbn zeta in *. set (a := p false "pseudo_precision" []) in *. set (b := p true "pseudo_precision" []) in *. set (c := p false "negative_precision" []) in *.
  set (x := p false "mean_times_precision" []). set (y := p true "mean_times_precision" []). set (dl := c * c - (a * a + b * b)). assert (D : 0 < dl) by (unfold dl; lra).
  set (u := (a / dl, - b / dl) : C). set (w := - c / dl). set (m := (1 / 2 * ((a * x + b * y) - c * x) / dl, 1 / 2 * (c * y + (a * y - b * x)) / dl) : C).
  assert (Wp : 0 < w) by (apply Rdiv_lt_0_compat; lra).
  assert (Sq : Cmod u * Cmod u = (a * a + b * b) / (dl * dl)). { transitivity (Cmod u ^ 2); [ring|]. rewrite cmod_sq. unfold u. cbn [fst snd]. field. lra. }
  assert (Q : w * w - Cmod u * Cmod u = / dl). { rewrite Sq. unfold w. transitivity ((c * c - (a * a + b * b)) / (dl * dl)); [field; lra|change (c * c - (a * a + b * b)) with dl; field; lra]. }
  exists (fun o => complex_normal_pdf m w u (o false [], o true [])). exists m, w, u. rewrite Q. split; [|split; [|split; [|split; [|reflexivity]]]].
  - assert (0 < / dl) by now apply Rinv_0_lt_compat. pose proof (Cmod_ge_0 u). apply Rnot_le_lt. intros N. assert (w * w <= Cmod u * Cmod u) by (apply Rmult_le_compat; lra). lra.
  - fold c. unfold w. field. lra.
  - fold a b. unfold Cdiv. rewrite <- RtoC_inv by (apply Rinv_neq_0_compat; lra). rewrite Rinv_inv. unfold u, Cconj, Cmult, RtoC. cbn [fst snd]. apply f_equal2; field; lra.
  - fold a b c x y. unfold m, Cconj, Cmult, Cplus, Copp, RtoC. cbn [fst snd]. apply f_equal2.
    + transitivity (x * (c * c - (a * a + b * b)) / dl); [change (c * c - (a * a + b * b)) with dl; field; lra|field; lra].
    + transitivity (y * (c * c - (a * a + b * b)) / dl); [change (c * c - (a * a + b * b)) with dl; field; lra|field; lra].
Qed.
Definition tot (f : family) : Prop := forall n p, dims_ok (NP f) n = true -> nat_dom f n p -> exists d, classical f n p d.
Lemma k_bernoulli : tot Bernoulli.
Proof.
  intros n p _ _. cbn [classical]. set (t := p false "log_odds" []). pose proof (exp_pos t) as Ep. exists (fun x => bernoulli_pmf (exp t / (1 + exp t)) (x false [])). exists (exp t / (1 + exp t)).
  assert (K : 1 - exp t / (1 + exp t) = / (1 + exp t)) by (field; lra). assert (0 < / (1 + exp t)) by (apply Rinv_0_lt_compat; lra). split; [split; [apply Rdiv_lt_0_compat; lra|lra]|]. split; [|reflexivity].
  rewrite K. replace (exp t / (1 + exp t) / / (1 + exp t)) with (exp t) by (field; lra). symmetry. apply ln_exp.
Qed.
Lemma k_multinomial : tot Multinomial.
Proof.
  intros n p _ _. cbn [classical]. set (t := fun k => exp (p false "log_odds" [k])). assert (Ht : forall k, 0 < t k) by (intros; apply exp_pos). assert (Hs : 0 <= sumR n t) by (apply sumR_nonneg; intros; left; apply Ht).
  set (q := fun k => / (1 + sumR n t) * t k). assert (Hi : 0 < / (1 + sumR n t)) by (apply Rinv_0_lt_compat; lra). assert (K : 1 - sumR n q = / (1 + sumR n t)) by (unfold q; rewrite sumR_scal; field; lra).
  exists (fun x => categorical_pmf n q (fun k => x false [k])). exists q. split; [intros k _; unfold q; specialize (Ht k); nra|]. split; [lra|]. split; [|reflexivity]. intros k _. rewrite K. unfold q. replace (/ (1 + sumR n t) * t k / / (1 + sumR n t)) with (t k) by (field; lra). symmetry. apply ln_exp.
Qed.
Lemma k_geometric : tot Geometric.
Proof.
  intros n p _ H. cbn [nat_dom] in H. set (q := 1 - exp (p false "log_not_p" [])). destruct (exp_lt1 _ H) as [E1 E2]. exists (fun x => geometric_pmf q (knat (x false []))). exists q. split; [unfold q; lra|]. split; [unfold q; replace (1 - (1 - exp (p false "log_not_p" []))) with (exp (p false "log_not_p" [])) by ring; symmetry; apply ln_exp|].
  intros x k E. now rewrite E, knat_INR.
Qed.
Lemma k_negative_binomial : tot NegativeBinomial.
Proof.
  intros n p _ [H (r & Hr)]. cbn zeta in *. set (q := 1 - exp (p false "log_not_p" [])). destruct (exp_lt1 _ H) as [E1 E2]. exists (fun x => negative_binomial_pmf (S r) q (knat (x false []))). exists q, (S r). split; [unfold q; lra|]. split; [lia|].
  split; [unfold q; replace (1 - (1 - exp (p false "log_not_p" []))) with (exp (p false "log_not_p" [])) by ring; symmetry; apply ln_exp|]. split; [exact Hr|]. intros x k E. now rewrite E, knat_INR.
Qed.
Lemma k_logarithmic : tot Logarithmic.
Proof.
  intros n p _ H. cbn [nat_dom] in H. destruct (exp_lt1 _ H) as [E1 E2]. exists (fun x => logarithmic_pmf (exp (p false "log_probability" [])) (knat (x false []))). exists (exp (p false "log_probability" [])). split; [lra|]. split; [symmetry; apply ln_exp|]. intros x k E. now rewrite E, knat_INR.
Qed.
Lemma k_poisson : tot Poisson.
Proof.
  intros n p _ H. exists (fun x => poisson_pmf (exp (p false "log_mean" [])) (knat (x false []))). exists (exp (p false "log_mean" [])). split; [apply exp_pos|]. split; [symmetry; apply ln_exp|]. intros x k E. now rewrite E, knat_INR.
Qed.
Lemma k_beta : tot Beta.
Proof.
  intros n p D [_ H]. cbn zeta in *. cbn [dims_ok] in D. apply Nat.eqb_eq in D. subst n. eexists. exists (p false "alpha_minus_one" [0%nat] + 1), (p false "alpha_minus_one" [1%nat] + 1). pose proof (H 0%nat ltac:(lia)). pose proof (H 1%nat ltac:(lia)). split; [lra|]. split; [lra|]. split; [ring|]. split; [ring|]. intros x. instantiate (1 := fun x => beta_pdf _ _ (x false [])). reflexivity.
Qed.
Lemma k_chi : tot Chi.
Proof. intros n p D H. cbn [nat_dom] in H. eexists. exists (2 * (p false "k_over_two_minus_one" [] + 1)). split; [lra|]. split; [field|]. intros x. instantiate (1 := fun x => chi_pdf _ (x false [])). reflexivity. Qed.
Lemma k_chi_square : tot ChiSquare.
Proof. intros n p D H. cbn [nat_dom] in H. eexists. exists (2 * (p false "k_over_two_minus_one" [] + 1)). split; [lra|]. split; [field|]. intros x. instantiate (1 := fun x => chi_square_pdf _ (x false [])). reflexivity. Qed.
Lemma k_exponential : tot Exponential.
Proof. intros n p D H. cbn [nat_dom] in H. eexists. exists (- p false "negative_rate" []). split; [lra|]. split; [ring|]. intros x. instantiate (1 := fun x => exponential_pdf _ (x false [])). reflexivity. Qed.
Lemma k_gamma : tot Gamma.
Proof. intros n p D [H H']. cbn zeta in *. eexists. exists (p false "shape_minus_one" [] + 1), (- p false "negative_rate" []). split; [lra|]. split; [lra|]. split; [ring|]. split; [ring|]. intros x. instantiate (1 := fun x => gamma_pdf _ _ (x false [])). reflexivity. Qed.
Lemma neg_half h : h < 0 -> let w := -1 / (2 * h) in 0 < w /\ h = - (1 / (2 * w)).
Proof. intros H. cbv zeta. split; [|field; lra]. replace (-1 / (2 * h)) with (/ (- 2 * h)) by (field; lra). apply Rinv_0_lt_compat. lra. Qed.
Lemma k_normal : tot Normal.
Proof.
  intros n p D H. cbn [nat_dom] in H. destruct (neg_half _ H) as [W E]. set (w := -1 / (2 * p false "negative_half_precision" [])) in *. exists (fun x => normal_pdf (p false "mean_times_precision" [] * w) w (x false [])). exists (p false "mean_times_precision" [] * w), w. split; [exact W|]. split; [field; lra|]. split; [exact E|reflexivity].
Qed.
Lemma k_unit_normal : tot UnitNormal. Proof. intros n p D H. exists (fun x => normal_pdf (p false "mean" []) 1 (x false [])). intros x. reflexivity. Qed.
Lemma k_rayleigh : tot Rayleigh.
Proof.
  intros n p D H. cbn [nat_dom] in H. destruct (neg_half _ H) as [W E]. set (w := -1 / (2 * p false "eta" [])) in *. exists (fun x => rayleigh_pdf (sqrt w) (x false [])). exists (sqrt w). split; [now apply sqrt_lt_R0|]. split; [rewrite sqrt_def by lra; exact E|reflexivity].
Qed.
Lemma k_weibull : tot Weibull.
Proof.
  intros n p D [Hc He]. cbn zeta in *. set (k := p false "concentration" []) in *. set (l := Rpower (- p false "eta" []) (- / k)). exists (fun x => weibull_pdf k l (x false [])). exists l. split; [apply exp_pos|]. split; [|intros; reflexivity]. fold k. unfold l. rewrite Rpower_mult. replace (- / k * - k) with 1 by (field; lra). rewrite Rpower_1 by lra. ring.
Qed.
Lemma k_dirichlet : tot Dirichlet.
Proof.
  intros n p D [_ H]. cbn zeta in *. eexists. exists (fun k => p false "alpha_minus_one" [k] + 1). split; [intros k K; specialize (H k K); split; lra|]. intros x. instantiate (1 := fun x => dirichlet_pdf n _ _). reflexivity.
Qed.
Lemma gd_step n p k : (k < n)%nat -> p false "gamma" [k] = if (S k =? n)%nat then gdR_beta n p k - 1 else gdR_beta n p k - (gdR_alpha p (S k) + gdR_beta n p (S k)).
Proof.
  intros K. destruct (S k =? n)%nat eqn:E.
  - apply Nat.eqb_eq in E. unfold gdR_beta. replace (n - 1 - k)%nat with 0%nat by lia. rewrite sumR_S, !sumR_0. replace (n - 1 - 0)%nat with k by lia. ring.
  - apply Nat.eqb_neq in E. unfold gdR_beta. replace (n - 1 - k)%nat with (S (n - 1 - S k)) by lia. set (j := (n - 1 - S k)%nat). rewrite (sumR_S (S j)), (sumR_S j (fun m => gdR_alpha p (n - 1 - m))). replace (n - 1 - S j)%nat with k by (unfold j; lia). replace (n - 1 - j)%nat with (S k) by (unfold j; lia). ring.
Qed.
Lemma k_generalized_dirichlet : tot GeneralizedDirichlet.
Proof.
  intros n p D H. cbn [nat_dom] in H. cbn zeta in *. eexists. exists (gdR_alpha p), (gdR_beta n p). split.
  - intros k K. split; [unfold gdR_alpha; destruct (H k K); lra|]. split; [|split; [unfold gdR_alpha; ring|now apply gd_step]].
    unfold gdR_beta. assert (0 <= sumR (S (n - 1 - k)) (fun m => p false "gamma" [(n - 1 - m)%nat])) by (apply sumR_nonneg; intros m M; left; apply H; lia).
    assert (0 <= sumR (n - 1 - k) (fun m => gdR_alpha p (n - 1 - m))) by (apply sumR_nonneg; intros m M; unfold gdR_alpha; destruct (H (n - 1 - m)%nat ltac:(lia)); lra). lra.
  - intros x. instantiate (1 := fun x => generalized_dirichlet_pdf n _ _ _). reflexivity.
Qed.
Lemma k_von_mises_fisher : tot VonMisesFisher.
Proof.
  intros n p D (k0 & K0 & N0). cbn zeta in *. set (v := fun k => p false "mean_times_concentration" [k]). assert (Sp : 0 < sumR n (fun k => v k * v k)).
  { assert (v k0 * v k0 <= sumR n (fun k => v k * v k)) by (apply (sumR_term n (fun k => v k * v k) k0); [intros; nra|exact K0]). assert (0 < v k0 * v k0) by (change (v k0 <> 0) in N0; nra). lra. }
  set (kap := sqrt (sumR n (fun k => v k * v k))). assert (Kp : 0 < kap) by now apply sqrt_lt_R0. assert (Kq : kap * kap = sumR n (fun k => v k * v k)) by (apply sqrt_def; lra).
  eexists. exists kap, (fun k => v k / kap). split; [exact Kp|]. split; [|split].
  - rewrite (sumR_ext n _ (fun k => / (kap * kap) * (v k * v k))) by (intros; field; lra). rewrite sumR_scal, Kq. field. lra.
  - intros k K. fold (v k). field. lra.
  - intros x. instantiate (1 := fun x => von_mises_fisher_pdf n _ _ _). reflexivity.
Qed.
Lemma k_diagonal : tot MultivariateDiagonalNormal.
Proof.
  intros n p D H. cbn [nat_dom] in H. cbn zeta in *. eexists. exists (fun k => p false "mean_times_precision" [k] * (-1 / (2 * p false "negative_half_precision" [k]))), (fun k => -1 / (2 * p false "negative_half_precision" [k])). split.
  - intros k K. destruct (neg_half _ (H k K)) as [W E]. split; [exact W|]. split; [field; specialize (H k K); lra|exact E].
  - intros x. instantiate (1 := fun x => prodR n (fun k => normal_pdf _ _ (x false [k]))). reflexivity.
Qed.
Lemma k_fixed : tot MultivariateFixedVarianceNormal.
Proof.
  intros n p D H. cbn [nat_dom] in H. eexists. exists (fun k => p false "mean_times_precision" [k] * p false "variance" []). split; [intros k K; field; lra|]. intros x. instantiate (1 := fun x => prodR n (fun k => normal_pdf _ _ (x false [k]))). reflexivity.
Qed.
Lemma k_isotropic : tot IsotropicNormal.
Proof.
  intros n p D [_ H]. cbn zeta in *. destruct (neg_half _ H) as [W E]. set (w := -1 / (2 * p false "negative_half_precision" [])) in *. eexists. exists (fun k => p false "mean_times_precision" [k] * w), w. split; [exact W|]. split; [intros k K; field; lra|]. split; [exact E|].
  intros x. instantiate (1 := fun x => prodR n (fun k => normal_pdf _ _ (x false [k]))). reflexivity.
Qed.
Lemma k_unit : tot MultivariateUnitNormal. Proof. intros n p D H. exists (fun x => prodR n (fun k => normal_pdf (p false "mean" [k]) 1 (x false [k]))). intros x. reflexivity. Qed.
Lemma k_mvn : tot MultivariateNormal.
Proof.
  intros n p D H. cbn [nat_dom] in H. set (A := fun a b => - p false "negative_half_precision" [a; b]). change (spd n A) in H. assert (H2 : spd n (fun a b => 2 * A a b)) by (apply spd_scal; [lra|exact H]).
  pose proof (spd_inv n _ H2) as H3. set (S := rinv n (fun a b => 2 * A a b)) in *. eexists. exists (fun a => sumR n (fun b => S a b * p false "mean_times_precision" [b])), S. split; [exact H3|]. split; [|split].
  - intros a Ha. symmetry. rewrite (sumR_ext n _ (fun b => 2 * A a b * sumR n (fun c => S b c * p false "mean_times_precision" [c]))).
    + unfold S. apply (rapply_inv n (fun a b => 2 * A a b) (fun c => p false "mean_times_precision" [c]) a); [now apply spd_ne|exact Ha].
    + intros b B. f_equal. unfold S. now rewrite rinv_inv by assumption.
  - intros a b Ha Hb. unfold S. rewrite rinv_inv by assumption. unfold A. field.
  - intros x. instantiate (1 := fun x => multivariate_normal_pdf n _ _ _). reflexivity.
Qed.
Lemma k_complex_unit : tot ComplexUnitNormal.
Proof.
  intros n p D H. eexists. exists (p false "two_mean_conjugate" [] / 2, - p true "two_mean_conjugate" [] / 2). split; [unfold Cmult, Cconj, RtoC; cbn [fst snd]; apply f_equal2; field|]. intros x. instantiate (1 := fun x => complex_unit_normal_pdf 1 _ (fun _ => (x false [], x true []))). reflexivity.
Qed.
Lemma k_complex_multivariate_unit : tot ComplexMultivariateUnitNormal.
Proof.
  intros n p D H. eexists. exists (fun k => (p false "two_mean_conjugate" [k] / 2, - p true "two_mean_conjugate" [k] / 2)). split; [intros k K; unfold Cmult, Cconj, RtoC; cbn [fst snd]; apply f_equal2; field|]. intros x. instantiate (1 := fun x => complex_unit_normal_pdf n _ (fun k => (x false [k], x true [k]))). reflexivity.
Qed.
Lemma k_ccs : tot ComplexCircularlySymmetricNormal.
Proof.
  intros n p D H. cbn [nat_dom] in H. apply hpd_C in H. set (X := fun a b => (- p false "negative_precision" [a; b], - p true "negative_precision" [a; b]) : C). change (hpdC n X) in H. pose proof (hpd_conj n X H) as Hc. pose proof (hpd_inv n _ Hc) as Hi.
  eexists. exists (cinv n (fun a b => Cconj (X a b))). split; [exact (C_hpd n _ Hi)|]. split.
  - intros a b Ha Hb. rewrite cinv_inv by assumption. rewrite Cconj_conj. unfold X, Copp. cbn [fst snd]. apply f_equal2; ring.
  - intros x. instantiate (1 := fun x => circularly_symmetric_pdf n _ (fun k => (x false [k], x true [k]))). reflexivity.
Qed.
Lemma total f : tot f.
Proof.
  destruct f; first [exact k_bernoulli | exact k_geometric | exact k_poisson | exact k_logarithmic | exact k_negative_binomial | exact k_beta | exact k_chi | exact k_chi_square | exact k_exponential | exact k_gamma | exact k_normal | exact k_unit_normal | exact k_rayleigh | exact k_weibull
    | exact k_multinomial | exact k_dirichlet | exact k_generalized_dirichlet | exact k_von_mises_fisher | exact k_diagonal | exact k_fixed | exact k_isotropic | exact k_unit | exact k_mvn | exact k_complex_unit | exact k_complex_multivariate_unit | exact k_ccs | exact (fun n p _ H => cn_total n p H)].
Qed.
Theorem textbook_total b i f q n : proper b i f q -> dims_of q = Ok n -> exists d, classical f n (point_of q i) d.
Proof. intros Pq D. destruct (proper_dims b i f q Pq) as (n' & D1 & _ & D3 & D4 & _). assert (n' = n) by congruence. subst n'. exact (total f n _ D4 D3). Qed.
