(** Concrete cases for C66. *)
From Coquelicot Require Import Coquelicot.
From Coq Require Import String List Bool Arith Reals Lia Lra.
From Verif Require Import Base XReal Tensor TensorFacts Support Dist Iteration Structure Spec Tools Joint SpecFun Expr Fam SumSpec DotSpec Examples JointEx PointSpec PointFacts FamR FamVal ConvFacts LeafVal ConvThms ConvEx DensSpec DensVal DensThms DensEx KlSpec IntSpec IntThms Conj ConjSpec ConjThms ConjEx Combine CombSpec CombThms BayesSpec ConjBayes.
Import ListNotations.
Local Unset Asymmetric Patterns.
Local Open Scope string_scope.
Local Open Scope R_scope.

Lemma bayes_inst solve b i f p1 p2 m r x xv : has_prior f -> comparable b i f p1 p2 -> dims_of p1 = Ok m -> dcls r = NP f -> dims_of r = Ok m -> observed b i r x xv -> sample_space f m xv ->
  exists q1 q2 est e, to_nat (fam_methods solve) p1 = Ok q1 /\ to_nat (fam_methods solve) p2 = Ok q2 /\ observed b i q1 x xv /\ create_estimator_from_natural q1 = Ok est /\ mle_sufficient_statistics (fam_methods solve) est (Leaf x) = Ok e.
Proof.
  intros Hf C12 Dm Cr Dr O X. destruct (prior_closed f Hf) as (M & C & _). destruct (divergence_at solve b i f p1 p2 M C C12) as (m' & A1 & A2 & H1 & H2 & K & _). assert (m' = m) by (pose proof (ap_dims _ _ _ _ _ _ A1); congruence). subst m'. pose proof (proj1 C12) as (_ & _ & _ & Hi & _).
  assert (T : forall p, at_pt b i p (EP f) m (point_of p i) -> exp_dom f m (point_of p i) -> exists q, to_nat (fam_methods solve) p = Ok q /\ observed b i q x xv).
  { intros p A H. destruct (nat_at solve b i p f m _ Hi A H C) as (q & E1 & E2). exists q. split; [pose proof (ap_cls _ _ _ _ _ _ A) as Cp; destruct p as [c m2 ps subs]; cbn [dcls] in Cp; subst c; exact E1|].
    apply (observed_same b i r); [rewrite Cr; symmetry; exact (ap_cls _ _ _ _ _ _ E2)|rewrite Dr; symmetry; exact (ap_dims _ _ _ _ _ _ E2)|exact O]. }
  destruct (T p1 A1 H1) as (q1 & T1 & O1). destruct (T p2 A2 H2) as (q2 & T2 & _). destruct (lik_at solve b i f p1 q1 m x xv Hf Hi A1 H1 T1 O1 X) as (Pq & Dq & _ & _).
  destruct (mle_at solve b i f q1 m x xv Pq Dq O1 X) as (est & e & E1 & E2 & _). exists q1, q2, est, e. auto.
Qed.
Definition by_ref : dist := Dist (NP Multinomial) DefaultMinimizer [("log_odds", vec [0; 0; 0; 0] [2; 2]%nat eq_refl)] [].
Definition by_x : arr := vec [1; 0; 0; 1] [2; 2]%nat eq_refl.
Lemma by_obs : observed [2]%nat [1]%nat by_ref by_x (vec2 0 1).
Proof. observed_. destruct j as [|k [|? ?]]; try discriminate; [|destruct k as [|[|k]]; discriminate]. destruct k as [|[|k]]; try discriminate; reflexivity. Qed.
Lemma by_space : sample_space Multinomial 2 (vec2 0 1).
Proof. split; [intros k K; destruct k as [|[|k]]; [left|right|lia]; reflexivity|]. unfold sumR. cbn. lra. Qed.
Definition by_eref : dist := Dist (NP Exponential) DefaultMinimizer [("negative_rate", vec [-1] [] eq_refl)] [].
Lemma by_eobs : observed [] [] by_eref (vec [1] [] eq_refl) (scalar 1).
Proof. observed_. destruct j; [reflexivity|discriminate]. Qed.
Lemma by_multi solve : let p1 := cj_multi 0 0 (1 / 3) (1 / 4) in let p2 := cj_multi 0 0 (1 / 7) (3 / 4) in
  comparable [2]%nat [1]%nat Multinomial p1 p2 /\ exists q1 q2 est e, to_nat (fam_methods solve) p1 = Ok q1 /\ to_nat (fam_methods solve) p2 = Ok q2 /\ observed [2]%nat [1]%nat q1 by_x (vec2 0 1) /\ sample_space Multinomial 2 (vec2 0 1) /\
    create_estimator_from_natural q1 = Ok est /\ mle_sufficient_statistics (fam_methods solve) est (Leaf by_x) = Ok e.
Proof.
  cbv zeta. assert (C : comparable [2]%nat [1]%nat Multinomial (cj_multi 0 0 (1 / 3) (1 / 4)) (cj_multi 0 0 (1 / 7) (3 / 4))) by (apply cj_multi_cmp; lra). split; [exact C|].
  destruct (bayes_inst solve [2]%nat [1]%nat Multinomial _ _ 2 by_ref by_x (vec2 0 1) Logic.I C eq_refl eq_refl eq_refl by_obs by_space) as (q1 & q2 & est & e & A & B & D & E & F). exists q1, q2, est, e. pose proof by_space. auto 10.
Qed.
Lemma ln2_ne : ln 2 <> 3 / 4.
Proof.
  intros E. assert (E' : exp (3 / 4) = 2) by (rewrite <- E; apply exp_ln; lra).
  assert (H : 1 + 3 / 32 < exp (3 / 32)) by (apply exp_ineq1; lra). replace (3 / 4) with (3 / 32 + 3 / 32 + (3 / 32 + 3 / 32) + (3 / 32 + 3 / 32 + (3 / 32 + 3 / 32))) in E' by lra. rewrite !exp_plus in E'. set (u := exp (3 / 32)) in *.
  assert (H2 : 1225 / 1024 <= u * u) by nra. assert (H4 : 1225 / 1024 * (1225 / 1024) <= u * u * (u * u)) by nra. nra.
Qed.
Lemma exp_gap T P1 P2 : gapR 1 T P1 P2 Exponential = let t := T false "mean" [] in let a := P1 false "mean" [] in let c := P2 false "mean" [] in
  (- (1) / t * a + ln a) - (- (1) / t * c + ln c) - ((-1 / a * t + ln (- (-1 / a))) - (-1 / c * t + ln (- (-1 / c)))).
Proof. cbv zeta. unfold gapR, priDot, likR, priR, pobs; cbn [obs_name prior_fam prior_dims]; lps; mk. ring. Qed.
(** Bayes' rule fails for the prior of the exponential distributions *)
Lemma by_refuted solve : exists p1 p2 q1 q2 x xv est e one c c1 s o1 o2 d1 d2 t1 t2 l1 l2, comparable [] [] Exponential p1 p2 /\ to_nat (fam_methods solve) p1 = Ok q1 /\ to_nat (fam_methods solve) p2 = Ok q2 /\
  observed [] [] q1 x xv /\ sample_space Exponential 1 xv /\ create_estimator_from_natural q1 = Ok est /\ mle_sufficient_statistics (fam_methods solve) est (Leaf x) = Ok e /\ pseudo_observations [] [] one 1 /\
  conjugate_prior_distribution p1 one = Ok c /\ conjugate_prior_distribution e one = Ok c1 /\ combine_evidence c c1 = Ok s /\ conjugate_prior_observation p1 = Ok o1 /\ conjugate_prior_observation p2 = Ok o2 /\
  log_density (fam_methods solve) [] [] c o1 d1 /\ log_density (fam_methods solve) [] [] c o2 d2 /\ log_density (fam_methods solve) [] [] s o1 t1 /\ log_density (fam_methods solve) [] [] s o2 t2 /\
  log_density (fam_methods solve) [] [] q1 x l1 /\ log_density (fam_methods solve) [] [] q2 x l2 /\ t1 - t2 <> (d1 + l1) - (d2 + l2).
Proof.
  assert (P1 : 0 < 1) by lra. assert (P2 : 0 < 2) by lra. pose proof (cj_exp_cmp 1 2 P1 P2) as C12. assert (X : sample_space Exponential 1 (scalar 1)) by (cbn; lra).
  destruct (bayes_inst solve [] [] Exponential _ _ 1 by_eref _ _ Logic.I C12 eq_refl eq_refl eq_refl by_eobs X) as (q1 & q2 & est & e & A & B & D & E & F).
  destruct (bayes_gen solve [] [] Exponential _ _ q1 q2 1 _ _ est e _ Logic.I C12 eq_refl A B D X E F (cj_obs0 1)) as (g & c1 & o1 & o2 & l1 & l2 & Y1 & Y2 & Y3 & Y4 & Y5 & Y6 & Y7 & Y8).
  destruct (Y7 (cj_exp 1) _ 1 (cj_exp_cmp 1 1 P1 P1) (cj_obs0 1) P1) as (c & Ec & Pc & Dc); [intros [Z|Z]; discriminate Z|]. destruct (Y8 c Pc Dc) as (s & d1 & d2 & t1 & t2 & Z1 & Z2 & Z3 & Z4 & Z5 & Z6 & Z7 & Z8 & _).
  exists (cj_exp 1), (cj_exp 2), q1, q2, (vec [1] [] eq_refl), (scalar 1), est, e, (vec [1] [] eq_refl), c, c1, s, o1, o2, d1, d2, t1, t2, l1, l2.
  repeat (match goal with |- _ /\ _ => split end; [first [assumption | apply cj_obs0]|]). intros Eq. rewrite Eq, Rminus_eq_0 in Z8. symmetry in Z8. revert Z8.
  rewrite exp_gap. cbv zeta. assert (V1 : point_of (cj_exp 1) [] false "mean" [] = 1) by reflexivity. assert (V2 : point_of (cj_exp 2) [] false "mean" [] = 2) by reflexivity.
  assert (VT : ssR 1 (point_of q1 []) (scalar 1) Exponential false "mean" [] = 1) by reflexivity. rewrite V1, V2, VT. replace (- (-1 / 1)) with 1 by field. replace (- (-1 / 2)) with (/ 2) by field. rewrite ln_1, ln_Rinv by lra. intros Z. apply ln2_ne. lra.
Qed.
Definition by_pois (a b : R) : dist := Dist (EP Poisson) DefaultMinimizer [("mean", vec [a; b] [2]%nat eq_refl)] [].
Lemma by_pois_proper a b : 0 < b -> proper_e [2]%nat [1]%nat Poisson (by_pois a b).
Proof. intros H. do 4 (split; [reflexivity|]). leaf_ 1%nat. exact H. Qed.
Lemma by_pois_cmp a b c d : 0 < b -> 0 < d -> comparable [2]%nat [1]%nat Poisson (by_pois a b) (by_pois c d).
Proof. intros. split; [now apply by_pois_proper|]. split; [now apply by_pois_proper|]. split; [reflexivity|]. intros g v u j I F. destruct I as [<-|[]]. discriminate F. Qed.
(** 3 pseudo-observations with mean 5 and 1 with mean 1 are 4 with mean 4 *)
Lemma by_pooled : pooled [2]%nat [1]%nat 3 1 (by_pois 7 5) (by_pois 7 1) (by_pois 7 4).
Proof. intros g v j I F V J. destruct I as [<-|[]]. cbn in V. injection V as <-. destruct j; [|discriminate J]. unfold par, point_of. cbn. lra. Qed.

