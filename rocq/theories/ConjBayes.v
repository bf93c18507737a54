(** Proofs for C66: conjugate priors obey Bayes' rule and accumulate evidence. *)
From Coquelicot Require Import Coquelicot.
From Coq Require Import String List Bool Arith Reals Lia Lra.
From Verif Require Import Base XReal Tensor TensorFacts Support Dist DictFacts Iteration Structure Spec SumSpec DotSpec Tools Joint SpecFun GammaFn Expr Fam ExprFacts FamTy FamFacts SearchFacts DotFacts StructThms SumFacts MapFacts
  JointThms JointThms2 DotLaws BatchFacts PointSpec PointFacts Val FamR FamVal ConvFacts LeafVal ConvThms DerivFacts MatDeriv MatHess MatBreg DerivThms DensSpec DensVal DensThms KlSpec BregFacts BregThms KlPos InjThms IntSpec IntFam IntGen IntThms MleThms JointKl KlExp Conj ConjSpec ConjThms Combine CombSpec CombThms BayesSpec.
Import ListNotations.
Local Unset Asymmetric Patterns.
Local Open Scope string_scope.
Local Open Scope R_scope.

(** what the prior's arguments divide by *)
Definition prior_ok (f : family) (P : point) : Prop := match f with Exponential => P false "mean" [] <> 0 | MultivariateFixedVarianceNormal => P false "variance" [] <> 0 | _ => True end.
Lemma prior_val' f n P N : has_prior f -> dims_ok (EP f) n = true -> (dimensions_field (EP f) = None -> n = 1%nat) -> prior_ok f P ->
  args_at (("n", (KR, [])) :: ctx_of (EP f) n) (pn P N) (priR n P N f) (prior_l f) (ctx_of (NP (prior_fam f)) (prior_dims f n)).
Proof.
  intros Hf D D1 H. destruct f; try contradiction; cbn [prior_ok] in H; cbn [dims_ok] in D; unfold args_at, prior_l, ctx_of; cbn [map fields prior_args prior_fam prior_dims fd_name fd_support var supp_ring supp_shape]; change NN with (self "n"); argv.
  all: try (vx; jj; pns; try reflexivity; try lra; fail).
  all: cbn [fd_name fd_support var supp_shape].
  - eapply VR_ext; [eapply VR_mul; [eapply (VR_newaxis _ _ _ []); vr|eapply VR_stack; vr|alt_]|]. intros j Hj. destruct (inb1 _ _ Hj) as (k & -> & Hk). pns. mk. unfold priR, mkpt, re. cbn [slook String.eqb Ascii.eqb Bool.eqb fst snd hd]. reflexivity.
  - assert (Y : VR (("n", (KR, [])) :: ctx_of (EP Multinomial) n) (pn P N) (jappend (self "probability") (#1 - jsum_keep (self "probability"))%ae) (Ev [(n + 1)%nat])
       (fun j => if (hd 0 j <? n)%nat then P false "probability" [hd 0%nat j] else 1 - sumR n (fun k => P false "probability" [k]))).
    { eapply VR_ext; [eapply VR_append; vr|]. intros j Hj. destruct (inb1 _ _ Hj) as (k & -> & Hk). pns. reflexivity. }
    eapply VR_ext; [eapply VR_mul; [eapply (VR_newaxis _ _ _ []); vr|exact Y|alt_]|]. intros j Hj. destruct (inb1 _ _ Hj) as (k & -> & Hk). pns. reflexivity.
  - eapply VR_ext; [eapply VR_mul; [vr|eapply VR_add; [vr|eapply (VR_zeros _ _ 1 _ [_]); [eapply VR_self; reflexivity|cbn; lia]|alt_]|alt_]|]. intros j Hj. apply inb0 in Hj. subst j. pns. unfold priR, mkpt, re. cbn [slook String.eqb Ascii.eqb Bool.eqb fst snd hd]. ring.
Qed.
Lemma prior_at' b i f p n N m P : has_prior f -> inb b i = true -> at_pt b i p (EP f) m P -> prior_ok f P -> dims_ok (EP f) m = true -> pseudo_observations b i n N ->
  exists c, conjugate_prior_distribution p n = Ok c /\ at_pt b i c (NP (prior_fam f)) (prior_dims f m) (priR m P N f).
Proof.
  intros Hf Hi A H K (t & -> & St & Vt). pose proof A as [C W S D V].
  assert (St' : shp t = (b ++ [])%list) by now rewrite app_nil_r.
  pose proof (env_cons b _ _ "n" KR [] t (leaf_env _ _ _ S D) St') as HE. rewrite C in HE. cbn [pack] in HE.
  assert (V' : vals_eq (("n", (KR, [])) :: ctx_of (EP f) m) (vals_of (("n", RA t) :: dparams p) i) (pvals (pn P N))).
  { intros nm k s j X Hj. unfold vals_of. cbn [dget] in X |- *. destruct (keq nm "n") as [->|Nm].
    - injection X as <- <-. cbn [get_kind pvals]. apply inb0 in Hj. subst j. rewrite app_nil_r. etransitivity; [exact Vt|reflexivity].
    - specialize (V nm k s j X Hj). unfold vals_of in V. rewrite V. unfold pvals, pn. destruct k; (destruct (String.eqb_spec nm "n"); [contradiction|reflexivity]). }
  assert (D1 : dimensions_field (EP f) = None -> m = 1%nat) by (intros X; rewrite <- C in X; exact (dims_none _ _ D X)).
  destruct (make_at b _ _ _ (NP (prior_fam f)) (prior_dims f m) i _ _ HE Hi V' (prior_val' f m P N Hf K D1 H) eq_refl) as (q & E1 & E2 & E3 & E4 & E5 & E6 & E7).
  { destruct f; try contradiction; cbn; try discriminate; auto. }
  { destruct f; try contradiction; cbn [dims_ok prior_fam prior_dims] in *; try reflexivity. apply Nat.leb_le in K. apply Nat.leb_le. lia. }
  exists q. split; [|apply (at_pt_eq _ _ _ _ _ (point_of q i)); [now apply at_pt_self|exact E7]].
  unfold conjugate_prior_distribution, prior_of. rewrite C. unfold prior_l in E1. destruct f; try contradiction; exact E1.
Qed.
Lemma padd_pt c n p p' v v' h : pt_eq c n p p' -> pt_eq c n v v' -> pt_eq c n (padd c p v h) (padd c p' v' h).
Proof.
  intros A B. apply pt_intro. apply Forall_forall. intros g I j Hj. unfold padd. rewrite (pt_re _ _ _ _ g j A I Hj), (pt_re _ _ _ _ g j B I Hj). split; [reflexivity|].
  intros K. now rewrite (pt_im _ _ _ _ g j A I K Hj), (pt_im _ _ _ _ g j B I K Hj).
Qed.
Lemma padd_im c p v h : real_im c p -> real_im c v -> real_im c (padd c p v h).
Proof. intros A B g j I K. unfold padd. rewrite (A g j I K), (B g j I K). destruct (existsb _ _); ring. Qed.
Lemma comb_at b i f n c c1 pc pv : inb b i = true -> at_pt b i c (NP f) n pc -> at_pt b i c1 (NP f) n pv -> exists s, combine_evidence c c1 = Ok s /\ at_pt b i s (NP f) n (padd (NP f) pc pv 1).
Proof.
  intros Hi A B. pose proof (at_pt_pt _ _ _ _ _ _ Hi A) as E. pose proof (at_pt_pt _ _ _ _ _ _ Hi B) as E'.
  destruct (map_leaf add_op 1 b i f n c c1 [c1] Hi (at_pt_eq _ _ _ _ _ _ _ A E) (at_pt_eq _ _ _ _ _ _ _ B E')) as (s & S1 & _ & _ & _ & _ & S2).
  { left. split; [reflexivity|]. exact add_like. }
  exists s. split; [exact S1|]. apply (at_pt_eq _ _ _ _ _ _ _ S2). apply pt_sym, padd_pt; assumption.
Qed.

(** the log-density of the prior of the statistics T, as a function of the parameters P, is that of the likelihood of T *)
Definition likR n T P f : R := dotP (NP f) (EP f) n (natR n P f) T - lnR n (natR n P f) f.
Definition same_var (f : family) (P Q : point) : Prop := match f with MultivariateFixedVarianceNormal => P false "variance" [] = Q false "variance" [] | _ => True end.
Lemma conj_alg f n T P1 P2 : has_prior f -> f <> Exponential -> dims_ok (EP f) n = true -> exp_dom f n P1 -> exp_dom f n P2 -> same_var f P1 T -> same_var f P2 T ->
  let g := prior_fam f in let k := prior_dims f n in
  dotP (NP g) (EP g) k (priR n T 1 f) (ssR k (priR n T 1 f) (pobs f P1) g) - dotP (NP g) (EP g) k (priR n T 1 f) (ssR k (priR n T 1 f) (pobs f P2) g) = likR n T P1 f - likR n T P2 f.
Proof.
  intros Hf Hx K H1 H2 F1 F2. destruct f; try contradiction; try congruence; cbn [exp_dom dims_ok same_var] in *; cbn [prior_dims prior_fam]; unfold likR, priR, pobs; cbn [obs_name]; lps; mk.
  - rewrite !sumR_S, !sumR_0. cbn [Nat.eqb]. rewrite exp_0, !exp_ln_div by lra. replace (P1 false "probability" [] / (1 - P1 false "probability" []) + 1) with (/ (1 - P1 false "probability" [])) by (field; lra).
    replace (P2 false "probability" [] / (1 - P2 false "probability" []) + 1) with (/ (1 - P2 false "probability" [])) by (field; lra). rewrite !ln_Rinv, !ln_div by lra. unfold Rminus. ring.
  - destruct H1 as [H1 Z1], H2 as [H2 Z2]. replace (n + 1 - 1)%nat with n by lia. replace (n + 1)%nat with (Datatypes.S n) by lia. rewrite !sumR_S, Nat.ltb_irrefl.
    assert (X : forall g, sumR n (fun k => 1 * (if (k <? n)%nat then T false "probability" [k] else 1 - sumR n (fun k => T false "probability" [k])) * (if (k <? n)%nat then ln (g k) else ln (1 - sumR n g)) - 0 * 0) = sumR n (fun k => T false "probability" [k] * ln (g k))).
    { intros g. apply sumR_ext. intros k Hk. rewrite (proj2 (Nat.ltb_lt k n) Hk). ring. }
    rewrite (X (fun k => P1 false "probability" [k])), (X (fun k => P2 false "probability" [k])).
    rewrite (sum_odds n (fun k => P1 false "probability" [k])), (sum_odds n (fun k => P2 false "probability" [k])); try assumption; try reflexivity; try lra.
    assert (Y : forall g : nat -> R, (forall k, (k < n)%nat -> 0 < g k) -> 0 < 1 - sumR n g -> sumR n (fun k => ln (g k / (1 - sumR n g)) * T false "probability" [k] - 0 * T true "probability" [k]) = sumR n (fun k => T false "probability" [k] * ln (g k)) - ln (1 - sumR n g) * sumR n (fun k => T false "probability" [k])).
    { intros g G Z. rewrite <- sumR_scal, <- sumR_minus. apply sumR_ext. intros k Hk. rewrite ln_div by auto. ring. }
    rewrite (Y (fun k => P1 false "probability" [k])), (Y (fun k => P2 false "probability" [k])) by (try assumption; lra). ring.
  - rewrite F1, F2. rewrite F1 in H1. set (w := T false "variance" []) in *. assert (W : 1 / w <> 0) by (apply Rgt_not_eq, Rdiv_lt_0_compat; lra).
    assert (X : forall g : nat -> R, sumR n (fun k => 1 / w * T false "mean" [k] * g k - 0 * 0) = / w * sumR n (fun k => g k * T false "mean" [k])) by (intros g; rewrite <- sumR_scal; apply sumR_ext; intros; field; lra).
    assert (Y : forall g : nat -> R, sumR n (fun k => g k / w * T false "mean" [k] - 0 * T true "mean" [k]) = / w * sumR n (fun k => g k * T false "mean" [k])) by (intros g; rewrite <- sumR_scal; apply sumR_ext; intros; field; lra).
    assert (Z : forall g : nat -> R, sumR n (fun k => g k / w * (g k / w)) = / w * / w * sumR n (fun k => g k * g k)) by (intros g; rewrite <- sumR_scal; apply sumR_ext; intros; field; lra).
    rewrite (X (fun k => P1 false "mean" [k])), (X (fun k => P2 false "mean" [k])), (Y (fun k => P1 false "mean" [k])), (Y (fun k => P2 false "mean" [k])), (Z (fun k => P1 false "mean" [k])), (Z (fun k => P2 false "mean" [k])). field. lra.
  - assert (X : forall g : nat -> R, sumR n (fun k => 1 * T false "mean" [k] * g k - 0 * 0) = sumR n (fun k => g k * T false "mean" [k])) by (intros g; apply sumR_ext; intros; ring).
    assert (Y : forall g : nat -> R, sumR n (fun k => g k * T false "mean" [k] - 0 * T true "mean" [k]) = sumR n (fun k => g k * T false "mean" [k])) by (intros g; apply sumR_ext; intros; ring).
    rewrite (X (fun k => P1 false "mean" [k])), (X (fun k => P2 false "mean" [k])), (Y (fun k => P1 false "mean" [k])), (Y (fun k => P2 false "mean" [k])). field.
  - field.
  - rewrite !exp_ln by assumption. ring.
Qed.
(** the posterior is in the domain *)
Lemma post_dom f n pc q xv : has_prior f -> dims_ok (EP f) n = true -> nat_dom (prior_fam f) (prior_dims f n) pc -> sample_space f n xv ->
  match f with MultivariateFixedVarianceNormal => 0 < q false "variance" [] | _ => True end -> nat_dom (prior_fam f) (prior_dims f n) (padd (NP (prior_fam f)) pc (priR n (ssR n q xv f) 1 f) 1).
Proof.
  intros Hf D H X F. destruct f; try contradiction; cbn [sample_space] in *; cbn [dims_ok] in D; cbn [nat_dom prior_fam prior_dims] in *; unfold padd, priR, ssR, mkpt, re, cx;
    cbn [slook String.eqb Ascii.eqb Bool.eqb fst snd hd existsb fields fd_fixed var fixd andb orb fd_name].
  - destruct H as [H1 H2]. split; [lia|]. intros k K. specialize (H2 k K). destruct (k =? 0)%nat; destruct X as [-> | ->]; nra.
  - destruct H as [H1 H2]. pose proof (Rinv_0_lt_compat _ X). unfold Rdiv. split; lra.
  - destruct H as [H1 H2]. split; [lia|]. destruct X as [X1 X2]. intros k K. specialize (H2 k K). destruct (Nat.ltb_spec k n) as [Q|Q]; [destruct (X1 k Q) as [-> | ->]|]; nra.
  - split; [apply H|]. destruct H as [_ H]. pose proof (Rdiv_lt_0_compat 1 _ Rlt_0_1 F). lra.
  - split; [apply H|]. destruct H as [_ H]. lra.
  - lra.
  - destruct X as [k ->]. pose proof (pos_INR k). split; nra.
Qed.
Definition priDot n T x f : R := dotP (NP (prior_fam f)) (EP (prior_fam f)) (prior_dims f n) (priR n T 1 f) (ssR (prior_dims f n) (priR n T 1 f) x (prior_fam f)).
Definition gapR n T P1 P2 f : R := priDot n T (pobs f P1) f - priDot n T (pobs f P2) f - (likR n T P1 f - likR n T P2 f).
Section B.
  Variable solve : minimizer -> dist -> nat -> xr.
  Notation L := (fam_methods solve).
  (** the log density of the likelihood *)
  Lemma lik_at b i f p q n x xv : has_prior f -> inb b i = true -> at_pt b i p (EP f) n (point_of p i) -> exp_dom f n (point_of p i) -> to_nat L p = Ok q -> observed b i q x xv -> sample_space f n xv ->
    proper b i f q /\ dims_of q = Ok n /\ at_pt b i q (NP f) n (natR n (point_of p i) f) /\
    log_density L b i q x (dotP (NP f) (EP f) n (natR n (point_of p i) f) (ssR n (point_of q i) xv f) - lnR n (natR n (point_of p i) f) f + cmR n (point_of q i) xv f).
  Proof.
    intros Hf Hi A H Tq O X. destruct (prior_closed f Hf) as (M & C & _). destruct (nat_at solve b i p f n _ Hi A H C) as (q' & Q1 & Q2).
    assert (q' = q). { assert (to_nat L p = Ok q'); [|congruence]. pose proof (ap_cls _ _ _ _ _ _ A) as Cp. destruct p as [c m ps subs]. cbn [dcls] in Cp. subst c. exact Q1. } subst q'.
    pose proof (nat_ok f n (point_of p i) C H) as N. pose proof (ap_dims _ _ _ _ _ _ Q2) as Dq.
    assert (Pq : proper b i f q). { split; [exact (ap_cls _ _ _ _ _ _ Q2)|]. split; [exact (ap_wf _ _ _ _ _ _ Q2)|]. split; [exact (ap_shaped _ _ _ _ _ _ Q2)|]. split; [exact Hi|]. exact (at_pt_nat_dom b i q _ _ _ Hi Q2 N). }
    split; [exact Pq|]. split; [exact Dq|]. split; [exact Q2|]. pose proof (log_density_at solve b i f q n x xv Pq Dq O X) as LD. unfold lpR in LD. rewrite (ln_pt solve b i q f n _ Hi Q2 N M) in LD.
    rewrite (dotP_pt (NP f) (EP f) n (point_of q i) (natR n (point_of p i) f)) in LD; [exact LD| |].
    - apply pt_sym. exact (at_pt_pt _ _ _ _ _ _ Hi Q2).
    - intros g j I K. apply filter_In in I as [I _]. rewrite (natR_im f n _ C g j I K). exact (im_real b i q _ n _ g j Q2 I K).
  Qed.
  (** adding the prior of the statistics of an observation *)
  Lemma update_at b i f n T pc c c1 : has_prior f -> inb b i = true -> at_pt b i c (NP (prior_fam f)) (prior_dims f n) (point_of c i) -> at_pt b i c1 (NP (prior_fam f)) (prior_dims f n) (priR n T 1 f) ->
    pc = padd (NP (prior_fam f)) (point_of c i) (priR n T 1 f) 1 -> nat_dom (prior_fam f) (prior_dims f n) pc ->
    exists s, combine_evidence c c1 = Ok s /\ proper b i (prior_fam f) s /\ dims_of s = dims_of c /\ at_pt b i s (NP (prior_fam f)) (prior_dims f n) pc /\
      forall x1 x2, lpR (prior_dims f n) (point_of s i) x1 (prior_fam f) - lpR (prior_dims f n) (point_of s i) x2 (prior_fam f) =
        lpR (prior_dims f n) (point_of c i) x1 (prior_fam f) - lpR (prior_dims f n) (point_of c i) x2 (prior_fam f) + (priDot n T x1 f - priDot n T x2 f).
  Proof.
    intros Hf Hi A A1 -> Nd. destruct (comb_at b i _ _ c c1 _ _ Hi A A1) as (s & S1 & S2). exists s. split; [exact S1|].
    assert (Ps : proper b i (prior_fam f) s). { split; [exact (ap_cls _ _ _ _ _ _ S2)|]. split; [exact (ap_wf _ _ _ _ _ _ S2)|]. split; [exact (ap_shaped _ _ _ _ _ _ S2)|]. split; [exact Hi|]. exact (at_pt_nat_dom b i s _ _ _ Hi S2 Nd). }
    split; [exact Ps|]. split; [pose proof (ap_dims _ _ _ _ _ _ S2); pose proof (ap_dims _ _ _ _ _ _ A); congruence|]. split; [exact S2|]. intros x1 x2.
    assert (Ri : real_im (NP (prior_fam f)) (padd (NP (prior_fam f)) (point_of c i) (priR n T 1 f) 1)).
    { apply padd_im; [|now apply prior_real]. intros g j I Kg. exact (im_real b i c _ _ _ g j A I Kg). }
    rewrite !(prior_lp solve b i f s _ _ _ Hf Hi S2 Nd Ri), !lp_line. unfold priDot.
    assert (Es : forall x, ssR (prior_dims f n) (point_of c i) x (prior_fam f) = ssR (prior_dims f n) (priR n T 1 f) x (prior_fam f)) by (intros x; destruct f; try contradiction; reflexivity). rewrite !Es. lra.
  Qed.
  Lemma same_var_fix b i f p p1 n : has_prior f -> at_pt b i p (EP f) n (point_of p i) -> fix_eq (EP f) n (point_of p i) (point_of p1 i) -> same_var f (point_of p1 i) (point_of p i).
  Proof. intros Hf A F. destruct f; try contradiction; cbn [same_var]; try exact Logic.I. apply Forall_inv_tail, Forall_inv in F. symmetry. exact (proj1 (F eq_refl [] eq_refl)). Qed.
  Theorem bayes_gen b i f p1 p2 q1 q2 m x xv est e one : has_prior f -> comparable b i f p1 p2 -> dims_of p1 = Ok m -> to_nat L p1 = Ok q1 -> to_nat L p2 = Ok q2 ->
    observed b i q1 x xv -> sample_space f m xv -> create_estimator_from_natural q1 = Ok est -> mle_sufficient_statistics L est (Leaf x) = Ok e -> pseudo_observations b i one 1 ->
    exists g c1 o1 o2 l1 l2, conjugate_prior_distribution e one = Ok c1 /\ dcls c1 = NP g /\ conjugate_prior_observation p1 = Ok o1 /\ conjugate_prior_observation p2 = Ok o2 /\ log_density L b i q1 x l1 /\ log_density L b i q2 x l2 /\
      (forall p n N, comparable b i f p p1 -> pseudo_observations b i n N -> 0 < N -> (f = MultivariateUnitNormal \/ f = MultivariateFixedVarianceNormal -> m <> 0%nat) ->
         exists c, conjugate_prior_distribution p n = Ok c /\ proper b i g c /\ dims_of c = dims_of c1) /\
      forall c, proper b i g c -> dims_of c = dims_of c1 -> exists s d1 d2 t1 t2, combine_evidence c c1 = Ok s /\ proper b i g s /\ dims_of s = dims_of c1 /\
        log_density L b i c o1 d1 /\ log_density L b i c o2 d2 /\ log_density L b i s o1 t1 /\ log_density L b i s o2 t2 /\ t1 - t2 - ((d1 + l1) - (d2 + l2)) = gapR m (ssR m (point_of q1 i) xv f) (point_of p1 i) (point_of p2 i) f /\
        (f <> Exponential -> gapR m (ssR m (point_of q1 i) xv f) (point_of p1 i) (point_of p2 i) f = 0).
  Proof.
    intros Hf C12 Dm T1 T2 O X Te Ts Hone. destruct (prior_closed f Hf) as (M & C & M'). destruct (divergence_at solve b i f p1 p2 M C C12) as (m' & A1 & A2 & H1 & H2 & K & _).
    assert (m' = m) by (pose proof (ap_dims _ _ _ _ _ _ A1); congruence). subst m'. pose proof (proj1 C12) as (_ & _ & _ & Hi & _).
    assert (Fx : fix_eq (EP f) m (point_of p1 i) (point_of p2 i)) by (apply (fix_leafc b i); try assumption; apply C12).
    destruct (lik_at b i f p1 q1 m x xv Hf Hi A1 H1 T1 O X) as (Pq1 & Dq1 & Q1 & L1).
    assert (O2 : observed b i q2 x xv /\ at_pt b i q2 (NP f) m (natR m (point_of p2 i) f)).
    { destruct (nat_at solve b i p2 f m _ Hi A2 H2 C) as (q' & E1 & E2). assert (q' = q2). { assert (to_nat L p2 = Ok q'); [|congruence]. pose proof (ap_cls _ _ _ _ _ _ A2) as Cp. destruct p2 as [c m2 ps subs]. cbn [dcls] in Cp. subst c. exact E1. } subst q'.
      split; [|exact E2]. apply (observed_same b i q1); [rewrite (ap_cls _ _ _ _ _ _ Q1); symmetry; exact (ap_cls _ _ _ _ _ _ E2)|rewrite (ap_dims _ _ _ _ _ _ Q1); symmetry; exact (ap_dims _ _ _ _ _ _ E2)|exact O]. }
    destruct O2 as [O2 Q2]. destruct (lik_at b i f p2 q2 m x xv Hf Hi A2 H2 T2 O2 X) as (Pq2 & Dq2 & _ & L2).
    destruct (mle_at solve b i f q1 m x xv Pq1 Dq1 O X) as (est' & e' & E1 & E2 & Ae). assert (est' = est) by congruence. subst est'. assert (e' = e) by congruence. subst e'.
    set (T := ssR m (point_of q1 i) xv f) in *.
    assert (Vq : match f with MultivariateFixedVarianceNormal => point_of q1 i false "variance" [] = point_of p1 i false "variance" [] | _ => True end).
    { destruct f; try contradiction; try exact Logic.I. pose proof (at_pt_pt _ _ _ _ _ _ Hi Q1) as E. symmetry. refine (pt_re _ _ _ _ _ [] E (or_intror (or_introl eq_refl)) _). reflexivity. }
    assert (Fq : fix_eq (NP f) m (point_of q1 i) (point_of q2 i)).
    { assert (V : same_var f (natR m (point_of p2 i) f) (natR m (point_of p1 i) f)) by (pose proof (same_var_fix b i f p1 p2 m Hf A1 Fx) as V; destruct f; try contradiction; exact V).
      pose proof (at_pt_pt _ _ _ _ _ _ Hi Q1) as X1. pose proof (at_pt_pt _ _ _ _ _ _ Hi Q2) as X2. apply Forall_forall. intros g I Fg j Hj.
      rewrite <- (pt_re _ _ _ _ g j X1 I Hj), <- (pt_re _ _ _ _ g j X2 I Hj). split; [|intros Kg; rewrite <- (pt_im _ _ _ _ g j X1 I Kg Hj), <- (pt_im _ _ _ _ g j X2 I Kg Hj)];
        (destruct f; try contradiction; cbn [fields In] in I; repeat (destruct I as [<-|I]; [try discriminate Fg; try discriminate Kg|]); try destruct I; try (apply inb0 in Hj; subst j; symmetry; exact V)). }
    assert (VT : same_var f (point_of p1 i) T). { destruct f; try contradiction; try exact Logic.I. cbn [same_var]. symmetry. exact Vq. }
    assert (VT2 : same_var f (point_of p2 i) T). { pose proof (same_var_fix b i f p1 p2 m Hf A1 Fx) as V. destruct f; try contradiction; try exact Logic.I. cbn [same_var] in *. congruence. }
    assert (Vpos : match f with MultivariateFixedVarianceNormal => 0 < point_of q1 i false "variance" [] | _ => True end). { destruct f; try contradiction; try exact Logic.I. rewrite Vq. exact H1. }
    destruct (prior_at' b i f e one 1 m T Hf Hi Ae) as (c1 & Ec1 & Ac1); try assumption.
    { destruct f; try contradiction; try exact Logic.I; cbn [prior_ok]; [change (xv false [] <> 0); cbn [sample_space] in X; lra|]. change (point_of q1 i false "variance" [] <> 0). lra. }
    destruct (prior_obs b i f p1 m (prior_fam f) c1 _ Hf Hi A1 K eq_refl Ac1) as (o1 & Eo1 & Oo1). destruct (prior_obs b i f p2 m (prior_fam f) c1 _ Hf Hi A2 K eq_refl Ac1) as (o2 & Eo2 & Oo2).
    exists (prior_fam f), c1, o1, o2. do 2 eexists. split; [exact Ec1|]. split; [exact (ap_cls _ _ _ _ _ _ Ac1)|]. split; [exact Eo1|]. split; [exact Eo2|]. split; [exact L1|]. split; [exact L2|]. split.
    - intros p n N Cp Hn HN Hz. destruct (conj_vals solve b i f p n N Hf Hn HN) as (m' & c & Dp & Ec & Pc & Ap & Hp & Kp & _).
      { intros E. rewrite (proj1 (proj2 (proj2 Cp))), Dm. intros Z. injection Z as Z. exact (Hz E Z). }
      { apply Cp. }
      exists c. split; [exact Ec|]. split; [exact Pc|]. assert (m' = m) by (pose proof (proj1 (proj2 (proj2 Cp))); congruence). subst m'. destruct (prior_at b i f p n N m Hf Hi Ap Hp K Hn HN) as (c' & Ec' & Ac'). assert (c' = c) by congruence. subst c'. now rewrite (ap_dims _ _ _ _ _ _ Ac'), (ap_dims _ _ _ _ _ _ Ac1).
    - intros c Pc Dc. rewrite (ap_dims _ _ _ _ _ _ Ac1) in Dc. pose proof Pc as (Cc & Wc & Sc & _ & _). destruct (proper_dims b i (prior_fam f) c Pc) as (k' & D1 & D2 & D3 & _). assert (k' = prior_dims f m) by congruence. subst k'.
      assert (Ac : at_pt b i c (NP (prior_fam f)) (prior_dims f m) (point_of c i)) by now apply at_pt_self.
      destruct (update_at b i f m T _ c c1 Hf Hi Ac Ac1 eq_refl (post_dom f m _ _ _ Hf K D3 X Vpos)) as (s & S1 & S2 & S3 & S4 & S5).
      assert (Tc : forall d, dcls d = NP (prior_fam f) -> dims_of d = Ok (prior_dims f m) -> forall o u, observed b i c1 o u -> observed b i d o u).
      { intros d Cd Dd o u. apply observed_same; [rewrite Cd; exact (ap_cls _ _ _ _ _ _ Ac1)|rewrite Dd; exact (ap_dims _ _ _ _ _ _ Ac1)]. }
      pose proof (ap_cls _ _ _ _ _ _ S4) as Cs. pose proof (ap_dims _ _ _ _ _ _ S4) as Ds.
      exists s. do 4 eexists. split; [exact S1|]. split; [exact S2|]. split; [rewrite (ap_dims _ _ _ _ _ _ Ac1); exact Ds|].
      split; [apply log_density_at; [exact Pc|exact Dc|now apply Tc, Oo1|now apply pobs_space]|]. split; [apply log_density_at; [exact Pc|exact Dc|now apply Tc, Oo2|now apply pobs_space]|].
      split; [apply log_density_at; [exact S2|exact Ds|now apply Tc, Oo1|now apply pobs_space]|]. split; [apply log_density_at; [exact S2|exact Ds|now apply Tc, Oo2|now apply pobs_space]|].
      split; [|intros Hx; unfold gapR, priDot; pose proof (conj_alg f m T _ _ Hf Hx K H1 H2 VT VT2) as E; cbv zeta in E; rewrite E; ring].
      rewrite S5. unfold gapR. destruct (ss_fix f m (point_of q1 i) (point_of q2 i) xv (natR m (point_of p2 i) f) Fq) as [Es Ecm]. unfold likR. unfold T. rewrite Es, Ecm. ring.
  Qed.
  Theorem t_bayes b i f p1 p2 q1 q2 m x xv est e one : has_prior f -> f <> Exponential -> comparable b i f p1 p2 -> dims_of p1 = Ok m -> to_nat L p1 = Ok q1 -> to_nat L p2 = Ok q2 ->
    observed b i q1 x xv -> sample_space f m xv -> create_estimator_from_natural q1 = Ok est -> mle_sufficient_statistics L est (Leaf x) = Ok e -> pseudo_observations b i one 1 ->
    exists g c1 o1 o2 l1 l2, conjugate_prior_distribution e one = Ok c1 /\ dcls c1 = NP g /\ conjugate_prior_observation p1 = Ok o1 /\ conjugate_prior_observation p2 = Ok o2 /\ log_density L b i q1 x l1 /\ log_density L b i q2 x l2 /\
      (forall p n N, comparable b i f p p1 -> pseudo_observations b i n N -> 0 < N -> (f = MultivariateUnitNormal \/ f = MultivariateFixedVarianceNormal -> m <> 0%nat) ->
         exists c, conjugate_prior_distribution p n = Ok c /\ proper b i g c /\ dims_of c = dims_of c1) /\
      forall c, proper b i g c -> dims_of c = dims_of c1 -> exists s d1 d2 t1 t2, combine_evidence c c1 = Ok s /\ proper b i g s /\ dims_of s = dims_of c1 /\
        log_density L b i c o1 d1 /\ log_density L b i c o2 d2 /\ log_density L b i s o1 t1 /\ log_density L b i s o2 t2 /\ t1 - t2 = (d1 + l1) - (d2 + l2).
  Proof.
    intros Hf Hx C12 Dm T1 T2 O X Te Ts Hone. destruct (bayes_gen b i f p1 p2 q1 q2 m x xv est e one Hf C12 Dm T1 T2 O X Te Ts Hone) as (g & c1 & o1 & o2 & l1 & l2 & Y1 & Y2 & Y3 & Y4 & Y5 & Y6 & Y7 & Y8).
    exists g, c1, o1, o2, l1, l2. do 7 (split; [assumption|]). intros c Pc Dc. destruct (Y8 c Pc Dc) as (s & d1 & d2 & t1 & t2 & Z1 & Z2 & Z3 & Z4 & Z5 & Z6 & Z7 & Z8 & Z9). exists s, d1, d2, t1, t2. do 7 (split; [assumption|]). specialize (Z9 Hx). lra.
  Qed.
  (** the prior of the pooled pseudo-observations *)
  Theorem t_accumulate b i f p1 p2 p n1 n2 n N1 N2 : has_prior f -> f <> Exponential -> comparable b i f p p1 -> comparable b i f p p2 -> pseudo_observations b i n1 N1 -> pseudo_observations b i n2 N2 -> pseudo_observations b i n (N1 + N2) ->
    pooled b i N1 N2 p1 p2 p ->
    exists c1 c2 c s, conjugate_prior_distribution p1 n1 = Ok c1 /\ conjugate_prior_distribution p2 n2 = Ok c2 /\ conjugate_prior_distribution p n = Ok c /\ combine_evidence c1 c2 = Ok s /\ same_leaf_at b i s c.
  Proof.
    intros Hf Hx C1 C2 Hn1 Hn2 Hn Y. destruct (prior_closed f Hf) as (M & C & M'). destruct (divergence_at solve b i f p p1 M C C1) as (m & A & A1 & H & H1 & K & _). destruct (divergence_at solve b i f p p2 M C C2) as (m' & A' & A2 & _ & H2 & _ & _).
    assert (m' = m) by (pose proof (ap_dims _ _ _ _ _ _ A); pose proof (ap_dims _ _ _ _ _ _ A'); congruence). subst m'. pose proof (proj1 C1) as (_ & _ & _ & Hi & _).
    assert (F1 : fix_eq (EP f) m (point_of p i) (point_of p1 i)) by (apply (fix_leafc b i); try assumption; apply C1).
    assert (F2 : fix_eq (EP f) m (point_of p i) (point_of p2 i)) by (apply (fix_leafc b i); try assumption; apply C2).
    pose proof (same_var_fix b i f p p1 m Hf A F1) as V1. pose proof (same_var_fix b i f p p2 m Hf A F2) as V2.
    assert (Ok' : forall q, exp_dom f m (point_of q i) -> prior_ok f (point_of q i)) by (intros q Q; destruct f; try contradiction; cbn [exp_dom prior_ok] in *; try exact Logic.I; lra).
    destruct (prior_at' b i f p1 n1 N1 m _ Hf Hi A1 (Ok' _ H1) K Hn1) as (c1 & E1 & B1). destruct (prior_at' b i f p2 n2 N2 m _ Hf Hi A2 (Ok' _ H2) K Hn2) as (c2 & E2 & B2). destruct (prior_at' b i f p n (N1 + N2) m _ Hf Hi A (Ok' _ H) K Hn) as (c & E & B).
    destruct (comb_at b i _ _ c1 c2 _ _ Hi B1 B2) as (s & S1 & S2). exists c1, c2, c, s. do 4 (split; [assumption|]). apply (at_pt_same b i s c (NP (prior_fam f)) (prior_fam f) (prior_dims f m) (priR m (point_of p i) (N1 + N2) f)); [reflexivity| |exact B].
    apply (at_pt_eq _ _ _ _ _ _ _ S2). apply pt_intro. apply Forall_forall. intros g I j Hj.
    assert (Y' : forall g j, In g (fields (EP f)) -> fd_fixed g = false -> inb (supp_shape (fd_support g) m) j = true -> (N1 + N2) * point_of p i false (fd_name g) j = N1 * point_of p1 i false (fd_name g) j + N2 * point_of p2 i false (fd_name g) j).
    { intros h k Ih Fh Hk. destruct (ap_get _ _ _ _ _ _ h A Ih) as (v & X1 & X2 & _). rewrite <- (ap_cls _ _ _ _ _ _ A) in Ih. apply (Y h v k Ih Fh X1). now rewrite X2, skipn_app, skipn_all, Nat.sub_diag. }
    clear Y.
    set (P := point_of p i) in *. set (P1 := point_of p1 i) in *. set (P2 := point_of p2 i) in *.
    destruct f; try contradiction; try congruence; cbn [same_var exp_dom] in *; cbn [fields In prior_fam] in I; repeat (destruct I as [<-|I]); try destruct I; cbn [fd_name fd_support var fixd kind_of]; (split; [|discriminate]);
      unfold padd, priR, mkpt, re; cbn [prior_fam slook String.eqb Ascii.eqb Bool.eqb fst snd hd existsb fields fd_fixed var fixd andb orb fd_name].
    - pose proof (Y' _ [] (or_introl eq_refl) eq_refl eq_refl) as Z. cbn [fd_name var] in Z. destruct (hd 0%nat j =? 0)%nat; lra.
    - assert (Z : (N1 + N2) * sumR m (fun k => P false "probability" [k]) = N1 * sumR m (fun k => P1 false "probability" [k]) + N2 * sumR m (fun k => P2 false "probability" [k])).
      { rewrite <- !sumR_scal, <- sumR_plus. apply sumR_ext. intros k Hk. apply (Y' _ [k] (or_introl eq_refl) eq_refl). cbn [supp_shape fd_support var inb]. now rewrite (proj2 (Nat.ltb_lt k m) Hk). }
      destruct (hd 0%nat j <? m)%nat eqn:Q; [|lra]. assert (Hq : inb [m] [hd 0%nat j] = true) by (cbn [inb]; now rewrite Q). pose proof (Y' _ [hd 0%nat j] (or_introl eq_refl) eq_refl Hq) as Z'. cbn [fd_name var] in Z'. lra.
    - pose proof (Y' _ j (or_introl eq_refl) eq_refl Hj) as Z. cbn [fd_name var] in Z. rewrite V1, V2. apply (Rmult_eq_reg_r (P false "variance" [])); [|lra]. field_simplify; lra.
    - rewrite V1, V2. field. lra.
    - pose proof (Y' _ j (or_introl eq_refl) eq_refl Hj) as Z. cbn [fd_name var] in Z. lra.
    - lra.
    - pose proof (Y' _ [] (or_introl eq_refl) eq_refl eq_refl) as Z. cbn [fd_name var] in Z. lra.
    - lra.
    - lra.
    - pose proof (Y' _ [] (or_introl eq_refl) eq_refl eq_refl) as Z. cbn [fd_name var] in Z. lra.
  Qed.
End B.
