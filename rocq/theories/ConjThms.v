(** Conjugate priors (C31). *)
From Coquelicot Require Import Coquelicot.
From Coq Require Import String List Bool Arith Reals Lia Lra.
From Verif Require Import Base XReal Tensor TensorFacts Support Dist DictFacts Iteration Structure Spec SumSpec DotSpec Tools Joint SpecFun GammaFn Expr Fam ExprFacts FamTy FamFacts SearchFacts DotFacts StructThms SumFacts MapFacts
  JointThms JointThms2 DotLaws BatchFacts PointSpec PointFacts Val FamR FamVal ConvFacts LeafVal ConvThms DerivFacts MatDeriv MatHess MatBreg DerivThms DensSpec DensVal DensThms KlSpec BregFacts BregThms KlPos InjThms MleThms KlExp Conj ConjSpec.
Import ListNotations.
Local Unset Asymmetric Patterns.
Local Open Scope string_scope.
Local Open Scope R_scope.

Lemma nat_tree_leaf q f : well_formed q = true -> dcls q = NP f -> nat_tree q = true.
Proof. intros W C. destruct (leaf_inv q W) as [Q _]; [now rewrite C|]. rewrite Q, C. reflexivity. Qed.
Lemma exp_tree_leaf q f : well_formed q = true -> dcls q = EP f -> exp_tree q = true.
Proof. intros W C. destruct (leaf_inv q W) as [Q _]; [now rewrite C|]. rewrite Q, C. reflexivity. Qed.
Section T.
  Variable solve : minimizer -> dist -> nat -> xr.
  Notation L := (fam_methods solve).
  Notation G := (fam_good solve).
  Lemma ln_pt b i q f n p : inb b i = true -> at_pt b i q (NP f) n p -> nat_dom f n p -> mat f = false -> lnR n (point_of q i) f = lnR n p f.
  Proof.
    intros Hi A H M. pose proof (at_pt_pt b i q _ n p Hi A) as E. destruct (ln_at solve b i q f n p Hi A H) as (t & T1 & _ & T3).
    destruct (ln_at solve b i q f n (point_of q i) Hi (at_pt_eq _ _ _ _ _ _ _ A E) (nat_dom_pt _ _ _ _ H E)) as (u & U1 & _ & U3). rewrite T1 in U1. injection U1 as <-. rewrite T3 in U3. now injection U3.
  Qed.
  Lemma exp_pt b i q f n p : inb b i = true -> at_pt b i q (NP f) n p -> nat_dom f n p -> mat f = false -> unclipped f p -> unclipped f (point_of q i) -> pt_eq (EP f) n (expR n (point_of q i) f) (expR n p f).
  Proof.
    intros Hi A H M Up Uq. pose proof (at_pt_pt b i q _ n p Hi A) as E. destruct (exp_at solve b i q f n p Hi A H Up) as (t & T1 & T2).
    destruct (exp_at solve b i q f n (point_of q i) Hi (at_pt_eq _ _ _ _ _ _ _ A E) (nat_dom_pt _ _ _ _ H E) Uq) as (u & U1 & U2). rewrite T1 in U1. injection U1 as <-.
    eapply pt_trans; [exact (at_pt_pt _ _ _ _ _ _ Hi U2)|apply pt_sym; exact (at_pt_pt _ _ _ _ _ _ Hi T2)].
  Qed.
  Lemma natR_im f n p : closed_nat f = true -> real_im (NP f) (natR n p f).
  Proof. intros C g j I K. destruct f; try discriminate C; cbn [fields In] in I; repeat (destruct I as [<-|I]; [try discriminate K; try reflexivity|]); try destruct I. Qed.
  Lemma closed_unclipped f p : closed_nat f = true -> unclipped f p.
  Proof. destruct f; intros H; try discriminate H; exact I. Qed.
  (** the divergence of two expectation parametrizations of one family *)
  Definition klE (f : family) (n : nat) (P P1 : point) : R := lnR n (natR n P1 f) f - lnR n (natR n P f) f - dotP (NP f) (EP f) n (psub (natR n P1 f) (natR n P f)) P.
  Lemma klE_br f n P P1 : mat f = false -> closed_nat f = true -> dims_ok (EP f) n = true -> exp_dom f n P -> klE f n P P1 = brR f n (natR n P f) (natR n P1 f).
  Proof.
    intros M C D H. unfold klE, brR. f_equal. apply dot_ext_r; [|apply pt_sym, exp_nat; assumption]. apply psub_real; now apply natR_im.
  Qed.
  Lemma divergence_at b i f p p1 : mat f = false -> closed_nat f = true -> comparable b i f p p1 ->
    exists n, at_pt b i p (EP f) n (point_of p i) /\ at_pt b i p1 (EP f) n (point_of p1 i) /\ exp_dom f n (point_of p i) /\ exp_dom f n (point_of p1 i) /\ dims_ok (EP f) n = true /\
      divergence L b i p p1 (klE f n (point_of p i) (point_of p1 i)).
  Proof.
    intros M C ((Cp & Wp & Sp & Hi & Dp) & (C1 & W1 & S1 & _ & D1) & Dd & Fx). destruct (exp_dom_at b i p f Hi Cp Wp Sp Dp) as (n & A & H). destruct (exp_dom_at b i p1 f Hi C1 W1 S1 D1) as (n1 & A1 & H1).
    assert (n1 = n) by (pose proof (ap_dims _ _ _ _ _ _ A); pose proof (ap_dims _ _ _ _ _ _ A1); congruence). subst n1. exists n. do 4 (split; [assumption|]).
    assert (K : dims_ok (EP f) n = true). { destruct (leaf_dims b p Sp) as (n' & D' & K). rewrite (ap_dims _ _ _ _ _ _ A) in D'. injection D' as <-. now rewrite Cp in K. }
    split; [exact K|]. destruct (nat_at solve b i p f n _ Hi A H C) as (sn & E1 & E2). destruct (nat_at solve b i p1 f n _ Hi A1 H1 C) as (q & Q1 & Q2).
    assert (Tn : forall y t, dcls y = EP f -> l_to_nat L y = Ok t -> to_nat L y = Ok t) by (intros [c m ps subs] t' Cy Q; cbn [dcls] in Cy; subst c; exact Q).
    assert (Te : forall y t, dcls y = NP f -> l_to_exp L y = Ok t -> to_exp L y = Ok t) by (intros [c m ps subs] t' Cy Q; cbn [dcls] in Cy; subst c; exact Q).
    pose proof (nat_ok f n _ C H) as N. pose proof (nat_ok f n _ C H1) as N1.
    assert (Js : is_joint (dcls sn) = false) by now rewrite (ap_cls _ _ _ _ _ _ E2). assert (Jq : is_joint (dcls q) = false) by now rewrite (ap_cls _ _ _ _ _ _ Q2).
    assert (Sk : same_skeleton sn q) by (apply leaf_skel; [now rewrite (ap_cls _ _ _ _ _ _ E2), (ap_cls _ _ _ _ _ _ Q2)|exact Js|exact (ap_wf _ _ _ _ _ _ E2)|exact (ap_wf _ _ _ _ _ _ Q2)]).
    assert (ML : leaf_match b sn q). { unfold leaf_match. rewrite (ap_wf _ _ _ _ _ _ E2), (ap_wf _ _ _ _ _ _ Q2), (ap_shaped _ _ _ _ _ _ E2), (ap_shaped _ _ _ _ _ _ Q2), (ap_dims _ _ _ _ _ _ E2), (ap_dims _ _ _ _ _ _ Q2), (ap_cls _ _ _ _ _ _ E2), (ap_cls _ _ _ _ _ _ Q2). repeat (split; [reflexivity|]). exists f. split; reflexivity. }
    assert (Lv : leaves [] sn = [([], sn)]) by now apply leaf_leaves. assert (Lq : leaves [] q = [([], q)]) by now apply leaf_leaves. assert (Lp : leaves [] p = [([], p)]) by (apply leaf_leaves; now rewrite Cp).
    destruct (t_kl_value solve b i sn q (ap_wf _ _ _ _ _ _ E2) (ap_wf _ _ _ _ _ _ Q2)) as (_ & t & T1 & T2 & T3); auto.
    { exact (nat_tree_leaf sn f (ap_wf _ _ _ _ _ _ E2) (ap_cls _ _ _ _ _ _ E2)). }
    { now apply leaf_tm. }
    { intros pth l I. rewrite Lv in I. destruct I as [I|[]]. injection I as <- <-. now apply (at_pt_nat_dom b i sn f n (natR n (point_of p i) f)). }
    { intros pth l I. rewrite Lq in I. destruct I as [I|[]]. injection I as <- <-. now apply (at_pt_nat_dom b i q f n (natR n (point_of p1 i) f)). }
    { intros pth l I Z. rewrite Lv in I. destruct I as [I|[]]. injection I as <- <-. rewrite (ap_cls _ _ _ _ _ _ E2) in Z. injection Z as ->. discriminate C. }
    destruct (exp_at solve b i sn f n _ Hi E2 N (closed_unclipped f _ C)) as (r & R1 & R2).
    assert (Np : exp_tree p = true) by (now apply (exp_tree_leaf p f)).
    assert (Sp' : shaped b p = true). { destruct (leaf_inv p Wp) as [Q _]; [now rewrite Cp|]. rewrite Q in Sp |- *. cbn [shaped forallb]. rewrite Cp. cbn [is_joint]. rewrite Bool.andb_true_r. now rewrite Cp in Sp. }
    destruct (kl_exp_same solve b i p sn r q t Wp Np Sp' Hi (ap_wf _ _ _ _ _ _ Q2)) as (t' & T1' & T2' & T3'); auto.
    { apply Te; [exact (ap_cls _ _ _ _ _ _ E2)|exact R1]. }
    { unfold same_at. rewrite Lp, (leaf_leaves r []) by now rewrite (ap_cls _ _ _ _ _ _ R2). constructor; [|constructor]. split; [reflexivity|]. cbn [snd]. apply (at_pt_same b i p r (EP f) f n (point_of p i)); [reflexivity|exact A|].
      apply (at_pt_eq _ _ _ _ _ _ _ R2). now apply exp_nat. }
    { now apply leaf_tm. }
    exists q, t'. split; [now apply Tn|]. split; [exact T1'|]. split; [exact T2'|]. rewrite T3', T3, Lv. cbn [map rsum]. unfold kl_leaf_R. cbn [fst snd]. unfold fam_n. rewrite (ap_cls _ _ _ _ _ _ E2), (ap_dims _ _ _ _ _ _ E2).
    assert (Eq : leafat q [] = q) by reflexivity. rewrite Eq, Rplus_0_r, klE_br by assumption. f_equal. unfold brR. rewrite (ln_pt b i q f n _ Hi Q2 N1 M), (ln_pt b i sn f n _ Hi E2 N M). f_equal.
    etransitivity; [apply dot_ext_r; [apply psub_real; eapply real_im_at; eassumption|apply (exp_pt b i sn f n _ Hi E2 N M); now apply closed_unclipped]|].
    apply dotP_pt.
    - apply pt_intro. apply Forall_forall. intros g I j Hj. pose proof (at_pt_pt _ _ _ _ _ _ Hi Q2) as X1. pose proof (at_pt_pt _ _ _ _ _ _ Hi E2) as X2. unfold psub.
      rewrite (pt_re _ _ _ _ g j X1 I Hj), (pt_re _ _ _ _ g j X2 I Hj). split; [reflexivity|]. intros K'. now rewrite (pt_im _ _ _ _ g j X1 I K' Hj), (pt_im _ _ _ _ g j X2 I K' Hj).
    - intros g j I K'. apply filter_In in I as [I _]. unfold psub. rewrite (real_im_at b i q _ _ _ Q2 g j I K'), (real_im_at b i sn _ _ _ E2 g j I K'), (natR_im f n (point_of p1 i) C g j I K'), (natR_im f n (point_of p i) C g j I K'). reflexivity.
  Qed.
End T.

(** ** the parameters of the priors *)
Definition prior_fam (f : family) : family := match f with Bernoulli => Beta | Exponential | Poisson => Gamma | Multinomial => Dirichlet | UnitNormal => Normal | _ => IsotropicNormal end.
Definition prior_dims (f : family) (n : nat) : nat := match f with Bernoulli => 2%nat | Multinomial => (n + 1)%nat | _ => n end.
Definition prior_l (f : family) : list arg := match prior_args f with Some (_, l) => l | None => [] end.
Definition obs_name (f : family) : string := match f with Bernoulli | Multinomial => "probability" | _ => "mean" end.
Definition pobs (f : family) (P : point) : obs := fun c j => if c then 0 else P false (obs_name f) j.
Definition priR (n : nat) (P : point) (N : R) (f : family) : point :=
  let s nm := P false nm [] in let v nm k := P false nm [k] in
  match f with
  | Bernoulli => mkpt [("alpha_minus_one", re (fun j => N * (if (hd 0 j =? 0)%nat then s "probability" else 1 - s "probability")))]
  | Exponential => mkpt [("negative_rate", re (fun _ => - N / s "mean")); ("shape_minus_one", re (fun _ => N))]
  | Poisson => mkpt [("negative_rate", re (fun _ => - N)); ("shape_minus_one", re (fun _ => N * s "mean"))]
  | Multinomial => mkpt [("alpha_minus_one", re (fun j => N * (if (hd 0 j <? n)%nat then v "probability" (hd 0%nat j) else 1 - sumR n (v "probability"))))]
  | UnitNormal => mkpt [("mean_times_precision", re (fun _ => N * s "mean")); ("negative_half_precision", re (fun _ => -1 / 2 * N))]
  | MultivariateUnitNormal => mkpt [("mean_times_precision", re (fun j => N * P false "mean" j)); ("negative_half_precision", re (fun _ => -1 / 2 * N))]
  | MultivariateFixedVarianceNormal => mkpt [("mean_times_precision", re (fun j => N / s "variance" * P false "mean" j)); ("negative_half_precision", re (fun _ => -1 / 2 * (N / s "variance")))]
  | _ => mkpt []
  end.
Definition pn (P : point) (N : R) : point := fun c nm j => if String.eqb nm "n" then (if c then 0 else N) else P c nm j.
Ltac pns := cbv beta iota zeta delta [pn]; cbn [String.eqb Ascii.eqb Bool.eqb].
Lemma prior_val f n P N : has_prior f -> dims_ok (EP f) n = true -> (dimensions_field (EP f) = None -> n = 1%nat) -> exp_dom f n P -> 0 < N ->
  args_at (("n", (KR, [])) :: ctx_of (EP f) n) (pn P N) (priR n P N f) (prior_l f) (ctx_of (NP (prior_fam f)) (prior_dims f n)).
Proof.
  intros Hf D D1 H HN. destruct f; try contradiction; cbn [exp_dom] in H; cbn [dims_ok] in D; unfold args_at, prior_l, ctx_of; cbn [map fields prior_args prior_fam prior_dims fd_name fd_support var supp_ring supp_shape]; change NN with (self "n"); argv.
  all: try (vx; jj; pns; try reflexivity; try lra; fail).
  all: cbn [fd_name fd_support var supp_shape].
  - eapply VR_ext; [eapply VR_mul; [eapply (VR_newaxis _ _ _ []); vr|eapply VR_stack; vr|alt_]|]. intros j Hj. destruct (inb1 _ _ Hj) as (k & -> & Hk). pns. mk. unfold priR, mkpt, re. cbn [slook String.eqb Ascii.eqb Bool.eqb fst snd hd]. reflexivity.
  - assert (Y : VR (("n", (KR, [])) :: ctx_of (EP Multinomial) n) (pn P N) (jappend (self "probability") (#1 - jsum_keep (self "probability"))%ae) (Ev [(n + 1)%nat])
       (fun j => if (hd 0 j <? n)%nat then P false "probability" [hd 0%nat j] else 1 - sumR n (fun k => P false "probability" [k]))).
    { eapply VR_ext; [eapply VR_append; vr|]. intros j Hj. destruct (inb1 _ _ Hj) as (k & -> & Hk). pns. reflexivity. }
    eapply VR_ext; [eapply VR_mul; [eapply (VR_newaxis _ _ _ []); vr|exact Y|alt_]|]. intros j Hj. destruct (inb1 _ _ Hj) as (k & -> & Hk). pns. reflexivity.
  - eapply VR_ext; [eapply VR_mul; [vr|eapply VR_add; [vr|eapply (VR_zeros _ _ 1 _ [_]); [eapply VR_self; reflexivity|cbn; lia]|alt_]|alt_]|]. intros j Hj. apply inb0 in Hj. subst j. pns. unfold priR, mkpt, re. cbn [slook String.eqb Ascii.eqb Bool.eqb fst snd hd]. ring.
Qed.
Lemma prior_dom f n P N : has_prior f -> dims_ok (EP f) n = true -> exp_dom f n P -> (f = MultivariateUnitNormal \/ f = MultivariateFixedVarianceNormal -> (1 <= n)%nat) -> 0 < N -> nat_dom (prior_fam f) (prior_dims f n) (priR n P N f).
Proof.
  intros Hf D H Hn HN. destruct f; try contradiction; cbn [exp_dom] in H; cbn [dims_ok] in D; cbn [nat_dom prior_fam prior_dims]; unfold priR, mkpt, re; cbn [slook String.eqb Ascii.eqb Bool.eqb fst snd hd].
  - split; [lia|]. intros k K. destruct (k =? 0)%nat; nra.
  - split; [|lra]. unfold Rdiv. pose proof (Rinv_0_lt_compat _ H). nra.
  - apply Nat.leb_le in D. split; [lia|]. destruct H as [H1 H2]. intros k K. destruct (Nat.ltb_spec k n) as [Q|Q]; [specialize (H1 k Q)|]; nra.
  - split; [apply Hn; auto|]. pose proof (Rdiv_lt_0_compat _ _ HN H). lra.
  - split; [apply Hn; auto|]. lra.
  - lra.
  - split; nra.
Qed.

Lemma pobs_space f n P : has_prior f -> exp_dom f n P -> sample_space (prior_fam f) (prior_dims f n) (pobs f P).
Proof.
  intros Hf H. destruct f; try contradiction; cbn [exp_dom prior_fam prior_dims sample_space pobs obs_name] in *; try exact Logic.I; try assumption.
  replace (n + 1 - 1)%nat with n by lia. assumption.
Qed.
Section P.
  Variable solve : minimizer -> dist -> nat -> xr.
  Notation L := (fam_methods solve).
  Lemma prior_at b i f p n N m : has_prior f -> inb b i = true -> at_pt b i p (EP f) m (point_of p i) -> exp_dom f m (point_of p i) -> dims_ok (EP f) m = true -> pseudo_observations b i n N -> 0 < N ->
    exists c, conjugate_prior_distribution p n = Ok c /\ at_pt b i c (NP (prior_fam f)) (prior_dims f m) (priR m (point_of p i) N f).
  Proof.
    intros Hf Hi A H K (t & -> & St & Vt) HN. pose proof A as [C W S D V]. set (P := point_of p i) in *.
    assert (St' : shp t = (b ++ [])%list) by now rewrite app_nil_r.
    pose proof (env_cons b _ _ "n" KR [] t (leaf_env _ _ _ S D) St') as HE. rewrite C in HE. cbn [pack] in HE.
    assert (V' : vals_eq (("n", (KR, [])) :: ctx_of (EP f) m) (vals_of (("n", RA t) :: dparams p) i) (pvals (pn P N))).
    { intros nm k s j X Hj. unfold vals_of. cbn [dget] in X |- *. destruct (keq nm "n") as [->|Nm].
      - injection X as <- <-. cbn [get_kind pvals]. apply inb0 in Hj. subst j. rewrite app_nil_r. etransitivity; [exact Vt|reflexivity].
      - specialize (V nm k s j X Hj). unfold vals_of in V. rewrite V. unfold pvals, pn. destruct k; (destruct (String.eqb_spec nm "n"); [contradiction|reflexivity]). }
    assert (D1 : dimensions_field (EP f) = None -> m = 1%nat) by (intros X; rewrite <- C in X; exact (dims_none _ _ D X)).
    destruct (make_at b _ _ _ (NP (prior_fam f)) (prior_dims f m) i _ _ HE Hi V' (prior_val f m P N Hf K D1 H HN) eq_refl) as (q & E1 & E2 & E3 & E4 & E5 & E6 & E7).
    { destruct f; try contradiction; cbn; try discriminate; auto. }
    { destruct f; try contradiction; cbn [dims_ok prior_fam prior_dims] in *; try reflexivity. apply Nat.leb_le in K. apply Nat.leb_le. lia. }
    exists q. split; [|apply (at_pt_eq _ _ _ _ _ (point_of q i)); [now apply at_pt_self|exact E7]].
    unfold conjugate_prior_distribution, prior_of. rewrite C. unfold prior_l in E1. destruct f; try contradiction; exact E1.
  Qed.
  Lemma prior_obs b i f p m g c pc : has_prior f -> inb b i = true -> at_pt b i p (EP f) m (point_of p i) -> dims_ok (EP f) m = true -> g = prior_fam f -> at_pt b i c (NP g) (prior_dims f m) pc ->
    exists x, conjugate_prior_observation p = Ok x /\ observed b i c x (pobs f (point_of p i)).
  Proof.
    intros Hf Hi A K -> Ac. pose proof A as [C W S D V].
    assert (X : exists h s, In h (fields (EP f)) /\ fd_name h = obs_name f /\ kind_of (fd_support h) = KR /\ domain_support (NP (prior_fam f)) = Some s /\ kind_of s = KR /\ supp_shape s (prior_dims f m) = supp_shape (fd_support h) m /\
       (forall x, dget (dparams p) (obs_name f) = Some x -> conjugate_prior_observation p = Ok x)).
    { unfold conjugate_prior_observation. rewrite C. destruct f; try contradiction; cbn [prior_fam prior_dims obs_name domain_support fields] in *;
        (eexists; eexists; split; [left; reflexivity|]; cbn [fd_name fd_support]; split; [reflexivity|]; split; [reflexivity|]; split; [reflexivity|]; split; [reflexivity|]; split; [cbn [supp_shape]; try reflexivity|intros x ->; reflexivity]).
      change ([(m + 1 - 1)%nat] = [m]). f_equal. lia. }
    destruct X as (h & s & I & N & Kh & Ds & Ks & Ss & Xo). destruct (ap_get b i p (EP f) m _ h A I) as (v & G1 & G2 & G3). rewrite N in G1. rewrite Kh in G3. cbn [pack get_kind] in G3. exists v. split; [now apply Xo|].
    assert (E : forall j, inb (supp_shape (fd_support h) m) j = true -> entry_c v (i ++ j)%list = XC (Fin (point_of p i false (obs_name f) j)) (Fin 0)).
    { intros j Hj. pose proof (fields_in_ctx _ m h I) as Cx. rewrite Kh, N in Cx. pose proof (V _ _ _ j Cx Hj) as Y. unfold vals_of in Y. rewrite G1 in Y. destruct v as [t|t]; [|discriminate G3]. cbn [get_kind pvals] in Y. unfold entry_c. unfold cofr. f_equal. etransitivity; [exact Y|reflexivity]. }
    split.
    - exists (prior_dims f m), s. rewrite (ap_cls _ _ _ _ _ _ Ac). split; [exact (ap_dims _ _ _ _ _ _ Ac)|]. split; [exact Ds|]. split; [now rewrite Ss|]. destruct v; [|discriminate G3]. destruct s as [r|r|r|r b1 b2 b3|r|r]; try discriminate Ks; cbn in Ks; try (destruct r; try discriminate Ks); reflexivity.
    - intros n' s' j Dn Ds' Hj. rewrite (ap_dims _ _ _ _ _ _ Ac) in Dn. injection Dn as <-. rewrite (ap_cls _ _ _ _ _ _ Ac), Ds in Ds'. injection Ds' as <-. rewrite Ss in Hj. now apply E.
  Qed.
End P.

(** the divergences of the families with conjugate priors, in closed form *)
Definition klV (n : nat) (P Q : point) (f : family) : R :=
  let s nm := P false nm [] in let v nm k := P false nm [k] in let s' nm := Q false nm [] in let v' nm k := Q false nm [k] in
  match f with
  | Bernoulli => s "probability" * (ln (s "probability") - ln (s' "probability")) + (1 - s "probability") * (ln (1 - s "probability") - ln (1 - s' "probability"))
  | Exponential => s "mean" / s' "mean" - 1 - ln (s "mean") + ln (s' "mean")
  | Poisson => s' "mean" - s "mean" + s "mean" * (ln (s "mean") - ln (s' "mean"))
  | Multinomial => sumR n (fun k => v "probability" k * (ln (v "probability" k) - ln (v' "probability" k)))
      + (1 - sumR n (v "probability")) * (ln (1 - sumR n (v "probability")) - ln (1 - sumR n (v' "probability")))
  | UnitNormal => (s "mean" - s' "mean") * (s "mean" - s' "mean") / 2
  | MultivariateUnitNormal => sumR n (fun k => (v "mean" k - v' "mean" k) * (v "mean" k - v' "mean" k) / 2)
  | MultivariateFixedVarianceNormal => sumR n (fun k => (v "mean" k - v' "mean" k) * (v "mean" k - v' "mean" k) / (2 * s "variance"))
  | _ => 0
  end.
Lemma exp_ln_div a b : 0 < a -> 0 < b -> exp (ln (a / b)) = a / b.
Proof. intros A B. apply exp_ln. now apply Rdiv_lt_0_compat. Qed.
Lemma sum_odds n g z : 0 < z -> (forall k, (k < n)%nat -> 0 < g k) -> z = 1 - sumR n g -> ln (1 + sumR n (fun k => exp (ln (g k / z)))) = - ln z.
Proof.
  intros Z G E. rewrite (sumR_ext n _ (fun k => / z * g k)). 2:{ intros k K. rewrite exp_ln_div by auto. unfold Rdiv. ring. }
  rewrite sumR_scal. replace (1 + / z * sumR n g) with (/ z) by (rewrite E; field; lra). now apply ln_Rinv.
Qed.
Ltac kls := unfold klE, klV; dots; cbv beta iota zeta delta [lnR sumsq psub]; mk; rewrite ?Rplus_0_r, ?Rmult_0_r, ?Rminus_0_r.
Lemma klE_V f n P Q : has_prior f -> exp_dom f n P -> exp_dom f n Q -> fix_eq (EP f) n P Q -> klE f n P Q = klV n P Q f.
Proof.
  intros Hf H H' F. destruct f; try contradiction; cbn [exp_dom] in H, H'; kls.
  - rewrite exp_0, !exp_ln_div by lra. replace (Q false "probability" [] / (1 - Q false "probability" []) + 1) with (/ (1 - Q false "probability" [])) by (field; lra).
    replace (P false "probability" [] / (1 - P false "probability" []) + 1) with (/ (1 - P false "probability" [])) by (field; lra). rewrite !ln_Rinv, !ln_div by lra. ring.
  - unfold Rdiv. replace (- (-1 * / P false "mean" [])) with (/ P false "mean" []) by ring. replace (- (-1 * / Q false "mean" [])) with (/ Q false "mean" []) by ring. rewrite !ln_Rinv by lra. field. lra.
  - destruct H as [H1 H2], H' as [H1' H2']. rewrite (sum_odds n (fun k => Q false "probability" [k])), (sum_odds n (fun k => P false "probability" [k])); try assumption; try reflexivity; try lra.
    set (zq := 1 - sumR n (fun k => Q false "probability" [k])) in *. set (zp := 1 - sumR n (fun k => P false "probability" [k])) in *. set (pp := fun k => P false "probability" [k]) in *. set (qq := fun k => Q false "probability" [k]) in *.
    assert (Zp : 0 < zp) by (unfold zp; fold pp; lra). assert (Zq : 0 < zq) by (unfold zq; fold qq; lra).
    rewrite (sumR_ext n _ (fun k => (ln zp - ln zq) * pp k + -1 * (pp k * (ln (pp k) - ln (qq k))))).
    2:{ intros k K. unfold pp, qq. rewrite (ln_div (Q false "probability" [k]) zq), (ln_div (P false "probability" [k]) zp) by (try assumption; first [apply H1; assumption | apply H1'; assumption]). ring. }
    rewrite sumR_plus, !sumR_scal. assert (Es : sumR n pp = 1 - zp) by (unfold zp, pp; ring). rewrite Es. set (S0 := sumR n (fun k => pp k * (ln (pp k) - ln (qq k)))).
    change (- ln zq - - ln zp - ((ln zp - ln zq) * (1 - zp) + -1 * S0) = S0 + zp * (ln zp - ln zq)). ring.
  - assert (E : Q false "variance" [] = P false "variance" []).
    { apply Forall_inv_tail, Forall_inv in F. destruct (F eq_refl [] eq_refl) as [F' _]. symmetry. exact F'. }
    rewrite E. set (w := P false "variance" []) in *.
    rewrite (sumR_ext n (fun k => Q false "mean" [k] / w * (Q false "mean" [k] / w)) (fun k => / w * / w * (Q false "mean" [k] * Q false "mean" [k]))) by (intros; field; lra).
    rewrite (sumR_ext n (fun k => P false "mean" [k] / w * (P false "mean" [k] / w)) (fun k => / w * / w * (P false "mean" [k] * P false "mean" [k]))) by (intros; field; lra).
    rewrite (sumR_ext n (fun k => (Q false "mean" [k] / w - P false "mean" [k] / w) * P false "mean" [k] - 0 * P true "mean" [k]) (fun k => / w * (Q false "mean" [k] * P false "mean" [k]) - / w * (P false "mean" [k] * P false "mean" [k]))) by (intros; field; lra).
    rewrite (sumR_ext n (fun k => (P false "mean" [k] - Q false "mean" [k]) * (P false "mean" [k] - Q false "mean" [k]) / (2 * w)) (fun k => / (2 * w) * (P false "mean" [k] * P false "mean" [k]) + / (2 * w) * (Q false "mean" [k] * Q false "mean" [k]) - / w * (Q false "mean" [k] * P false "mean" [k]))) by (intros; field; lra).
    rewrite !sumR_minus, !sumR_plus, !sumR_scal. field. lra.
  - rewrite (sumR_ext n (fun k => (Q false "mean" [k] - P false "mean" [k]) * P false "mean" [k] - 0 * P true "mean" [k]) (fun k => Q false "mean" [k] * P false "mean" [k] - P false "mean" [k] * P false "mean" [k])) by (intros; ring).
    rewrite (sumR_ext n (fun k => (P false "mean" [k] - Q false "mean" [k]) * (P false "mean" [k] - Q false "mean" [k]) / 2) (fun k => / 2 * (P false "mean" [k] * P false "mean" [k]) + / 2 * (Q false "mean" [k] * Q false "mean" [k]) - Q false "mean" [k] * P false "mean" [k])) by (intros; field).
    rewrite !sumR_minus, !sumR_plus, !sumR_scal. field.
  - field.
  - rewrite !exp_ln by assumption. ring.
Qed.
Lemma lp_diff a b c : a - c + 0 - (b - c + 0) = a - b. Proof. ring. Qed.
Lemma quad_diff n w (m a b : nat -> R) : w <> 0 ->
  sumR n (fun k => w * m k * a k - 0 * 0) + (-1 / 2 * w * sumR n (fun k => a k * a k) - 0 * 0 + 0 + 0) - (sumR n (fun k => w * m k * b k - 0 * 0) + (-1 / 2 * w * sumR n (fun k => b k * b k) - 0 * 0 + 0 + 0))
  = w / 2 * (sumR n (fun k => (m k - b k) * (m k - b k)) - sumR n (fun k => (m k - a k) * (m k - a k))).
Proof. intros W. induction n as [|n IH]; [rewrite !sumR_0; field|]. rewrite !sumR_S. revert IH. generalize (sumR n (fun k => w * m k * a k - 0 * 0)) (sumR n (fun k => w * m k * b k - 0 * 0)). intros x y. nra. Qed.
Lemma sumR_div n g c : c <> 0 -> sumR n (fun k => g k / c) = sumR n g / c.
Proof. intros C. unfold Rdiv. rewrite Rmult_comm, <- sumR_scal. apply sumR_ext. intros. ring. Qed.
Lemma prior_alg f n P P1 P2 N : has_prior f -> f <> Exponential -> dims_ok (EP f) n = true -> exp_dom f n P -> exp_dom f n P1 -> exp_dom f n P2 -> 0 < N ->
  lpR (prior_dims f n) (priR n P N f) (pobs f P1) (prior_fam f) - lpR (prior_dims f n) (priR n P N f) (pobs f P2) (prior_fam f) = N * (klV n P P2 f - klV n P P1 f).
Proof.
  intros Hf Hx K H H1 H2 HN. destruct f; try contradiction; try congruence; cbn [exp_dom dims_ok] in *; cbn [prior_dims prior_fam]; unfold klV, priR, pobs; cbn [obs_name]; lps; mk; rewrite lp_diff.
  - rewrite !sumR_S, !sumR_0. cbn [Nat.eqb]. unfold Rminus. ring.
  - replace (n + 1 - 1)%nat with n by lia. replace (n + 1)%nat with (Datatypes.S n) by lia. rewrite !sumR_S, Nat.ltb_irrefl.
    assert (X : forall g, sumR n (fun k => N * (if (k <? n)%nat then P false "probability" [k] else 1 - sumR n (fun k => P false "probability" [k])) * (if (k <? n)%nat then ln (g k) else ln (1 - sumR n g)) - 0 * 0) = N * sumR n (fun k => P false "probability" [k] * ln (g k))).
    { intros g. rewrite <- sumR_scal. apply sumR_ext. intros k Hk. rewrite (proj2 (Nat.ltb_lt k n) Hk). ring. }
    rewrite (X (fun k => P1 false "probability" [k])), (X (fun k => P2 false "probability" [k])).
    assert (Y : forall g : nat -> R, sumR n (fun k => P false "probability" [k] * (ln (P false "probability" [k]) - ln (g k))) = sumR n (fun k => P false "probability" [k] * ln (P false "probability" [k])) - sumR n (fun k => P false "probability" [k] * ln (g k))).
    { intros g. rewrite <- sumR_minus. apply sumR_ext. intros k Hk. ring. }
    rewrite (Y (fun k => P1 false "probability" [k])), (Y (fun k => P2 false "probability" [k])). ring.
  - assert (W : N / P false "variance" [] <> 0) by (apply Rgt_not_eq, Rdiv_lt_0_compat; assumption).
    rewrite (quad_diff n (N / P false "variance" []) (fun k => P false "mean" [k]) (fun k => P1 false "mean" [k]) (fun k => P2 false "mean" [k]) W), !sumR_div by lra. field. lra.
  - rewrite (quad_diff n N (fun k => P false "mean" [k]) (fun k => P1 false "mean" [k]) (fun k => P2 false "mean" [k])), !sumR_div by lra. field.
  - field.
  - ring.
Qed.

Lemma same_at_ptc b i q r c n : inb b i = true -> at_pt b i q c n (point_of q i) -> at_pt b i r c n (point_of r i) -> same_leaf_at b i q r -> pt_eq c n (point_of q i) (point_of r i).
Proof.
  intros Hi A B (C & M & E). apply pt_intro. apply Forall_forall. intros g I j Hj.
  destruct (ap_get _ _ _ _ _ _ g A I) as (x & X1 & X2 & _). destruct (ap_get _ _ _ _ _ _ g B I) as (y & Y1 & Y2 & _).
  assert (I' : In g (fields (dcls q))) by (rewrite (ap_cls _ _ _ _ _ _ A); exact I). specialize (E g x y j I' X1 Y1). rewrite X2, skipn_app, skipn_all, Nat.sub_diag in E. specialize (E Hj).
  unfold point_of. rewrite X1, Y1, E. auto.
Qed.
Lemma fix_leafc b i l l' c n : inb b i = true -> at_pt b i l c n (point_of l i) -> at_pt b i l' c n (point_of l' i) -> same_fixed_leaf_at b i l l' -> fix_eq c n (point_of l i) (point_of l' i).
Proof.
  intros Hi A B X. apply Forall_forall. intros g I Fg j Hj. destruct (ap_get _ _ _ _ _ _ g A I) as (x & X1 & X2 & _). destruct (ap_get _ _ _ _ _ _ g B I) as (y & Y1 & Y2 & _).
  assert (I' : In g (fields (dcls l))) by (rewrite (ap_cls _ _ _ _ _ _ A); exact I). specialize (X g x y j I' Fg X1 Y1). rewrite X2, skipn_app, skipn_all, Nat.sub_diag in X. specialize (X Hj).
  unfold point_of. rewrite X1, Y1, X. auto.
Qed.
Lemma prior_closed f : has_prior f -> mat f = false /\ closed_nat f = true /\ mat (prior_fam f) = false.
Proof. destruct f; try contradiction; repeat split. Qed.
Lemma prior_real f n P N : has_prior f -> real_im (NP (prior_fam f)) (priR n P N f).
Proof. intros Hf g j I K. destruct f; try contradiction; cbn [fields In prior_fam] in I; repeat (destruct I as [<-|I]; [reflexivity|]); destruct I. Qed.
(** the log density of the prior uses the parameters only through their values *)
Section V.
  Variable solve : minimizer -> dist -> nat -> xr.
  Notation L := (fam_methods solve).
  Lemma prior_lp b i f c n pc x : has_prior f -> inb b i = true -> at_pt b i c (NP (prior_fam f)) n pc -> nat_dom (prior_fam f) n pc -> real_im (NP (prior_fam f)) pc ->
    lpR n (point_of c i) x (prior_fam f) = lpR n pc x (prior_fam f).
  Proof.
    intros Hf Hi A H Ri. destruct (prior_closed f Hf) as (_ & _ & M). unfold lpR. rewrite (ln_pt solve b i c _ n pc Hi A H M). f_equal; [f_equal|].
    - assert (E : ssR n (point_of c i) x (prior_fam f) = ssR n pc x (prior_fam f)) by (destruct f; try contradiction; reflexivity). rewrite E. apply dotP_pt; [apply pt_sym; exact (at_pt_pt _ _ _ _ _ _ Hi A)|].
      intros g j I K. apply filter_In in I as [I _]. rewrite (Ri g j I K). exact (im_real b i c _ n pc g j A I K).
    - destruct f; try contradiction; reflexivity.
  Qed.
  (** the prior of p, its log densities at the observations of p1 and the divergences *)
  Lemma conj_vals b i f p n N : has_prior f -> pseudo_observations b i n N -> 0 < N -> (f = MultivariateUnitNormal \/ f = MultivariateFixedVarianceNormal -> dims_of p <> Ok 0%nat) -> proper_e b i f p ->
    exists m c, dims_of p = Ok m /\ conjugate_prior_distribution p n = Ok c /\ proper b i (prior_fam f) c /\ at_pt b i p (EP f) m (point_of p i) /\ exp_dom f m (point_of p i) /\ dims_ok (EP f) m = true /\
      forall p1, comparable b i f p p1 -> exists x1, conjugate_prior_observation p1 = Ok x1 /\ log_density L b i c x1 (lpR (prior_dims f m) (priR m (point_of p i) N f) (pobs f (point_of p1 i)) (prior_fam f)) /\
        divergence L b i p p1 (klV m (point_of p i) (point_of p1 i) f) /\ at_pt b i p1 (EP f) m (point_of p1 i) /\ exp_dom f m (point_of p1 i) /\ fix_eq (EP f) m (point_of p i) (point_of p1 i).
  Proof.
    intros Hf Hn HN Dz Pp. destruct (prior_closed f Hf) as (M & C & M').
    assert (Cs : comparable b i f p p). { split; [exact Pp|]. split; [exact Pp|]. split; [reflexivity|]. intros g v w j _ _ V W. congruence. }
    destruct (divergence_at solve b i f p p M C Cs) as (m & A & _ & H & _ & K & _). pose proof Pp as (_ & _ & _ & Hi & _).
    destruct (prior_at b i f p n N m Hf Hi A H K Hn HN) as (c & Ec & Ac).
    assert (Hc : nat_dom (prior_fam f) (prior_dims f m) (priR m (point_of p i) N f)).
    { apply prior_dom; try assumption. intros E. specialize (Dz E). rewrite (ap_dims _ _ _ _ _ _ A) in Dz. destruct m; [congruence|lia]. }
    assert (Pc : proper b i (prior_fam f) c).
    { split; [exact (ap_cls _ _ _ _ _ _ Ac)|]. split; [exact (ap_wf _ _ _ _ _ _ Ac)|]. split; [exact (ap_shaped _ _ _ _ _ _ Ac)|]. split; [exact Hi|]. exact (at_pt_nat_dom b i c _ _ _ Hi Ac Hc). }
    exists m, c. split; [exact (ap_dims _ _ _ _ _ _ A)|]. do 5 (split; [assumption|]). intros p1 Cp. destruct (divergence_at solve b i f p p1 M C Cp) as (m' & A' & A1 & _ & H1 & _ & Dv).
    assert (m' = m) by (pose proof (ap_dims _ _ _ _ _ _ A); pose proof (ap_dims _ _ _ _ _ _ A'); congruence). subst m'.
    assert (Fx : fix_eq (EP f) m (point_of p i) (point_of p1 i)) by (apply (fix_leafc b i); try assumption; apply Cp).
    destruct (prior_obs b i f p1 m (prior_fam f) c _ Hf Hi A1 K eq_refl Ac) as (x1 & X1 & O1). exists x1. split; [exact X1|].
    rewrite <- (prior_lp b i f c _ _ _ Hf Hi Ac Hc (prior_real _ _ _ _ Hf)), <- (klE_V f m _ _ Hf H H1 Fx).
    split; [|auto]. apply log_density_at; try assumption; [exact (ap_dims _ _ _ _ _ _ Ac)|]. now apply pobs_space.
  Qed.
  Lemma klV_self f n P : has_prior f -> exp_dom f n P -> klV n P P f = 0.
  Proof.
    intros Hf H. destruct f; try contradiction; cbn [exp_dom] in H; unfold klV; try (field; lra).
    - rewrite Rminus_eq_0, (sumR_zero n); [ring|]. intros. rewrite Rminus_eq_0. ring.
    - apply sumR_zero. intros. field. lra.
    - apply sumR_zero. intros. field.
  Qed.
  Lemma klV_pt f n P Q : has_prior f -> exp_dom f n P -> pt_eq (EP f) n P Q -> klV n P Q f = 0.
  Proof.
    intros Hf H E. destruct f; try contradiction; cbn [exp_dom] in H; pts E; unp; unfold klV; try rewrite <- Q0; try (field; lra).
    - rewrite <- (sumR_ext n _ _ Q0), Rminus_eq_0, (sumR_zero n); [ring|]. intros k Hk. rewrite <- Q0 by exact Hk. ring.
    - apply sumR_zero. intros k Hk. match goal with X : forall k, (k < n)%nat -> _ |- _ => rewrite <- X by exact Hk end. field. lra.
    - apply sumR_zero. intros k Hk. rewrite <- Q0 by exact Hk. field.
  Qed.
  Lemma klV_pos b i f n p p1 : has_prior f -> inb b i = true -> at_pt b i p (EP f) n (point_of p i) -> at_pt b i p1 (EP f) n (point_of p1 i) -> exp_dom f n (point_of p i) -> exp_dom f n (point_of p1 i) -> dims_ok (EP f) n = true ->
    fix_eq (EP f) n (point_of p i) (point_of p1 i) -> pt_eq (EP f) n (point_of p i) (point_of p1 i) \/ 0 < klV n (point_of p i) (point_of p1 i) f.
  Proof.
    intros Hf Hi A A1 H H1 K Fx. destruct (prior_closed f Hf) as (M & C & _). set (P := point_of p i) in *. set (P1 := point_of p1 i) in *.
    assert (Fn : fix_eq (NP f) n (natR n P f) (natR n P1 f)).
    { destruct f; try contradiction; apply Forall_forall; cbn [fields In]; intros g Ig Z; repeat (destruct Ig as [<-|Ig]; [try discriminate Z|]); try destruct Ig. intros j Hj. apply Forall_inv_tail, Forall_inv in Fx. apply inb0 in Hj. subst j. split; [exact (proj1 (Fx eq_refl [] eq_refl))|discriminate]. }
    rewrite <- (klE_V f n P P1 Hf H H1 Fx), (klE_br f n P P1 M C K H). pose proof (nat_ok f n P C H) as N. pose proof (nat_ok f n P1 C H1) as N1. destruct (br_pos f n _ _ N N1 Fn) as [E|]; [left|now right].
    destruct (nat_at solve b i p f n _ Hi A H C) as (q & _ & Q). pose proof (at_pt_eq _ _ _ _ _ _ _ Q E) as Q'.
    eapply pt_trans; [apply pt_sym, exp_nat; eassumption|]. eapply pt_trans; [|apply exp_nat; eassumption]. eapply pt_trans; [apply pt_sym|]; apply (exp_pt solve b i q f n); try assumption; now apply closed_unclipped.
  Qed.
  Theorem t_conj b i f p p1 p2 n N : has_prior f -> f <> Exponential -> pseudo_observations b i n N -> 0 < N -> (f = MultivariateUnitNormal \/ f = MultivariateFixedVarianceNormal -> dims_of p <> Ok 0%nat) ->
    comparable b i f p p1 -> comparable b i f p p2 ->
    exists g c x1 x2 d1 d2 k1 k2, conjugate_prior_distribution p n = Ok c /\ proper b i g c /\ conjugate_prior_observation p1 = Ok x1 /\ conjugate_prior_observation p2 = Ok x2 /\
      log_density L b i c x1 d1 /\ log_density L b i c x2 d2 /\ divergence L b i p p1 k1 /\ divergence L b i p p2 k2 /\ d1 - d2 = N * (k2 - k1).
  Proof.
    intros Hf Hx Hn HN Dz C1 C2. destruct (conj_vals b i f p n N Hf Hn HN Dz (proj1 C1)) as (m & c & Dm & Ec & Pc & A & H & K & V). destruct (V p1 C1) as (x1 & X1 & L1 & D1 & A1 & H1 & F1). destruct (V p2 C2) as (x2 & X2 & L2 & D2 & A2 & H2 & F2).
    exists (prior_fam f), c, x1, x2. do 4 eexists. do 4 (split; [eassumption|]). do 4 (split; [eassumption|]). now apply prior_alg.
  Qed.
  Lemma exp_prior_alg n P P1 P2 N : exp_dom Exponential n P -> exp_dom Exponential n P1 -> exp_dom Exponential n P2 -> 0 < N ->
    lpR n (priR n P N Exponential) (pobs Exponential P1) Gamma - lpR n (priR n P N Exponential) (pobs Exponential P2) Gamma = N * (klV n P2 P Exponential - klV n P1 P Exponential).
  Proof. intros H H1 H2 HN. cbn [exp_dom] in *. unfold klV, priR, pobs; cbn [obs_name]; lps; mk. rewrite lp_diff. field. lra. Qed.
  Theorem t_conj_mode b i f p p1 n N : has_prior f -> pseudo_observations b i n N -> 0 < N -> (f = MultivariateUnitNormal \/ f = MultivariateFixedVarianceNormal -> dims_of p <> Ok 0%nat) -> comparable b i f p p1 ->
    exists g c x x1 d d1, conjugate_prior_distribution p n = Ok c /\ proper b i g c /\ conjugate_prior_observation p = Ok x /\ conjugate_prior_observation p1 = Ok x1 /\
      log_density L b i c x d /\ log_density L b i c x1 d1 /\ d1 <= d /\ (d1 = d <-> same_leaf_at b i p p1).
  Proof.
    intros Hf Hn HN Dz C1. pose proof C1 as (Pp & _). destruct (conj_vals b i f p n N Hf Hn HN Dz Pp) as (m & c & Dm & Ec & Pc & A & H & K & V). destruct (V p1 C1) as (x1 & X1 & L1 & D1 & A1 & H1 & F1).
    assert (Cs : comparable b i f p p). { split; [exact Pp|]. split; [exact Pp|]. split; [reflexivity|]. intros g v w j _ _ V1 W1. congruence. }
    destruct (V p Cs) as (x & X & Lx & D & _ & _ & F). pose proof Pp as (_ & _ & _ & Hi & _).
    exists (prior_fam f), c, x, x1. do 2 eexists. do 4 (split; [eassumption|]). do 2 (split; [eassumption|]).
    set (d1 := lpR _ _ (pobs f (point_of p1 i)) _). set (d := lpR _ _ (pobs f (point_of p i)) _).
    assert (Dd : exists k, d - d1 = N * k /\ (pt_eq (EP f) m (point_of p i) (point_of p1 i) /\ k = 0 \/ ~ pt_eq (EP f) m (point_of p i) (point_of p1 i) /\ 0 < k)).
    { assert (Dec : {f = Exponential} + {f <> Exponential}) by (destruct f; first [now left | right; discriminate]). destruct Dec as [->|Hx].
      - eexists. split; [exact (exp_prior_alg m _ _ _ N H H H1 HN)|]. rewrite klV_self, Rminus_0_r by assumption. destruct (klV_pos b i Exponential m p1 p Hf Hi A1 A H1 H K (fix_sym _ _ _ _ F1)) as [E|E].
        + left. split; [now apply pt_sym|]. apply klV_pt; assumption.
        + right. split; [|exact E]. intros Z. rewrite (klV_pt Exponential m _ _ Hf H1 (pt_sym _ _ _ _ Z)) in E. lra.
      - eexists. split; [exact (prior_alg f m _ _ _ N Hf Hx K H H H1 HN)|]. rewrite klV_self, Rminus_0_r by assumption. destruct (klV_pos b i f m p p1 Hf Hi A A1 H H1 K F1) as [E|E].
        + left. split; [exact E|]. now apply klV_pt.
        + right. split; [|exact E]. intros Z. rewrite (klV_pt f m _ _ Hf H Z) in E. lra. }
    destruct Dd as (k & Dk & Dp).
    assert (Sm : pt_eq (EP f) m (point_of p i) (point_of p1 i) -> same_leaf_at b i p p1).
    { intros E. apply (at_pt_same b i p p1 (EP f) f m (point_of p i)); [reflexivity|exact A|]. apply (at_pt_eq _ _ _ _ _ _ _ A1). now apply pt_sym. }
    split; [destruct Dp as [[_ ->]|[_ E]]; nra|]. split.
    - intros E. destruct Dp as [[E' _]|[_ E']]; [now apply Sm|nra].
    - intros S. destruct Dp as [[_ ->]|[E' _]]; [lra|]. exfalso. apply E'. now apply (same_at_ptc b i).
  Qed.
End V.

(** ** generalized conjugate priors *)
Definition has_gen (f : family) : Prop := f = MultivariateUnitNormal \/ f = MultivariateFixedVarianceNormal.
Definition gvar (f : family) (P : point) : R := match f with MultivariateFixedVarianceNormal => P false "variance" [] | _ => 1 end.
Definition genR (P : point) (N : nat -> R) (f : family) : point :=
  mkpt [("mean_times_precision", re (fun j => N (hd 0%nat j) / gvar f P * P false "mean" j)); ("negative_half_precision", re (fun j => -1 / 2 * (N (hd 0%nat j) / gvar f P)))].
Definition gen_l (f : family) : list arg := match gen_prior_args f with Some (_, l) => l | None => [] end.
Definition pnv (P : point) (N : nat -> R) : point := fun c nm j => if String.eqb nm "n" then (if c then 0 else N (hd 0%nat j)) else P c nm j.
Ltac pnvs := cbv beta iota zeta delta [pnv]; cbn [String.eqb Ascii.eqb Bool.eqb].
Lemma gen_val f m P N : has_gen f -> exp_dom f m P ->
  args_at (("n", (KR, [m])) :: ctx_of (EP f) m) (pnv P N) (genR P N f) (gen_l f) (ctx_of (NP MultivariateDiagonalNormal) m).
Proof.
  intros [-> | ->] H; cbn [exp_dom] in H; unfold args_at, gen_l, ctx_of; cbn [map fields gen_prior_args fd_name fd_support var supp_ring supp_shape]; change NN with (self "n"); argv; cbn [fd_name fd_support var supp_shape].
  - eapply VR_ext; [eapply VR_mul; [vr|vr|alt_]|]. intros j Hj. destruct (inb1 _ _ Hj) as (k & -> & Hk). pnvs. unfold genR, mkpt, re, gvar. cbn [slook String.eqb Ascii.eqb Bool.eqb fst snd hd]. field.
  - eapply VR_ext; [eapply VR_mul; [vr|vr|alt_]|]. intros j Hj. destruct (inb1 _ _ Hj) as (k & -> & Hk). pnvs. unfold genR, mkpt, re, gvar. cbn [slook String.eqb Ascii.eqb Bool.eqb fst snd hd]. field.
  - eapply VR_ext; [eapply VR_mul; [eapply VR_div; [vr|eapply (VR_newaxis _ _ _ []); vr|alt_|]|vr|alt_]|]; [intros j Hj; destruct (inb1 _ _ Hj) as (k & -> & Hk); pnvs; cbn [hd removelast]; lra|]. intros j Hj. destruct (inb1 _ _ Hj) as (k & -> & Hk). pnvs. unfold genR, mkpt, re, gvar. cbn [slook String.eqb Ascii.eqb Bool.eqb fst snd hd]. reflexivity.
  - eapply VR_ext; [eapply VR_mul; [vr|eapply VR_div; [vr|eapply (VR_newaxis _ _ _ []); vr|alt_|]|alt_]|]; [intros j Hj; destruct (inb1 _ _ Hj) as (k & -> & Hk); pnvs; cbn [hd removelast]; lra|]. intros j Hj. destruct (inb1 _ _ Hj) as (k & -> & Hk). pnvs. unfold genR, mkpt, re, gvar. cbn [slook String.eqb Ascii.eqb Bool.eqb fst snd hd]. reflexivity.
Qed.
Section G.
  Variable solve : minimizer -> dist -> nat -> xr.
  Notation L := (fam_methods solve).
  Lemma gen_at b i f p n N m : has_gen f -> inb b i = true -> at_pt b i p (EP f) m (point_of p i) -> exp_dom f m (point_of p i) -> pseudo_observations_v b i m n N ->
    exists c, generalized_conjugate_prior_distribution p n = Ok c /\ at_pt b i c (NP MultivariateDiagonalNormal) m (genR (point_of p i) N f).
  Proof.
    intros Hf Hi A H (t & -> & St & Vt). pose proof A as [C W S D V]. set (P := point_of p i) in *.
    pose proof (env_cons b _ _ "n" KR [m] t (leaf_env _ _ _ S D) St) as HE. rewrite C in HE. cbn [pack] in HE.
    assert (V' : vals_eq (("n", (KR, [m])) :: ctx_of (EP f) m) (vals_of (("n", RA t) :: dparams p) i) (pvals (pnv P N))).
    { intros nm k s j X Hj. unfold vals_of. cbn [dget] in X |- *. destruct (keq nm "n") as [->|Nm].
      - injection X as <- <-. cbn [get_kind pvals]. destruct (inb1 _ _ Hj) as (k & -> & Hk). etransitivity; [exact (Vt k Hk)|reflexivity].
      - specialize (V nm k s j X Hj). unfold vals_of in V. rewrite V. unfold pvals, pnv. destruct k; (destruct (String.eqb_spec nm "n"); [contradiction|reflexivity]). }
    destruct (make_at b _ _ _ (NP MultivariateDiagonalNormal) m i _ _ HE Hi V' (gen_val f m P N Hf H) eq_refl) as (q & E1 & E2 & E3 & E4 & E5 & E6 & E7); [discriminate|reflexivity|].
    exists q. split; [|apply (at_pt_eq _ _ _ _ _ (point_of q i)); [now apply at_pt_self|exact E7]].
    unfold generalized_conjugate_prior_distribution, prior_of. rewrite C. unfold gen_l in E1. destruct Hf as [-> | ->]; exact E1.
  Qed.
  Lemma gen_obs b i f p m c pc : has_gen f -> at_pt b i p (EP f) m (point_of p i) -> at_pt b i c (NP MultivariateDiagonalNormal) m pc ->
    exists x, conjugate_prior_observation p = Ok x /\ observed b i c x (pobs f (point_of p i)).
  Proof.
    intros Hf A Ac. pose proof A as [C W S D V].
    assert (X : exists h, In h (fields (EP f)) /\ h = var "mean" (VectorS real_field)) by (destruct Hf as [-> | ->]; eexists; (split; [left; reflexivity|reflexivity])). destruct X as (h & I & Eh).
    assert (On : obs_name f = "mean") by (destruct Hf as [-> | ->]; reflexivity).
    destruct (ap_get b i p (EP f) m _ h A I) as (v & G1 & G2 & G3). subst h. cbn [fd_name fd_support var supp_shape kind_of] in *. exists v. split.
    { unfold conjugate_prior_observation. rewrite C. destruct Hf as [-> | ->]; rewrite G1; reflexivity. }
    assert (E : forall j, inb [m] j = true -> entry_c v (i ++ j)%list = XC (Fin (point_of p i false (obs_name f) j)) (Fin 0)).
    { intros j Hj. pose proof (fields_in_ctx _ m _ I) as Cx. cbn [fd_name fd_support var kind_of supp_shape] in Cx. pose proof (V _ _ _ j Cx Hj) as Y. unfold vals_of in Y. rewrite G1 in Y. destruct v as [t|t]; [|discriminate G3].
      rewrite On. unfold entry_c, cofr. f_equal. etransitivity; [exact Y|reflexivity]. }
    split.
    - exists m, (VectorS real_field). rewrite (ap_cls _ _ _ _ _ _ Ac). split; [exact (ap_dims _ _ _ _ _ _ Ac)|]. split; [reflexivity|]. split; [exact G2|]. destruct v; [reflexivity|discriminate G3].
    - intros n' s' j Dn Ds' Hj. rewrite (ap_dims _ _ _ _ _ _ Ac) in Dn. injection Dn as <-. rewrite (ap_cls _ _ _ _ _ _ Ac) in Ds'. injection Ds' as <-. now apply E.
  Qed.
  Lemma gen_alg f m P N (x y : nat -> R) : 0 < gvar f P -> (forall k, (k < m)%nat -> 0 < N k) ->
    let ob (z : nat -> R) : obs := fun c j => if c then 0 else z (hd 0%nat j) in
    lpR m (genR P N f) (ob x) MultivariateDiagonalNormal - lpR m (genR P N f) (ob y) MultivariateDiagonalNormal =
      sumR m (fun k => N k * (normal_kl (gvar f P) (P false "mean" [k]) (y k) - normal_kl (gvar f P) (P false "mean" [k]) (x k))).
  Proof.
    intros G HN ob. unfold genR, ob, normal_kl. lps; mk. rewrite lp_diff. clear -G.
    induction m as [|m IH]; [rewrite !sumR_0; ring|]. rewrite !sumR_S. rewrite <- IH. cbn [hd]. field. lra.
  Qed.
  Theorem t_gen b i f p p1 p2 n N m : has_gen f -> dims_of p = Ok m -> pseudo_observations_v b i m n N -> (forall k, (k < m)%nat -> 0 < N k) -> comparable b i f p p1 -> comparable b i f p p2 ->
    exists c x1 x2 d1 d2, generalized_conjugate_prior_distribution p n = Ok c /\ proper b i MultivariateDiagonalNormal c /\ conjugate_prior_observation p1 = Ok x1 /\ conjugate_prior_observation p2 = Ok x2 /\
      log_density L b i c x1 d1 /\ log_density L b i c x2 d2 /\
      d1 - d2 = sumR m (fun k => N k * (normal_kl (gvar f (point_of p i)) (par p i "mean" [k]) (par p2 i "mean" [k]) - normal_kl (gvar f (point_of p i)) (par p i "mean" [k]) (par p1 i "mean" [k]))).
  Proof.
    intros Hf Dm Hn HN C1 C2. assert (Cl : mat f = false /\ closed_nat f = true) by (destruct Hf as [-> | ->]; auto). destruct Cl as [M C].
    destruct (divergence_at solve b i f p p1 M C C1) as (m1 & A & A1 & H & H1 & K & _). assert (m1 = m) by (pose proof (ap_dims _ _ _ _ _ _ A); congruence). subst m1.
    destruct (divergence_at solve b i f p p2 M C C2) as (m2 & A' & A2 & _ & H2 & _ & _). assert (m2 = m) by (pose proof (ap_dims _ _ _ _ _ _ A'); congruence). subst m2.
    assert (Hi : inb b i = true) by apply C1. destruct (gen_at b i f p n N m Hf Hi A H Hn) as (c & Ec & Ac).
    assert (G : 0 < gvar f (point_of p i)) by (destruct Hf as [-> | ->]; cbn [gvar exp_dom] in *; lra).
    assert (Hc : nat_dom MultivariateDiagonalNormal m (genR (point_of p i) N f)).
    { cbn [nat_dom]. intros k Hk. unfold genR, mkpt, re. cbn [slook String.eqb Ascii.eqb Bool.eqb fst snd hd]. pose proof (Rdiv_lt_0_compat _ _ (HN k Hk) G). lra. }
    assert (Pc : proper b i MultivariateDiagonalNormal c).
    { split; [exact (ap_cls _ _ _ _ _ _ Ac)|]. split; [exact (ap_wf _ _ _ _ _ _ Ac)|]. split; [exact (ap_shaped _ _ _ _ _ _ Ac)|]. split; [exact Hi|]. exact (at_pt_nat_dom b i c MultivariateDiagonalNormal _ _ Hi Ac Hc). }
    destruct (gen_obs b i f p1 m c _ Hf A1 Ac) as (x1 & X1 & O1). destruct (gen_obs b i f p2 m c _ Hf A2 Ac) as (x2 & X2 & O2).
    exists c, x1, x2. do 2 eexists. do 4 (split; [eassumption|]). split; [exact (log_density_at solve b i MultivariateDiagonalNormal c m x1 _ Pc (ap_dims _ _ _ _ _ _ Ac) O1 Logic.I)|]. split; [exact (log_density_at solve b i MultivariateDiagonalNormal c m x2 _ Pc (ap_dims _ _ _ _ _ _ Ac) O2 Logic.I)|].
    assert (Lp : forall x, lpR m (point_of c i) x MultivariateDiagonalNormal = lpR m (genR (point_of p i) N f) x MultivariateDiagonalNormal).
    { intros x. unfold lpR. rewrite (ln_pt solve b i c MultivariateDiagonalNormal m _ Hi Ac Hc eq_refl). f_equal. f_equal. apply dotP_pt; [apply pt_sym; exact (at_pt_pt _ _ _ _ _ _ Hi Ac)|].
      intros g j I Kg. apply filter_In in I as [I _]. rewrite (im_real b i c _ m _ g j Ac I Kg). cbn [fields In] in I. repeat (destruct I as [<-|I]; [reflexivity|]). destruct I. }
    rewrite !Lp.
    assert (Ox : forall q, obs_name f = "mean" -> lpR m (genR (point_of p i) N f) (pobs f (point_of q i)) MultivariateDiagonalNormal = lpR m (genR (point_of p i) N f) (fun c j => if c then 0 else par q i "mean" [hd 0%nat j]) MultivariateDiagonalNormal).
    { intros q On. unfold pobs, par. rewrite On. lps; mk. reflexivity. }
    rewrite !Ox by (destruct Hf as [-> | ->]; reflexivity). exact (gen_alg f m (point_of p i) N (fun k => par p1 i "mean" [k]) (fun k => par p2 i "mean" [k]) G HN).
  Qed.
End G.

(** ** the generalized prior of a multinomial distribution *)
Lemma all_p_ok b p m n : dcls p = EP Multinomial -> leaf_shaped b p = true -> dims_of p = Ok m ->
  exists t, eval (("n", n) :: dparams p) (jappend (self "probability") (#1 - jsum_keep (self "probability"))%ae) = Ok t /\ shp t = (b ++ [m + 1]%nat)%list.
Proof.
  intros C S D. pose proof (leaf_env _ _ _ S D) as HE. rewrite C in HE.
  assert (HE' : env_ok b (ctx_of (EP Multinomial) m) (("n", n) :: dparams p)).
  { intros nm k s E. destruct (HE nm k s E) as (t & T1 & T2). exists t. split; [|exact T2]. cbn [dget]. destruct (keq nm "n") as [->|]; [|exact T1]. exfalso. cbn in E. discriminate E. }
  assert (Y : VR (ctx_of (EP Multinomial) m) (fun _ _ _ => 0) (jappend (self "probability") (#1 - jsum_keep (self "probability"))%ae) (Ev [(m + 1)%nat])
       (fun j => if (hd 0 j <? m)%nat then 0 else 1 - sumR m (fun k => 0))).
  { eapply VR_ext; [eapply VR_append; vr|]. intros j Hj. destruct (inb1 _ _ Hj) as (k & -> & Hk). reflexivity. }
  destruct Y as (d & T & _). destruct (ty_sound b _ _ HE' _ _ _ _ T) as (t & E & H & _). exists t. split; [exact E|exact H].
Qed.
Lemma brev_last_none m n a c : m <> n -> m <> 1%nat -> n <> 1%nat -> brev (m :: a) (n :: c) = None.
Proof. intros H1 H2 H3. cbn [brev]. destruct (brev a c); [|reflexivity]. apply Nat.eqb_neq in H1, H2, H3. now rewrite H1, H2, H3. Qed.
Theorem t_gen_multinomial b p m t : dcls p = EP Multinomial -> leaf_shaped b p = true -> dims_of p = Ok m -> (2 <= m)%nat -> shp t = (b ++ [m])%list ->
  generalized_conjugate_prior_distribution p (RA t) = Err BroadcastError.
Proof.
  intros C S D M St. destruct (all_p_ok b p m (RA t) C S D) as (u & U1 & U2). unfold generalized_conjugate_prior_distribution, prior_of. rewrite C. cbn [gen_prior_args].
  set (e := jappend _ _) in *. unfold make, evals. cbn [mapM]. unfold ra at 1.
  assert (X : eval (("n", RA t) :: dparams p) (NN * e)%ae = Err BroadcastError).
  { unfold emul, NN. cbn [eval dget]. destruct (keq "n" "n") as [_|Z]; [|congruence]. cbn [opt_err bind get_kind as_real]. rewrite U1. cbn [bind]. unfold tmap2. change (elt KR) with xr in *. rewrite St, U2. unfold bshape. rewrite !rev_app_distr. cbn [rev app].
    rewrite brev_last_none by lia. reflexivity. }
  unfold esub at 1. cbn [eval]. rewrite X. reflexivity.
Qed.

Section X.
  Variable solve : minimizer -> dist -> nat -> xr.
  Notation L := (fam_methods solve).
  Theorem t_gen_mode b i f p p1 n N m : has_gen f -> dims_of p = Ok m -> pseudo_observations_v b i m n N -> (forall k, (k < m)%nat -> 0 < N k) -> comparable b i f p p1 ->
    exists c x x1 d d1, generalized_conjugate_prior_distribution p n = Ok c /\ proper b i MultivariateDiagonalNormal c /\ conjugate_prior_observation p = Ok x /\ conjugate_prior_observation p1 = Ok x1 /\
      log_density L b i c x d /\ log_density L b i c x1 d1 /\ d1 <= d.
  Proof.
    intros Hf Dm Hn HN C1. pose proof C1 as (Pp & _).
    assert (Cs : comparable b i f p p). { split; [exact Pp|]. split; [exact Pp|]. split; [reflexivity|]. intros g v w j _ _ V1 W1. congruence. }
    destruct (t_gen solve b i f p p p1 n N m Hf Dm Hn HN Cs C1) as (c & x & x1 & d & d1 & E1 & E2 & E3 & E4 & E5 & E6 & E7). exists c, x, x1, d, d1. do 6 (split; [assumption|]).
    assert (G : 0 < gvar f (point_of p i)).
    { destruct Pp as (Cp & Wp & Sp & Hi & Dp). destruct (exp_dom_at b i p f Hi Cp Wp Sp Dp) as (n' & _ & H). destruct Hf as [-> | ->]; cbn [gvar exp_dom] in *; lra. }
    enough (0 <= d - d1) by lra. rewrite E7. apply sumR_nonneg. intros k K. unfold normal_kl. specialize (HN k K). rewrite Rminus_eq_0, Rmult_0_r. unfold Rdiv at 2. rewrite Rmult_0_l, Rminus_0_r.
    apply Rmult_le_pos; [lra|]. apply Rmult_le_pos; [apply Rle_0_sqr|]. left. apply Rinv_0_lt_compat. lra.
  Qed.
  Theorem t_conj_exp b i p p1 p2 n N : pseudo_observations b i n N -> 0 < N -> comparable b i Exponential p p1 -> comparable b i Exponential p p2 ->
    exists c x1 x2 d1 d2 k1 k2, conjugate_prior_distribution p n = Ok c /\ proper b i Gamma c /\ conjugate_prior_observation p1 = Ok x1 /\ conjugate_prior_observation p2 = Ok x2 /\
      log_density L b i c x1 d1 /\ log_density L b i c x2 d2 /\ divergence L b i p1 p k1 /\ divergence L b i p2 p k2 /\ d1 - d2 = N * (k2 - k1).
  Proof.
    intros Hn HN C1 C2. assert (Sy : forall q, comparable b i Exponential p q -> comparable b i Exponential q p).
    { intros q (A & B & D & _). split; [exact B|]. split; [exact A|]. split; [now symmetry|]. intros g v w j I F. exfalso. destruct B as [Cq _]. rewrite Cq in I. destruct I as [<-|[]]. discriminate F. }
    destruct (conj_vals solve b i Exponential p n N Logic.I Hn HN ltac:(intros [Z|Z]; discriminate Z) (proj1 C1)) as (m & c & Dm & Ec & Pc & A & H & K & V). destruct (V p1 C1) as (x1 & X1 & L1 & D1 & A1 & H1 & F1). destruct (V p2 C2) as (x2 & X2 & L2 & D2 & A2 & H2 & F2).
    assert (Dv : forall q, comparable b i Exponential p q -> exp_dom Exponential m (point_of q i) -> divergence L b i q p (klV m (point_of q i) (point_of p i) Exponential)).
    { intros q Cq Hq. destruct (divergence_at solve b i Exponential q p eq_refl eq_refl (Sy q Cq)) as (m' & B1 & B2 & B3 & B4 & B5 & B6). assert (m' = m) by (pose proof (ap_dims _ _ _ _ _ _ B2); congruence). subst m'.
      rewrite <- (klE_V Exponential m _ _ Logic.I B3 B4); [exact B6|]. repeat (constructor; try (intros Z; discriminate Z)). }
    exists c, x1, x2. do 4 eexists. do 6 (split; [eassumption|]). split; [exact (Dv p1 C1 H1)|]. split; [exact (Dv p2 C2 H2)|]. exact (exp_prior_alg m _ _ _ N H H1 H2 HN).
  Qed.
End X.
