(** Values of carrier_measure, sufficient_statistics and log_pdf at one batch element. *)
From Coquelicot Require Import Coquelicot.
From Coq Require Import String List Bool Arith Reals Lia Lra.
From Verif Require Import Base XReal Tensor TensorFacts TensorFacts2 Support Dist DictFacts Iteration Structure Spec StructFacts AssembleFacts SumSpec DotSpec Tools
  ToolThms Joint StructThms MapFacts LogPdfThms SpecFun GammaFn Expr Fam ExprFacts FamTy FamFacts SearchFacts DotFacts DotLaws BatchFacts PointSpec PointFacts Val FamR FamVal ConvFacts LeafVal DerivFacts DerivThms DensSpec MatVal.
Import ListNotations.
Local Unset Asymmetric Patterns.
Local Open Scope string_scope.
Local Open Scope R_scope.

(** the parameters and the observation, as one point *)
Definition px (p : point) (x : obs) : point := fun c nm j => if String.eqb nm "x" then x c j else p c nm j.
Section R.
  Variables (n : nat) (p : point) (x : obs).
  Let s (nm : string) := p false nm [].
  Let x0 := x false [].
  Definition nbcmR (r : R) : R := lngamma (x0 + r - 1 + 1) - lngamma (x0 + 1) - lngamma (x0 + r - 1 - x0 + 1).
  Definition cmR (f : family) : R :=
    match f with
    | Chi => ln (2 * x0) - x0 * x0 * (1 / 2)
    | ChiSquare => - x0 * (1 / 2)
    | ComplexMultivariateUnitNormal => - sumR n (fun k => csq_abs (x false [k], x true [k]))
    | ComplexUnitNormal => - csq_abs (x false [], x true [])
    | Geometric => nbcmR 1
    | NegativeBinomial => nbcmR (s "failures")
    | Logarithmic => - ln x0
    | MultivariateFixedVarianceNormal => -1 / 2 * sumR n (fun k => x false [k] * x false [k]) / s "variance"
    | MultivariateUnitNormal => -1 / 2 * sumR n (fun k => x false [k] * x false [k])
    | UnitNormal => -1 / 2 * (x0 * x0)
    | Poisson => - lngamma (x0 + 1)
    | Rayleigh => ln x0 + ln 2
    | Weibull => (s "concentration" - 1) * ln x0
    | _ => 0
    end.
  Definition ssR (f : family) : point :=
    match f with
    | Bernoulli | Multinomial => mkpt [("probability", re (x false))]
    | Beta => mkpt [("mean_log_probability", re (fun j => if (hd 0 j =? 0)%nat then ln x0 else ln (1 + - x0)))]
    | Chi => mkpt [("mean_log", re (fun _ => ln (x0 * x0)))]
    | ChiSquare => mkpt [("mean_log", re (fun _ => ln x0))]
    | ComplexCircularlySymmetricNormal => mkpt [("variance", cx (fun j => Cmult (x false [nth 0 j 0%nat], x true [nth 0 j 0%nat]) (Cconj (x false [nth 1 j 0%nat], x true [nth 1 j 0%nat]))))]
    | ComplexMultivariateUnitNormal | ComplexUnitNormal => mkpt [("mean", cx (fun j => (x false j, x true j)))]
    | ComplexNormal => mkpt [("mean", cx (fun j => (x false j, x true j))); ("second_moment", re (fun j => csq_abs (x false j, x true j)));
                             ("pseudo_second_moment", cx (fun j => Cmult (x false j, x true j) (x false j, x true j)))]
    | Dirichlet => mkpt [("mean_log_probability", re (fun j => if (hd 0 j <? n - 1)%nat then ln (x false [hd 0%nat j]) else ln (1 - sumR (n - 1) (fun k => x false [k]))))]
    | Exponential | Geometric | Poisson | MultivariateUnitNormal | UnitNormal | VonMisesFisher => mkpt [("mean", re (x false))]
    | Gamma => mkpt [("mean", re (x false)); ("mean_log", re (fun _ => ln x0))]
    | GeneralizedDirichlet => mkpt [("mean_log_probability", re (fun j => ln (x false j)));
                                    ("mean_log_cumulative_probability", re (fun j => ln (1 + - sumR (S (hd 0%nat j)) (fun k => x false [k]))))]
    | Logarithmic => mkpt [("chi", re (x false))]
    | MultivariateNormal => mkpt [("mean", re (x false)); ("second_moment", re (fun j => x false [nth 0 j 0%nat] * x false [nth 1 j 0%nat]))]
    | MultivariateDiagonalNormal | Normal => mkpt [("mean", re (x false)); ("second_moment", re (fun j => x false j * x false j))]
    | MultivariateFixedVarianceNormal => mkpt [("mean", re (x false)); ("variance", fun c => p c "variance")]
    | IsotropicNormal => mkpt [("mean", re (x false)); ("total_second_moment", re (fun _ => sumR n (fun k => x false [k] * x false [k])))]
    | NegativeBinomial => mkpt [("mean", re (x false)); ("failures", fun c => p c "failures")]
    | Rayleigh => mkpt [("chi", re (fun _ => x0 * x0))]
    | Weibull => mkpt [("concentration", fun c => p c "concentration"); ("chi", re (fun _ => Rpower x0 (s "concentration")))]
    end.
End R.
Ltac pxs := cbv beta iota zeta delta [px]; cbn [String.eqb Ascii.eqb Bool.eqb].
Lemma INR_pos1 k : 0 < INR k + 1. Proof. pose proof (pos_INR k). lra. Qed.
Lemma cm_val f n p x : dims_ok (NP f) n = true -> nat_dom f n p -> sample_space f n x ->
  VR (obs_ctx (NP f) n ++ ctx_of (NP f) n)%list (px p x) (cm_e f) (Ev []) (fun _ => cmR n p x f).
Proof.
  intros D H Hx. destruct f; cbn [cm_e]; cbn [nat_dom] in H; cbn [sample_space] in Hx; cbn [dims_ok] in D; unfold nb_cm.
  all: try (eapply (VR_zeros _ _ 0 _ []); [first [eapply VR_self; reflexivity | eapply VC_self; reflexivity]|cbn; lia]; fail).
  all: try (eapply (VR_zeros _ _ 1 _ [_]); [first [eapply VR_self; reflexivity | eapply VC_self; reflexivity]|cbn; lia]; fail).
  all: vx; jj; pxs; try reflexivity; try lra.
  all: try (destruct Hx as (k & ->)).
  all: try (pose proof (INR_pos1 k); lra).
  all: try (rewrite S_INR; pose proof (INR_pos1 k); lra).
  all: try (destruct H as (_ & m & ->); rewrite S_INR; pose proof (pos_INR m); pose proof (pos_INR k); lra).
Qed.
Lemma cum_lt1 n (h : nat -> R) k : (forall m, (m < n)%nat -> 0 < h m) -> sumR n h < 1 -> (k < n)%nat -> sumR (S k) h < 1.
Proof.
  intros P H K. eapply Rle_lt_trans; [|exact H]. replace n with (S k + (n - S k))%nat by lia. assert (L : forall c, (S k + c <= n)%nat -> sumR (S k) h <= sumR (S k + c) h).
  { induction c as [|c IH]; [rewrite Nat.add_0_r; lra|]. intros Hc. rewrite Nat.add_succ_r, (sumR_S (S k + c)%nat). specialize (IH ltac:(lia)). specialize (P (S k + c)%nat ltac:(lia)). lra. }
  apply L. lia.
Qed.
Lemma ss_val f n p x : dims_ok (NP f) n = true -> nat_dom f n p -> sample_space f n x ->
  args_at (obs_ctx (NP f) n ++ fixed_ctx (NP f) n)%list (px p x) (ssR n p x f) (ss_args f) (ctx_of (EP f) n).
Proof.
  intros D H Hx. destruct f; cbn [nat_dom] in H; cbn [sample_space] in Hx; cbn [dims_ok] in D; unfold args_at, ss_args, ctx_of; cbn [map fields]; argv.
  all: try (vx; jj; pxs; try reflexivity; try lra; fail).
  all: try (vcx; jj; pxs; try reflexivity; try lra; fail).
  - apply Nat.eqb_eq in D. subst n. destruct Hx as [H1 H2]. eapply VR_ext; [eapply VR_stack; vr|]; try (jj; pxs; lra). intros j Hj. destruct (inb1 _ _ Hj) as (k & -> & Hk). pxs. reflexivity.
  - vx; jj; pxs; [pose proof (Rmult_lt_0_compat _ _ Hx Hx); lra|reflexivity].
  - eapply VC_ext; [eapply VC_couter; vr|]. intros j Hj. destruct (inb2 _ _ _ Hj) as (a & b & -> & Ha & Hb). pxs. reflexivity.
  - destruct Hx as [H1 H2]. destruct H as [N _]. cbn [fd_name fd_support var supp_shape].
    assert (X : VR (obs_ctx (NP Dirichlet) n ++ fixed_ctx (NP Dirichlet) n)%list (px p x) (jappend (jlog X) (jlog (#1 - jsum_keep X))%ae) (Ev [(n - 1 + 1)%nat])
       (fun j => if (hd 0 j <? n - 1)%nat then ln (px p x false "x" [hd 0%nat j]) else ln (1 - sumR (n - 1) (fun k => px p x false "x" [k])))).
    { eapply VR_ext; [eapply VR_append; vr|]; try (jj; pxs; try lra; now apply H1). }
    replace (n - 1 + 1)%nat with n in X by lia. eapply VR_ext; [exact X|]. intros j Hj. destruct (inb1 _ _ Hj) as (k & -> & Hk). pxs. reflexivity.
  - destruct Hx as [H1 H2]. vx; jj; pxs; [now apply H1|reflexivity].
  - destruct Hx as [H1 H2]. eapply VR_ext; [eapply VR_log1p; [eapply VR_neg; eapply VR_cumsum; vr|]|]; jj; pxs; [|reflexivity].
    pose proof (cum_lt1 n (fun m => x false [m]) k H1 H2 Hk). lra.
  - eapply VR_ext; [eapply VR_outer; vr|]. intros j Hj. destruct (inb2 _ _ _ Hj) as (a & b & -> & Ha & Hb). pxs. reflexivity.
  - eapply VR_ext; [eapply VR_broadcast; [vr|eexists; eapply T_var; reflexivity]|]. jj. pxs. reflexivity.
  - eapply VR_ext; [eapply VR_broadcast; [vr|eexists; eapply T_var; reflexivity]|]. jj. pxs. reflexivity.
Qed.

Lemma fixed_get q f : In f (fields (dcls q)) -> fd_fixed f = true -> dget (fixed_params q) (fd_name f) = dget (dparams q) (fd_name f).
Proof.
  unfold fixed_params, own_list, fixed_ok. pose proof (nodup_fields (dcls q)) as N. revert N. induction (fields (dcls q)) as [|g l IH]; [intros _ []|]. intros N I Ff. inversion N as [|? ? N1 N2]; subst.
  cbn [filter]. destruct I as [->|I].
  - rewrite Ff. cbn [Bool.eqb flat_map]. destruct (dget (dparams q) (fd_name f)) as [a|] eqn:E; cbn [app map dget fst snd].
    + destruct (keq (fd_name f) (fd_name f)) as [_|X]; [reflexivity|now destruct X].
    + apply dget_None. intros X. apply in_map_iff in X as ([m v] & E1 & X). cbn in E1. subst m. apply in_map_iff in X as ([m [v' s]] & E2 & X). cbn in E2. injection E2 as E3 E4.
      apply in_flat_map in X as (g & Hg & X). apply filter_In in Hg as [Hg _]. destruct (dget (dparams q) (fd_name g)) as [a|]; [|destruct X]. destruct X as [X|[]]. injection X as X1 X2 X3.
      apply N1. replace (fd_name f) with (fd_name g) by congruence. now apply in_map.
  - specialize (IH N2 I Ff). assert (Ne : fd_name f <> fd_name g) by (intros X; apply N1; rewrite <- X; now apply in_map). destruct (Bool.eqb (fd_fixed g) true) eqn:B; cbn [flat_map]; [|exact IH].
    destruct (dget (dparams q) (fd_name g)) as [a|]; cbn [app map dget fst snd]; [|exact IH]. destruct (keq (fd_name f) (fd_name g)); [contradiction|exact IH].
Qed.

Lemma dget_app {V} (a c : dict string V) m : dget (a ++ c)%list m = match dget a m with Some v => Some v | None => dget c m end.
Proof. induction a as [|[k v] a IH]; [reflexivity|]. cbn [app dget]. destruct (keq m k); [reflexivity|exact IH]. Qed.
Lemma obs_vals b i q x xv n G env p : inb b i = true -> observed b i q x xv -> dims_of q = Ok n -> vals_eq G (vals_of env i) (pvals p) ->
  vals_eq (obs_ctx (dcls q) n ++ G)%list (vals_of (("x", x) :: env) i) (pvals (px p xv)).
Proof.
  intros Hi [Ho Hx] D V m k s j E Hj. destruct Ho as (n' & sp & D' & Ds & Sx & Kx). assert (n' = n) by congruence. subst n'. unfold obs_ctx in E. rewrite Ds in E. cbn [app dget] in E.
  unfold vals_of. cbn [dget]. destruct (keq m "x") as [->|N].
  - injection E as <- <-. specialize (Hx n sp j D Ds Hj). unfold kind_ok, kind_of in *. unfold pvals, px. cbn [String.eqb Ascii.eqb Bool.eqb]. destruct (supp_ring sp), x as [t|t]; try discriminate; cbn [get_kind]; cbn [entry_c] in Hx; try exact Hx; now injection Hx.
  - specialize (V m k s j E Hj). unfold vals_of in V. rewrite V. unfold pvals, px. destruct k; (destruct (String.eqb_spec m "x"); [contradiction|reflexivity]).
Qed.
Lemma fixed_vals b i q c n p : at_pt b i q c n p -> is_joint c = false -> vals_eq (fixed_ctx c n) (vals_of (fixed_params q) i) (pvals p).
Proof.
  intros [C W S D V] J m k s j E Hj. subst c. assert (X : exists g, In g (fields (dcls q)) /\ fd_fixed g = true /\ fd_name g = m /\ k = kind_of (fd_support g) /\ s = supp_shape (fd_support g) n).
  { unfold fixed_ctx in E. apply dget_In in E. apply in_map_iff in E as (g & Eg & Ig). apply filter_In in Ig as [I1 I2]. unfold fd_ctx in Eg. injection Eg as <- <- <-. exists g. auto. }
  destruct X as (g & Ig & Fg & <- & -> & ->). unfold vals_of. rewrite (fixed_get q g Ig Fg). apply (V (fd_name g) _ (supp_shape (fd_support g) n) j); [|exact Hj]. now apply fields_in_ctx.
Qed.

Section D.
  Variable solve : minimizer -> dist -> nat -> xr.
  Let L := fam_methods solve.
  Lemma pt_dims b i q f n p : at_pt b i q (NP f) n p -> dims_ok (NP f) n = true /\ env_ok b (ctx_of (NP f) n) (dparams q) /\ (dimensions_field (NP f) = None -> n = 1%nat).
  Proof. intros [C W S D V]. destruct (leaf_setup b q f _ W C eq_refl eq_refl S) as (n' & D' & K & HE & D1). assert (n' = n) by congruence. subst n'. auto. Qed.
  Lemma cm_at b i q f n p x xv : inb b i = true -> at_pt b i q (NP f) n p -> nat_dom f n p -> observed b i q x xv -> sample_space f n xv ->
    exists t, l_carrier_measure L q x = Ok t /\ shp t = b /\ tget t i = Fin (cmR n p xv f).
  Proof.
    intros Hi A H O X. destruct (pt_dims _ _ _ _ _ _ A) as (K & HE & _). pose proof (cm_val f n p xv K H X) as T.
    pose proof (obs_env b q x _ _ n HE (ap_dims _ _ _ _ _ _ A) (proj1 O)) as HE'. pose proof (obs_vals b i q x xv n _ _ p Hi O (ap_dims _ _ _ _ _ _ A) (ap_vals _ _ _ _ _ _ A)) as V'.
    rewrite (ap_cls _ _ _ _ _ _ A) in *. destruct (eval_at b _ _ i _ (cm_e f) [] (fun _ => Fin (cmR n p xv f)) HE' Hi V' T) as (t & T1 & T2 & T3).
    exists t. rewrite app_nil_r in T2. split; [|split; [exact T2|]].
    - cbn [l_carrier_measure fam_methods L]. unfold fam_carrier_measure. rewrite (ap_cls _ _ _ _ _ _ A). exact T1.
    - specialize (T3 [] eq_refl). now rewrite app_nil_r in T3.
  Qed.
  Lemma ss_at b i q f n p x xv : inb b i = true -> at_pt b i q (NP f) n p -> nat_dom f n p -> observed b i q x xv -> sample_space f n xv ->
    exists e, l_sufficient_statistics L f x (fixed_params q) = Ok e /\ at_pt b i e (EP f) n (ssR n p xv f).
  Proof.
    intros Hi A H O X. destruct (pt_dims _ _ _ _ _ _ A) as (K & HE & D1). pose proof (ss_val f n p xv K H X) as T.
    assert (J : is_joint (dcls q) = false) by now rewrite (ap_cls _ _ _ _ _ _ A).
    pose proof (obs_env b q x _ _ n (fixed_env b q n (ap_wf _ _ _ _ _ _ A) J (ap_shaped _ _ _ _ _ _ A) (ap_dims _ _ _ _ _ _ A)) (ap_dims _ _ _ _ _ _ A) (proj1 O)) as HE'.
    pose proof (obs_vals b i q x xv n _ _ p Hi O (ap_dims _ _ _ _ _ _ A) (fixed_vals b i q (NP f) n p A eq_refl)) as V'.
    rewrite (ap_cls _ _ _ _ _ _ A) in *. destruct (make_at b _ _ _ (EP f) n i _ _ HE' Hi V' T eq_refl) as (e & E1 & E2 & E3 & E4 & E5 & E6 & E7).
    { intros Y. apply D1. now apply dims_np. } { now rewrite <- dims_ok_np_ep. }
    exists e. split; [exact E1|]. apply (at_pt_eq _ _ _ _ _ (point_of e i)); [now apply at_pt_self|exact E7].
  Qed.
  (** the log-density at one point *)
  Definition lpR (n : nat) (p : point) (x : obs) (f : family) : R := dotP (NP f) (EP f) n p (ssR n p x f) - lnR n p f + cmR n p x f.
  Lemma log_pdf_at b i q f n x xv : inb b i = true -> dcls q = NP f -> well_formed q = true -> leaf_shaped b q = true -> dims_of q = Ok n -> finite_at q n i -> nat_dom f n (point_of q i) ->
    observed b i q x xv -> sample_space f n xv ->
    exists t, log_pdf L q (Leaf x) = Ok t /\ shp t = b /\ tget t i = Fin (lpR n (point_of q i) xv f).
  Proof.
    intros Hi C W S D F H O X. set (p := point_of q i). assert (A : at_pt b i q (NP f) n p) by now apply at_pt_self.
    destruct (ss_at b i q f n p x xv Hi A H O X) as (e & E1 & E2). destruct (cm_at b i q f n p x xv Hi A H O X) as (c & C1 & C2 & C3).
    destruct (ln_at solve b i q f n p Hi A H) as (l & L1 & L2 & L3). rewrite (log_pdf_leaf L (fam_good solve) b q f x W C S (proj1 O)), E1. cbn [bind].
    destruct (leaf_value b q e) as (d & D1 & D2 & D3).
    { split; [exact W|]. split; [exact (ap_wf _ _ _ _ _ _ E2)|]. split; [exact S|]. split; [exact (ap_shaped _ _ _ _ _ _ E2)|]. split; [now rewrite D, (ap_dims _ _ _ _ _ _ E2)|].
      exists f. now rewrite C, (ap_cls _ _ _ _ _ _ E2). }
    rewrite D1. cbn [bind]. assert (Ln : log_normalizer L q = Ok l). { destruct q as [c' m ps subs]. cbn [dcls] in C. subst c'. exact L1. }
    rewrite Ln. cbn [bind]. specialize (D3 i Hi). rewrite (inner_at b i q e f n _ Hi A E2) in D3.
    rewrite tmap2_same by congruence. cbn [bind]. rewrite C1. cbn [bind]. rewrite tmap2_same by (cbn [shp tbuild]; congruence). eexists. split; [reflexivity|]. split; [exact D2|].
    assert (Hd : inb (shp d) i = true) by now rewrite D2. rewrite !tget_tbuild by exact Hd. rewrite D3, L3, C3. reflexivity.
  Qed.
End D.
Section D2.
  Variable solve : minimizer -> dist -> nat -> xr.
  Let L := fam_methods solve.
  Lemma in_dom_nat q i f : dcls q = NP f -> in_domain q i -> exists n, dims_of q = Ok n /\ finite_at q n i /\ nat_dom f n (point_of q i).
  Proof. intros C (n & D & F & H). rewrite C in H. eauto. Qed.
  Lemma pdf_at b i q f n x xv : inb b i = true -> dcls q = NP f -> well_formed q = true -> leaf_shaped b q = true -> dims_of q = Ok n -> finite_at q n i -> nat_dom f n (point_of q i) ->
    observed b i q x xv -> sample_space f n xv ->
    exists t, pdf L q (Leaf x) = Ok t /\ shp t = b /\ tget t i = Fin (exp (lpR n (point_of q i) xv f)).
  Proof.
    intros Hi C W S D F H O X. destruct (log_pdf_at solve b i q f n x xv Hi C W S D F H O X) as (t & T1 & T2 & T3). exists (tmap xexp t). unfold pdf. fold L in T1. rewrite T1.
    split; [reflexivity|]. split; [exact T2|]. rewrite tget_tmap by now rewrite T2. rewrite T3. reflexivity.
  Qed.
End D2.
