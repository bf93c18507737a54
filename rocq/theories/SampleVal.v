(** Values of the requests and of the samples at one batch element. *)
From Coquelicot Require Import Coquelicot.
From Coq Require Import String List Bool Arith Reals Lia Lra.
From Verif Require Import Base XReal Tensor TensorFacts TensorFacts2 BroadcastFacts Support Dist DictFacts Iteration Structure Spec StructFacts AssembleFacts SumSpec DotSpec Tools
  ToolThms Joint StructThms MapFacts SpecFun GammaFn Expr Fam ExprFacts FamTy FamFacts SearchFacts DotFacts DotLaws BatchFacts PointSpec PointFacts Val FamR FamVal ConvFacts LeafVal ConvThms
  Var VarSpec MatVal VarThms DensSpec Sample SampleSpec SampleFacts SampleShape.
Import ListNotations.
Local Unset Asymmetric Patterns.
Local Open Scope string_scope.
Local Open Scope R_scope.
Local Open Scope list_scope.

Section Rules.
  Variables (G : ctx) (p : point).
  Notation VR := (VR G p). Notation VC := (VC G p).
  Lemma VR_sqrt e τ r : VR e τ r -> (forall j, inb (evs τ) j = true -> 0 <= r j) -> VR (jsqrt e) τ (fun j => sqrt (r j)).
  Proof. intros. unfold jsqrt. eapply (VR_1 G p xsqrt sqrt (fun x => 0 <= x)); eauto. intros x Hx. cbn. destruct (Rle_dec 0 x); [reflexivity|contradiction]. Qed.
  Lemma VR_imag e τ r : VC e τ r -> VR (imag_ e) τ (fun j => snd (r j)).
  Proof. intros H. unfold imag_. eapply V_map; [exact H|]. reflexivity. Qed.
  Lemma VR_stack_rows e1 e2 n r1 r2 : VR e1 (Ev [n]) r1 -> VR e2 (Ev [n]) r2 -> VR (jstack_rows e1 e2) (Ev [2%nat; n]) (fun j => if (nth 0 j 0 =? 0)%nat then r1 [nth 1 j 0%nat] else r2 [nth 1 j 0%nat]).
  Proof.
    intros H1 H2. destruct (row_of _ _ _ _ _ H1) as (d1 & T1 & E1). destruct (row_of _ _ _ _ _ H2) as (d2 & T2 & E2). unfold jstack_rows.
    eexists. split; [eapply T_eq; [eapply T_gu2; [exact T1|exact T2|reflexivity|reflexivity|reflexivity]|reflexivity]|]. intros j Hj. cbn beta. cbn [h_fun]. cbn [elt] in *. rewrite E1, E2.
    destruct (inb2 _ _ _ Hj) as (a & b & -> & Ha & Hb). unfold ix. cbn [nth].
    pose proof (nth_seq_map (fun k => Fin (r1 [k])) NaN n b Hb) as A. pose proof (nth_seq_map (fun k => Fin (r2 [k])) NaN n b Hb) as B. cbn beta in A, B. destruct (a =? 0)%nat; [exact A|exact B].
  Qed.
  Lemma mat_of e m n r : VR e (Ev [m; n]) r -> exists d, ty G KR e (Ev [m; n]) d /\ forall a c, (a < m)%nat -> (c < n)%nat -> nth (a * n + c) (map (d (pvals p)) (indices [m; n])) NaN = Fin (r [a; c]).
  Proof.
    intros (d & T & H). exists d. split; [exact T|]. intros a c Ha Hc. assert (I : inb [m; n] [a; c] = true) by (cbn [inb]; now rewrite (proj2 (Nat.ltb_lt _ _) Ha), (proj2 (Nat.ltb_lt _ _) Hc)).
    rewrite <- (H _ I). assert (R : (a * n + c)%nat = ravel [m; n] [a; c]) by (cbn; lia). rewrite R.
    rewrite nth_indep with (d' := d (pvals p) [a; c]); [|rewrite map_length, length_indices; now apply ravel_lt]. rewrite map_nth. now rewrite nth_indices.
  Qed.
  Lemma VR_block e1 e2 n r1 r2 : VR e1 (Ev [n; n]) r1 -> VR e2 (Ev [n; n]) r2 -> VR (jblock e1 e2) (Ev [n + n; n + n]%nat)
    (fun j => let r := nth 0 j 0%nat in let c := nth 1 j 0%nat in
      if (r <? n)%nat then if (c <? n)%nat then r1 [r; c] else - r2 [r; (c - n)%nat] else if (c <? n)%nat then r2 [(r - n)%nat; c] else r1 [(r - n)%nat; (c - n)%nat]).
  Proof.
    intros H1 H2. destruct (mat_of _ _ _ _ H1) as (d1 & T1 & E1). destruct (mat_of _ _ _ _ H2) as (d2 & T2 & E2). unfold jblock.
    eexists. split; [eapply T_eq; [eapply T_gu2; [exact T1|exact T2|reflexivity|reflexivity|]|reflexivity]|]. { cbn. now rewrite !Nat.eqb_refl. }
    intros j Hj. cbn beta. cbn [h_fun]. cbn [elt hd] in *. destruct (inb2 _ _ _ Hj) as (a & c & -> & Ha & Hc). unfold ix. cbn [nth]. cbv zeta.
    destruct (Nat.ltb_spec a n), (Nat.ltb_spec c n); rewrite ?E1, ?E2 by lia; reflexivity.
  Qed.
  Lemma VR_zero_row e m n r : VR e (Ev [m; n]) r -> VR (first_row_zeros e) (Ev [n]) (fun _ => 0).
  Proof. intros (d & T & H). unfold first_row_zeros. eexists. split; [eapply T_eq; [eapply T_gu; [exact T|reflexivity|reflexivity]|reflexivity]|]. reflexivity. Qed.
End Rules.

(** the domain of the parameters of each class that draws itself *)
Definition pre (c : cls) (n : nat) (p : point) : Prop :=
  match c with
  | NP f => nat_dom f n p
  | EP f => exp_dom f n p
  | NormalVP => 0 < p false "variance" []
  | MultivariateDiagonalNormalVP => forall k, (k < n)%nat -> 0 < p false "variance" [k]
  | MultivariateNormalVP => spd n (fun a b => p false "variance" [a; b])
  | _ => False
  end.
Section Pt.
  Variables (n : nat) (p : point).
  Notation s nm := (p false nm []).
  Definition iso_var : R := (s "total_second_moment" - sumR n (fun k => p false "mean" [k] * p false "mean" [k])) / INR n.
  Definition cnv : R := s "second_moment" - (s "mean" * s "mean" + p true "mean" [] * p true "mean" []).
  Definition cnu : R := s "pseudo_second_moment" - (s "mean" * s "mean" - p true "mean" [] * p true "mean" []).
  Definition cnu' : R := p true "pseudo_second_moment" [] - (s "mean" * p true "mean" [] + p true "mean" [] * s "mean").
  (** argument m of the request *)
  Definition argR (c : cls) (m : nat) (j : list nat) : R :=
    match c with
    | NP Beta => 1 + p false "alpha_minus_one" [m]
    | NP Dirichlet => 1 + p false "alpha_minus_one" j
    | NP ChiSquare => (s "k_over_two_minus_one" + 1) * 2
    | NP Gamma => s "shape_minus_one" + 1
    | NP Multinomial => p false "log_odds" j
    | NP Rayleigh => sqrt (-1 / 2 / s "eta")
    | EP Bernoulli => s "probability"
    | EP Geometric => 1 / s "mean"
    | EP Poisson => s "mean"
    | EP Rayleigh => sqrt (1 / 2 * s "chi")
    | EP Weibull => match m with 0%nat => Rpower (s "chi") (1 / s "concentration") | _ => s "concentration" end
    | EP ComplexNormal => match m with
        | 0%nat => if (hd 0 j =? 0)%nat then p false "mean" [] else p true "mean" []
        | _ => 1 / 2 * (if (nth 0 j 0 =? 0)%nat then (if (nth 1 j 0 =? 0)%nat then cnv + cnu else cnu') else (if (nth 1 j 0 =? 0)%nat then cnu' else cnv - cnu))
        end
    | EP ComplexCircularlySymmetricNormal => match m with
        | 0%nat => 0
        | _ => let r := nth 0 j 0%nat in let c := nth 1 j 0%nat in let re r c := 1 / 2 * p false "variance" [r; c] in let im r c := 1 / 2 * p true "variance" [r; c] in
            if (r <? n)%nat then if (c <? n)%nat then re r c else - im r (c - n)%nat else if (c <? n)%nat then im (r - n)%nat c else re (r - n)%nat (c - n)%nat
        end
    | MultivariateNormalVP => match m with 0%nat => p false "mean" j | _ => p false "variance" j end
    | _ => 0
    end.
  (** the sample, from the draws *)
  Definition reo (g : list nat -> R) : obs := fun c j => if c then 0 else g j.
  Definition postR (c : cls) (u : list nat -> R) : obs :=
    match c with
    | NP Exponential | NP Gamma => reo (fun j => - u j / s "negative_rate")
    | NP Multinomial => reo (fun j => if Req_EM_T (u []) (INR (last j 0%nat)) then 1 else 0)
    | NP MultivariateUnitNormal | NP UnitNormal => reo (fun j => u j + p false "mean" j)
    | EP Exponential => reo (fun j => u j * s "mean")
    | EP ComplexMultivariateUnitNormal | EP ComplexUnitNormal => fun c j => u j + p c "mean" j
    | EP ComplexNormal => fun c j => if c then u [1%nat] else u [0%nat]
    | EP ComplexCircularlySymmetricNormal => fun c j => if c then u [(n + hd 0 j)%nat] else u j
    | EP Normal => reo (fun j => u j * sqrt (s "second_moment" - s "mean" * s "mean") + s "mean")
    | EP MultivariateFixedVarianceNormal => reo (fun j => u j * sqrt (s "variance") + p false "mean" j)
    | EP IsotropicNormal => reo (fun j => u j * sqrt iso_var + p false "mean" j)
    | NormalVP | MultivariateDiagonalNormalVP => reo (fun j => u j * sqrt (p false "variance" j) + p false "mean" j)
    | _ => reo u
    end.
End Pt.

Fixpoint vargs (G : ctx) (p : point) (l : list (aexp KR)) (m : nat) (evs : list (list nat)) (A : nat -> list nat -> R) : Prop :=
  match l, evs with
  | [], [] => True
  | e :: l', ev :: evs' => VR G p e (Ev ev) (A m) /\ vargs G p l' (S m) evs' A
  | _, _ => False
  end.
Ltac vq := lazymatch goal with
  | |- VR _ _ (jsqrt _) _ _ => eapply VR_sqrt; [vq|]
  | |- VR _ _ (jat _ _) _ _ => eapply VR_at; [vq|]
  | |- VR _ _ (imag_ _) _ _ => eapply VR_imag; vq
  | |- VR _ _ (jstack _ _) _ _ => eapply VR_stack; [vq|vq]
  | |- VR _ _ (jstack_rows _ _) _ _ => eapply VR_stack_rows; [vq|vq]
  | |- VR _ _ (jblock _ _) _ _ => eapply VR_block; [vq|vq]
  | |- VR _ _ (first_row_zeros _) _ _ => eapply VR_zero_row; vq
  | |- VR _ _ (eadd _ _) _ _ => eapply VR_add; [vq | vq | alt_]
  | |- VR _ _ (esub _ _) _ _ => eapply VR_sub; [vq | vq | alt_]
  | |- VR _ _ (emul _ _) _ _ => eapply VR_mul; [vq | vq | alt_]
  | |- VR _ _ (ediv _ _) _ _ => eapply VR_div; [vq | vq | alt_ | ]
  | |- VR _ _ isotropic_variance _ _ => unfold isotropic_variance; vq
  | |- VR _ _ variance_e _ _ => unfold variance_e; vq
  | |- VR _ _ cn_cov _ _ => unfold cn_cov; cbv zeta; vq
  | |- VR _ _ ccsn_cov _ _ => unfold ccsn_cov; vq
  | |- VR _ _ (ENewaxis _) (Ev [1%nat]) _ => eapply (VR_newaxis _ _ _ []); vq
  | |- _ => vr end.
Lemma direct_vargs c sp n p : direct c = Some sp -> dims_ok c n = true -> pre c n p -> vargs (ctx_of c n) p (s_args sp) 0 (direct_evs c n) (argR n p c).
Proof.
  intros E D H. destruct c as [f|f| | | | | | |]; try destruct f; try discriminate E; injection E as <-; cbn [s_kind s_args direct_evs vargs]; cbn [dims_ok] in D; cbn [pre nat_dom exp_dom] in H.
  all: try exact Logic.I; (do 2 try match goal with |- _ /\ _ => split end); try exact Logic.I.
  all: try (eapply VR_ext; [vq|]).
  all: try solve [intros j Hj; cbn beta iota zeta; repeat match goal with X : inb (evs (Ev [])) ?j = true |- _ => destruct j; [clear X|discriminate X] end; cbn [argR hd nth fst snd]; try reflexivity; try lra].
  - lia.
  - lia.
  - intros j Hj. destruct j; [|discriminate Hj]. cbn beta. replace (-1 / 2 / p false "eta" []) with (/ 2 * / (- p false "eta" [])) by (field; lra). apply Rlt_le, Rmult_lt_0_compat; [lra|]. apply Rinv_0_lt_compat. lra.
  - intros j Hj. destruct j; [|discriminate Hj]. cbn beta. lra.
Qed.
Lemma cofr_fin x : cofr (Fin x) = XC (Fin x) (Fin 0). Proof. reflexivity. Qed.
Lemma direct_mean c sp n p m : direct c = Some sp -> (s_post sp = PShift m \/ exists d, s_post sp = PScale d m) -> VR (ctx_of c n) p m (Ev (direct_ev c n)) (p false "mean").
Proof. intros E H. destruct c as [f|f| | | | | | |]; try destruct f; try discriminate E; injection E as <-; destruct H as [H|[d H]]; try discriminate H; injection H; intros; subst m; eapply VR_self; reflexivity. Qed.
(** the shape and value of the factor of PScale *)
Definition dev_ev (c : cls) (n : nat) : list nat := match c with EP MultivariateFixedVarianceNormal | EP IsotropicNormal => [1%nat] | MultivariateDiagonalNormalVP => [n] | _ => [] end.
Definition devR (n : nat) (p : point) (c : cls) (j : list nat) : R :=
  match c with
  | EP Normal => sqrt (p false "second_moment" [] - p false "mean" [] * p false "mean" [])
  | EP MultivariateFixedVarianceNormal => sqrt (p false "variance" [])
  | EP IsotropicNormal => sqrt (iso_var n p)
  | _ => sqrt (p false "variance" j)
  end.
Lemma iso_var_pos n p : exp_dom IsotropicNormal n p -> 0 < iso_var n p.
Proof. cbn [exp_dom]. intros [H1 H2]. unfold iso_var. apply Rdiv_lt_0_compat; [lra|]. apply lt_0_INR. lia. Qed.
Lemma direct_dev c sp n p d m : direct c = Some sp -> s_post sp = PScale d m -> pre c n p -> VR (ctx_of c n) p d (Ev (dev_ev c n)) (devR n p c).
Proof.
  intros E H P. destruct c as [f|f| | | | | | |]; try destruct f; try discriminate E; injection E as <-; try discriminate H; injection H; intros; subst d m; cbn [dev_ev]; cbn [pre] in P; try (pose proof (iso_var_pos n p P) as Q); try cbn [exp_dom] in P.
  all: try (eapply VR_ext; [vq|]).
  all: intros j Hj; cbn [evs] in Hj; cbn beta; try (destruct (inb1 _ _ Hj) as (k & -> & Hk); assert (k = 0%nat \/ (0 < n)%nat) by lia); try (destruct j as [|? ?]; [|discriminate Hj]); cbn [removelast devR]; try reflexivity.
  all: try solve [try destruct k; cbn; try lra; lia].
  - apply Rgt_not_eq, lt_0_INR. lia.
  - unfold iso_var in Q. apply Rlt_le. exact Q.
  - specialize (P k Hk). lra.
Qed.

Lemma vargs_vals b i env G p : env_ok b G env -> inb b i = true -> vals_eq G (vals_of env i) (pvals p) -> forall l m evs A ts, vargs G p l m evs A -> mapM (eval env) l = Ok ts ->
  forall k t, nth_error ts k = Some t -> exists ev, nth_error evs k = Some ev /\ shp t = b ++ ev /\ forall e, inb ev e = true -> tget t (i ++ e) = Fin (A (m + k)%nat e).
Proof.
  intros HE Hi V. induction l as [|a l IH]; intros m [|ev evs] A ts H M k t T; try contradiction; cbn [mapM] in M; [injection M as <-; destruct k; discriminate T|].
  destruct H as [H1 H2]. destruct (eval_at b G env i p a ev _ HE Hi V H1) as (u & U1 & U2 & U3). rewrite U1 in M. cbn [bind] in M. destruct (mapM (eval env) l) as [us|] eqn:ML; [|discriminate M]. cbn [bind] in M. injection M as <-.
  destruct k as [|k]; cbn [nth_error] in T |- *.
  - injection T as <-. exists ev. split; [reflexivity|]. split; [exact U2|]. intros e He. rewrite Nat.add_0_r. now apply U3.
  - destruct (IH _ _ _ _ H2 eq_refl k t T) as (ev' & X1 & X2 & X3). exists ev'. split; [exact X1|]. split; [exact X2|]. intros e He. rewrite (X3 e He). do 2 f_equal. lia.
Qed.
Lemma args_typed_len G k : forall l m evs x ev, args_typed G k m l evs -> nth_error evs x = Some ev -> length ev = arg_event k (m + x).
Proof.
  induction l as [|e l IH]; intros m [|ev0 evs] x ev H N; try contradiction; [destruct x; discriminate N|]. destruct H as (_ & H1 & H2). destruct x as [|x]; cbn [nth_error] in N.
  - injection N as <-. now rewrite Nat.add_0_r.
  - rewrite (IH _ _ _ _ H2 N). f_equal. lia.
Qed.
(** the request and the sample at row j, batch index i *)
Theorem direct_at0 {K} draw b i q c sp n p (key : K) sh : inb b i = true -> at_pt b i q c n p -> direct c = Some sp -> pre c n p ->
  exists ts x, let r := Req (s_kind sp) ts in let s := requested sh ++ b ++ direct_ev c n in
    mapM (eval (dparams q)) (s_args sp) = Ok ts /\ length ts = arity (s_kind sp) /\ run draw sp q key sh = Ok x /\ ashape x = requested sh ++ b ++ event c n /\ (s_args sp <> [] -> row_size r = last (nth 0 (direct_evs c n) []) (last b 0%nat)) /\
    (forall j e, inb (requested sh) j = true -> inb (direct_ev c n) e = true -> asks r (j ++ i ++ e) (argR n p c)) /\
    (forall j u, inb (requested sh) j = true -> (forall e, inb (direct_ev c n ++ direct_draw c n) e = true -> draw key r s (j ++ i ++ e) = Fin (u e)) ->
      forall e, inb (event c n) e = true -> entry_c x (j ++ i ++ e) = XC (Fin (postR n p c u false e)) (Fin (postR n p c u true e))).
Proof.
  intros Hi A E P. destruct A as [C W S D V]. destruct (direct_run draw b q c sp n key sh E C W S D) as (ts & sh' & T1 & T2 & J & R). exists ts.
  assert (K0 : dims_ok c n = true). { destruct (leaf_dims _ _ S) as (m & D' & K0). rewrite C in K0. congruence. }
  pose proof (leaf_env b q n S D) as HE. rewrite C in HE. pose proof (direct_vargs c sp n p E K0 P) as VA.
  (* the arguments *)
  assert (AS : forall j e, inb (requested sh) j = true -> inb (direct_ev c n) e = true -> asks (Req (s_kind sp) ts) (j ++ i ++ e) (argR n p c)).
  { intros j e Hj He m e' Hm He'. cbn [r_args r_kind] in Hm. unfold row_arg, row_shape in *. cbn [r_args r_kind] in *. destruct (nth_error ts m) as [t|] eqn:Tm; [|apply nth_error_None in Tm; exact (False_ind _ (Nat.lt_irrefl _ (Nat.lt_le_trans _ _ _ Hm Tm)))].
    destruct (vargs_vals b i _ _ p HE Hi V _ _ _ _ _ VA T1 m t Tm) as (ev & X1 & X2 & X3). cbn [Nat.add] in X3. pose proof (args_typed_len _ _ _ _ _ _ _ (direct_args c sp n E K0) X1) as LE. cbn [Nat.add] in LE.
    destruct (direct_none c sp n E) as [[X _]|[_ X]]; [rewrite X in T1; cbn in T1; injection T1 as <-; destruct m; discriminate Tm|]. rewrite X in He. destruct e; [|discriminate He]. rewrite app_nil_r.
    unfold batch_of. change (elt KR) with xr in *. rewrite Tm in He' |- *. rewrite X2, app_length, <- LE in He'. rewrite X2, app_length, <- LE. replace (length b + length ev - length ev)%nat with (length b) in * by lia. rewrite firstn_app, firstn_all, Nat.sub_diag, firstn_O, app_nil_r.
    rewrite skipn_app, skipn_all, Nat.sub_diag in He'. cbn [skipn app] in He'. rewrite bidx_lead by now rewrite (inb_length _ _ Hi). rewrite bidx_id by exact Hi. now apply X3. }
  rewrite R. clear R.
  assert (LT : length ts = arity (s_kind sp)). { rewrite (F2_len _ _ _ T2). clear - E. destruct c as [f|f| | | | | | |]; try destruct f; try discriminate E; injection E as <-; reflexivity. }
  assert (RS : s_args sp <> [] -> row_size (Req (s_kind sp) ts) = last (nth 0 (direct_evs c n) []) (last b 0%nat)).
  { intros N. unfold row_size. cbn [r_args]. destruct (direct_none c sp n E) as [[X _]|_]; [contradiction|]. destruct (s_args sp) as [|a0 l0] eqn:EA; [contradiction|]. destruct (direct_evs c n) as [|ev0 evs] eqn:EE; [contradiction VA|].
    destruct ts as [|t0 ts]; [inversion T2|]. assert (X0 : shp t0 = b ++ ev0) by (inversion T2; assumption). cbn [nth]. change (elt KR) with xr in X0. rewrite X0. destruct ev0 as [|z ev0] using rev_ind; [rewrite app_nil_r; reflexivity|]. now rewrite app_assoc, !last_snoc. }
  rewrite (direct_draw_event b c sp n ts E T2) in *.
  match goal with |- context [apply_post _ _ _ _ _ _ ?u] => set (t := u) in * end.
  assert (St : shp t = requested sh ++ b ++ direct_ev c n ++ direct_draw c n) by (unfold t; cbn [shp tbuild]; now rewrite <- !app_assoc).
  assert (Et : forall j u, inb (requested sh) j = true -> (forall e, inb (direct_ev c n ++ direct_draw c n) e = true -> draw key (Req (s_kind sp) ts) (requested sh ++ b ++ direct_ev c n) (j ++ i ++ e) = Fin (u e)) ->
    forall e, inb (direct_ev c n ++ direct_draw c n) e = true -> tget t (j ++ i ++ e) = Fin (u e)).
  { intros j u Hj H e He. unfold t. rewrite tget_tbuild; [now apply H|]. rewrite <- !app_assoc. repeat apply inb_app_intro; auto. }
  clearbody t. clear T2 VA.
  assert (EV : forall e s r, VR (ctx_of c n) p e (Ev s) r -> exists m, eval (dparams q) e = Ok m /\ shp m = b ++ s /\ forall j, inb s j = true -> tget m (i ++ j) = Fin (r j)).
  { intros e s0 r0 X. exact (eval_at b _ _ i p e s0 _ HE Hi V X). }
  assert (EVC : forall e s r, VC (ctx_of c n) p e (Ev s) r -> exists m, eval (dparams q) e = Ok m /\ shp m = b ++ s /\ forall j, inb s j = true -> tget m (i ++ j) = XC (Fin (fst (r j))) (Fin (snd (r j)))).
  { intros e s0 r0 X. exact (eval_at b _ _ i p e s0 _ HE Hi V X). }
  pose proof (direct_mean c sp n p) as DM. pose proof (direct_dev c sp n p) as DD.
  cut (exists x, apply_post draw q key (Req (s_kind sp) ts) sh' (s_post sp) t = Ok x /\ ashape x = requested sh ++ b ++ event c n /\
    forall j u, inb (requested sh) j = true -> (forall e, inb (direct_ev c n ++ direct_draw c n) e = true -> tget t (j ++ i ++ e) = Fin (u e)) ->
      forall e, inb (event c n) e = true -> entry_c x (j ++ i ++ e) = XC (Fin (postR n p c u false e)) (Fin (postR n p c u true e))).
  { intros (x & X1 & X2 & X3). exists x. cbv zeta. split; [exact T1|]. split; [exact LT|]. split; [exact X1|]. split; [exact X2|]. split; [exact RS|]. split; [exact AS|]. intros j u Hj Hu. apply (X3 j u Hj). exact (Et j u Hj Hu). }
  clear AS RS Et HE V T1.
  destruct c as [f|f| | | | | | |]; try destruct f; try discriminate E; injection E as <-; cbn [s_post s_kind] in *; cbn [direct_draw] in *;
    unfold direct_ev in *; cbn [direct np_sampler ep_sampler vp_sampler s_mean domain_support supp_shape app] in *; unfold event; cbn [domain_support supp_shape].
  all: try (exists (RA t); split; [reflexivity|]; split; [exact St|]; intros j u Hj Hu e He; cbn [entry_c]; rewrite (Hu e He); reflexivity).
  all: try (match goal with |- context [PNegDiv ?m] => destruct (EV m [] (p false "negative_rate") ltac:(eapply VR_self; reflexivity)) as (v & M1 & M2 & M3) end;
    edestruct (post_negdiv draw b q key) as (x & X1 & X2 & X3); [exact St|exact M1|exact M2|]; exists (RA x); split; [exact X1|]; split; [exact X2|]; intros j u Hj Hu e He; cbn [entry_c]; rewrite (X3 j i e Hj Hi He), (Hu e He), (M3 e He);
    destruct e; [|discriminate He]; cbn [xneg]; rewrite xdiv_fin; [reflexivity|cbn [pre nat_dom] in P; lra]).
  all: try (match goal with |- context [PMul ?m] => destruct (EV m [] (p false "mean") ltac:(eapply VR_self; reflexivity)) as (v & M1 & M2 & M3) end;
    edestruct (post_mul draw b q key) as (x & X1 & X2 & X3); [exact St|exact M1|exact M2|]; exists (RA x); split; [exact X1|]; split; [exact X2|]; intros j u Hj Hu e He; cbn [entry_c]; rewrite (X3 j i e Hj Hi He), (Hu e He), (M3 e He);
    destruct e; [|discriminate He]; reflexivity).
  all: try (match goal with |- context [PShift ?m] => destruct (EV m _ _ (DM m eq_refl (or_introl eq_refl))) as (v & M1 & M2 & M3) end;
    edestruct (post_shift draw b q key) as (x & X1 & X2 & X3); [exact St|exact M1|exact M2|]; exists (RA x); split; [exact X1|]; split; [exact X2|]; intros j u Hj Hu e He; cbn [entry_c]; rewrite (X3 j i e Hj Hi He), (Hu e He), (M3 e He); reflexivity).
  all: try (match goal with |- context [PComplex ?m] => edestruct (EVC m) as (v & M1 & M2 & M3); [eapply VC_self; reflexivity|] end;
    edestruct (post_complex draw b q key) as (x & X1 & X2 & X3); [exact St|exact J|exact M1|exact M2|]; exists (CA x); split; [exact X1|]; split; [exact X2|]; intros j u Hj Hu e He; cbn [entry_c]; rewrite (X3 j i e Hj Hi He), (Hu e He), (M3 e He); reflexivity).
  all: try (match goal with |- context [PScale ?d ?m] => destruct (EV m _ _ (DM m eq_refl (or_intror (ex_intro _ d eq_refl)))) as (v & M1 & M2 & M3); destruct (EV d _ _ (DD d m eq_refl eq_refl P)) as (w & W1 & W2 & W3) end; cbn [dev_ev] in *;
    edestruct (post_scale draw b q key) as (x & X1 & X2 & X3); [exact St|exact W1|exact M1|exact W2| |exact M2|];
    [|exists (RA x); split; [exact X1|]; split; [exact X2|]; intros j u Hj Hu e He; cbn [entry_c]; rewrite (X3 j i e Hj Hi He), (Hu e He), (M3 e He); rewrite W3; [try reflexivity|]]; try subt).
  - (* Dirichlet *) edestruct (post_init draw b q key) as (x & X1 & X2 & X3); [exact St|reflexivity|]. exists (RA x). split; [exact X1|]. split; [exact X2|]. intros j u Hj Hu e He.
    destruct (inb1 _ _ He) as (k & -> & Hk). cbn [entry_c]. rewrite (X3 j i k Hj Hi Hk), (Hu [k]); [reflexivity|]. apply inb1_intro. lia.
  - (* Multinomial *) edestruct (post_onehot draw b q key) as (x & X1 & X2 & X3); [exact St|reflexivity|exact D|]. exists (RA x). split; [exact X1|]. split; [exact X2|]. intros j u Hj Hu e He.
    destruct (inb1 _ _ He) as (k & -> & Hk). cbn [entry_c]. rewrite (X3 j i k Hj Hi Hk). specialize (Hu [] eq_refl). rewrite app_nil_r in Hu. rewrite Hu. unfold postR, reo. cbn [last xeqb]. unfold reqb. destruct (Req_EM_T (u []) (INR k)); reflexivity.
  - (* CCSN *) edestruct (post_halves draw b q key) as (x & X1 & X2 & X3); [exact St|reflexivity|exact D|]. exists (CA x). split; [exact X1|]. split; [exact X2|]. intros j u Hj Hu e He.
    destruct (inb1 _ _ He) as (k & -> & Hk). cbn [entry_c]. rewrite (X3 j i k Hj Hi Hk), !Hu by (apply inb1_intro; lia). reflexivity.
  - (* ComplexNormal *) edestruct (post_pair draw b q key) as (x & X1 & X2 & X3); [exact St|reflexivity|]. exists (CA x). split; [exact X1|]. split; [cbn [ashape]; now rewrite app_nil_r|]. intros j u Hj Hu e He.
    destruct e; [|discriminate He]. rewrite app_nil_r. cbn [entry_c]. rewrite (X3 j i Hj Hi), !Hu by reflexivity. reflexivity.
  - destruct (inb1 _ _ He) as (k & -> & Hk). reflexivity.
  - destruct (inb1 _ _ He) as (k & -> & Hk). reflexivity.
  - destruct e; [|discriminate He]. reflexivity.
  - destruct e; [|discriminate He]. reflexivity.
  - rewrite bidx_id by exact He. reflexivity.
  - rewrite bidx_id by exact He. exact He.
Qed.
Theorem direct_at {K} draw b i q c sp n p (key : K) sh : inb b i = true -> at_pt b i q c n p -> direct c = Some sp -> pre c n p ->
  exists ts x, let r := Req (s_kind sp) ts in let s := requested sh ++ b ++ direct_ev c n in
    length ts = arity (s_kind sp) /\ run draw sp q key sh = Ok x /\ ashape x = requested sh ++ b ++ event c n /\ (s_args sp <> [] -> row_size r = last (nth 0 (direct_evs c n) []) (last b 0%nat)) /\
    (forall j e, inb (requested sh) j = true -> inb (direct_ev c n) e = true -> asks r (j ++ i ++ e) (argR n p c)) /\
    (forall j u, inb (requested sh) j = true -> (forall e, inb (direct_ev c n ++ direct_draw c n) e = true -> draw key r s (j ++ i ++ e) = Fin (u e)) ->
      forall e, inb (event c n) e = true -> entry_c x (j ++ i ++ e) = XC (Fin (postR n p c u false e)) (Fin (postR n p c u true e))).
Proof. intros Hi A E P. destruct (direct_at0 draw b i q c sp n p key sh Hi A E P) as (ts & x & _ & H). exists ts, x. exact H. Qed.
