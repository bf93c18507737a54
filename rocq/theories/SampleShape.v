(** The shape of the samples. *)
From Coq Require Import String List Bool Arith Reals Lia Lra.
From Verif Require Import Base XReal Tensor TensorFacts TensorFacts2 BroadcastFacts Support Dist DictFacts Iteration Structure Spec StructFacts AssembleFacts SumSpec DotSpec Tools
  ToolThms Joint StructThms MapFacts SpecFun GammaFn Expr Fam ExprFacts FamTy FamFacts SearchFacts DotFacts DotLaws BatchFacts PointSpec PointFacts Val Var Sample SampleSpec SampleFacts.
Import ListNotations.
Local Unset Asymmetric Patterns.
Local Open Scope string_scope.
Local Open Scope nat_scope.
Local Open Scope list_scope.

Definition direct (c : cls) : option sampler := match c with NP f => np_sampler f | EP f => ep_sampler f | _ => vp_sampler c end.
(** shapes of the arguments of the request of each class that draws itself *)
Definition direct_evs (c : cls) (n : nat) : list (list nat) :=
  match c with
  | NP Dirichlet | NP Multinomial => [[n]]
  | NP Beta => [[]; []]
  | NP ChiSquare | NP Gamma | NP Rayleigh | EP Bernoulli | EP Geometric | EP Poisson | EP Rayleigh => [[]]
  | EP Weibull => [[]; []]
  | EP ComplexCircularlySymmetricNormal => [[n + n]; [n + n; n + n]]
  | EP ComplexNormal => [[2]; [2; 2]]
  | MultivariateNormalVP => [[n]; [n; n]]
  | _ => []
  end.
(** the trailing part of self.mean.shape *)
Definition direct_ev (c : cls) (n : nat) : list nat :=
  match direct c with
  | Some sp => if s_mean sp then match domain_support c with Some s => supp_shape s n | None => [] end else []
  | None => []
  end.
Definition event (c : cls) (n : nat) : list nat := match domain_support c with Some s => supp_shape s n | None => [] end.
Lemma direct_args c sp n : direct c = Some sp -> dims_ok c n = true -> args_typed (ctx_of c n) (s_kind sp) 0 (s_args sp) (direct_evs c n).
Proof.
  intros E D. destruct c as [f|f| | | | | | |]; try destruct f; try discriminate E; injection E as <-; cbn [s_kind s_args direct_evs args_typed arg_event length]; cbn [dims_ok] in D.
  all: repeat match goal with |- _ /\ _ => split end; try exact Logic.I; try reflexivity.
  all: try tyr.
  all: apply Nat.eqb_eq in D; subst n; reflexivity.
Qed.
Lemma direct_base b q c sp n : direct c = Some sp -> dcls q = c -> well_formed q = true -> leaf_shaped b q = true -> dims_of q = Ok n ->
  (if s_mean sp then let* m := attr q "mean" in Ok (ashape m) else dshape q) = Ok (b ++ direct_ev c n).
Proof.
  intros E C W S D. unfold direct_ev. rewrite E. destruct (s_mean sp) eqn:M.
  - pose proof (leaf_env b q n S D) as HE. rewrite C in HE. unfold attr.
    assert (X : exists k s, dget (ctx_of c n) "mean" = Some (k, s) /\ s = event c n).
    { destruct c as [f|f| | | | | | |]; try destruct f; try discriminate E; injection E as <-; try discriminate M; eexists _, _; split; reflexivity. }
    destruct X as (k & s & X & ->). destruct (HE _ _ _ X) as (t & T1 & T2). rewrite T1. cbn [opt_err bind]. f_equal. transitivity (shp t); [destruct k; reflexivity|exact T2].
  - rewrite app_nil_r. assert (J : is_joint c = false) by (destruct c; try reflexivity; discriminate E).
    assert (N : c <> GammaVP) by (intros ->; discriminate E). destruct (leaf_inv q W) as (Q & _); [congruence|]. rewrite Q in *. cbn [dcls] in C. apply leaf_dshape; congruence.
Qed.
Lemma direct_none c sp n : direct c = Some sp -> (s_args sp = [] /\ s_none sp = false) \/ (s_args sp <> [] /\ direct_ev c n = []).
Proof. intros E. destruct c as [f|f| | | | | | |]; try destruct f; try discriminate E; injection E as <-; cbn; first [left; split; reflexivity | right; split; [discriminate|reflexivity]]. Qed.
Lemma direct_run {K} draw b q c sp n (key : K) sh : direct c = Some sp -> dcls q = c -> well_formed q = true -> leaf_shaped b q = true -> dims_of q = Ok n ->
  exists ts sh', mapM (eval (dparams q)) (s_args sp) = Ok ts /\ Forall2 (fun t ev => shp t = b ++ ev) ts (direct_evs c n) /\
    let r := Req (s_kind sp) ts in let s := requested sh ++ b ++ direct_ev c n in let t := tbuild (s ++ draw_event r) (draw key r s) in
    jrandom draw key r sh' = Ok t /\ run draw sp q key sh = apply_post draw q key r sh' (s_post sp) t.
Proof.
  intros E C W S D. pose proof (leaf_env b q n S D) as HE. rewrite C in HE. pose proof (direct_base b q c sp n E C W S D) as B.
  assert (K0 : dims_ok c n = true). { destruct (leaf_dims _ _ S) as (m & D' & K0). rewrite C in K0. congruence. }
  apply (run_draw draw b q (ctx_of c n) HE sp (b ++ direct_ev c n) (direct_evs c n) key sh B (direct_args c sp n E K0)).
  destruct (direct_none c sp n E) as [X|[X Y]]; [now left|right]. split; [exact X|]. now rewrite Y, app_nil_r.
Qed.
(** the trailing shape of a draw *)
Definition direct_draw (c : cls) (n : nat) : list nat :=
  match c with NP Dirichlet => [n] | EP ComplexCircularlySymmetricNormal => [n + n] | EP ComplexNormal => [2] | MultivariateNormalVP => [n] | _ => [] end.
Lemma direct_draw_event b c sp n ts : direct c = Some sp -> Forall2 (fun t ev => shp t = b ++ ev) ts (direct_evs c n) -> draw_event (Req (s_kind sp) ts) = direct_draw c n.
Proof.
  intros E F. destruct c as [f|f| | | | | | |]; try destruct f; try discriminate E; injection E as <-; cbn [direct_evs] in F; try reflexivity.
  all: inversion F as [|? ? ? ? F1 F2]; subst; unfold draw_event; cbn [s_kind r_kind r_args direct_draw]; rewrite F1, last_snoc; reflexivity.
Qed.
Lemma ev_shape b q G (e : aexp KR) s d : env_ok b G (dparams q) -> ty G KR e (Ev s) d -> exists t, eval (dparams q) e = Ok t /\ shp t = b ++ s.
Proof. intros HE T. destruct (ty_sound b G _ HE _ _ _ _ T) as (t & T1 & T2 & _). eauto. Qed.
Lemma evc_shape b q G (e : aexp KC) s d : env_ok b G (dparams q) -> ty G KC e (Ev s) d -> exists t, eval (dparams q) e = Ok t /\ shp t = b ++ s.
Proof. intros HE T. destruct (ty_sound b G _ HE _ _ _ _ T) as (t & T1 & T2 & _). eauto. Qed.
Ltac shaped_ HE m v M1 M2 := let T := fresh "T" in lazymatch type of HE with env_ok _ ?G _ => first [eassert (T : ty G KR m (Ev _) _) by ty1; destruct (ev_shape _ _ _ _ _ _ HE T) as (v & M1 & M2) | eassert (T : ty G KC m (Ev _) _) by ty1; destruct (evc_shape _ _ _ _ _ _ HE T) as (v & M1 & M2)]; clear T end.
Theorem direct_shape {K} draw b q c sp n (key : K) sh : direct c = Some sp -> dcls q = c -> well_formed q = true -> leaf_shaped b q = true -> dims_of q = Ok n ->
  exists x, run draw sp q key sh = Ok x /\ ashape x = requested sh ++ b ++ event c n.
Proof.
  intros E C W S D. destruct (direct_run draw b q c sp n key sh E C W S D) as (ts & sh' & T1 & T2 & J & R). rewrite R. clear R T1.
  rewrite (direct_draw_event b c sp n ts E T2) in *. clear T2.
  pose proof (leaf_env b q n S D) as HE. rewrite C in HE. match goal with |- context [apply_post _ _ _ _ _ _ ?u] => set (t := u) in * end.
  assert (St : shp t = requested sh ++ b ++ direct_ev c n ++ direct_draw c n) by (unfold t; cbn [shp tbuild]; now rewrite <- !app_assoc). clearbody t.
  destruct c as [f|f| | | | | | |]; try destruct f; try discriminate E; injection E as <-; cbn [s_post s_kind] in *; cbn [direct_draw] in St;
    unfold direct_ev in St; cbn [direct np_sampler ep_sampler vp_sampler s_mean domain_support supp_shape app] in St; unfold event; cbn [domain_support supp_shape].
  all: try (exists (RA t); split; [reflexivity|cbn [ashape]; exact St]).
  all: try (edestruct (post_onehot draw b q key) as (x & X1 & X2 & _); [exact St|reflexivity|exact D|]; exists (RA x); split; [exact X1|exact X2]).
  all: try (edestruct (post_init draw b q key) as (x & X1 & X2 & _); [exact St|reflexivity|]; exists (RA x); split; [exact X1|exact X2]).
  all: try (edestruct (post_pair draw b q key) as (x & X1 & X2 & _); [exact St|reflexivity|]; exists (CA x); split; [exact X1|cbn [ashape]; now rewrite app_nil_r]).
  all: try (edestruct (post_halves draw b q key) as (x & X1 & X2 & _); [exact St|reflexivity|exact D|]; exists (CA x); split; [exact X1|exact X2]).
  all: try (match goal with |- context [PShift ?m] => shaped_ HE m m' M1 M2 end;
    edestruct (post_shift draw b q key) as (x & X1 & X2 & _); [exact St|exact M1|exact M2|]; exists (RA x); split; [exact X1|exact X2]).
  all: try (match goal with |- context [PMul ?m] => shaped_ HE m m' M1 M2 end;
    edestruct (post_mul draw b q key) as (x & X1 & X2 & _); [exact St|exact M1|exact M2|]; exists (RA x); split; [exact X1|exact X2]).
  all: try (match goal with |- context [PNegDiv ?m] => shaped_ HE m m' M1 M2 end;
    edestruct (post_negdiv draw b q key) as (x & X1 & X2 & _); [exact St|exact M1|exact M2|]; exists (RA x); split; [exact X1|exact X2]).
  all: try (match goal with |- context [PComplex ?m] => shaped_ HE m m' M1 M2 end;
    edestruct (post_complex draw b q key) as (x & X1 & X2 & _); [exact St|exact J|exact M1|exact M2|]; exists (CA x); split; [exact X1|exact X2]).
  all: try (match goal with |- context [PScale ?d ?m] => shaped_ HE d d' D1 D2;
      shaped_ HE m m' M1 M2 end;
    edestruct (post_scale draw b q key) as (x & X1 & X2 & _); [exact St|exact D1|exact M1|exact D2| |exact M2|]; [|exists (RA x); split; [exact X1|exact X2]]; subt).
Qed.

Section Sample.
  Context {K : Type}.
  Variable split2 : K -> K * K.
  Variable draw : K -> request -> shape -> index -> xr.
  Variable solve : minimizer -> dist -> nat -> xr.
  Notation L := (fam_methods solve).
  Definition shaped_sample (b : list nat) (c : cls) (n : nat) (sh : option shape) (r : result arr) : Prop :=
    exists x, r = Ok x /\ ashape x = requested sh ++ b ++ event c n.
  Lemma opt_direct b q n key sh sp : direct (dcls q) = Some sp -> well_formed q = true -> leaf_shaped b q = true -> dims_of q = Ok n ->
    shaped_sample b (dcls q) n sh (run draw sp q key sh).
  Proof. intros E W S D. exact (direct_shape draw b q _ sp n key sh E eq_refl W S D). Qed.
  Lemma poisson_leaf s (t : tensor xr) : shp t = s -> exists p, construct (EP Poisson) [("mean", RA t)] None = Ok p /\ p = Dist (EP Poisson) DefaultMinimizer [("mean", RA t)] [] /\
    well_formed p = true /\ leaf_shaped s p = true /\ dims_of p = Ok 1.
  Proof.
    intros H. assert (N : map fst [("mean", RA t)] = map fd_name (fields (EP Poisson))) by reflexivity. eexists. split; [exact (construct_leaf (EP Poisson) [("mean", RA t)] eq_refl N)|]. split; [reflexivity|].
    split; [now apply wf_leaf|]. split; [|reflexivity]. unfold leaf_shaped. cbn. rewrite app_nil_r, H. rewrite shape_eqb_refl. reflexivity.
  Qed.
  Lemma nb_shape b q n key sh : dcls q = EP NegativeBinomial -> well_formed q = true -> leaf_shaped b q = true -> dims_of q = Ok n ->
    shaped_sample b (EP NegativeBinomial) n sh (nb_sample split2 draw q key sh).
  Proof.
    intros C W S D. unfold nb_sample. destruct (split2 key) as [k1 k2]. pose proof (leaf_env b q n S D) as HE. rewrite C in HE.
    destruct (make_ok b _ _ [ra "negative_rate" (- self "failures" / self "mean")%ae; ra "shape_minus_one" (self "failures" - #1)%ae] (NP Gamma) 1 HE) as (ps & M1 & M2 & M3 & M4 & _).
    { unfold args_ty, ctx_of. cbn [map fields]. argsr. } { reflexivity. } { reflexivity. } { reflexivity. }
    rewrite M1. cbn [bind]. destruct (opt_direct b _ 1 k1 sh _ (eq_refl : direct (dcls (Dist (NP Gamma) DefaultMinimizer ps [])) = Some _) M2 M3 M4) as (x & X1 & X2). cbn [opt_run np_sampler].
    cbn [direct np_sampler] in X1. rewrite X1. cbn [bind].
    assert (R : exists t, x = RA t). { unfold run in X1. repeat match type of X1 with bind ?r _ = _ => destruct r; [|discriminate X1]; cbn [bind] in X1 end.
      cbn [apply_post s_post] in X1. repeat match type of X1 with bind ?r _ = _ => destruct r; [|discriminate X1]; cbn [bind] in X1 end. injection X1 as <-. eauto. }
    destruct R as (t & ->). cbn [ashape] in X2. destruct (poisson_leaf _ t X2) as (p & P1 & P2 & P3 & P4 & P5). rewrite P1. cbn [bind opt_run ep_sampler].
    assert (Cp : dcls p = EP Poisson) by now rewrite P2. destruct (direct_shape draw _ p (EP Poisson) _ 1 k2 None eq_refl Cp P3 P4 P5) as (y & Y1 & Y2). exists y. split; [exact Y1|]. rewrite Y2. unfold event. cbn. now rewrite !app_nil_r.
  Qed.
  Definition samplable (c : cls) : bool := is_samplable c.
  Lemma event_ep f n : event (EP f) n = event (NP f) n. Proof. destruct f; reflexivity. Qed.
  Theorem sample_shape b q n key sh : is_samplable (dcls q) = true -> well_formed q = true -> leaf_shaped b q = true -> dims_of q = Ok n ->
    shaped_sample b (dcls q) n sh (sample split2 draw L q key sh).
  Proof.
    intros H W S D. unfold sample.
    assert (EXP : forall f sp, dcls q = NP f -> ep_sampler f = Some sp -> shaped_sample b (NP f) n sh (let* e := l_to_exp L q in opt_run draw (ep_sampler f) e key sh)).
    { intros f sp C E. destruct (exp_builds solve b q f n C W S D) as (ps & E1 & E2 & E3 & E4 & _). rewrite E1. cbn [bind]. rewrite E. cbn [opt_run].
      destruct (opt_direct b _ n key sh sp (E : direct (dcls (Dist (EP f) DefaultMinimizer ps [])) = Some sp) E2 E3 E4) as (x & X1 & X2). exists x. split; [exact X1|]. rewrite X2. cbn [dcls]. now rewrite event_ep. }
    assert (NAT : forall f sp, dcls q = EP f -> np_sampler f = Some sp -> shaped_sample b (EP f) n sh (let* e := l_to_nat L q in opt_run draw (np_sampler f) e key sh)).
    { intros f sp C E. destruct (nat_builds solve b q f n C W S D) as (ps & E1 & E2 & E3 & E4 & _). rewrite E1. cbn [bind]. rewrite E. cbn [opt_run].
      destruct (opt_direct b _ n key sh sp (E : direct (dcls (Dist (NP f) DefaultMinimizer ps [])) = Some sp) E2 E3 E4) as (x & X1 & X2). exists x. split; [exact X1|]. rewrite X2. cbn [dcls]. now rewrite event_ep. }
    assert (VAR : forall f q', dcls q' = EP f -> well_formed q' = true -> leaf_shaped b q' = true -> dims_of q' = Ok n -> f = Normal \/ f = MultivariateDiagonalNormal \/ f = MultivariateNormal ->
      shaped_sample b (EP f) n sh (let* v := ep_to_var q' in opt_run draw (vp_sampler (dcls v)) v key sh)).
    { intros f q' C W' S' D' HF. pose proof (leaf_env b q' n S' D') as HE. rewrite C in HE. unfold ep_to_var. rewrite C. destruct HF as [-> |[-> | ->]].
      - destruct (make_ok b _ _ [ra "mean" (self "mean"); ra "variance" variance_e] NormalVP n HE) as (ps & M1 & M2 & M3 & M4 & _). { unfold args_ty, ctx_of. cbn [map fields]. argsr. } { reflexivity. }
        { intros _. apply (dims_none _ _ D'). now rewrite C. } { reflexivity. } rewrite M1. cbn [bind dcls vp_sampler opt_run].
        exact (direct_shape draw b (Dist NormalVP DefaultMinimizer ps []) NormalVP _ n key sh eq_refl eq_refl M2 M3 M4).
      - destruct (make_ok b _ _ [ra "mean" (self "mean"); ra "variance" variance_e] MultivariateDiagonalNormalVP n HE) as (ps & M1 & M2 & M3 & M4 & _). { unfold args_ty, ctx_of. cbn [map fields]. argsr. } { reflexivity. } { discriminate. } { reflexivity. } rewrite M1. cbn [bind dcls vp_sampler opt_run].
        exact (direct_shape draw b (Dist MultivariateDiagonalNormalVP DefaultMinimizer ps []) MultivariateDiagonalNormalVP _ n key sh eq_refl eq_refl M2 M3 M4).
      - destruct (make_ok b _ _ [ra "mean" (self "mean"); ra "variance" mvn_variance_e] MultivariateNormalVP n HE) as (ps & M1 & M2 & M3 & M4 & _). { unfold args_ty, ctx_of. cbn [map fields]. argsr. } { reflexivity. } { discriminate. } { reflexivity. } rewrite M1. cbn [bind dcls vp_sampler opt_run].
        exact (direct_shape draw b (Dist MultivariateNormalVP DefaultMinimizer ps []) MultivariateNormalVP _ n key sh eq_refl eq_refl M2 M3 M4). }
    destruct (dcls q) as [f|f| | | | | | |] eqn:C; try discriminate H.
    - destruct f; try discriminate H.
      all: try (match goal with |- shaped_sample _ (NP ?f) _ _ (opt_run _ _ _ _ _) => pose proof (direct_shape draw b q (NP f) _ n key sh eq_refl C W S D) as X; exact X end).
      all: try (match goal with |- shaped_sample _ (NP ?f) _ _ _ => exact (EXP f _ eq_refl eq_refl) end).
      all: lazymatch type of C with
        | _ = NP NegativeBinomial => destruct (exp_builds solve b q _ n C W S D) as (ps & E1 & E2 & E3 & E4 & _); rewrite E1; cbn [bind ep_draw]; pose proof (nb_shape b (Dist (EP NegativeBinomial) DefaultMinimizer ps []) n key sh eq_refl E2 E3 E4) as X; exact X
        | _ = NP MultivariateDiagonalNormal => destruct (exp_builds solve b q _ n C W S D) as (ps & E1 & E2 & E3 & E4 & _); rewrite E1; cbn [bind]; exact (VAR MultivariateDiagonalNormal (Dist (EP MultivariateDiagonalNormal) DefaultMinimizer ps []) eq_refl E2 E3 E4 ltac:(auto))
        | _ = NP Normal => unfold np_to_var; rewrite C; destruct (exp_builds solve b q _ n C W S D) as (ps & E1 & E2 & E3 & E4 & _); cbn [l_to_exp fam_methods] in E1; rewrite E1; cbn [bind]; exact (VAR Normal (Dist (EP Normal) DefaultMinimizer ps []) eq_refl E2 E3 E4 ltac:(auto))
        | _ => idtac end.
    - destruct f; try discriminate H.
      all: try (match goal with |- shaped_sample _ (EP ?f) _ _ (ep_draw _ _ _ _ _ _) => pose proof (direct_shape draw b q (EP f) _ n key sh eq_refl C W S D) as X; exact X end).
      all: try (match goal with |- shaped_sample _ (EP ?f) _ _ _ => exact (NAT f _ eq_refl eq_refl) end).
      all: lazymatch type of C with
        | _ = EP NegativeBinomial => cbn [ep_draw]; exact (nb_shape b q n key sh C W S D)
        | _ = EP ?f => exact (VAR f q C W S D ltac:(auto)) | _ => idtac end.
    - unfold vp_to_nat. rewrite C. pose proof (leaf_env b q n S D) as HE. rewrite C in HE.
      destruct (make_ok b _ _ gamma_vp_nat (NP Gamma) n HE) as (ps & M1 & M2 & M3 & M4 & _). { unfold args_ty, ctx_of, gamma_vp_nat. cbn [map fields]. argsr. } { reflexivity. } { intros _. apply (dims_none _ _ D). now rewrite C. } { reflexivity. }
      rewrite M1. cbn [bind dcls np_sampler opt_run]. exact (direct_shape draw b (Dist (NP Gamma) DefaultMinimizer ps []) (NP Gamma) _ n key sh eq_refl eq_refl M2 M3 M4).
    - exact (direct_shape draw b q NormalVP _ n key sh eq_refl C W S D).
    - exact (direct_shape draw b q MultivariateDiagonalNormalVP _ n key sh eq_refl C W S D).
    - exact (direct_shape draw b q MultivariateNormalVP _ n key sh eq_refl C W S D).
  Qed.
End Sample.
