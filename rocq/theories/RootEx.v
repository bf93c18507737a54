(** Concrete gamma distributions whose search parameter is 0: the shape is softplus(0) = ln 2 and the mean is 1 (C28). *)
From Coquelicot Require Import Coquelicot.
From Coq Require Import String List Bool Arith Reals Lia Lra.
From Verif Require Import Base XReal Tensor TensorFacts TensorFacts2 Support SupportSpec Dist Iteration Structure Spec FlattenSpec StructFacts AssembleFacts StructThms FlattenThms SumFacts JointThms JointThms2 BatchFacts SumSpec DotSpec Joint SpecFun GammaFn Expr Fam ExprFacts FamTy FamFacts
  Examples JointEx PointSpec PointFacts Val FamR FamVal ConvFacts LeafVal ConvThms DerivFacts DerivThms ConvEx DensSpec RootSpec RootVal RootThms SearchFacts Var VarSpec VarThms.
Import ListNotations.
Local Unset Asymmetric Patterns.
Local Open Scope string_scope.
Local Open Scope R_scope.

Definition ml : R := digamma (ln 2) - ln (ln 2).
Definition ex_g : dist := Dist (EP Gamma) DefaultMinimizer [("mean", vec [1]%R [] eq_refl); ("mean_log", vec [ml]%R [] eq_refl)] [].
Definition ex_g2 : dist := Dist (EP Gamma) DefaultMinimizer [("mean", vec [5; 1]%R [2]%nat eq_refl); ("mean_log", vec [-4; ml]%R [2]%nat eq_refl)] [].
Definition solve0 : minimizer -> dist -> nat -> xr := fun _ _ _ => Fin 0.
Lemma ml_lt : ml < 0.
Proof. unfold ml. pose proof (digamma_lt_ln (ln 2) ltac:(rewrite <- ln_1; apply ln_increasing; lra)). lra. Qed.
Ltac proper_ k := split; [reflexivity|]; split; [reflexivity|]; split; [reflexivity|]; split; [reflexivity|]; leaf_ k.
Lemma ex_g_proper : proper_e [] [] Gamma ex_g.
Proof. pose proof ml_lt. proper_ 1%nat. rewrite ln_1. lra. Qed.
Lemma ex_g2_proper : proper_e [2]%nat [1]%nat Gamma ex_g2.
Proof. pose proof ml_lt. proper_ 1%nat. rewrite ln_1. lra. Qed.
Lemma ex_g_zero b i e : proper_e b i Gamma e -> point_of e i false "mean" [] = 1 -> point_of e i false "mean_log" [] = ml -> dims_of e = Ok 1%nat ->
  exists g, search_gradient e Gamma (tbuild (b ++ [1%nat])%list (fun _ => Fin 0)) = Ok g /\ zero_at b i g.
Proof.
  intros (C & W & S & Hi & Dom) H1 H2 D. destruct (exp_dom_at b i e Gamma Hi C W S Dom) as (n & A & H). assert (n = 1%nat) by (rewrite (ap_dims _ _ _ _ _ _ A) in D; congruence). subst n.
  set (sp := tbuild _ _). destruct (search_env b i e (EP Gamma) 1 (point_of e i) sp (fun _ => 0) 1 A eq_refl) as [HE HV].
  { intros k K. unfold sp. rewrite tget_tbuild; [reflexivity|]. now apply inb_snoc_intro. }
  unfold search_gradient. cbn [search_gradient_e]. pose proof (sps_pos 0) as P.
  set (e0 := ENewaxis _). assert (T : VR (("search", (KR, [1%nat])) :: ctx_of (EP Gamma) 1) (ps (point_of e i) (fun _ => 0)) e0 (Ev [1%nat]) (fun _ => 0)).
  { unfold e0. change [1%nat] with ([] ++ [1%nat])%list. eapply VR_ext.
    { apply VR_newaxis. eapply VR_add; [eapply VR_sub; [eapply VR_sub; [vr|vr|alt_]|eapply VR_log; [eapply VR_softplus; eapply VR_at; [vr|lia]|]|alt_]|eapply VR_digamma; [eapply VR_softplus; eapply VR_at; [vr|lia]|]|alt_]; jj; pss; try exact P; lra. }
    intros j Hj. destruct (inb1 _ _ Hj) as (k & -> & Hk). cbn [removelast]. pss. rewrite H1, H2, ln_1, exp_0. unfold ml. replace (1 + 1) with 2 by ring. lra. }
  destruct (eval_at b _ _ i _ e0 [1%nat] _ HE Hi HV T) as (t & T1 & T2 & T3). exists t. split; [exact T1|]. intros j Hj. change (shp (A := xr) t) with (shp (A := elt KR) t) in Hj. rewrite T2, skipn_app, skipn_all, Nat.sub_diag in Hj. exact (T3 j Hj).
Qed.
Lemma zeros b i : inb b i = true -> finite_search b i 1 (tbuild (b ++ [1%nat])%list (fun _ => Fin 0)).
Proof. intros Hi. split; [reflexivity|]. intros k K. exists 0. rewrite tget_tbuild; [reflexivity|]. now apply inb_snoc_intro. Qed.
Lemma ex_g_root : root_found solve0 Gamma ex_g.
Proof.
  destruct (ex_g_zero [] [] ex_g ex_g_proper eq_refl eq_refl eq_refl) as (g & G & Z). exists 1%nat, 1%nat, g. split; [reflexivity|]. split; [reflexivity|]. split; [exact (zeros [] [] eq_refl)|]. split; [exact G|exact Z].
Qed.
Lemma ex_g_vals : dist_vals true [] ex_g.
Proof.
  intros p q Hi. cbn in Hi. destruct Hi as [H|[]]; injection H as <- <-.
  exists 1%nat. split; [reflexivity|]. intros f [<-|[<-|[]]]; eexists _, _; (split; [reflexivity|]); (split; [reflexivity|]); split; try reflexivity;
      intros _; idx; unfold inside; pose proof feps_small; split; trivial; unfold adj_min; apply Rmax_lub_lt; lra.
Qed.
(** the gamma distribution with these expectation parameters *)
Definition ex_gq : dist := Dist (NP Gamma) DefaultMinimizer [("negative_rate", vec [- ln 2]%R [] eq_refl); ("shape_minus_one", vec [ln 2 - 1]%R [] eq_refl)] [].
Lemma ln2_pos : 0 < ln 2. Proof. rewrite <- ln_1. apply ln_increasing; lra. Qed.
Lemma ex_gq_proper : DensSpec.proper [] [] Gamma ex_gq.
Proof. pose proof ln2_pos. proper_ 1%nat. lra. Qed.
Lemma gq_root q : DensSpec.proper [] [] Gamma q -> point_of q [] false "negative_rate" [] = - ln 2 -> point_of q [] false "shape_minus_one" [] = ln 2 - 1 ->
  exists e, to_exp (fam_methods solve0) q = Ok e /\ dist_vals true [] e /\ root_found solve0 Gamma e.
Proof.
  pose proof ln2_pos as L2. intros (C & W & S & Hi & Dom) Pr Ps. destruct (nat_dom_at [] [] q Gamma Hi C W S Dom) as (n & A & K). assert (n = 1%nat) by (apply (dims_none _ _ (ap_dims _ _ _ _ _ _ A)); now rewrite C). subst n.
  destruct (exp_at solve0 [] [] q Gamma 1 _ Hi A K Logic.I) as (e & E1 & E2). exists e. split; [rewrite (api_exp_leaf _ _ Gamma) by exact C; exact E1|].
  pose proof (exp_ok Gamma 1 _ K) as Ko. pose proof (at_pt_exp_dom [] [] e Gamma 1 _ Hi E2 Ko) as De. pose proof (at_pt_pt [] [] e _ _ _ Hi E2) as PE. pose proof (pt_re _ _ _ _ (var "mean" (ScalarS positive_support)) [] PE (or_introl eq_refl) eq_refl) as M1. pose proof (pt_re _ _ _ _ (var "mean_log" (ScalarS real_field)) [] PE (or_intror (or_introl eq_refl)) eq_refl) as M2. cbn in M1, M2. rewrite Pr, Ps in M1, M2.
  assert (Q' : point_of e [] false "mean" [] = 1) by (rewrite <- M1; field; lra).
  assert (Q0' : point_of e [] false "mean_log" [] = ml) by (rewrite <- M2; unfold ml; replace (ln 2 - 1 + 1) with (ln 2) by ring; now rewrite Ropp_involutive).
  assert (P : proper_e [] [] Gamma e) by (destruct E2 as [C2 W2 S2 D2 V2]; repeat (split; [assumption|]); exact De).
  split.
  - intros p q' Hp. rewrite leaf_leaves in Hp by now rewrite (ap_cls _ _ _ _ _ _ E2). destruct Hp as [Hp|[]]. injection Hp as <- <-. exists 1%nat. split; [exact (ap_dims _ _ _ _ _ _ E2)|].
    assert (X : forall f r, In f (fields (EP Gamma)) -> fd_support f = ScalarS r -> r = positive_support \/ r = real_field ->
        (forall v, point_of e [] false (fd_name f) [] = v -> match r with RealF mn mx _ => inside mn mx v | _ => False end) ->
        exists v s, dget (dparams e) (fd_name f) = Some v /\ Ok (fd_support f) = Ok s /\ supp_vals s true [] 1 v).
    { intros f r If Fs Hr Hv. destruct (ap_get _ _ _ _ _ _ f E2 If) as (v & V1 & V2 & V3). exists v, (fd_support f). split; [exact V1|]. split; [reflexivity|]. rewrite Fs in *. cbn [supp_shape app] in V2. split; [exact V2|].
      specialize (Hv _ eq_refl). assert (kind_of (ScalarS r) = KR) by (destruct Hr as [-> | ->]; reflexivity). rewrite H in V3. cbn [pack] in V3.
      pose proof (entry_eq _ _ _ _ _ _ f v [] E2 If V1) as En. rewrite Fs in En. specialize (En eq_refl). rewrite H in En. rewrite V3 in *. cbn [ashape] in V2. set (t := match get_kind KR v with Ok t => t | Err _ => _ end) in *. clearbody t. change (tensor xr) in t.
      cbn [app entry_c cofr] in En. injection En as En.
      assert (Pv : point_of e [] false (fd_name f) [] = toR (tget t [])) by (unfold point_of; rewrite V1; reflexivity). rewrite Pv in Hv. 
      destruct Hr as [-> | ->]; cbn [ring_vals]; intros _ j Hj; assert (j = []) by (apply inb0; exact (eq_trans (f_equal (fun s => inb s j) (eq_sym V2)) Hj)); subst j; (eexists; split; [exact En|]); assert (Et : toR (tget t []) = expR 1 (point_of q []) Gamma false (fd_name f) []) by exact (f_equal toR En); rewrite Et in Hv; exact Hv. }
    intros f If. rewrite (ap_cls _ _ _ _ _ _ E2) in *. destruct If as [<-|[<-|[]]].
    + apply (X _ positive_support); [now left|reflexivity|now left|]. cbn [fd_name var]. intros v <-. rewrite Q'. split; [|exact Logic.I]. unfold adj_min. pose proof feps_small. apply Rmax_lub_lt; lra.
    + apply (X _ real_field); [right; now left|reflexivity|now right|]. intros v _. split; exact Logic.I.
  - destruct (ex_g_zero [] [] e P Q' Q0' (ap_dims _ _ _ _ _ _ E2)) as (g & G & Z). assert (Em : default_minimizers e = e).
    { destruct (exp_builds solve0 [] q Gamma 1 C W S (ap_dims _ _ _ _ _ _ A)) as (ps & P1 & _). rewrite E1 in P1. injection P1 as ->. reflexivity. }
    exists 1%nat, 1%nat, g. split; [exact (ap_dims _ _ _ _ _ _ E2)|]. split; [reflexivity|]. split; [exact (zeros [] [] eq_refl)|]. rewrite Em. split; [exact G|exact Z].
Qed.
Lemma ex_gq_root : exists e, to_exp (fam_methods solve0) ex_gq = Ok e /\ dist_vals true [] e /\ root_found solve0 Gamma e.
Proof. exact (gq_root ex_gq ex_gq_proper eq_refl eq_refl). Qed.
(** the same gamma distribution by its mean and variance *)
Definition ex_gvp0 : dist := Dist GammaVP DefaultMinimizer [("mean", vec [1]%R [] eq_refl); ("variance", vec [/ ln 2]%R [] eq_refl)] [].
Lemma ex_gvp0_dom : vp_domain ex_gvp0 [].
Proof. pose proof ln2_pos as L2. leaf_ 1%nat. split; [lra|now apply Rinv_0_lt_compat]. Qed.
Lemma ex_gvp0_root : exists e, vp_to_exp ex_gvp0 = Ok e /\ dist_vals true [] e /\ root_found solve0 Gamma e.
Proof.
  pose proof ln2_pos as L2. destruct (vp_dom_at [] [] ex_gvp0 eq_refl eq_refl eq_refl ex_gvp0_dom) as (n & A & _). cbn [dcls ex_gvp0] in A. fold ex_gvp0 in A.
  assert (n = 1%nat) by (apply (dims_none _ _ (ap_dims _ _ _ _ _ _ A)); reflexivity). subst n.
  destruct (gamma_var_nat solve0 [] [] eq_refl ex_gvp0 eq_refl eq_refl ex_gvp0_dom eq_refl) as (q & r & e & Q1 & Q2 & _ & _ & Q3 & _ & Q4 & _).
  destruct (gamma_vp_nat_at [] [] eq_refl ex_gvp0 1 (point_of ex_gvp0 []) A) as (q' & Q1' & Q5). { cbn. now apply Rinv_0_lt_compat. }
  assert (q' = q) by congruence. subst q'. pose proof (at_pt_pt [] [] q _ _ _ eq_refl Q5) as PE.
  destruct (gq_root q) as (e' & E1 & E2 & E3).
  - destruct Q5 as [C W S D V]. repeat (split; [assumption|]). split; [reflexivity|]. exact Q2.
  - pose proof (pt_re _ _ _ _ (var "negative_rate" (ScalarS negative_support)) [] PE (or_introl eq_refl) eq_refl) as M. cbn in M. rewrite <- M. field. lra.
  - pose proof (pt_re _ _ _ _ (var "shape_minus_one" (ScalarS (minus_one_support 1))) [] PE (or_intror (or_introl eq_refl)) eq_refl) as M. cbn in M. rewrite <- M. field. lra.
  - exists e. rewrite Q4 in E1. injection E1 as <-. auto.
Qed.
