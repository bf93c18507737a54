(** A joint distribution whose second component is a gamma distribution, and a solver that finds the roots of the gamma searches (C53). *)
From Coquelicot Require Import Coquelicot.
From Coq Require Import String List Bool Arith Reals Lia Lra.
From Verif Require Import Base XReal Tensor TensorFacts TensorFacts2 Support SupportSpec Dist Iteration Structure Spec FlattenSpec StructFacts AssembleFacts StructThms FlattenThms SumFacts JointThms JointThms2 BatchFacts SumSpec DotSpec Tools ToolThms MapFacts Joint SpecFun GammaFn Expr Fam ExprFacts FamTy FamFacts
  Examples JointEx PointSpec PointFacts Val FamR FamVal ConvFacts LeafVal ConvThms DerivFacts DerivThms ConvEx DensSpec RootSpec RootVal RootThms SearchFacts Var VarSpec VarThms RootEx MeanSpec MeanThms ClampThms MatEx MatEx2 DotLaws GradSpec GradEx GradThms GradSearchSpec GradSearch.
Import ListNotations.
Local Unset Asymmetric Patterns.
Local Open Scope string_scope.
Local Open Scope R_scope.

(** the root of the search, if there is exactly one *)
Definition gsolve : minimizer -> dist -> nat -> xr := fun _ d _ => Fin (real (Lub_Rbar (fun x => search_root [] [] Gamma 1 d (tbuild [1%nat] (fun _ => Fin x))))).
Lemma lub_one (P : R -> Prop) x : P x -> (forall y, P y -> y = x) -> Lub_Rbar P = Finite x.
Proof. intros H U. apply is_lub_Rbar_unique. split; [intros y Hy; rewrite (U y Hy); apply Rbar_le_refl|]. intros u Hu. exact (Hu x H). Qed.
Lemma gsolve_found e : proper_e [] [] Gamma e -> root_found gsolve Gamma e.
Proof.
  intros P. pose proof P as (C & W & _). pose proof (proper_e_min DefaultMinimizer [] [] Gamma e P) as P'. rewrite <- (leaf_default e Gamma C W) in P'. set (d := default_minimizers e) in *.
  assert (D' : dims_of d = Ok 1%nat). { destruct P' as (C' & W' & S' & Hi' & Dom'). destruct (exp_dom_at [] [] d Gamma Hi' C' W' S' Dom') as (n & A & _). rewrite (ap_dims _ _ _ _ _ _ A). f_equal. apply (dims_none _ _ (ap_dims _ _ _ _ _ _ A)). now rewrite C'. }
  assert (D : dims_of e = Ok 1%nat). { destruct P as (C' & W' & S' & Hi' & Dom'). destruct (exp_dom_at [] [] e Gamma Hi' C' W' S' Dom') as (n & A & _). rewrite (ap_dims _ _ _ _ _ _ A). f_equal. apply (dims_none _ _ (ap_dims _ _ _ _ _ _ A)). now rewrite C'. }
  destruct (t_always gsolve [] [] Gamma d 1 (or_introl eq_refl) P' D') as (sp & [S1 S2] & g & G1 & G2). destruct (S2 0%nat ltac:(lia)) as [x Hx]. cbn [app] in Hx, S1.
  assert (Esp : sp = tbuild [1%nat] (fun _ => Fin x)).
  { apply tensor_ext; [exact S1|]. intros j Hj. rewrite S1 in Hj. destruct (inb1 _ _ Hj) as (k & -> & Hk). assert (k = 0%nat) by lia. subst k. rewrite Hx, tget_tbuild by reflexivity. reflexivity. }
  subst sp. assert (R : search_root [] [] Gamma 1 d (tbuild [1%nat] (fun _ => Fin x))) by (split; [split; assumption|exists g; auto]).
  assert (E : gsolve (dmin e) d 0 = Fin x).
  { unfold gsolve. rewrite (lub_one _ x R); [reflexivity|]. intros y Hy. pose proof (t_root_unique gsolve [] [] Gamma d 1 1 _ _ P' D' eq_refl ltac:(discriminate) ltac:(discriminate) Hy R 0%nat ltac:(lia)) as Q. cbn [app] in Q. rewrite !tget_tbuild in Q by reflexivity. now injection Q. }
  exists 1%nat, 1%nat, g. split; [exact D|]. split; [reflexivity|]. assert (Es : solution gsolve (dmin e) d 1 = tbuild [1%nat] (fun _ => Fin x)).
  { unfold solution. apply tensor_ext; [reflexivity|]. intros j Hj. cbn [shp tbuild] in Hj. destruct (inb1 _ _ Hj) as (k & -> & Hk). rewrite !tget_tbuild by exact Hj. assert (k = 0%nat) by lia. subst k. exact E. }
  cbv zeta. fold d. rewrite Es. split; [split; assumption|]. split; assumption.
Qed.
Lemma gamma_vals l P : at_pt [] [] l (EP Gamma) 1 P -> 1 / 2 < P false "mean" [] -> dist_vals true [] l.
Proof.
  intros A H p q I. assert (J : is_joint (dcls l) = false) by now rewrite (ap_cls _ _ _ _ _ _ A). rewrite (leaf_leaves l [] J) in I. destruct I as [I|[]]. injection I as <- <-.
  exists 1%nat. split; [exact (ap_dims _ _ _ _ _ _ A)|]. rewrite (ap_cls _ _ _ _ _ _ A). intros f I.
  assert (F : In f (fields (EP Gamma))) by (cbn in I; destruct I as [<-|[<-|[]]]; cbn; auto). destruct (ap_get _ _ _ _ _ _ f A F) as (x & X1 & X2 & X3).
  assert (KR' : kind_of (fd_support f) = KR) by (cbn in I; destruct I as [<-|[<-|[]]]; reflexivity). assert (S0 : supp_shape (fd_support f) 1 = []) by (cbn in I; destruct I as [<-|[<-|[]]]; reflexivity).
  pose proof (ap_vals _ _ _ _ _ _ A _ _ _ [] (fields_in_ctx (EP Gamma) 1 f F)) as V. rewrite S0 in V. specialize (V eq_refl). unfold vals_of in V. rewrite X1 in V. rewrite KR' in V, X3. destruct x as [t|t]; [|discriminate X3]. cbn in V. cbn in X2. rewrite S0 in X2.
  exists (RA t), (fd_support f). split; [exact X1|]. pose proof feps_small as Fe. cbn in I. destruct I as [<-|[<-|[]]]; (split; [reflexivity|]); (split; [exact X2|]); intros _ j Hj; rewrite X2 in Hj; destruct j; try discriminate Hj; eexists; (split; [exact V|]); cbn; unfold inside; split; trivial.
  cbn [option_map]. unfold adj_min. apply Rmax_lub_lt; lra.
Qed.
Lemma gamma_found l P : at_pt [] [] l (EP Gamma) 1 P -> 1 / 2 < P false "mean" [] -> P false "mean_log" [] < ln (P false "mean" []) -> exists q, to_nat (fam_methods gsolve) l = Ok q /\ mean_of (fam_methods gsolve) [] [] Gamma q l.
Proof.
  intros A H1 H2. assert (Pr : proper_e [] [] Gamma l).
  { split; [exact (ap_cls _ _ _ _ _ _ A)|]. split; [exact (ap_wf _ _ _ _ _ _ A)|]. split; [exact (ap_shaped _ _ _ _ _ _ A)|]. split; [reflexivity|]. exists 1%nat. split; [exact (ap_dims _ _ _ _ _ _ A)|]. split; [exact (at_pt_fin _ _ _ _ _ _ A)|].
    rewrite (ap_cls _ _ _ _ _ _ A). pose proof (at_pt_pt [] [] l _ _ _ eq_refl A) as E. pose proof (pt_re _ _ _ _ (hd (var "" (ScalarS real_field)) (fields (EP Gamma))) [] E (or_introl eq_refl) eq_refl) as E1.
    pose proof (pt_re _ _ _ _ (nth 1 (fields (EP Gamma)) (var "" (ScalarS real_field))) [] E (or_intror (or_introl eq_refl)) eq_refl) as E2. cbn in E1, E2. cbn. rewrite <- E1, <- E2. split; lra. }
  destruct (t_to_nat gsolve Gamma l Pr ltac:(discriminate) (gamma_vals l P A H1) (gsolve_found l Pr)) as (q & e' & Q1 & Q2 & Q3 & Q4). exists q. split; [exact Q1|]. split; [exact Q2|]. exists e'. auto.
Qed.

Definition ex_s : dist := Dist JointDistributionE DefaultMinimizer []
  [("e", Dist (EP Exponential) DefaultMinimizer [("mean", vec [2]%R [] eq_refl)] []); ("g", ex_g)].
Definition ex_sv : dist := Dist JointDistributionE DefaultMinimizer []
  [("e", Dist (EP Exponential) DefaultMinimizer [("mean", vec [-1]%R [] eq_refl)] []);
   ("g", Dist (EP Gamma) DefaultMinimizer [("mean", vec [1]%R [] eq_refl); ("mean_log", vec [0]%R [] eq_refl)] [])].
Lemma ex_s_proper : exp_proper [] [] ex_s.
Proof.
  pose proof ml_lt. do 4 (split; [reflexivity|]). intros p l I. cbn in I. destruct I as [I|[I|[]]]; injection I as <- <-.
  - leaf_ 1%nat; lra.
  - exact (proj2 (proj2 (proj2 (proj2 ex_g_proper)))).
Qed.
Lemma ex_s_dir : all_nodes has_entropy_ep ex_s = true /\ finite_vars ex_s /\ exp_direction [] [] ex_s ex_sv.
Proof.
  split; [reflexivity|]. split; [finc_tree_tac|]. split; [reflexivity|].
  split. { intros p. destruct p as [|a p]; [split; reflexivity|]. cbn. destruct (keq a "e"); [|destruct (keq a "g")]; [| |split; reflexivity]; destruct p; split; reflexivity. }
  split. { unfold tree_match. cbn [leaves ex_s ex_sv ex_g is_joint flat_map app fst snd]. repeat constructor; try (cbn; eexists; split; reflexivity); reflexivity. }
  split; [finc_tree_tac|].
  split. { intros p l H. cbn in H. destruct H as [H|[H|[]]]; injection H as <- <-; exists 1%nat; (split; [reflexivity|finc_]). }
  intros p l H n D a c Ha Hc. cbn in H. destruct H as [H|[H|[]]]; injection H as <- <-; split; intros K; discriminate K.
Qed.
Lemma ex_s_found : found_along (fam_methods gsolve) [] [] ex_s ex_sv.
Proof.
  pose proof ml_lt as Hm. split.
  - intros p l f I C N. cbn in I. destruct I as [I|[I|[]]]; injection I as <- <-; injection C as <-; [discriminate N|]. destruct ex_g_proper as (C & W & S & Hi & Dom). destruct (exp_dom_at [] [] ex_g Gamma Hi C W S Dom) as (n & A & K).
    assert (n = 1%nat) by (apply (dims_none _ _ (ap_dims _ _ _ _ _ _ A)); reflexivity). subst n. apply (gamma_found ex_g _ A); [|exact (proj2 K)]. cbn. lra.
  - assert (E0 : 0 < 1 - exp ml) by (rewrite <- exp_0 at 1; pose proof (exp_increasing ml 0 Hm); lra). exists (Rmin (1 / 2) (1 - exp ml)). split; [apply Rmin_pos; lra|]. intros s r Hs Hr p l f I C N. assert (A1 := Rmin_l (1 / 2) (1 - exp ml)). assert (A2 := Rmin_r (1 / 2) (1 - exp ml)). apply Rabs_lt_between in Hs.
    destruct ex_s_dir as (D1 & D2 & D3). destruct (at_s [] [] ex_s ex_sv ex_s_proper D1 D2 D3 s) as (r' & R1 & R2 & R3 & R4 & R5 & R6). rewrite Hr in R1. injection R1 as <-.
    pose proof (leaves_by_path ex_s r R2 (F2_paths _ _ _ R5)) as Lp. rewrite Lp in I. cbn [ex_s leaves ex_g is_joint dcls flat_map app fst snd map] in I. destruct I as [I|[I|[]]]; injection I as <- <-.
    + exfalso. destruct (R6 ["e"] (Dist (EP Exponential) DefaultMinimizer [("mean", vec [2]%R [] eq_refl)] []) Exponential 1%nat (or_introl eq_refl) eq_refl) as [Q _]. pose proof (ap_cls _ _ _ _ _ _ Q) as Cq. cbn [app] in C. rewrite Cq in C. injection C as <-. discriminate N.
    + destruct (R6 ["g"] ex_g Gamma 1%nat (or_intror (or_introl eq_refl)) eq_refl) as [Q _]. pose proof (ap_cls _ _ _ _ _ _ Q) as Cq. cbn [app] in C |- *. rewrite Cq in C. injection C as <-. apply (gamma_found _ _ Q).
      * cbn. lra.
      * cbn. replace (ml + s * 0) with ml by ring. replace (1 + s * 1) with (1 + s) by ring. rewrite <- (ln_exp ml) at 1. apply ln_increasing; [apply exp_pos|lra].
Qed.
Lemma ex_entropy_gradient_all : exp_proper [] [] ex_s /\ all_nodes has_entropy_ep ex_s = true /\ found_along (fam_methods gsolve) [] [] ex_s ex_sv /\ finite_vars ex_s /\ exp_direction [] [] ex_s ex_sv.
Proof. destruct ex_s_dir as (D1 & D2 & D3). split; [exact ex_s_proper|]. split; [exact D1|]. split; [exact ex_s_found|]. auto. Qed.
