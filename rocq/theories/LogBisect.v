(** C75 for Logarithmic, whose expectation parameter is replaced by 1 below the floor of log_probability. *)
From Coquelicot Require Import Coquelicot.
From Coq Require Import String List Bool Arith Reals Lia Lra.
From Verif Require Import Base XReal Tensor TensorFacts TensorFacts2 Support PlaneFacts Dist DictFacts Iteration Structure Spec StructFacts AssembleFacts SumSpec DotSpec FlattenSpec Tools
  ToolThms Joint StructThms MapFacts SpecFun GammaFn BesselFn Expr Fam ExprFacts FamTy FamFacts SearchFacts DotFacts DotLaws BatchFacts PointSpec PointFacts Val FamR FamVal ConvFacts LeafVal VarSpec DensSpec FlattenThms Var VarThms RootSpec RootVal RootThms ResidSpec ResidThms
  InjThms MeanSpec MeanFacts MeanThms Bisect Initial BisectThms InitialThms.
Import ListNotations.
Local Unset Asymmetric Patterns.
Local Open Scope string_scope.
Local Open Scope R_scope.

(** ** the loops see only the signs *)
Section E.
  Variables (F F' : R -> xr).
  Hypotheses (H1 : forall x, xleb (F x) (Fin 0) = xleb (F' x) (Fin 0)) (H2 : forall x, xleb (Fin 0) (F x) = xleb (Fin 0) (F' x)).
  Lemma expand_sign : forall k lo hi, expand F k lo hi = expand F' k lo hi.
  Proof. induction k as [|k IH]; intros lo hi; cbn [expand]; unfold brackets; rewrite H1, H2; [reflexivity|]. now rewrite IH. Qed.
  Lemma bisect_sign : forall n lo hi, bisect F n lo hi = bisect F' n lo hi.
  Proof. induction n as [|n IH]; intros lo hi; cbn [bisect]; [reflexivity|]. cbv zeta. now rewrite H1, !IH. Qed.
  Lemma interval_sign s k n : bis_interval F s k n = bis_interval F' s k n.
  Proof. unfold bis_interval. rewrite expand_sign. destruct (expand F' k (s - 1) (s + 1)) as [lo hi]. apply bisect_sign. Qed.
End E.
(** ** the gradient *)
Definition one_pt : point := mkpt [("chi", re (fun _ => 1))].
Lemma clip_val p : p false "log_probability" [] < 0 -> p false "log_probability" [] < log_probability_floor -> args_at (ctx_of (NP Logarithmic) 1) p one_pt (exp_args Logarithmic) (ctx_of (EP Logarithmic) 1).
Proof.
  intros H L. unfold args_at, exp_args, ctx_of. cbn [map fields]. argv.
  set (x := p false "log_probability" []) in *.
  assert (Vl : VR (ctx_of (NP Logarithmic) 1) p (self "log_probability") (Ev []) (fun _ => x)) by (eapply VR_ext; [eapply VR_self; reflexivity|jj; reflexivity]).
  assert (Tx : V (k := KR) (ctx_of (NP Logarithmic) 1) p (r1 (fun _ => PInf) (self "log_probability")) (Ev []) (fun _ => PInf)) by (eapply (V_map (k1 := KR) (k2 := KR) _ _ (fun _ => PInf)); [eapply VR_self; reflexivity|]; reflexivity).
  destruct (ty_form p H) as (vf & Tf).
  eapply V_ext; [eapply V_where1n; [eapply VR_test1; [exact Vl|]|eapply V_where0; [eapply VR_test; [exact Vl|]|exact Tx|exact Tf]]|].
  - intros j _. unfold xltb, rltb. destruct (Rlt_dec _ _); [reflexivity|lra].
  - intros j _. unfold xltb, rltb. destruct (Rlt_dec _ _); [|reflexivity]. unfold log_probability_ceiling, log_probability_floor in *. lra.
  - jj. reflexivity.
Qed.
Definition log_lp (x : R) : R := adj_max 0 - sps (- x).
Definition log_h (c x : R) : R := if Rlt_dec (log_lp x) log_probability_floor then 1 - c else chi_of (log_lp x) - c.
Lemma log_lp_neg x : log_lp x < 0.
Proof. unfold log_lp. pose proof (sps_pos (- x)). pose proof (adj_max_lt 0). lra. Qed.
Lemma log_lp_incr x y : x < y -> log_lp x < log_lp y.
Proof. intros H. unfold log_lp. pose proof (sps_incr (- y) (- x) ltac:(lra)). lra. Qed.
Section G.
  Variable solve : minimizer -> dist -> nat -> xr.
  Notation L := (fam_methods solve).
  Lemma log_grad e p sp x : at_pt [] [] e (EP Logarithmic) 1 p -> exp_dom Logarithmic 1 p -> shp sp = [1%nat] -> tget sp [0%nat] = Fin x ->
    exists g, search_gradient e Logarithmic sp = Ok g /\ shp g = [1%nat] /\ tget g [0%nat] = Fin (log_h (p false "chi" []) x).
  Proof.
    intros A H Sp Sx. assert (Sv : forall k, (k < search_dim Logarithmic 1)%nat -> tget sp ([] ++ [k])%list = Fin ((fun _ : nat => x) k)) by (intros k K; cbn in K; replace k with 0%nat by lia; exact Sx).
    assert (Hn : nat_dom Logarithmic 1 (snR 1 p (fun _ => x) Logarithmic)) by (cbn [nat_dom]; exact (log_lp_neg x)).
    unfold log_h. destruct (Rlt_dec (log_lp x) log_probability_floor) as [Lt|Ge].
    2:{ destruct (default_grad solve [] [] e Logarithmic 1 p sp (fun _ => x) eq_refl eq_refl A H Sp Sv Hn) as (g & G1 & G2 & G3). exists g. split; [exact G1|]. split; [exact G2|].
        assert (U : unclipped Logarithmic (snR 1 p (fun _ => x) Logarithmic)). { split; [apply Rnot_lt_le; exact Ge|]. exact (snR_ceiling 1 p (fun _ => x)). }
        specialize (G3 U 0%nat Nat.lt_0_1). exact G3. }
    destruct (s2n_at [] [] e Logarithmic 1 p sp (fun _ => x) eq_refl eq_refl A H Sp Sv) as (q & Q1 & Q2). pose proof Q2 as [C W S D V].
    destruct (exp_builds solve [] q Logarithmic 1 C W S D) as (ps & B1 & B2 & B3 & B4 & _).
    destruct (leaf_inv (Dist (EP Logarithmic) DefaultMinimizer ps []) B2 eq_refl) as [_ N']. cbn [dcls dparams] in N'. destruct (flat_raw Logarithmic [] _ ps 1 eq_refl N' B3 B4) as (F' & u' & U1 & U2 & U3).
    pose proof A as [Ce We Se De Ve]. assert (J : is_joint (dcls e) = false) by now rewrite Ce. destruct (leaf_inv e We J) as [Qe Ne]. rewrite Ce in Qe, Ne. rewrite Qe in Se, De.
    destruct (flat_raw Logarithmic [] _ _ 1 eq_refl Ne Se De) as (F & u & W1 & W2 & W3). rewrite <- Qe in W1.
    assert (G : search_gradient e Logarithmic sp = Ok (tbuild (shp u') (fun i => xsub (tget u' i) (tget u i)))).
    { unfold search_gradient. cbn [search_gradient_e]. rewrite Q1. cbn [bind]. change (fam_to_exp q) with (l_to_exp L q). rewrite B1. cbn [bind]. rewrite W1, U1. cbn [bind]. rewrite tmap2_same by congruence. reflexivity. }
    eexists. split; [exact G|]. split; [exact U2|]. rewrite tget_tbuild by (rewrite U2; reflexivity).
    assert (E3 : at_pt [] [] (Dist (EP Logarithmic) DefaultMinimizer ps []) (EP Logarithmic) 1 one_pt).
    { pose proof (leaf_env [] q 1 S D) as HE. rewrite C in HE. change (l_to_exp L q) with (fam_to_exp q) in B1. unfold fam_to_exp in B1. rewrite C in B1.
      destruct (make_at [] _ _ (exp_args Logarithmic) (EP Logarithmic) 1 [] _ one_pt HE eq_refl V (clip_val _ (log_lp_neg x) Lt) eq_refl (fun _ => eq_refl) eq_refl) as (e' & E1 & E2 & E3 & E4 & E5 & E6 & E7).
      change (make (EP Logarithmic) (dparams q) (exp_args Logarithmic) = Ok (Dist (EP Logarithmic) DefaultMinimizer ps [])) in B1. rewrite B1 in E1. injection E1 as <-. apply (at_pt_eq _ _ _ _ _ (point_of (Dist (EP Logarithmic) DefaultMinimizer ps []) [])); [now apply at_pt_self|exact E7]. }
    destruct (default_field Logarithmic 1 p (fun _ => x) 0 eq_refl eq_refl Nat.lt_0_1) as (fd & j & Ig & Hj & Fk & Kr & _). cbn in Ig. destruct Ig as [<-|[]].
    destruct (W3 _ (or_introl eq_refl)) as (t & T1 & T2). destruct (U3 _ (or_introl eq_refl)) as (t' & T1' & T2').
    destruct (T2 [] [] eq_refl eq_refl) as [_ K2]. destruct (T2' [] [] eq_refl eq_refl) as [_ K2'].
    pose proof (Ve "chi" KR [] [] eq_refl eq_refl) as Y. pose proof (ap_vals _ _ _ _ _ _ E3 "chi" KR [] [] eq_refl eq_refl) as Y'. unfold vals_of in Y, Y'. cbn [dparams] in Y'. cbn [fd_name var] in T1, T1'. rewrite T1 in Y. rewrite T1' in Y'.
    change (@tget xr Dflt_xr t [] = Fin (p false "chi" [])) in Y. change (@tget xr Dflt_xr t' [] = Fin 1) in Y'.
    change (@tget xr Dflt_xr u [0%nat] = @tget xr Dflt_xr t []) in K2. change (@tget xr Dflt_xr u' [0%nat] = @tget xr Dflt_xr t' []) in K2'.
    rewrite K2, K2', Y, Y'. reflexivity.
  Qed.
End G.

(** ** the root *)
Section R.
  Variables (c r : R).
  Hypotheses (Hc : 1 < c) (Hf : log_probability_floor < log_lp r) (Hr : log_h c r = 0).
  Lemma log_root_chi : chi_of (log_lp r) = c.
  Proof. revert Hr. unfold log_h. destruct (Rlt_dec _ _); lra. Qed.
  Lemma chi_le x y : x < 0 -> y < 0 -> chi_of x <= chi_of y <-> x <= y.
  Proof. intros X Y. split; intros H; [destruct (Rle_or_lt x y) as [K|K]; [exact K|pose proof (chi_incr y x X K); lra]|]. destruct H as [H| ->]; [pose proof (chi_incr x y Y H); lra|lra]. Qed.
  Lemma lp_le x y : log_lp x <= log_lp y <-> x <= y.
  Proof. split; intros H; [destruct (Rle_or_lt x y) as [K|K]; [exact K|pose proof (log_lp_incr y x K); lra]|]. destruct H as [H| ->]; [pose proof (log_lp_incr x y H); lra|lra]. Qed.
  Lemma log_le x : log_h c x <= 0 <-> x <= r.
  Proof.
    rewrite <- (lp_le x r). unfold log_h. destruct (Rlt_dec _ _) as [K|K]; [split; intros; lra|]. rewrite <- (chi_le (log_lp x) (log_lp r) (log_lp_neg x) (log_lp_neg r)), log_root_chi. split; intros; lra.
  Qed.
  Lemma log_ge x : 0 <= log_h c x <-> r <= x.
  Proof.
    rewrite <- (lp_le r x). unfold log_h. destruct (Rlt_dec _ _) as [K|K]; [split; intros; lra|]. rewrite <- (chi_le (log_lp r) (log_lp x) (log_lp_neg r) (log_lp_neg x)), log_root_chi. split; intros; lra.
  Qed.
  Lemma lp_cont x : continuity_pt log_lp x.
  Proof. apply (continuity_pt_minus (fun _ => adj_max 0) (fun y => sps (- y))); [apply continuity_pt_const; intros a b; reflexivity|]. apply (continuity_pt_comp (fun y => - y) sps); [apply (continuity_pt_opp (fun y => y)), derivable_continuous_pt, derivable_pt_id|apply sps_cont]. Qed.
  Lemma log_near eps : 0 < eps -> exists d, 0 < d /\ forall x, Rabs (x - r) <= d -> Rabs (log_h c x) <= eps.
  Proof.
    intros Ep. destruct (near_root (fun x => chi_of (log_lp x) - c) r eps) as (d1 & D1 & N1); [|rewrite log_root_chi; lra|exact Ep|].
    { apply (continuity_pt_minus (fun x => chi_of (log_lp x)) (fun _ => c)); [|apply continuity_pt_const; intros a b; reflexivity]. apply (continuity_pt_comp log_lp chi_of); [apply lp_cont|apply chi_cont, log_lp_neg]. }
    destruct (near_root (fun x => log_lp x - log_lp r) r (log_lp r - log_probability_floor)) as (d2 & D2 & N2); [|lra|lra|].
    { apply (continuity_pt_minus log_lp (fun _ => log_lp r)); [apply lp_cont|apply continuity_pt_const; intros a b; reflexivity]. }
    exists (Rmin d1 d2). split; [now apply Rmin_pos|]. intros x X. pose proof (Rmin_l d1 d2). pose proof (Rmin_r d1 d2). specialize (N1 x ltac:(lra)). specialize (N2 x ltac:(lra)).
    unfold log_h. destruct (Rlt_dec _ _) as [K|K]; [|exact N1]. exfalso. revert N2. unfold Rabs. destruct (Rcase_abs _); lra.
  Qed.
  Lemma log_interval F start d : (forall x, F x = Fin (log_h c x)) -> 0 < d -> exists K N, forall k n, (K <= k)%nat -> (N <= n)%nat -> let (a, b) := bis_interval F start k n in a <= r <= b /\ b - a <= d.
  Proof.
    intros HF Dp. destruct (interval_spec (fun x => Fin (x - r)) (fun x => x - r) r (fun _ => eq_refl) ltac:(intros; lra) ltac:(lra) start d Dp) as (K & N & H). exists K, N. intros k n Hk Hn. specialize (H k n Hk Hn).
    rewrite (interval_sign F (fun x => Fin (x - r))); [exact H| |]; intros x; rewrite HF; apply eq_iff_eq_true; rewrite !xleb_fin; [rewrite log_le|rewrite log_ge]; split; intros; lra.
  Qed.
End R.
Lemma log_par q p x : at_pt [] [] q (NP Logarithmic) 1 (snR 1 p (fun _ => x) Logarithmic) -> par q [] "log_probability" [] = log_lp x.
Proof.
  intros Q. pose proof (ap_vals _ _ _ _ _ _ Q "log_probability" KR [] [] eq_refl eq_refl) as Y. unfold par, point_of. pose proof (leaf_env [] q 1 (ap_shaped _ _ _ _ _ _ Q) (ap_dims _ _ _ _ _ _ Q)) as HE. rewrite (ap_cls _ _ _ _ _ _ Q) in HE.
  destruct (HE "log_probability" KR [] eq_refl) as (u & U1 & _). unfold vals_of in Y. rewrite U1 in Y |- *. cbn [pack] in Y |- *. change (@tget xr Dflt_xr u [] = Fin (log_lp x)) in Y. cbn. rewrite Y. reflexivity.
Qed.
Theorem t_log_bisection e eps : 0 < eps -> proper_e [] [] Logarithmic e -> dist_vals true [] e ->
  (exists sp q, search_root [] [] Logarithmic 1 e sp /\ search_to_natural e Logarithmic sp = Ok q /\ -50 < par q [] "log_probability" []) ->
  exists K N, forall k m, (K <= k)%nat -> (N <= m)%nat -> let L := fam_methods (default_bisection k m) in
    exists q e', to_nat L e = Ok q /\ proper [] [] Logarithmic q /\ to_exp L q = Ok e' /\ near_params_at [] [] eps e e'.
Proof.
  intros Ep P V (sp & q0 & Sr & Q & Fl). set (sv := default_bisection 0 0). pose proof P as (C & W & S & Hi & Dom). destruct (exp_dom_at [] [] e Logarithmic Hi C W S Dom) as (n & A & H).
  assert (n = 1%nat) by (apply (dims_none _ _ (ap_dims _ _ _ _ _ _ A)); now rewrite C). subst n. pose proof (ap_dims _ _ _ _ _ _ A) as D.
  pose proof H as Hc. cbn [exp_dom] in Hc. cbv beta in Hc. set (c := point_of e [] false "chi" []) in *.
  destruct Sr as ([Sp Sf] & g & G & Z). destruct (Sf 0%nat Nat.lt_0_1) as (r & R). destruct (log_grad sv e _ sp r A H Sp R) as (g' & G1 & G2 & G3). assert (g' = g) by congruence. subst g'. fold c in G3.
  assert (Hr : log_h c r = 0). { specialize (Z [0%nat]). cbn [app length skipn] in Z. rewrite G2 in Z. specialize (Z eq_refl). rewrite G3 in Z. congruence. }
  assert (Hf : log_probability_floor < log_lp r).
  { destruct (s2n_at [] [] e Logarithmic 1 _ sp (fun _ => r) eq_refl eq_refl A H Sp) as (q1 & Q1 & Q2). { intros k Kk. cbn in Kk. replace k with 0%nat by lia. exact R. }
    assert (q1 = q0) by congruence. subst q1. rewrite (log_par _ _ _ Q2) in Fl. exact Fl. }
  set (e1 := Dist (EP Logarithmic) DefaultMinimizer (dparams e) []). pose proof (proper_e_min DefaultMinimizer [] [] Logarithmic e P) as P1. fold e1 in P1.
  assert (J : is_joint (dcls e) = false) by now rewrite C. destruct (leaf_inv e W J) as [Qe _]. rewrite C in Qe.
  assert (D1 : dims_of e1 = Ok 1%nat) by (rewrite <- D; symmetry; rewrite Qe; reflexivity).
  pose proof P1 as (C1 & W1 & S1 & Hi1 & Dom1). destruct (exp_dom_at [] [] e1 Logarithmic Hi1 C1 W1 S1 Dom1) as (n' & A1 & H1). assert (n' = 1%nat) by (rewrite (ap_dims _ _ _ _ _ _ A1) in D1; congruence). subst n'.
  destruct (t_initial [] [] Logarithmic e1 1 1 P1 D1 eq_refl (vals_min [] Logarithmic e C W V)) as (t & T1 & T2 & T3). destruct (T3 0%nat Nat.lt_0_1) as (x & Tx). cbn [app] in Tx.
  assert (Bv : forall y, bis_fun Logarithmic e1 y = Fin (log_h c y)).
  { intros y. unfold bis_fun. destruct (log_grad sv e1 _ (tbuild [1%nat] (fun _ => Fin y)) y A1 H1 eq_refl) as (g1 & X1 & _ & X3); [rewrite tget_tbuild by reflexivity; reflexivity|]. rewrite X1. exact X3. }
  destruct (log_near c r Hc Hf Hr eps Ep) as (d & Dp & Nd). destruct (log_interval c r Hc Hf Hr _ x d Bv Dp) as (K & N & X). exists K, N. intros k m Kk Nm. specialize (X k m Kk Nm). cbv zeta.
  apply t_to_nat_resid; [exact P|discriminate|exact V|]. cbn [searched fst snd]. unfold residual_found. rewrite (leaf_default e Logarithmic C W). fold e1.
  assert (Sv : forall y, solution (default_bisection k m) y e1 1 = tbuild [1%nat] (fun _ => let (lo, hi) := bis_interval (bis_fun Logarithmic e1) x k m in Fin ((lo + hi) / 2))).
  { intros y. unfold solution. apply tbuild_ext. intros j Hj. unfold default_bisection. cbn [dcls e1]. fold e1. rewrite T1, Tx. reflexivity. }
  destruct (bis_interval (bis_fun Logarithmic e1) x k m) as [a b]. destruct X as [X1 X2].
  destruct (log_grad sv e1 _ (tbuild [1%nat] (fun _ => Fin ((a + b) / 2))) ((a + b) / 2) A1 H1 eq_refl) as (g1 & Y1 & Y2 & Y3); [rewrite tget_tbuild by reflexivity; reflexivity|].
  exists 1%nat, 1%nat, g1. split; [exact D|]. split; [reflexivity|]. cbv zeta. rewrite Sv. split; [|split; [exact Y1|]].
  - split; [reflexivity|]. intros j Hj. replace j with 0%nat by lia. eexists. cbn [app]. rewrite tget_tbuild by reflexivity. reflexivity.
  - intros j Jn. cbn [length skipn] in Jn. rewrite Y2 in Jn. destruct (inb1 _ _ Jn) as (i & -> & Ki). replace i with 0%nat by lia. exists (log_h c ((a + b) / 2)). split; [exact Y3|]. apply Nd. unfold Rabs. destruct (Rcase_abs _); lra.
Qed.
