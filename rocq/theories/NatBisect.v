(** C75: natural -> expectation -> natural with the default bisection. *)
From Coquelicot Require Import Coquelicot.
From Coq Require Import String List Bool Arith Reals Lia Lra.
From Verif Require Import Base XReal Tensor TensorFacts TensorFacts2 Support PlaneFacts Dist DictFacts Iteration Structure Spec StructFacts AssembleFacts SumSpec DotSpec FlattenSpec Tools
  ToolThms Joint StructThms MapFacts SpecFun GammaFn BesselFn Expr Fam ExprFacts FamTy FamFacts SearchFacts DotFacts DotLaws BatchFacts PointSpec PointFacts Val FamR FamVal ConvFacts LeafVal VarSpec DensSpec FlattenThms Var VarThms RootSpec RootVal RootThms ResidSpec ResidThms
  InjThms MeanSpec MeanFacts MeanThms Bisect Initial BisectThms InitialThms LogBisect.
Import ListNotations.
Local Unset Asymmetric Patterns.
Local Open Scope string_scope.
Local Open Scope R_scope.

Lemma sps_refl x : sps x = x + sps (- x).
Proof.
  unfold sps. pose proof (exp_pos x). rewrite <- (ln_exp x) at 2. rewrite <- ln_mult; [|apply exp_pos|pose proof (exp_pos (- x)); lra]. f_equal. rewrite exp_Ropp. field. lra.
Qed.
Lemma sps_lip x y : Rabs (sps x - sps y) <= Rabs (x - y).
Proof.
  assert (A : forall x y, x <= y -> 0 <= sps y - sps x <= y - x).
  { intros u v [H| ->]; [|lra]. pose proof (sps_incr u v H). pose proof (sps_incr (- v) (- u) ltac:(lra)). pose proof (sps_refl u). pose proof (sps_refl v). lra. }
  destruct (Rle_or_lt x y) as [H|H]; [pose proof (A x y H); rewrite (Rabs_minus_sym x y), (Rabs_minus_sym (sps x)), !Rabs_pos_eq; lra|pose proof (A y x ltac:(lra)); rewrite !Rabs_pos_eq; lra].
Qed.
Lemma near_nat b i q q' f n eps p p' : e2n f = true -> at_pt b i q (NP f) n p -> at_pt b i q' (NP f) n p' ->
  (forall g j, In g (fields (NP f)) -> inb (supp_shape (fd_support g) n) j = true -> Rabs (p' false (fd_name g) j - p false (fd_name g) j) <= eps) -> near_params_at b i eps q q'.
Proof.
  intros E A B H. pose proof A as [C W S D V]. pose proof B as [C' W' S' D' V']. split; [congruence|]. do 4 (split; [assumption|]). split; [congruence|].
  intros g v w j I E1 E2 Hj. rewrite C in I. assert (Hj' : inb (supp_shape (fd_support g) n) j = true).
  { rewrite (leaf_fields b q n g v S D) in Hj by (congruence || assumption). now rewrite skipn_app, skipn_all, Nat.sub_diag in Hj. }
  assert (Kr : kind_of (fd_support g) = KR) by (clear - E I; destruct f; try discriminate E; cbn in I; intuition subst; reflexivity).
  rewrite (entry_eq b i q (NP f) n p g v j A I E1 Hj'), (entry_eq b i q' (NP f) n p' g w j B I E2 Hj'), Kr. exists (p false (fd_name g) j), (p' false (fd_name g) j). split; [reflexivity|]. split; [reflexivity|]. now apply H.
Qed.
(** the natural parameters are a Lipschitz function of the search parameter *)
Lemma snR_near f n p r eps : one_search f = true -> exp_dom f n p -> 0 < eps -> exists d, 0 < d /\ forall x, Rabs (x - r) <= d ->
  forall g j, In g (fields (NP f)) -> inb (supp_shape (fd_support g) n) j = true -> Rabs (snR n p (fun _ => x) f false (fd_name g) j - snR n p (fun _ => r) f false (fd_name g) j) <= eps.
Proof.
  intros E H Ep. destruct f; try discriminate E.
  - exists eps. split; [exact Ep|]. intros x X g j [<-|[]] Hj. destruct j; [|discriminate]. unfold snR; cbn [fd_name var]; mk. pose proof (sps_lip x r). match goal with |- Rabs ?a <= _ => replace a with (sps x - sps r) by ring end. lra.
  - destruct H as [H _]. cbv beta in H. set (mu := p false "mean" []) in *. exists (eps * Rmin 1 mu). assert (M : 0 < Rmin 1 mu) by (apply Rmin_pos; lra). pose proof (Rmin_l 1 mu). pose proof (Rmin_r 1 mu).
    split; [nra|]. intros x X g j I Hj. pose proof (sps_lip x r) as Lp. destruct I as [<-|[<-|[]]]; (destruct j; [|discriminate]); unfold snR; cbn [fd_name var]; mk.
    + fold mu. replace (- (sps x / mu) - - (sps r / mu)) with (- ((sps x - sps r) / mu)) by (field; lra). rewrite Rabs_Ropp. unfold Rdiv. rewrite Rabs_mult, (Rabs_pos_eq (/ mu)) by (left; now apply Rinv_0_lt_compat).
      apply (Rmult_le_reg_r mu); [exact H|]. rewrite Rmult_assoc, Rinv_l, Rmult_1_r by lra. nra.
    + match goal with |- Rabs ?a <= _ => replace a with (sps x - sps r) by ring end. nra.
  - exists eps. split; [exact Ep|]. intros x X g j [<-|[]] Hj. destruct j; [|discriminate]. unfold snR; cbn [fd_name var]; mk. pose proof (sps_lip (- x) (- r)) as Lp. match goal with |- Rabs ?a <= _ => replace a with (- (sps (- x) - sps (- r))) by ring end. rewrite Rabs_Ropp.
    replace (- x - - r) with (- (x - r)) in Lp by ring. rewrite Rabs_Ropp in Lp. lra.
  - exists eps. split; [exact Ep|]. intros x X g j [<-|[]] Hj. destruct (inb1 _ _ Hj) as (k & -> & Hk). unfold snR; cbn [fd_name var]; mk. cbn [exp_dom] in H. cbv beta zeta in H. set (N2 := sumR n (fun k => p false "mean" [k] * p false "mean" [k])) in *. pose proof (sps_lip x r) as Lp.
    assert (S0 : 0 < sqrt N2) by (apply sqrt_lt_R0; lra).
    replace (p false "mean" [k] * (sps x / sqrt N2) - p false "mean" [k] * (sps r / sqrt N2)) with (p false "mean" [k] / sqrt N2 * (sps x - sps r)) by (field; lra). rewrite Rabs_mult.
    assert (B : Rabs (p false "mean" [k] / sqrt N2) <= 1).
    { unfold Rdiv. rewrite Rabs_mult, (Rabs_pos_eq (/ sqrt N2)) by (left; now apply Rinv_0_lt_compat). apply (Rmult_le_reg_r (sqrt N2)); [exact S0|]. rewrite Rmult_assoc, Rinv_l, Rmult_1_r, Rmult_1_l by lra.
      rewrite <- sqrt_Rsqr_abs. apply sqrt_le_1_alt. unfold Rsqr. apply (sumR_ge1 n (fun k => p false "mean" [k] * p false "mean" [k]) k Hk). intros; nra. }
    pose proof (Rabs_pos (p false "mean" [k] / sqrt N2)). pose proof (Rabs_pos (sps x - sps r)). nra.
Qed.
Theorem t_natural f q e eps : one_search f = true -> 0 < eps -> proper_e [] [] f e -> dist_vals true [] e -> mean_of (fam_methods (default_bisection 0 0)) [] [] f q e ->
  (forall n, dims_of e = Ok n -> representable f n (point_of q [])) -> (f = Logarithmic -> -50 < par q [] "log_probability" []) ->
  exists K N, forall k m, (K <= k)%nat -> (N <= m)%nat -> exists q', to_nat (fam_methods (default_bisection k m)) e = Ok q' /\ near_params_at [] [] eps q q'.
Proof.
  intros E1s Ep P V Mq Rq Fl. set (sv := default_bisection 0 0) in *. pose proof P as (C & W & S & Hi & Dom). destruct (exp_dom_at [] [] e f Hi C W S Dom) as (n & A & H). pose proof (ap_dims _ _ _ _ _ _ A) as D. specialize (Rq n D).
  assert (E : e2n f = true) by (clear - E1s; destruct f; try discriminate E1s; reflexivity). assert (M : search_count f n = Some 1%nat) by (clear - E1s; destruct f; try discriminate E1s; reflexivity).
  destruct (leaf_dims _ _ S) as (n' & D' & Kd). assert (n' = n) by congruence. subst n'. rewrite C in Kd. destruct (count_dim f n 1 M Kd) as [_ Sd].
  destruct (mean_pt sv [] [] f n q e A H Mq) as (B & Kq & U & Pe). set (p := point_of e []) in *. destruct (search_onto f n p (point_of q []) E Kq Rq Pe) as (s & Ps).
  set (r := s 0%nat) in *. assert (Ps' : pt_eq (NP f) n (snR n p (fun _ => r) f) (point_of q [])) by (clear - E1s Ps; destruct f; try discriminate E1s; exact Ps). clear Ps.
  assert (Bq : at_pt [] [] q (NP f) n (snR n p (fun _ => r) f)) by (apply (at_pt_eq _ _ _ _ _ (point_of q [])); [exact B|now apply pt_sym]).
  assert (Hn : forall x, nat_dom f n (snR n p (fun _ => x) f)) by (intros x; apply search_dom; auto; clear - E1s; destruct f; try discriminate E1s; exact Logic.I).
  assert (U2 : unclipped f (snR n p (fun _ => r) f)). { clear - U Ps' E1s. destruct f; try exact Logic.I. cbn [unclipped] in U |- *. pts Ps'. pose proof (proj1 (P [] eq_refl)) as Q. rewrite Q. exact U. }
  assert (Pr : pt_eq (EP f) n (expR n (snR n p (fun _ => r) f) f) p).
  { destruct (exp_at sv [] [] q f n _ eq_refl Bq (Hn r) U2) as (x & X1 & X2). destruct (exp_at sv [] [] q f n _ eq_refl B Kq U) as (y & Y1 & Y2). rewrite X1 in Y1. injection Y1 as <-.
    apply (pt_trans _ _ _ (point_of x [])); [exact (at_pt_pt [] [] _ _ _ _ eq_refl X2)|]. apply (pt_trans _ _ _ (expR n (point_of q []) f)); [apply pt_sym; exact (at_pt_pt [] [] _ _ _ _ eq_refl Y2)|exact Pe]. }
  pose proof (grad_zero f n p (fun _ => r) 0 E Kd H (Hn r) Pr ltac:(lia)) as Hr.
  set (e1 := Dist (EP f) DefaultMinimizer (dparams e) []). pose proof (proper_e_min DefaultMinimizer [] [] f e P) as P1. fold e1 in P1.
  assert (J : is_joint (dcls e) = false) by now rewrite C. destruct (leaf_inv e W J) as [Qe _]. rewrite C in Qe.
  assert (D1 : dims_of e1 = Ok n) by (rewrite <- D; symmetry; rewrite Qe; reflexivity).
  destruct (t_initial [] [] f e1 n 1 P1 D1 M (vals_min [] f e C W V)) as (t & T1 & T2 & T3). destruct (T3 0%nat Nat.lt_0_1) as (x & Tx). cbn [app] in Tx.
  destruct (snR_near f n p r eps E1s H Ep) as (d & Dp & Nd).
  assert (X : exists K N, forall k m, (K <= k)%nat -> (N <= m)%nat -> let (a, b) := bis_interval (bis_fun f e1) x k m in a <= r <= b /\ b - a <= d).
  { destruct (bisected f) eqn:Bi.
    - destruct (interval sv f e1 n Bi P1 D1 r x d Hr Dp) as (K & N & X). exists K, N. intros k m Kk Nm. specialize (X k m Kk Nm). destruct (bis_interval _ _ _ _) as [a b]. destruct X as (X1 & X2 & X3 & X4).
      apply (le_root _ r (h_incr f e1 n Bi P1 D1) Hr) in X1. apply (ge_root _ r (h_incr f e1 n Bi P1 D1) Hr) in X2. lra.
    - assert (f = Logarithmic) by (clear - E1s Bi; destruct f; try discriminate E1s; try discriminate Bi; reflexivity). subst f.
      assert (n = 1%nat) by (apply (dims_none _ _ D); now rewrite C). subst n. pose proof H as Hc. cbn [exp_dom] in Hc. cbv beta in Hc.
      pose proof P1 as (C1 & W1 & S1 & Hi1 & Dom1). destruct (exp_dom_at [] [] e1 Logarithmic Hi1 C1 W1 S1 Dom1) as (n' & A1 & H1). assert (n' = 1%nat) by (rewrite (ap_dims _ _ _ _ _ _ A1) in D1; congruence). subst n'.
      assert (Hf : log_probability_floor < log_lp r) by (rewrite <- (log_par q p r Bq); exact (Fl eq_refl)).
      assert (Hl : log_h (p false "chi" []) r = 0). { unfold log_h. destruct (Rlt_dec _ _); [lra|]. exact Hr. }
      apply (log_interval (p false "chi" []) r Hc Hf Hl _ x d); [|exact Dp].
      intros y. unfold bis_fun. destruct (log_grad sv e1 _ (tbuild [1%nat] (fun _ => Fin y)) y A1 H1 eq_refl) as (g1 & X1 & _ & X3); [rewrite tget_tbuild by reflexivity; reflexivity|]. rewrite X1. exact X3. }
  destruct X as (K & N & X). exists K, N. intros k m Kk Nm. specialize (X k m Kk Nm).
  assert (Sv : forall y, solution (default_bisection k m) y e1 1 = tbuild [1%nat] (fun _ => let (lo, hi) := bis_interval (bis_fun f e1) x k m in Fin ((lo + hi) / 2))).
  { intros y. unfold solution. apply tbuild_ext. intros j Hj. unfold default_bisection. cbn [dcls e1]. fold e1. rewrite T1, Tx. reflexivity. }
  destruct (bis_interval (bis_fun f e1) x k m) as [a b]. destruct X as [X1 X2]. set (z := (a + b) / 2) in *.
  destruct (s2n_at [] [] e f n p (tbuild [1%nat] (fun _ => Fin z)) (fun _ => z) eq_refl E A H) as (q' & Q1 & Q2); [now rewrite <- Sd|intros i Ki; cbn [app]; rewrite tget_tbuild; [reflexivity|cbn; replace i with 0%nat by lia; reflexivity]|].
  assert (Ex : exp_to_nat (default_bisection k m) e f = Ok q'). { unfold exp_to_nat. rewrite (params_solution _ f e n E C W S D V). cbn [bind]. rewrite (leaf_default e f C W), <- Sd. fold e1. rewrite Sv. exact Q1. }
  exists q'. split.
  - rewrite (api_nat_leaf _ e f C). change (fam_to_nat (default_bisection k m) e = Ok q'). assert (Pq : proper [] [] f q'). { pose proof Q2 as [C' W' S' D'' V']. split; [exact C'|]. split; [exact W'|]. split; [exact S'|]. split; [reflexivity|]. exact (at_pt_nat_dom [] [] q' f n _ eq_refl Q2 (Hn z)). }
    clear - E1s C Ex P Pq. destruct f; try discriminate E1s; try (unfold fam_to_nat; rewrite C; exact Ex). exact (log_to_nat _ e q' P Ex Pq).
  - apply (near_nat [] [] q q' f n eps _ _ E Bq Q2). apply Nd. unfold z, Rabs. destruct (Rcase_abs _); lra.
Qed.
Theorem t_natural_trip f q e eps : 0 < eps -> proper [] [] f q ->
  f = Gamma \/ f = VonMisesFisher \/ (f = ChiSquare /\ -1 + / 2 ^ 23 < par q [] "k_over_two_minus_one" []) \/ (f = Logarithmic /\ -50 < par q [] "log_probability" [] < - / 2 ^ 23) ->
  to_exp (fam_methods (default_bisection 0 0)) q = Ok e -> dist_vals true [] e ->
  exists K N, forall k m, (K <= k)%nat -> (N <= m)%nat -> let L := fam_methods (default_bisection k m) in
    exists q', to_exp L q = Ok e /\ to_nat L e = Ok q' /\ near_params_at [] [] eps q q'.
Proof.
  intros Ep P F T V. pose proof P as (C & W & S & Hi & Dom). destruct (nat_dom_at [] [] q f Hi C W S Dom) as (n & B & Kq).
  assert (O : one_search f = true) by (destruct F as [->|[->|[[-> _]|[-> _]]]]; reflexivity).
  assert (U : unclipped f (point_of q [])) by (destruct F as [->|[->|[[-> _]|[-> F]]]]; try exact Logic.I; cbn [unclipped]; unfold par in F; unfold log_probability_floor, log_probability_ceiling; lra).
  assert (R : representable f n (point_of q [])) by (destruct F as [->|[->|[[-> F]|[-> F]]]]; try exact Logic.I; cbn [representable]; apply F).
  assert (T' := T). rewrite (api_exp_leaf _ q f C) in T'. destruct (exp_at (default_bisection 0 0) [] [] q f n _ eq_refl B Kq U) as (x & X1 & X2). rewrite T' in X1. injection X1 as <-.
  assert (Pe : proper_e [] [] f e). { pose proof X2 as [C' W' S' D' V']. split; [exact C'|]. split; [exact W'|]. split; [exact S'|]. split; [reflexivity|]. exact (at_pt_exp_dom [] [] e f n _ eq_refl X2 (exp_ok f n _ Kq)). }
  assert (Mq : mean_of (fam_methods (default_bisection 0 0)) [] [] f q e).
  { split; [exact P|]. exists e. split; [exact T|]. destruct Pe as (_ & W' & S' & _). repeat (split; [reflexivity || assumption|]). intros g v w j _ E1 E2 _. rewrite E1 in E2. now injection E2 as <-. }
  destruct (t_natural f q e eps O Ep Pe V Mq) as (K & N & H).
  - intros n' D'. assert (n' = n) by (rewrite (ap_dims _ _ _ _ _ _ X2) in D'; congruence). now subst n'.
  - intros ->. destruct F as [F|[F|[[F _]|[_ F]]]]; try discriminate F. apply F.
  - exists K, N. intros k m Kk Nm. destruct (H k m Kk Nm) as (q' & Q1 & Q2). exists q'. split; [|split; [exact Q1|exact Q2]]. rewrite (api_exp_leaf _ q f C). exact T'.
Qed.
