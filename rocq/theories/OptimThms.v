(** C55: the optimization loop of examples/optimization.py. *)
From Coquelicot Require Import Coquelicot.
From Coq Require Import String List Bool Arith Reals Lia Lra.
From Verif Require Import Base XReal Tensor TensorFacts Support Dist DictFacts Iteration Structure Spec StructFacts SumSpec DotSpec Tools Joint Laws SumFacts MapFacts
  DotLaws KlThms SpecFun Expr Fam ExprFacts FamTy FamFacts PointSpec PointFacts Val FamR FamVal LeafVal SearchFacts DensSpec JointThms JointThms2 DotFacts IntThms ConvFacts GradSpec GradThms MleThms InjThms KlPos DerivFacts DerivThms BregFacts BatchFacts BatchFacts LeafVal VarThms Optim OptimSpec OptimFacts.
Import ListNotations.
Local Unset Asymmetric Patterns.
Local Open Scope string_scope.
Local Open Scope R_scope.

Definition bern (m : minimizer) (t : tensor xr) : dist := Dist (NP Bernoulli) m [("log_odds", RA t)] [].
Definition lo (q : dist) (i : list nat) : R := par q i "log_odds" [].
Definition pr (p : dist) (i : list nat) : R := par p i "probability" [].

Lemma np_form b q : log_odds_of b q -> exists m t, q = bern m t /\ shp t = b /\ forall i, inb b i = true -> tget t i = Fin (lo q i).
Proof.
  intros (C & W & S & H). assert (J : is_joint (dcls q) = false) by now rewrite C. destruct (leaf_inv q W J) as [Q N]. rewrite C in Q, N. cbn in N. destruct (names_inv1 _ _ N) as (v & Ev). rewrite Ev in Q.
  unfold leaf_shaped in S. assert (Dm : dims_of q = Ok 1%nat) by (unfold dims_of; rewrite C; reflexivity). rewrite Dm, C, Ev in S. cbn in S. apply andb_true_iff in S as [S _]. apply andb_true_iff in S as [S K].
  destruct v as [t|t]; [|discriminate K]. apply shape_eqb_eq in S. cbn [ashape] in S. rewrite app_nil_r in S. exists (dmin q), t. split; [exact Q|]. split; [exact S|].
  intros i Hi. destruct (H i Hi) as (n & D & F & _). assert (n = 1%nat) by congruence. subst n. specialize (F (var "log_odds" (ScalarS real_field)) (RA t) []). rewrite C, Ev in F.
  destruct (F (or_introl eq_refl) eq_refl eq_refl) as (x & y & E). rewrite app_nil_r in E. cbn [entry_c] in E. unfold lo, par, point_of. rewrite Ev. cbn. rewrite app_nil_r. injection E as E _. rewrite E. reflexivity.
Qed.
Lemma np_intro b m t : shp t = b -> (forall i, inb b i = true -> exists x, tget t i = Fin x) -> log_odds_of b (bern m t).
Proof.
  intros S H. split; [reflexivity|]. split; [reflexivity|]. split.
  - unfold leaf_shaped. cbn. rewrite S, app_nil_r. rewrite (proj2 (StructFacts.shape_eqb_eq b b) eq_refl). reflexivity.
  - intros i Hi. exists 1%nat. split; [reflexivity|]. split; [|exact Logic.I]. intros f a j [<-|[]] E Ij. cbn in E. injection E as <-. cbn in Ij. destruct j; [|discriminate Ij]. rewrite app_nil_r. destruct (H i Hi) as [x Hx]. exists x, 0. cbn [entry_c]. now rewrite Hx.
Qed.
Lemma lo_bern m t i x : tget t i = Fin x -> lo (bern m t) i = x.
Proof. intros H. unfold lo, par, point_of. cbn. rewrite app_nil_r, H. reflexivity. Qed.
Lemma map_val op m t m' u a : op [RA t; RA u] = Ok (RA a) -> parameter_map op (bern m t) [bern m' u] = Ok (bern DefaultMinimizer a).
Proof. intros H. unfold bern. cbn. rewrite H. cbn. reflexivity. Qed.
Lemma dot_val b v g : log_odds_of b v -> log_odds_of b g -> exists t, parameter_dot_product v g = Ok t /\ shp t = b /\ forall i, inb b i = true -> tget t i = Fin (lo v i * lo g i).
Proof.
  intros Hv Hg. destruct (np_form b v Hv) as (m & t & Ev & St & Vt). destruct (np_form b g Hg) as (m' & u & Eg & Su & Vu). destruct Hv as (C & W & S & H), Hg as (C' & W' & S' & H').
  destruct (leaf_value b v g) as (d & D1 & D2 & D3).
  { split; [exact W|]. split; [exact W'|]. split; [exact S|]. split; [exact S'|]. split; [rewrite Ev, Eg; reflexivity|]. exists Bernoulli. rewrite C, C'. split; reflexivity. }
  exists d. split; [exact D1|]. split; [exact D2|]. intros i Hi. rewrite (D3 i Hi). specialize (Vt i Hi). specialize (Vu i Hi). rewrite Ev, Eg in *.
  unfold leaf_inner. cbn [var_fields fields bern dcls dparams filter negb fd_fixed var combine map fst snd fd_name dget].
  change (xsum [array_inner b i (RA t) (RA u)] = Fin (lo (bern m t) i * lo (bern m' u) i)).
  unfold array_inner. cbn [ashape]. assert (St' : @shp xr t = b) by exact St. rewrite St', skipn_all. cbn [indices map]. rewrite app_nil_r. cbn [entry_c]. rewrite Vt, Vu. cbn. f_equal. ring.
Qed.
Lemma total_val (t : tensor xr) b (h : list nat -> R) : shp t = b -> (forall i, inb b i = true -> tget t i = Fin (h i)) -> tsum t = Fin (rsum (map h (indices b))).
Proof. intros S H. unfold tsum. rewrite S. apply xsum_ext_Fin. intros i I. apply H. now apply in_indices. Qed.

Section T.
  Variable solve : minimizer -> dist -> nat -> xr.
  Notation L := (fam_methods solve).
  Variables (b : list nat).
  Definition cel (p q : dist) (i : list nat) : R := sp (lo q i) - lo q i * pr p i.
  Lemma ce_val p q : probabilities_of b p -> log_odds_of b q -> exists t, cross_entropy L p q = Ok t /\ shp t = b /\ forall i, inb b i = true -> tget t i = Fin (cel p q i).
  Proof.
    intros (C & W & S & H) (C' & W' & S' & H').
    destruct (leaf_value b q p) as (d & D1 & D2 & D3).
    { split; [exact W'|]. split; [exact W|]. split; [exact S'|]. split; [exact S|]. split; [unfold dims_of; rewrite C, C'; reflexivity|]. exists Bernoulli. rewrite C, C'. split; reflexivity. }
    destruct (g_ln L (fam_good solve) b q Bernoulli C' W' S') as (u & U1 & U2).
    destruct (g_ecm L (fam_good solve) b p Bernoulli C eq_refl W S) as (w & W1 & W2).
    assert (Eu : log_normalizer L q = Ok u) by (destruct q as [c m ps subs]; cbn [dcls] in C'; subst c; exact U1).
    assert (Ew : expected_carrier_measure L p = Ok w) by (destruct p as [c m ps subs]; cbn [dcls] in C; subst c; exact W1).
    assert (E : exists t, cross_entropy L p q = Ok t /\ shp t = b).
    { unfold cross_entropy. rewrite D1. cbn [bind]. rewrite Eu. cbn [bind]. destruct (tmap2_all xadd (tmap xneg d) u b D2 U2) as (a & A1 & A2 & _). rewrite A1. cbn [bind]. rewrite Ew. cbn [bind].
      destruct (tmap2_all xsub a w b A2 W2) as (z & Z1 & Z2 & _). exists z. auto. }
    destruct E as (t & E1 & E2). exists t. split; [exact E1|]. split; [exact E2|]. intros i Hi.
    destruct (exp_dom_at b i p Bernoulli Hi C W S (H i Hi)) as (n & A & K). destruct (nat_dom_at b i q Bernoulli Hi C' W' S' (H' i Hi)) as (n' & B & K').
    assert (n' = n) by (pose proof (ap_dims _ _ _ _ _ _ A) as P1; pose proof (ap_dims _ _ _ _ _ _ B) as P2; unfold dims_of in P1, P2; rewrite C in P1; rewrite C' in P2; cbn in P1, P2; congruence). subst n'.
    destruct (ce_leaf solve b i p q Bernoulli n _ _ Hi A K eq_refl eq_refl B K') as (t' & T1 & _ & T3).
    - intros g j I Kg. apply (im_real b i q (NP Bernoulli) n _ g j B I Kg).
    - rewrite E1 in T1. injection T1 as <-. rewrite T3. f_equal. unfold ceR, cel, sp, lo, pr, par. cbn. pose proof (im_real b i q (NP Bernoulli) n _ (var "log_odds" (ScalarS real_field)) [] B (or_introl eq_refl) eq_refl) as Z. cbn [fd_name var] in Z. rewrite Z. ring.
  Qed.
  Lemma loss_val p q : probabilities_of b p -> log_odds_of b q -> cross_entropy_loss L p q = Ok (Fin (rsum (map (cel p q) (indices b)))).
  Proof. intros Hp Hq. destruct (ce_val p q Hp Hq) as (t & T1 & T2 & T3). unfold cross_entropy_loss. rewrite T1. cbn [rmap]. f_equal. now apply total_val. Qed.
  Lemma line_val s q v : log_odds_of b q -> log_odds_of b v -> exists r, parameter_map (lin_op 1 s) q [v] = Ok r /\ log_odds_of b r /\ forall i, inb b i = true -> lo r i = lo q i + s * lo v i.
  Proof.
    intros Hq Hv. destruct (np_form b q Hq) as (m & t & Eq & St & Vt). destruct (np_form b v Hv) as (m' & u & Ev & Su & Vu).
    destruct (tmap2_all (fun a c => xadd (xmul (Fin 1) a) (xmul (Fin s) c)) t u b St Su) as (a & A1 & A2 & A3). exists (bern DefaultMinimizer a).
    assert (V : forall i, inb b i = true -> tget a i = Fin (lo q i + s * lo v i)) by (intros i Hi; rewrite (A3 i Hi), (Vt i Hi), (Vu i Hi); cbn; f_equal; ring).
    split; [rewrite Eq, Ev; apply map_val; cbn [lin_op]; rewrite A1; reflexivity|]. split; [apply np_intro; [exact A2|eauto]|]. intros i Hi. now apply lo_bern, V.
  Qed.
  Lemma body_val eta q g : log_odds_of b q -> log_odds_of b g -> exists r, body_fun eta q g = Ok r /\ log_odds_of b r /\ forall i, inb b i = true -> lo r i = lo q i - eta * lo g i.
  Proof.
    intros Hq Hv. destruct (np_form b q Hq) as (m & t & Eq & St & Vt). destruct (np_form b g Hv) as (m' & u & Ev & Su & Vu).
    destruct (tmap2_all (fun a c => xsub a (xmul (Fin eta) c)) t u b St Su) as (a & A1 & A2 & A3). exists (bern DefaultMinimizer a).
    assert (V : forall i, inb b i = true -> tget a i = Fin (lo q i - eta * lo g i)) by (intros i Hi; rewrite (A3 i Hi), (Vt i Hi), (Vu i Hi); cbn; f_equal; ring).
    split; [unfold body_fun; rewrite Eq, Ev; apply map_val; cbn [apply_op]; rewrite A1; reflexivity|]. split; [apply np_intro; [exact A2|eauto]|]. intros i Hi. now apply lo_bern, V.
  Qed.
  Lemma dot_total v g : log_odds_of b v -> log_odds_of b g -> rmap tsum (parameter_dot_product v g) = Ok (Fin (rsum (map (fun i => lo v i * lo g i) (indices b)))).
  Proof. intros Hv Hg. destruct (dot_val b v g Hv Hg) as (t & T1 & T2 & T3). rewrite T1. cbn [rmap]. f_equal. now apply total_val. Qed.
  Definition slope (p q : dist) (i : list nat) : R := expit (lo q i) - pr p i.
  Lemma loss_dv p q v : is_derive (fun s => rsum (map (fun i => sp (lo q i + s * lo v i) - (lo q i + s * lo v i) * pr p i) (indices b))) 0 (rsum (map (fun i => lo v i * slope p q i) (indices b))).
  Proof.
    apply (DV_rsum (indices b) (fun i s => sp (lo q i + s * lo v i) - (lo q i + s * lo v i) * pr p i) (fun i => sp (lo q i) - lo q i * pr p i) (fun i => lo v i * slope p q i)).
    intros i _. split; [now rewrite Rmult_0_l, Rplus_0_r|]. set (x := lo q i). set (y := lo v i). replace (y * slope p q i) with (y * expit x - y * pr p i) by (unfold slope, x; ring).
    apply @is_derive_minus.
    - assert (E : expit x = expit (x + 0 * y)) by (f_equal; ring). rewrite E. apply (is_derive_comp sp (fun s => x + s * y) 0 (expit (x + 0 * y)) y); [apply sp_dv|auto_derive; [exact Logic.I|ring]].
    - auto_derive; [exact Logic.I|ring].
  Qed.
  Definition along p q v (h : R -> R) := exists eps, 0 < eps /\ forall s, Rabs s < eps -> exists r, parameter_map (lin_op 1 s) q [v] = Ok r /\ cross_entropy_loss L p r = Ok (Fin (h s)).
  Lemma along_val p q v s : probabilities_of b p -> log_odds_of b q -> log_odds_of b v -> exists r, parameter_map (lin_op 1 s) q [v] = Ok r /\
    cross_entropy_loss L p r = Ok (Fin (rsum (map (fun i => sp (lo q i + s * lo v i) - (lo q i + s * lo v i) * pr p i) (indices b)))).
  Proof.
    intros Hp Hq Hv. destruct (line_val s q v Hq Hv) as (r & R1 & R2 & R3). exists r. split; [exact R1|]. rewrite (loss_val p r Hp R2). f_equal. f_equal. f_equal. apply map_ext_in. intros i I. apply in_indices in I. unfold cel. now rewrite (R3 i I).
  Qed.
  Lemma grad_intro p q g : probabilities_of b p -> log_odds_of b q -> log_odds_of b g -> (forall i, inb b i = true -> lo g i = slope p q i) -> gradient L b p q g.
  Proof.
    intros Hp Hq Hg E. split; [exact Hg|]. intros v Hv. eexists _, _. split; [exists 1; split; [lra|]; intros s _; exact (along_val p q v s Hp Hq Hv)|]. split; [exact (dot_total v g Hv Hg)|].
    apply is_derive_Reals. erewrite map_ext_in; [exact (loss_dv p q v)|]. intros i I. apply in_indices in I. cbn beta. now rewrite (E i I).
  Qed.
  Definition grd (p q : dist) : dist := bern DefaultMinimizer (tbuild b (fun i => Fin (slope p q i))).
  Lemma grd_ok p q : log_odds_of b (grd p q) /\ forall i, inb b i = true -> lo (grd p q) i = slope p q i.
  Proof.
    assert (V : forall i, inb b i = true -> tget (tbuild b (fun i => Fin (slope p q i))) i = Fin (slope p q i)) by (intros i Hi; now rewrite tget_tbuild).
    split; [apply np_intro; [reflexivity|eauto]|]. intros i Hi. now apply lo_bern, V.
  Qed.
  Lemma sumsq_zero {A} (l : list A) (w : A -> R) : rsum (map (fun i => w i * w i) l) = 0 -> forall i, In i l -> w i = 0.
  Proof.
    assert (P : forall l, 0 <= rsum (map (fun i => w i * w i) l)) by (induction l0 as [|a l0 IH]; cbn [map rsum fold_right]; [lra|fold (rsum (map (fun i => w i * w i) l0)); pose proof (Rle_0_sqr (w a)); unfold Rsqr in *; lra]).
    induction l as [|a l IH]; intros H i []; cbn [map rsum fold_right] in H; fold (rsum (map (fun i => w i * w i) l)) in H; pose proof (P l); pose proof (Rle_0_sqr (w a)) as Q; unfold Rsqr in Q.
    - subst a. apply Rsqr_0_uniq. unfold Rsqr. lra.
    - apply IH; [lra|assumption].
  Qed.
  Lemma grad_elim p q g : probabilities_of b p -> log_odds_of b q -> gradient L b p q g -> log_odds_of b g /\ forall i, inb b i = true -> lo g i = slope p q i.
  Proof.
    intros Hp Hq [Hg G]. split; [exact Hg|]. destruct (grd_ok p q) as [H0 V0].
    destruct (line_val (-1) g (grd p q) Hg H0) as (w & _ & W2 & W3). destruct (G w W2) as (h & d & (eps & Pe & A) & D1 & D2).
    rewrite (dot_total w g W2 Hg) in D1. injection D1 as D1. apply is_derive_Reals in D2.
    assert (E : d = rsum (map (fun i => lo w i * slope p q i) (indices b))).
    { apply (is_derive_unique h 0) in D2. rewrite <- D2. apply is_derive_unique. eapply is_derive_ext_loc; [|exact (loss_dv p q w)].
      exists (mkposreal eps Pe). intros s Hs. destruct (A s) as (r & R1 & R2). { unfold ball in Hs; cbn in Hs; unfold AbsRing_ball, abs, minus, plus, opp in Hs; cbn in Hs. now rewrite Ropp_0, Rplus_0_r in Hs. }
      destruct (along_val p q w s Hp Hq W2) as (r' & R1' & R2'). rewrite R1 in R1'. injection R1' as <-. rewrite R2 in R2'. injection R2' as ->. reflexivity. }
    assert (Z : rsum (map (fun i => lo w i * lo w i) (indices b)) = 0).
    { replace (rsum (map (fun i => lo w i * lo w i) (indices b))) with (rsum (map (fun i => lo w i * lo g i) (indices b)) - rsum (map (fun i => lo w i * slope p q i) (indices b))); [rewrite D1, E; ring|].
      rewrite rsum_sub. apply rsum_ext. intros i I. apply in_indices in I. rewrite <- (V0 i I), (W3 i I). ring. }
    intros i Hi. pose proof (sumsq_zero _ _ Z i (proj2 (in_indices b i) Hi)) as Q. rewrite (W3 i Hi), (V0 i Hi) in Q. lra.
  Qed.
  Theorem t_step eta p q : probabilities_of b p -> log_odds_of b q -> exists q', step L b eta p q q' /\ log_odds_of b q'.
  Proof.
    intros Hp Hq. destruct (grd_ok p q) as [G1 G2]. destruct (body_val eta q _ Hq G1) as (r & R1 & R2 & _). exists r. split; [|exact R2]. exists (grd p q). split; [now apply grad_intro|exact R1].
  Qed.
  Lemma step_elim eta p q q' : probabilities_of b p -> log_odds_of b q -> step L b eta p q q' -> log_odds_of b q' /\ forall i, inb b i = true -> lo q' i = lo q i - eta * slope p q i.
  Proof.
    intros Hp Hq (g & G & B). destruct (grad_elim p q g Hp Hq G) as [G1 G2]. destruct (body_val eta q g Hq G1) as (r & R1 & R2 & R3). rewrite B in R1. injection R1 as <-. split; [exact R2|]. intros i Hi. now rewrite (R3 i Hi), (G2 i Hi).
  Qed.
  Lemma norm_val p q g : probabilities_of b p -> log_odds_of b q -> gradient L b p q g -> grad_norm g = Ok (Fin (rsum (map (fun i => slope p q i * slope p q i) (indices b)))).
  Proof.
    intros Hp Hq G. destruct (grad_elim p q g Hp Hq G) as [G1 G2]. unfold grad_norm. rewrite (dot_total g g G1 G1). f_equal. f_equal. apply rsum_ext. intros i I. apply in_indices in I. now rewrite (G2 i I).
  Qed.
  Theorem t_decrease eta p q q' : 0 < eta <= 8 -> probabilities_of b p -> log_odds_of b q -> step L b eta p q q' ->
    exists g n x y, gradient L b p q g /\ grad_norm g = Ok (Fin n) /\ cross_entropy_loss L p q = Ok (Fin x) /\ cross_entropy_loss L p q' = Ok (Fin y) /\ y <= x - eta * (1 - eta / 8) * n.
  Proof.
    intros He Hp Hq St. destruct (step_elim eta p q q' Hp Hq St) as [H' E]. destruct St as (g & G & _). exists g. eexists _, _, _. split; [exact G|]. split; [exact (norm_val p q g Hp Hq G)|]. split; [exact (loss_val p q Hp Hq)|]. split; [exact (loss_val p q' Hp H')|].
    rewrite <- rsum_scal, rsum_sub. assert (X : forall i, In i (indices b) -> cel p q' i <= cel p q i - eta * (1 - eta / 8) * (slope p q i * slope p q i)).
    { intros i I. apply in_indices in I. unfold cel. rewrite (E i I). exact (loss_step (pr p i) eta (lo q i) He). }
    revert X. induction (indices b) as [|a l IH]; intros X; cbn [map rsum fold_right]; [lra|]. apply Rplus_le_compat; [apply X; now left|]. apply IH. intros i I. apply X. now right.
  Qed.
  Lemma sq_le {A} (l : list A) (w : A -> R) c : rsum (map (fun i => w i * w i) l) <= c -> forall i, In i l -> w i * w i <= c.
  Proof.
    assert (P : forall l, 0 <= rsum (map (fun i => w i * w i) l)) by (intros l0; apply rsum_nonneg; intros a _; pose proof (Rle_0_sqr (w a)); unfold Rsqr in *; lra).
    revert c. induction l as [|a l IH]; intros c H i []; cbn [map rsum fold_right] in H; fold (rsum (map (fun i => w i * w i) l)) in H; pose proof (P l); pose proof (Rle_0_sqr (w a)) as Q; unfold Rsqr in Q.
    - subst a. lra.
    - apply IH; [lra|assumption].
  Qed.
  Theorem t_stopped tau p q : probabilities_of b p -> log_odds_of b q -> stops L b tau p q ->
    exists e, to_exp L q = Ok e /\ probabilities_of b e /\ forall i, inb b i = true -> Rabs (pr e i - pr p i) <= sqrt tau.
  Proof.
    intros Hp Hq (g & x & G & N & Le). rewrite (norm_val p q g Hp Hq G) in N. injection N as N. destruct Hq as (C & W & S & H).
    destruct (g_exp L (fam_good solve) b q Bernoulli C W S) as (e & E1 & E2 & (_ & E3 & _ & E4 & _) & _). exists e. rewrite (api_exp_leaf L q Bernoulli C). split; [exact E1|].
    assert (V : forall i, inb b i = true -> at_pt b i e (EP Bernoulli) 1 (expR 1 (point_of q i) Bernoulli)).
    { intros i Hi. destruct (nat_dom_at b i q Bernoulli Hi C W S (H i Hi)) as (n & A & K). assert (n = 1%nat) by (pose proof (ap_dims _ _ _ _ _ _ A) as P1; unfold dims_of in P1; rewrite C in P1; cbn in P1; congruence). subst n.
      destruct (exp_at solve b i q Bernoulli 1 _ Hi A K Logic.I) as (e' & X1 & X2). rewrite E1 in X1. injection X1 as <-. exact X2. }
    split.
    - split; [exact E2|]. split; [exact E3|]. split; [exact E4|]. intros i Hi. apply (at_pt_exp_dom b i e Bernoulli 1 _ Hi (V i Hi)). cbn. apply expit_01.
    - intros i Hi. assert (Pe : pr e i = expit (lo q i)).
      { pose proof (at_pt_pt b i e _ 1 _ Hi (V i Hi)) as Q. exact (eq_sym (pt_re _ 1 _ _ (var "probability" (ScalarS unit_interval)) [] Q (or_introl eq_refl) eq_refl)). }
      rewrite Pe. fold (slope p q i). pose proof (sq_le _ _ tau (Rle_trans _ _ _ (Req_le _ _ N) Le) i (proj2 (in_indices b i) Hi)) as Q. rewrite <- sqrt_Rsqr_abs. apply sqrt_le_1_alt. exact Q.
  Qed.
  Lemma pr_01 p i : probabilities_of b p -> inb b i = true -> 0 < pr p i < 1.
  Proof. intros (C & W & S & H) Hi. destruct (exp_dom_at b i p Bernoulli Hi C W S (H i Hi)) as (n & _ & K). exact K. Qed.
  Lemma sumsq_small {A} (l : list A) (w : nat -> A -> R) : (forall i, In i l -> forall e, 0 < e -> exists N, forall k, (N <= k)%nat -> Rabs (w k i) <= e) ->
    forall c, 0 < c -> exists N, forall k, (N <= k)%nat -> rsum (map (fun i => w k i * w k i) l) <= c.
  Proof.
    induction l as [|a l IH]; intros H c Hc; [exists 0%nat; intros k _; cbn; lra|].
    destruct (IH (fun i I => H i (or_intror I)) (c / 2) ltac:(lra)) as [N1 H1]. destruct (H a (or_introl eq_refl) (sqrt (c / 2)) ltac:(apply sqrt_lt_R0; lra)) as [N2 H2].
    exists (max N1 N2). intros k Hk. cbn [map rsum fold_right]. fold (rsum (map (fun i => w k i * w k i) l)). specialize (H1 k ltac:(lia)). specialize (H2 k ltac:(lia)).
    assert (Q : w k a * w k a <= c / 2). { rewrite <- (sqrt_sqrt (c / 2)) by lra. replace (w k a * w k a) with (Rabs (w k a) * Rabs (w k a)) by (rewrite <- Rabs_mult; apply Rabs_pos_eq; pose proof (Rle_0_sqr (w k a)); unfold Rsqr in *; lra). pose proof (Rabs_pos (w k a)). nra. }
    lra.
  Qed.
  Theorem t_terminates eta tau p (qs : nat -> dist) : 0 < eta < 8 -> 0 < tau -> probabilities_of b p -> log_odds_of b (qs 0%nat) -> (forall k, step L b eta p (qs k) (qs (Datatypes.S k))) ->
    exists N, forall k, (N <= k)%nat -> stops L b tau p (qs k).
  Proof.
    intros He Ht Hp H0 St. assert (Hk : forall k, log_odds_of b (qs k)) by (induction k as [|k IH]; [exact H0|exact (proj1 (step_elim eta p _ _ Hp IH (St k)))]).
    destruct (sumsq_small (indices b) (fun k i => slope p (qs k) i)) with (c := tau) as [N HN].
    - intros i I. apply in_indices in I. apply (descent (pr p i) eta (fun k => lo (qs k) i) He (pr_01 p i Hp I)). intros k. exact (proj2 (step_elim eta p _ _ Hp (Hk k) (St k)) i I).
    - exact Ht.
    - exists N. intros k Lk. destruct (grd_ok p (qs k)) as [G1 G2]. assert (G : gradient L b p (qs k) (grd p (qs k))) by now apply grad_intro. eexists _, _. split; [exact G|]. split; [exact (norm_val p (qs k) _ Hp (Hk k) G)|]. exact (HN k Lk).
  Qed.
  Lemma stop_or_go tau p q : probabilities_of b p -> log_odds_of b q -> stops L b tau p q \/ goes_on L b tau p q.
  Proof.
    intros Hp Hq. destruct (grd_ok p q) as [G1 G2]. assert (G : gradient L b p q (grd p q)) by now apply grad_intro. pose proof (norm_val p q _ Hp Hq G) as N.
    destruct (Rle_lt_dec (rsum (map (fun i => slope p q i * slope p q i) (indices b))) tau) as [Q|Q]; [left|right]; eexists _, _; (split; [exact G|]); (split; [exact N|]); auto.
  Qed.
  Definition nxt eta p q : dist := match body_fun eta q (grd p q) with Ok r => r | Err _ => q end.
  Lemma nxt_step eta p q : probabilities_of b p -> log_odds_of b q -> step L b eta p q (nxt eta p q) /\ log_odds_of b (nxt eta p q).
  Proof.
    intros Hp Hq. destruct (grd_ok p q) as [G1 G2]. destruct (body_val eta q _ Hq G1) as (r & R1 & R2 & _). unfold nxt. rewrite R1. split; [|exact R2]. exists (grd p q). split; [now apply grad_intro|exact R1].
  Qed.
  Theorem t_loop eta tau p q : 0 < eta < 8 -> 0 < tau -> probabilities_of b p -> log_odds_of b q -> exists r, while_loop L b eta tau p q r.
  Proof.
    intros He Ht Hp Hq. set (qs := fun k => Nat.iter k (nxt eta p) q). assert (Hk : forall k, log_odds_of b (qs k)) by (induction k as [|k IH]; [exact Hq|exact (proj2 (nxt_step eta p _ Hp IH))]).
    destruct (t_terminates eta tau p qs He Ht Hp Hq) as [N HN]; [intros k; exact (proj1 (nxt_step eta p _ Hp (Hk k)))|].
    assert (X : forall m k, (k + m = N)%nat -> exists r, while_loop L b eta tau p (qs k) r).
    { induction m as [|m IH]; intros k E.
      - exists (qs k). apply loop_stop. apply HN. lia.
      - destruct (stop_or_go tau p (qs k) Hp (Hk k)) as [S|S]; [exists (qs k); now apply loop_stop|]. destruct (IH (Datatypes.S k) ltac:(lia)) as [r R]. exists r. eapply loop_step; [exact S| |exact R]. exact (proj1 (nxt_step eta p _ Hp (Hk k))). }
    exact (X N 0%nat eq_refl).
  Qed.
  Lemma loop_stops eta tau p q r : probabilities_of b p -> while_loop L b eta tau p q r -> log_odds_of b q -> log_odds_of b r /\ stops L b tau p r.
  Proof. intros Hp W. induction W as [q S|q q' r G St W IH]; intros Hq; [split; [exact Hq|exact S]|]. apply IH. exact (proj1 (step_elim eta p _ _ Hp Hq St)). Qed.
  Theorem t_result eta tau p q r : probabilities_of b p -> log_odds_of b q -> while_loop L b eta tau p q r ->
    log_odds_of b r /\ exists e, to_exp L r = Ok e /\ probabilities_of b e /\ forall i, inb b i = true -> Rabs (pr e i - pr p i) <= sqrt tau.
  Proof. intros Hp Hq W. destruct (loop_stops eta tau p q r Hp W Hq) as [Hr S]. split; [exact Hr|]. exact (t_stopped tau p r Hp Hr S). Qed.
End T.
