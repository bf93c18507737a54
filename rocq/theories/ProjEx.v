(** concrete cases for C73: two independent fair coins fitted to two coins that always agree *)
From Coquelicot Require Import Coquelicot.
From Coq Require Import String List Bool Arith ZArith Reals Lra Lia.
From Verif Require Import Base XReal Tensor TensorFacts Support Dist Iteration Structure Tools Joint Spec StructFacts SumSpec DotSpec DotFacts DotLaws TensorFacts2 PointSpec SpecFun Expr Fam
  DictFacts MappingFacts PointFacts LeafVal DerivFacts DerivThms DensSpec DensVal DensThms ConvFacts ConvThms AssembleFacts SumFacts MapFacts JointThms JointThms2 BatchFacts LogPdfThms KlSpec KlThms FamTy
  BregFacts BregThms KlPos MleThms JointProofs SampleSpec FamR IntSpec IntFacts IntFam IntThms JointIntSpec JointInt DomConv2 JointKl InjThms GradSpec Examples JointEx ConvEx ProjSpec ProjThms MaxEnt.
Import ListNotations.
Local Unset Asymmetric Patterns.
Local Open Scope string_scope.
Local Open Scope R_scope.

Section I.
  Variable solve : minimizer -> dist -> nat -> xr.
  Let L := fam_methods solve.
  Variables (b i : list nat) (p : dist) (P : jobs -> R).
  Hypotheses (Pp : joint_proper b i p) (U : not_clipped p i).
  Let Nd := spaces_nodup b i p Pp.
  (** the values at the leaves *)
  Lemma exp_leaf_at pth l f n e le : In (pth, l) (leaves [] p) -> dcls l = NP f -> dims_of l = Ok n -> to_exp L p = Ok e -> dist_at e pth = Some le ->
    at_pt b i le (EP f) n (expR n (point_of l i) f) /\ to_exp L l = Ok le /\ nat_dom f n (point_of l i) /\ proper b i f l.
  Proof.
    intros I C D E1 Hd. pose proof Pp as (W & N & Sh & Hi & _). destruct (g_exp_tree L (fam_good solve) b p W N Sh) as (e' & E1' & E2 & E3 & _ & E5 & E6).
    assert (e' = e) by congruence. subst e'. destruct (leaf_space b i p Pp pth l I) as (f' & n' & H1 & H2 & H3 & H4 & H5). assert (f' = f) by congruence. assert (n' = n) by congruence. subst f' n'.
    destruct (F2_in_l _ _ _ _ E6 I) as ([p' le'] & Ie & K1 & K2). cbn [fst snd] in K1, K2. subst p'. assert (le' = le) by (pose proof (proj1 (proj1 (leaf_in e pth le' E2) Ie)); congruence). subst le'.
    pose proof H5 as (_ & Wl & Sl & _ & _). destruct (proper_dims b i f l H5) as (n' & D1 & Fl & D3 & D4 & _). assert (n' = n) by congruence. subst n'.
    assert (A : at_pt b i l (NP f) n (point_of l i)) by now apply at_pt_self. destruct (exp_at solve b i l f n _ Hi A D3 (clip_leaf p i pth l f U I C)) as (q & R1 & R2).
    pose proof K2 as K3. unfold L in K3. rewrite R1 in K3. injection K3 as ->. split; [exact R2|]. split; [|auto]. destruct l as [c m0 ps subs]. cbn [dcls] in C. subst c. exact K2.
  Qed.
  Lemma moments_intro : (forall pth l f n g c j, In (pth, l) (leaves [] p) -> dcls l = NP f -> dims_of l = Ok n -> In g (var_fields (EP f)) -> inb (supp_shape (fd_support g) n) j = true ->
      integral_joint p (fun xv => P xv * entry_val g c (ssR n (point_of l i) (xv pth) f) j) (entry_val g c (expR n (point_of l i) f) j)) -> has_moments L b i p P.
  Proof.
    intros H. pose proof Pp as (W & N & Sh & Hi & _). destruct (g_exp_tree L (fam_good solve) b p W N Sh) as (e & E1 & _). exists e. split; [exact E1|].
    intros pth l f n g c j T le v I C D G J HT Hd V. specialize (H pth l f n g c j I C D G J). destruct (exp_leaf_at pth l f n e le I C D E1 Hd) as (A & _). apply filter_In in G as [G _].
    rewrite (value_fun le i c (fd_name g) j _ _ V (value_pt b i le f n _ g c j A G J)). pose proof (joint_stat solve b i p Pp pth l f n g c j I C D G J) as JS.
    refine (joint_ext _ _ _ _ _ Nd _ H). intros xv O. pose proof (ok_good p xv O) as Gd. cbv beta. f_equal. destruct (observe_all b i p Pp xv Gd) as (x & Ox).
    destruct (HT x xv Ox (good_space p xv Gd)) as (est & s & ls & X1 & X2 & X3 & X4). destruct (JS x xv Ox (good_space p xv Gd)) as (est' & s' & ls' & Y1 & Y2 & Y3 & Y4).
    assert (est' = est) by congruence. subst est'. fold L in Y2. assert (s' = s) by congruence. subst s'. assert (ls' = ls) by congruence. subst ls'. exact (value_fun _ _ _ _ _ _ _ Y4 X4).
  Qed.
  Lemma carriers_intro : (forall pth l f, In (pth, l) (leaves [] p) -> dcls l = NP f -> has_entropy_ep (EP f) = true /\ (carrier_by_search f = true -> recovered L b i l)) ->
    (forall pth l f n, In (pth, l) (leaves [] p) -> dcls l = NP f -> dims_of l = Ok n -> integral_joint p (fun xv => P xv * cmR n (point_of l i) (xv pth) f) (ecmR n (point_of l i) f)) -> has_carriers L b i p P.
  Proof.
    intros He H. pose proof Pp as (W & N & Sh & Hi & _). destruct (g_exp_tree L (fam_good solve) b p W N Sh) as (e & E1 & _). exists e. split; [exact E1|].
    intros pth l f n M le t c I C D HM Hd Et Ec. specialize (H pth l f n I C D). destruct (exp_leaf_at pth l f n e le I C D E1 Hd) as (A & E2 & K & Pl). destruct (He pth l f I C) as [H1 H2].
    destruct (ecm_leaf solve b i Hi f n l le Pl D H1 H2 E2 A) as (t' & T1 & _ & T3). fold L in T1. assert (t' = t) by congruence. subst t'. assert (c = ecmR n (point_of l i) f) by congruence. subst c.
    refine (joint_ext _ _ _ _ _ Nd _ H). intros xv O. pose proof (ok_good p xv O) as Gd. cbv beta. f_equal. destruct (leaf_space b i p Pp pth l I) as (f' & n' & S1 & _ & C' & D' & _). assert (f' = f) by congruence. assert (n' = n) by congruence. subst f' n'.
    destruct (Gd pth f n S1) as [X1 X2]. destruct (observe b i f l n (xv pth) Pl D X2) as (a & Oa). destruct (HM a (xv pth) Oa X1) as (u & U1 & _ & U3).
    pose proof Pl as (_ & Wl & Sl & _ & _). destruct (proper_dims b i f l Pl) as (n' & D1 & Fl & D3 & D4 & _). assert (n' = n) by congruence. subst n'.
    assert (A' : at_pt b i l (NP f) n (point_of l i)) by now apply at_pt_self.
    destruct (cm_at solve b i l f n _ a (xv pth) Hi A' D3 Oa X1) as (w & W1 & _ & W3).
    assert (carrier_measure L l (Leaf a) = Ok w) by (destruct l as [c m0 ps subs]; cbn [dcls] in C; subst c; exact W1). congruence.
  Qed.
End I.

Definition coins (u v : R) : dist := Dist JointDistributionN DefaultMinimizer []
  [("a", Dist (NP Bernoulli) DefaultMinimizer [("log_odds", vec [u] [] eq_refl)] []); ("b", Dist (NP Bernoulli) DefaultMinimizer [("log_odds", vec [v] [] eq_refl)] [])].
(** the coins show the same side, each side with probability 1/2 *)
Definition agree (xv : jobs) : R := (xv ["a"] false [] * xv ["b"] false [] + (1 - xv ["a"] false []) * (1 - xv ["b"] false [])) / 2.
Lemma coins_proper u v : joint_proper [] [] (coins u v) /\ not_clipped (coins u v) [].
Proof.
  split. { do 4 (split; [reflexivity|]). intros p l H. cbn in H. destruct H as [H|[H|[]]]; injection H as <- <-; leaf_ 1%nat; exact Logic.I. }
  intros p l H K. cbn in H. destruct H as [H|[H|[]]]; injection H as <- <-; discriminate K.
Qed.
Lemma coins_like u v u' v' : same_skeleton (coins u v) (coins u' v') /\ tree_match [] (coins u v) (coins u' v') /\ same_fixed_at [] [] (coins u v) (coins u' v').
Proof.
  split. { intros p. destruct p as [|k p]; [split; reflexivity|]. cbn. destruct (keq k "a"); [|destruct (keq k "b")]; [| |split; reflexivity]; destruct p; split; reflexivity. }
  split. { unfold tree_match. cbn [leaves coins is_joint flat_map app fst snd]. repeat constructor; try (cbn; eexists; split; reflexivity); reflexivity. }
  unfold same_fixed_at. cbn [leaves coins is_joint flat_map app fst snd]. repeat constructor; cbn [snd]; intros f w w' j I F E1 E2 Hj; cbn in I; repeat (destruct I as [<-|I]; [try discriminate F|]); try destruct I.
Qed.
Definition toss (s t : R) : jobs := assign (assign nowhere ["a"] (scalar_obs s)) ["b"] (scalar_obs t).
Lemma coins_int u v F : integral_joint (coins u v) F (F (toss 0 0) + F (toss 0 1) + (F (toss 1 0) + F (toss 1 1))).
Proof.
  exists (fun x => F (assign (assign nowhere ["a"] x) ["b"] (scalar_obs 0)) + F (assign (assign nowhere ["a"] x) ["b"] (scalar_obs 1))). split; [|reflexivity].
  intros x _. exists (fun y => F (assign (assign nowhere ["a"] x) ["b"] y)). split; [intros y _; reflexivity|reflexivity].
Qed.
Lemma coins_to u v F r : r = F (toss 0 0) + F (toss 0 1) + (F (toss 1 0) + F (toss 1 1)) -> integral_joint (coins u v) F r.
Proof. intros ->. apply coins_int. Qed.
Lemma agree_density u v : true_density (coins u v) agree.
Proof.
  split; [|apply coins_to; unfold agree, toss, assign; cbn; lra]. intros xv H.
  pose proof (H ["a"] Bernoulli 1%nat (or_introl eq_refl)) as Ha. pose proof (H ["b"] Bernoulli 1%nat (or_intror (or_introl eq_refl))) as Hb. cbn in Ha, Hb. unfold agree. destruct Ha as [Ha|Ha], Hb as [Hb|Hb]; rewrite Ha, Hb; lra.
Qed.
Lemma expit0 : expit 0 = 1 / 2. Proof. unfold expit. rewrite ?Ropp_0, exp_0. lra. Qed.
Lemma agree_moments solve : has_moments (fam_methods solve) [] [] (coins 0 0) agree.
Proof.
  apply moments_intro; try apply coins_proper. intros pth l f n g c j I C D G J. cbn in I. destruct I as [I|[I|[]]]; injection I as <- <-; cbn in C; injection C as <-; cbn in D; injection D as <-; cbn in G; destruct G as [<-|[]]; cbn in J; destruct j; try discriminate J;
  unfold entry_val; destruct c; cbn [kind_of fd_support supp_ring]; apply coins_to; unfold agree, toss, assign; cbn; unfold point_of; cbn; rewrite ?expit0; try lra.
Qed.
Lemma coins_entropy solve u v pth l f : In (pth, l) (leaves [] (coins u v)) -> dcls l = NP f -> has_entropy_ep (EP f) = true /\ (carrier_by_search f = true -> recovered (fam_methods solve) [] [] l).
Proof. intros I C. cbn in I. destruct I as [I|[I|[]]]; injection I as <- <-; cbn in C; injection C as <-; split; [reflexivity|discriminate|reflexivity|discriminate]. Qed.
Lemma agree_carriers solve u v : has_carriers (fam_methods solve) [] [] (coins u v) agree.
Proof.
  apply carriers_intro; try apply coins_proper; [apply coins_entropy|]. intros pth l f n I C D. cbn in I. destruct I as [I|[I|[]]]; injection I as <- <-; cbn in C; injection C as <-; cbn in D; injection D as <-;
  apply coins_to; unfold cmR, ecmR; lra.
Qed.
Lemma agree_entropy u v : integral_joint (coins u v) (fun xv => agree xv * - ln (agree xv)) (ln 2).
Proof.
  apply coins_to. assert (E : agree (toss 0 0) = / 2 /\ agree (toss 0 1) = 0 /\ agree (toss 1 0) = 0 /\ agree (toss 1 1) = / 2) by (unfold agree, toss, assign; cbn; repeat split; lra).
  destruct E as (-> & -> & -> & ->). rewrite ln_Rinv by lra. lra.
Qed.
