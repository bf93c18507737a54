(** C73: fitting an arbitrary density by its moments. *)
From Coquelicot Require Import Coquelicot.
From Coq Require Import String List Bool Arith ZArith Reals Lra Lia.
From Verif Require Import Base XReal Tensor TensorFacts Support Dist Iteration Structure Tools Joint Spec StructFacts SumSpec DotSpec DotFacts DotLaws TensorFacts2 PointSpec SpecFun Expr Fam
  DictFacts MappingFacts PointFacts LeafVal DerivFacts DerivThms DensSpec DensVal DensThms ConvFacts ConvThms AssembleFacts SumFacts MapFacts JointThms JointThms2 BatchFacts LogPdfThms KlSpec KlThms ExprFacts FamTy FamFacts Val FamVal MatBreg VarThms RootThms MatDeriv
  BregFacts BregThms KlPos MleThms JointProofs SampleSpec FamR IntSpec IntFacts IntFam IntThms JointIntSpec JointInt DomConv2 JointKl InjThms GradSpec ProjSpec.
Import ListNotations.
Local Unset Asymmetric Patterns.
Local Open Scope string_scope.
Local Open Scope R_scope.

Lemma joint_rsum {A} ls w (P : jobs -> R) (F : A -> jobs -> R) (v : A -> R) : forall l, (forall a, In a l -> joint_integral ls w (fun x => P x * F a x) (v a)) -> joint_integral ls w P 1 -> NoDup (map fst ls) ->
  joint_integral ls w (fun x => P x * rsum (map (fun a => F a x) l)) (rsum (map v l)).
Proof.
  intros l H N Nd. induction l as [|a l IH]; cbn [map].
  - replace (rsum []) with (0 * 1) by (cbn; ring). apply (joint_ext _ _ (fun x => 0 * P x)); [exact Nd|intros; cbn; ring|]. now apply joint_scal.
  - change (rsum (v a :: map v l)) with (v a + rsum (map v l)). apply (joint_ext _ _ (fun x => P x * F a x + P x * rsum (map (fun a => F a x) l))); [exact Nd|intros; change (P xv * F a xv + P xv * rsum (map (fun a0 => F a0 xv) l) = P xv * (F a xv + rsum (map (fun a0 => F a0 xv) l))); ring|].
    apply joint_plus; [apply H; now left|apply IH; intros; apply H; now right].
Qed.
Lemma joint_nonneg ls : forall w K v, NoDup (map fst ls) -> (forall xv, spaces_ok ls w xv -> 0 <= K xv) -> joint_integral ls w K v -> 0 <= v.
Proof.
  induction ls as [|[p [f n]] ls IH]; intros w K v Nd Kp; cbn [joint_integral].
  - intros ->. apply Kp. split; [intros; reflexivity|intros ? ? ? []].
  - cbn [map fst] in Nd. inversion Nd; subst. intros (G & A & B). apply (integral_nonneg f n G v B). intros x X. apply (IH (assign w p x) K); [assumption| |now apply A]. intros xv O. apply Kp. now apply (spaces_cons p f n ls w x).
Qed.
Section P.
  Variable solve : minimizer -> dist -> nat -> xr.
  Let L := fam_methods solve.
  Variables (b i : list nat) (p : dist) (P : jobs -> R).
  Hypotheses (Pp : joint_proper b i p) (P1 : integral_joint p P 1).
  Let Nd := spaces_nodup b i p Pp.
  Lemma ok_good xv : spaces_ok (spaces p) nowhere xv -> good_point p xv. Proof. intros [_ H]. exact H. Qed.
  (** the expected value of the inner product of a point with the statistics of a leaf *)
  Lemma dot_moment pth l f n r : not_clipped p i -> has_moments L b i p P -> In (pth, l) (leaves [] p) -> dcls l = NP f -> dims_of l = Ok n -> real_im (NP f) r ->
    integral_joint p (fun xv => P xv * dotP (NP f) (EP f) n r (ssR n (point_of l i) (xv pth) f)) (dotP (NP f) (EP f) n r (expR n (point_of l i) f)).
  Proof.
    intros U (e & E1 & Hm) I C D Z. pose proof Pp as (W & N & Sh & Hi & _). destruct (g_exp_tree L (fam_good solve) b p W N Sh) as (e' & E1' & E2 & E3 & _ & E5 & E6).
    assert (e' = e) by congruence. subst e'. destruct (leaf_space b i p Pp pth l I) as (f' & n' & H1 & H2 & H3 & H4 & H5). assert (f' = f) by congruence. assert (n' = n) by congruence. subst f' n'.
    destruct (F2_in_l _ _ _ _ E6 I) as ([p' le] & Ie & K1 & K2). cbn [fst snd] in K1, K2. subst p'.
    pose proof H5 as (_ & Wl & Sl & _ & _). destruct (proper_dims b i f l H5) as (n' & D1 & Fl & D3 & D4 & _). assert (n' = n) by congruence. subst n'.
    assert (A : at_pt b i l (NP f) n (point_of l i)) by now apply at_pt_self. destruct (exp_at solve b i l f n _ Hi A D3 (clip_leaf p i pth l f U I C)) as (q & R1 & R2).
    unfold L in K2. rewrite R1 in K2. injection K2 as ->. pose proof (proj1 (proj1 (leaf_in e pth le E2) Ie)) as Hd.
    assert (Q : forall g c j, In g (var_fields (EP f)) -> inb (supp_shape (fd_support g) n) j = true -> integral_joint p (fun xv => P xv * entry_val g c (ssR n (point_of l i) (xv pth) f) j) (entry_val g c (expR n (point_of l i) f) j)).
    { intros g c j G J. apply (Hm pth l f n g c j (fun xv => entry_val g c (ssR n (point_of l i) (xv pth) f) j) le); auto. { apply filter_In in G as [G _]. now apply (joint_stat solve b i p Pp pth l). } apply filter_In in G as [G _]. now apply (value_pt b i le f n). }
    unfold dotP at 1. unfold integral_joint in *.
    apply (joint_rsum _ _ P (fun fg xv => rsum (map (fun j => r false (fd_name (fst fg)) j * ssR n (point_of l i) (xv pth) f false (fd_name (snd fg)) j - r true (fd_name (fst fg)) j * ssR n (point_of l i) (xv pth) f true (fd_name (snd fg)) j) (indices (supp_shape (fd_support (fst fg)) n))))); auto.
    intros [g h] Hgh. cbn [fst snd].
    apply (joint_rsum _ _ P (fun j xv => r false (fd_name g) j * ssR n (point_of l i) (xv pth) f false (fd_name h) j - r true (fd_name g) j * ssR n (point_of l i) (xv pth) f true (fd_name h) j)); auto.
    intros j Hj. apply in_indices in Hj. destruct (F2_combine _ _ _ _ _ (pair_kinds f n) Hgh) as [Ek Es]. apply in_combine_both in Hgh as [Hg Hh]. cbn [fst snd] in Hg, Hh. rewrite Es in Hj.
    pose proof (Q h false j Hh Hj) as Q0. pose proof (Q h true j Hh Hj) as Q1. unfold entry_val in Q0, Q1. apply filter_In in Hg as [Hg _].
    destruct (kind_of (fd_support g)) eqn:K.
    - rewrite (Z g j Hg K). apply (joint_ext _ _ (fun xv => r false (fd_name g) j * (P xv * ssR n (point_of l i) (xv pth) f false (fd_name h) j))); [exact Nd|intros; ring|].
      replace (r false (fd_name g) j * expR n (point_of l i) f false (fd_name h) j - 0 * expR n (point_of l i) f true (fd_name h) j) with (r false (fd_name g) j * expR n (point_of l i) f false (fd_name h) j) by ring. apply joint_scal. exact Q0.
    - rewrite <- Ek in Q1.
      apply (joint_ext _ _ (fun xv => r false (fd_name g) j * (P xv * ssR n (point_of l i) (xv pth) f false (fd_name h) j) + (- r true (fd_name g) j) * (P xv * ssR n (point_of l i) (xv pth) f true (fd_name h) j))); [exact Nd|intros; ring|].
      replace (r false (fd_name g) j * expR n (point_of l i) f false (fd_name h) j - r true (fd_name g) j * expR n (point_of l i) f true (fd_name h) j) with
        (r false (fd_name g) j * expR n (point_of l i) f false (fd_name h) j + (- r true (fd_name g) j) * expR n (point_of l i) f true (fd_name h) j) by ring.
      apply joint_plus; apply joint_scal; [exact Q0|exact Q1].
  Qed.

  (** any density at all has at least the relative entropy of p (Gibbs) *)
  Theorem t_gibbs lp u s : (forall xv, joint_space p xv -> 0 <= P xv) -> joint_log_pdf_is L b i p lp -> integral_joint p (fun xv => P xv * - lp xv) u -> integral_joint p (fun xv => P xv * - ln (P xv)) s -> s <= u.
  Proof.
    intros Pos Hl HU HS. destruct (joint_normalised solve b i p Pp) as [(Q & HQ) Q1]. specialize (Q1 Q HQ). unfold integral_joint in *.
    pose proof (joint_plus _ _ _ _ _ _ (joint_plus _ _ _ _ _ _ Q1 (joint_scal _ (-1) _ _ _ P1)) (joint_plus _ _ _ _ _ _ HU (joint_scal _ (-1) _ _ _ HS))) as J.
    enough (0 <= 1 + -1 * 1 + (u + -1 * s)) by lra. refine (joint_nonneg _ _ _ _ Nd _ J). intros xv O. pose proof (ok_good xv O) as G. cbv beta.
    assert (E : Q xv = exp (lp xv)). { rewrite (joint_p_val solve b i p Pp Q HQ xv G), (joint_log_pdf_val solve b i p Pp lp Hl xv G). symmetry. apply prod_exp. }
    rewrite E. pose proof (Pos xv (good_space p xv G)) as P0. pose proof (exp_pos (lp xv)) as Ex. destruct P0 as [P0|P0]; [|rewrite <- P0; lra].
    assert (B : 1 + (lp xv - ln (P xv)) <= exp (lp xv - ln (P xv))) by (apply exp_ineq1_le). unfold Rminus in B at 2. rewrite exp_plus, exp_Ropp, exp_ln in B by exact P0.
    apply (Rmult_le_compat_l (P xv)) in B; [|lra]. replace (P xv * (exp (lp xv) * / P xv)) with (exp (lp xv)) in B by (field; lra). lra.
  Qed.
  (** the expected value of log_pdf under P *)
  Lemma lp_moment pth l f n : not_clipped p i -> has_moments L b i p P -> has_carriers L b i p P -> In (pth, l) (leaves [] p) -> dcls l = NP f -> dims_of l = Ok n ->
    has_entropy_ep (EP f) = true -> (carrier_by_search f = true -> recovered L b i l) ->
    integral_joint p (fun xv => P xv * - lpl i p pth (xv pth)) (- dotP (NP f) (EP f) n (point_of l i) (expR n (point_of l i) f) + lnR n (point_of l i) f - ecmR n (point_of l i) f).
  Proof.
    intros U Hm (e & E1 & Hc) I C D He Hr. pose proof Pp as (W & N & Sh & Hi & _). destruct (leaf_space b i p Pp pth l I) as (f' & n' & H1 & H2 & H3 & H4 & H5). assert (f' = f) by congruence. assert (n' = n) by congruence. subst f' n'.
    pose proof H5 as (_ & Wl & Sl & _ & _). destruct (proper_dims b i f l H5) as (n' & D1 & Fl & D3 & D4 & _). assert (n' = n) by congruence. subst n'.
    assert (A : at_pt b i l (NP f) n (point_of l i)) by now apply at_pt_self.
    pose proof (dot_moment pth l f n (point_of l i) U Hm I C D (real_im_at _ _ _ _ _ _ A)) as J1.
    assert (J2 : integral_joint p (fun xv => P xv * cmR n (point_of l i) (xv pth) f) (ecmR n (point_of l i) f)).
    { destruct (g_exp_tree L (fam_good solve) b p W N Sh) as (e' & E1' & E2 & E3 & _ & E5 & E6). assert (e' = e) by congruence. subst e'. destruct (F2_in_l _ _ _ _ E6 I) as ([p' le] & Ie & K1 & K2). cbn [fst snd] in K1, K2. subst p'.
      destruct (exp_form_at solve b i f l n H5 D (entropy_unclipped b i f l H5 He)) as (le' & Q1 & Q2 & _ & _). fold L in Q1.
      assert (le' = le). { destruct l as [c m0 ps subs]. cbn [dcls] in C. subst c. cbn [to_exp] in Q1. congruence. } subst le'.
      destruct (ecm_leaf solve b i Hi f n l le H5 D He Hr Q1 Q2) as (t & T1 & T2 & T3).
      apply (Hc pth l f n (fun x => cmR n (point_of l i) x f) le t); auto; [|exact (proj1 (proj1 (leaf_in e pth le E2) Ie))].
      intros x xv O X. destruct (cm_at solve b i l f n _ x xv Hi A D3 O X) as (u & U1 & U2 & U3). exists u. split; [|auto]. destruct l as [c m0 ps subs]. cbn [dcls] in C. subst c. exact U1. }
    unfold integral_joint in *. pose proof (joint_plus _ _ _ _ _ _ (joint_plus _ _ _ _ _ _ (joint_scal _ (-1) _ _ _ J1) (joint_scal _ (lnR n (point_of l i) f) _ _ _ P1)) (joint_scal _ (-1) _ _ _ J2)) as J.
    match type of J with joint_integral _ _ _ ?v => replace v with (- dotP (NP f) (EP f) n (point_of l i) (expR n (point_of l i) f) + lnR n (point_of l i) f - ecmR n (point_of l i) f) in J by ring end.
    refine (joint_ext _ _ _ _ _ Nd _ J). intros xv _. cbv beta. rewrite (lpl_at b i p Pp pth f n l H1 H2). unfold lpR. ring.
  Qed.
End P.
Section Q.
  Variable solve : minimizer -> dist -> nat -> xr.
  Let L := fam_methods solve.
  Variables (b i : list nat) (p q : dist) (P : jobs -> R).
  Hypotheses (Pp : joint_proper b i p) (Pq : joint_proper b i q) (U : not_clipped p i) (Sk : same_skeleton p q) (T : tree_match b p q) (X : same_fixed_at b i p q).
  Hypotheses (P1 : integral_joint p P 1) (Hm : has_moments L b i p P).
  Theorem t_projection : exists k, value_is b i (kl_divergence_nat L p q) k /\ forall lp lq, joint_log_pdf_is L b i p lp -> joint_log_pdf_is L b i q lq -> integral_joint p (fun xv => P xv * (lp xv - lq xv)) k.
  Proof.
    pose proof Pp as (W & N & Sh & Hi & H). pose proof Pq as (Wq & Nq & Shq & _ & Hq).
    destruct (t_kl_value solve b i p q W Wq N Sk T Hi H Hq U) as (Lf & t & T1 & T2 & T3). exists (rsum (map (kl_leaf_R i q) (leaves [] p))). split; [exists t; auto|]. intros lp lq Hl Hl'.
    unfold integral_joint. pose proof (spaces_nodup b i p Pp) as Nd.
    apply (joint_ext _ _ (fun xv => P xv * rsum (map (fun pl => lpl i p (fst pl) (xv (fst pl)) - lpl i q (fst pl) (xv (fst pl))) (leaves [] p)))); [exact Nd| |].
    - intros xv O. pose proof (ok_good p xv O) as G. f_equal. rewrite (joint_log_pdf_val solve b i p Pp lp Hl xv G), (joint_log_pdf_val solve b i q Pq lq Hl' xv (good_same b i p q W Wq N Sk T Hi H Hq X xv G)), (spaces_same b i p q W Wq N Sk T Hi H Hq X), sumG_sub.
      symmetry. exact (sum_leaves b i p Pp (fun pth x => lpl i p pth x - lpl i q pth x) xv).
    - apply joint_rsum; auto. intros [pth l] I. cbn [fst snd]. destruct (pair_at b i p q W Wq N Sk T Hi H Hq X pth l I) as (f & n & S1 & S2 & E' & C & D & Pl & I2 & D2 & Pl' & Fx).
      destruct (proper_dims b i f l Pl) as (n' & D1 & F1 & D3 & D4 & _). assert (n' = n) by congruence. subst n'. destruct (proper_dims b i f _ Pl') as (n' & D1' & F1' & D3' & _). assert (n' = n) by congruence. subst n'.
      pose proof Pl as (_ & Wl & Sl & _ & _). pose proof Pl' as (C2 & Wl' & Sl' & _ & _).
      assert (A : at_pt b i l (NP f) n (point_of l i)) by now apply at_pt_self. assert (A' : at_pt b i (leafat q pth) (NP f) n (point_of (leafat q pth) i)) by now apply at_pt_self.
      pose proof (dot_moment solve b i p P Pp P1 pth l f n _ U Hm I C D (real_im_at _ _ _ _ _ _ A)) as J1. pose proof (dot_moment solve b i p P Pp P1 pth l f n _ U Hm I C D (real_im_at _ _ _ _ _ _ A')) as J2.
      unfold integral_joint in J1, J2. pose proof (joint_plus _ _ _ _ _ _ (joint_plus _ _ _ _ _ _ J1 (joint_scal _ (-1) _ _ _ J2)) (joint_scal _ (lnR n (point_of (leafat q pth) i) f - lnR n (point_of l i) f) _ _ _ P1)) as J.
      match type of J with joint_integral _ _ _ ?v => replace v with (kl_leaf_R i q (pth, l)) in J end.
      2:{ unfold kl_leaf_R, fam_n. cbn [fst snd]. rewrite C, D. unfold brR. rewrite dotP_psub. ring. }
      refine (joint_ext _ _ _ _ _ Nd _ J). intros xv _. cbv beta. rewrite (lpl_at b i p Pp pth f n l S1 E'), (lpl_at b i q Pq pth f n (leafat q pth) S2 eq_refl), (lp_fix f n _ _ _ Fx). unfold lpR. ring.
  Qed.
  Theorem t_loss lp lq u v : joint_log_pdf_is L b i p lp -> joint_log_pdf_is L b i q lq -> integral_joint p (fun xv => P xv * - lp xv) u -> integral_joint p (fun xv => P xv * - lq xv) v ->
    exists k, value_is b i (kl_divergence_nat L p q) k /\ v = u + k /\ u <= v /\ (u = v <-> same_at b i p q).
  Proof.
    intros Hl Hl' HU HV. destruct t_projection as (k & K & J). specialize (J lp lq Hl Hl'). exists k. split; [exact K|]. unfold integral_joint in *. pose proof (spaces_nodup b i p Pp) as Nd.
    assert (E : v = u + k). { apply (joint_fun _ _ _ _ _ HV). refine (joint_ext _ _ _ _ _ Nd _ (joint_plus _ _ _ _ _ _ HU J)). intros xv _. cbv beta. ring. }
    split; [exact E|]. pose proof Pp as (W & N & Sh & Hi & H). pose proof Pq as (Wq & Nq & Shq & _ & Hq).
    destruct (t_kl solve b i p q W Wq N Sk T Hi H Hq U X) as (t & k' & T1 & T2 & T3 & T4 & T5). assert (k' = k) by (destruct K as (t' & K1 & _ & K3); fold L in T1; congruence). subst k'. split; [lra|]. rewrite <- T5. split; intros; lra.
  Qed.
End Q.
