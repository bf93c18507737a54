(** The Kullback-Leibler divergence and the cross entropy as expected values. *)
From Coquelicot Require Import Coquelicot.
From Coq Require Import String List Bool Arith ZArith Reals Lra Lia.
From Verif Require Import Base XReal Tensor TensorFacts Support Dist Iteration Structure Tools Joint Spec StructFacts SumSpec DotSpec DotFacts DotLaws TensorFacts2 PointSpec SpecFun Expr Fam
  DictFacts MappingFacts PointFacts LeafVal DerivFacts DerivThms DensSpec DensVal DensThms ConvFacts ConvThms AssembleFacts SumFacts MapFacts JointThms JointThms2 BatchFacts LogPdfThms KlSpec KlThms
  BregFacts BregThms KlPos MleThms JointProofs SampleSpec FamR IntSpec IntFacts IntFam IntThms JointIntSpec JointInt.
Import ListNotations.
Local Unset Asymmetric Patterns.
Local Open Scope string_scope.
Local Open Scope R_scope.

Lemma lp_fix f n p q x : fix_eq (NP f) n p q -> lpR n q x f = dotP (NP f) (EP f) n q (ssR n p x f) - lnR n q f + cmR n p x f.
Proof. intros H. unfold lpR. destruct (ss_fix f n p q x q H) as [-> ->]. reflexivity. Qed.
Lemma dotP_psub c e n p q x : dotP c e n (psub q p) x = dotP c e n q x - dotP c e n p x.
Proof.
  enough (E : dotP c e n q x = dotP c e n p x + dotP c e n (psub q p) x) by lra. unfold dotP. rewrite <- rsum_add. apply rsum_ext. intros [g h] _. cbn [fst snd]. rewrite <- rsum_add. apply rsum_ext. intros j _. unfold psub. ring.
Qed.
(** E_p (log p - log q) is the Bregman divergence of the log-normalizer *)
Lemma expected_ratio f n p q : dims_ok (NP f) n = true -> nat_dom f n p -> fix_eq (NP f) n p q ->
  integral_over f n (fun x => dens f n p x * (lpR n p x f - lpR n q x f)) (brR f n p q).
Proof.
  intros D H Fx. destruct (fam_norm_mean f n p D H) as [N M].
  pose proof (integral_plus f n _ _ _ _ (integral_plus f n _ _ _ _ (M p) (integral_scal f n _ _ (-1) (M q))) (integral_scal f n _ _ (lnR n q f - lnR n p f) N)) as J.
  eapply integral_to; [|eapply integral_ext; [|exact J]].
  - unfold brR. rewrite dotP_psub. ring.
  - intros x _. cbv beta. rewrite (lp_fix f n p q x Fx). unfold lpR. ring.
Qed.
Lemma expected_cross f n p q : has_entropy_ep (EP f) = true -> dims_ok (NP f) n = true -> nat_dom f n p -> fix_eq (NP f) n p q ->
  integral_over f n (fun x => dens f n p x * - lpR n q x f) (- dotP (NP f) (EP f) n q (expR n p f) + lnR n q f - ecmR n p f).
Proof.
  intros He D H Fx. destruct (fam_norm_mean f n p D H) as [N M]. pose proof (fam_cm f n p He D H) as K. specialize (M q).
  pose proof (integral_plus f n _ _ _ _ (integral_plus f n _ _ _ _ (integral_scal f n _ _ (-1) M) (integral_scal f n _ _ (lnR n q f) N)) (integral_scal f n _ _ (-1) K)) as J.
  eapply integral_to; [|eapply integral_ext; [|exact J]]; [ring|]. intros x _. cbv beta. rewrite (lp_fix f n p q x Fx). ring.
Qed.
Section K.
  Variable solve : minimizer -> dist -> nat -> xr.
  Let L := fam_methods solve.
  Variables (b i : list nat) (p q : dist).
  Hypotheses (W : well_formed p = true) (Wq : well_formed q = true) (N : nat_tree p = true) (Sk : same_skeleton p q) (T : tree_match b p q) (Hi : inb b i = true).
  Hypotheses (H : tree_in_domain p i) (Hq : tree_in_domain q i) (X : same_fixed_at b i p q).
  Lemma proper_p : joint_proper b i p. Proof. destruct (tm_shaped b p q W Wq T) as [S _]. now do 4 (split; [assumption|]). Qed.
  Lemma proper_q : joint_proper b i q.
  Proof. destruct (tm_shaped b p q W Wq T) as [_ S]. split; [assumption|]. split; [now apply (skel_all is_nat p q)|]. split; [exact S|]. split; assumption. Qed.
  Lemma pair_at pth l : In (pth, l) (leaves [] p) -> exists f n, In (pth, (f, n)) (spaces p) /\ In (pth, (f, n)) (spaces q) /\ leafat p pth = l /\ dcls l = NP f /\ dims_of l = Ok n /\ proper b i f l /\
    In (pth, leafat q pth) (leaves [] q) /\ dims_of (leafat q pth) = Ok n /\ proper b i f (leafat q pth) /\ fix_eq (NP f) n (point_of l i) (point_of (leafat q pth) i).
  Proof.
    intros I. destruct (leaf_space b i p proper_p pth l I) as (f & n & H1 & H2 & H3 & H4 & H5). destruct (tm_leaf b p q pth l W Wq T I) as [M I'].
    destruct (leaf_space b i q proper_q pth _ I') as (f' & n' & H1' & H2' & H3' & H4' & H5').
    assert (f' = f). { pose proof (proj1 (leaf_in p pth l W) I) as [Hd _]. destruct (skel_leafat p q pth l Sk Hd) as [Cl _]. congruence. }
    assert (n' = n). { destruct M as (_ & _ & _ & _ & Ed & _). congruence. } subst f' n'. exists f, n. do 9 (split; [assumption|]).
    destruct (proper_dims b i f l H5) as (n' & D1 & F1 & _). assert (n' = n) by congruence. subst n'. destruct (proper_dims b i f _ H5') as (n' & D1' & F1' & _). assert (n' = n) by congruence. subst n'.
    pose proof H5 as (_ & Wl & Sl & _ & _). pose proof H5' as (_ & Wl' & Sl' & _ & _).
    apply (fix_leaf b i); [exact Hi|now apply at_pt_self|now apply at_pt_self|].
    assert (Px : map fst (leaves [] p) = map fst (leaves [] q)) by exact (F2_paths _ _ _ T).
    unfold same_fixed_at in X. rewrite (leaves_by_path p q Wq Px) in X. revert I X. clear. generalize (leaves [] p). induction l0 as [|a m IH]; intros I X; [destruct I|]. cbn [map] in X. inversion X; subst. destruct I as [->|I]; auto.
  Qed.
  Lemma spaces_same : spaces q = spaces p.
  Proof.
    rewrite (spaces_map b i p proper_p), (spaces_map b i q proper_q). assert (Px : map fst (leaves [] p) = map fst (leaves [] q)) by exact (F2_paths _ _ _ T). rewrite (leaves_by_path p q Wq Px), map_map. apply map_ext_in. intros [pth l] I. cbn [fst snd].
    f_equal. destruct (pair_at pth l I) as (f & n & _ & _ & _ & C & D & _ & _ & D' & (C' & _) & _). unfold fam_dim. now rewrite C, D, C', D'.
  Qed.
  Lemma good_same xv : good_point p xv -> good_point q xv. Proof. unfold good_point. rewrite spaces_same. auto. Qed.
  Lemma sumG_sub g h ls xv : sumG g ls xv - sumG h ls xv = sumG (fun pth x => g pth x - h pth x) ls xv.
  Proof.
    unfold sumG. induction ls as [|l ls IH]; cbn [map]; [cbn; ring|].
    change (g (fst l) (xv (fst l)) + rsum (map (fun l => g (fst l) (xv (fst l))) ls) - (h (fst l) (xv (fst l)) + rsum (map (fun l => h (fst l) (xv (fst l))) ls)) =
            (g (fst l) (xv (fst l)) - h (fst l) (xv (fst l))) + rsum (map (fun l => g (fst l) (xv (fst l)) - h (fst l) (xv (fst l))) ls)). rewrite <- IH. ring.
  Qed.
  Theorem kl_expected : not_clipped p i -> exists t k, kl_divergence_nat L p q = Ok t /\ shp t = b /\ tget t i = Fin k /\
    forall P lp lq, joint_pdf_is L b i p P -> joint_log_pdf_is L b i p lp -> joint_log_pdf_is L b i q lq -> integral_joint p (fun xv => P xv * (lp xv - lq xv)) k.
  Proof.
    intros U. destruct (t_kl_value solve b i p q W Wq N Sk T Hi H Hq U) as (Lf & t & T1 & T2 & T3). exists t, (rsum (map (kl_leaf_R i q) (leaves [] p))). do 3 (split; [assumption|]). intros P lp lq HP Hl Hl'.
    set (m := fun pth => kl_leaf_R i q (pth, leafat p pth)).
    assert (E : rsum (map (kl_leaf_R i q) (leaves [] p)) = rsum (map (fun l => m (fst l)) (spaces p))).
    { rewrite (spaces_map b i p proper_p), map_map. apply rsum_ext. intros [pth l] I. cbn [fst snd]. unfold m. destruct (leaf_space b i p proper_p pth l I) as (f & n & _ & -> & _). reflexivity. }
    rewrite E. apply (joint_expected solve b i p proper_p P (fun pth x => lpl i p pth x - lpl i q pth x) m HP).
    - intros pth f n I. destruct (in_spaces b i p proper_p pth f n I) as (l & I' & E' & D & Pl). destruct (pair_at pth l I') as (f' & n' & S1 & S2 & _ & C & D' & _ & _ & _ & _ & Fx).
      assert (f' = f) by (destruct Pl as (C' & _); congruence). assert (n' = n) by congruence. subst f' n'. destruct (proper_dims b i f l Pl) as (n' & D1 & _ & D3 & D4 & _). assert (n' = n) by congruence. subst n'.
      unfold m, kl_leaf_R, fam_n. cbn [fst snd]. rewrite E', C, D. eapply integral_ext; [|exact (expected_ratio f n _ _ D4 D3 Fx)].
      intros x _. cbv beta. unfold densl, dens. rewrite (lpl_at b i p proper_p pth f n l S1 E'). rewrite (lpl_at b i q proper_q pth f n (leafat q pth) S2 eq_refl). reflexivity.
    - intros xv Gx. rewrite (joint_log_pdf_val solve b i p proper_p lp Hl xv Gx), (joint_log_pdf_val solve b i q proper_q lq Hl' xv (good_same xv Gx)), spaces_same. apply sumG_sub.
  Qed.
  (** ** the cross entropy *)
  Lemma cross_leaf f n e r P : at_pt b i e (EP f) n (expR n P f) -> at_pt b i r (NP f) n (point_of r i) -> nat_dom f n (point_of r i) ->
    (exists t, expected_carrier_measure L e = Ok t /\ shp t = b /\ tget t i = Fin (ecmR n P f)) ->
    exists t, cross_entropy L e r = Ok t /\ shp t = b /\ tget t i = Fin (- dotP (NP f) (EP f) n (point_of r i) (expR n P f) + lnR n (point_of r i) f - ecmR n P f).
  Proof.
    intros E A K (ec & X1 & X2 & X3). pose proof A as [C Wr Sr D V]. pose proof E as [C' W' S' D' V'].
    destruct (leaf_value b r e) as (d & D1 & D2 & D3). { repeat (split; [assumption|]). split; [congruence|]. exists f. rewrite C, C'. auto. }
    destruct (ln_at solve b i r f n _ Hi A K) as (l & L1 & L2 & L3). assert (Ln : log_normalizer L r = Ok l). { destruct r as [c m ps subs]. cbn [dcls] in C. subst c. exact L1. }
    unfold cross_entropy. rewrite D1. cbn [bind]. rewrite Ln. cbn [bind]. rewrite tmap2_same by (cbn; congruence). cbn [bind]. rewrite X1. cbn [bind]. rewrite tmap2_same by (cbn; congruence).
    eexists. split; [reflexivity|]. split; [exact D2|]. assert (Hd : inb (shp d) i = true) by now rewrite D2. cbn [shp tmap tbuild]. rewrite !tget_tbuild by exact Hd. rewrite tget_tmap by exact Hd. specialize (D3 i Hi).
    rewrite (inner_at b i r e f n (expR n P f) Hi A E) in D3. rewrite D3, L3, X3. cbn. f_equal.
  Qed.
  Lemma ecm_leaf f n l e : proper b i f l -> dims_of l = Ok n -> has_entropy_ep (EP f) = true -> (carrier_by_search f = true -> recovered L b i l) -> to_exp L l = Ok e -> at_pt b i e (EP f) n (expR n (point_of l i) f) ->
    exists t, expected_carrier_measure L e = Ok t /\ shp t = b /\ tget t i = Fin (ecmR n (point_of l i) f).
  Proof.
    intros Pl D He R E1 E2. pose proof Pl as (C & Wl & Sl & _ & _). destruct (proper_dims b i f l Pl) as (n' & D1 & F1 & D3 & D4 & _). assert (n' = n) by congruence. subst n'.
    assert (A : at_pt b i l (NP f) n (point_of l i)) by now apply at_pt_self.
    destruct (carrier_by_search f) eqn:Cs.
    - destruct (recovered_at solve b i f l n e Pl D E1 E2 (R eq_refl)) as (r & _ & R2 & R3). apply (ecm_at solve b i f r e n); auto.
    - apply (ecm_at solve b i f l e n); auto. intros [->| ->]; discriminate Cs.
  Qed.
  Theorem cross_expected : (forall pth l f, In (pth, l) (leaves [] p) -> dcls l = NP f -> has_entropy_ep (EP f) = true) ->
    (forall pth l f, In (pth, l) (leaves [] p) -> dcls l = NP f -> carrier_by_search f = true -> recovered L b i l) ->
    exists e t k, to_exp L p = Ok e /\ cross_entropy L e q = Ok t /\ shp t = b /\ tget t i = Fin k /\
    forall P lq, joint_pdf_is L b i p P -> joint_log_pdf_is L b i q lq -> integral_joint p (fun xv => P xv * - lq xv) k.
  Proof.
    intros He Hr. destruct (tm_shaped b p q W Wq T) as [S Sq]. destruct (g_exp_tree L (fam_good solve) b p W N S) as (e & E1 & E2 & E3 & E4 & E5 & E6). exists e.
    assert (Hh : all_nodes has_entropy_ep e = true) by exact (has_entropy_tree b p e W E2 N E3 E5 He).
    assert (Tq : tree_match b e q) by (eapply tm_trans; [apply tm_sym; exact E5|exact T]). assert (Nq : nat_tree q = true) by (now apply (skel_all is_nat p q)).
    destruct (p_C17_ce solve b e q E2 Wq Hh Nq Tq) as (_ & t & T1 & T2 & T3). exists t.
    set (m := fun pth => toReal (entry (at_path q pth (fun ql => cross_entropy L (leafat e pth) ql)) i)).
    assert (Hm : forall pth f n, In (pth, (f, n)) (spaces p) -> entry (at_path q pth (fun ql => cross_entropy L (leafat e pth) ql)) i = Fin (m pth) /\ integral_over f n (fun x => densl i p pth x * - lpl i q pth x) (m pth)).
    { intros pth f n I. destruct (in_spaces b i p proper_p pth f n I) as (l & I' & E' & D & Pl). destruct (pair_at pth l I') as (f' & n' & S1 & S2 & _ & C & D' & _ & I2 & D2 & Pl' & Fx).
      assert (f' = f) by (destruct Pl as (C' & _); congruence). assert (n' = n) by congruence. subst f' n'. destruct (proper_dims b i f l Pl) as (n' & D1 & F1 & D3 & D4 & _). assert (n' = n) by congruence. subst n'.
      destruct (proper_dims b i f _ Pl') as (n' & D1' & F1' & D3' & _). assert (n' = n) by congruence. subst n'. pose proof Pl as (_ & Wl & Sl & _ & _). pose proof Pl' as (C2 & Wl' & Sl' & _ & _).
      destruct (exp_form_at solve b i f l n Pl D (entropy_unclipped b i f l Pl (He pth l f I' C))) as (le & Q1 & Q2 & _ & _). fold L in Q1.
      destruct (F2_in_l _ _ _ _ E6 I') as ([p' le'] & Ie & K1 & K2). cbn [fst snd] in K1, K2. subst p'. assert (le' = le). { destruct l as [c m0 ps subs]. cbn [dcls] in C. subst c. cbn [to_exp] in Q1. congruence. } subst le'.
      assert (El : leafat e pth = le) by (apply (leaf_in e pth le E2) in Ie as [Hd _]; unfold leafat; now rewrite Hd).
      pose proof (ecm_leaf f n l le Pl D (He pth l f I' C) (Hr pth l f I' C) Q1 Q2) as EC.
      destruct (cross_leaf f n le (leafat q pth) (point_of l i) Q2) as (u & U1 & _ & U3); [now apply at_pt_self|exact D3'|exact EC|].
      unfold m, at_path. apply (leaf_in q pth _ Wq) in I2 as [Hd _]. rewrite Hd, El, U1. cbn [entry]. rewrite U3. cbn [toReal]. split; [reflexivity|].
      eapply integral_ext; [|exact (expected_cross f n _ _ (He pth l f I' C) D4 D3 Fx)]. intros x _. cbv beta. unfold densl, dens.
      rewrite (lpl_at b i p proper_p pth f n l S1 E'). rewrite (lpl_at b i q proper_q pth f n (leafat q pth) S2 eq_refl). reflexivity. }
    exists (rsum (map (fun l : leafspace => m (fst l)) (spaces p))). split; [exact E1|]. split; [exact T1|]. split; [exact T2|]. split.
    { rewrite (T3 i Hi). assert (Px : map fst (leaves [] p) = map fst (leaves [] e)) by exact (F2_paths _ _ _ E5). rewrite (leaves_by_path p e E2 Px), map_map, (spaces_map b i p proper_p), map_map. apply xsum_ext_Fin. intros [pth l] I. cbn [fst snd].
      destruct (leaf_space b i p proper_p pth l I) as (f & n & H1 & _). exact (proj1 (Hm pth f n H1)). }
    intros P lq HP Hl. apply (joint_expected solve b i p proper_p P (fun pth x => - lpl i q pth x) m HP); [intros pth f n I; exact (proj2 (Hm pth f n I))|].
    intros xv Gx. rewrite (joint_log_pdf_val solve b i q proper_q lq Hl xv (good_same xv Gx)), spaces_same. apply sumG_neg.
  Qed.
End K.
