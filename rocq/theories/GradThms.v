(** C53: gradients of the cross entropy and of the entropy. *)
From Coquelicot Require Import Coquelicot.
From Coq Require Import String List Bool Arith Reals Lia Lra.
From Verif Require Import Base XReal Tensor TensorFacts Support Dist DictFacts Iteration Structure Spec StructFacts AssembleFacts ParamFacts ReplaceFacts SumSpec DotSpec Tools ToolThms MappingFacts Joint DotFacts StructThms Laws SumFacts MapFacts
  JointThms JointThms2 DotLaws KlThms SpecFun Expr Fam ExprFacts FamTy FamFacts PointSpec PointFacts Val FamR FamVal ConvFacts DerivFacts MatDeriv BregFacts BregThms MatBreg LeafVal DerivThms KlPos IntFam IntThms JointKl InjThms MleThms ConjThms
  FisherSpec JointIntSpec CovSpec KlSpec GradSpec GradFacts BatchFacts ConvThms SearchFacts DensVal.
Import ListNotations.
Local Unset Asymmetric Patterns.
Local Open Scope R_scope.

Section T.
  Variable solve : minimizer -> dist -> nat -> xr.
  Notation L := (fam_methods solve).
  Notation G := (fam_good solve).
  Variables (b i : list nat).

  (** ** the gradient in the natural parameters *)
  Theorem t_ce_gradient p q v : joint_proper b i q -> finite_vars q -> not_clipped q i -> direction b i q v ->
    well_formed p = true -> all_nodes has_entropy_ep p = true -> tree_match b q p -> finite_vars p -> (exists c, value_is b i (expected_carrier_measure L p) c) ->
    exists g m d, along_line b i q v (fun r => cross_entropy L p r) g /\ mean_along L b i q v m /\ value_is b i (parameter_dot_product v p) d /\ derivable_pt_lim g 0 (m - d).
  Proof.
    intros (W & N & S & Hi & H) Fq U (Wv & Sk & T & Fv & Hv & _) Wp Hp Tp Fp (c & ec & C1 & C2 & C3).
    destruct (t_jvp solve b i q v W Wv N Sk T Fq Fv Hi H Hv U) as (y & yd & D & g & J & Y1 & Y2 & Y3 & Y4 & DD & eps & He & Al).
    assert (M : exists e, to_exp L q = Ok e /\ parameter_dot_product v e = Ok yd).
    { unfold log_normalizer_jvp in J. destruct (log_normalizer L q) as [y'|]; [|discriminate J]. cbn [bind] in J. destruct (to_exp L q) as [e|]; [|discriminate J]. cbn [bind] in J. exists e. split; [reflexivity|].
      destruct (parameter_dot_product v e) as [yd'|]; [|discriminate J]. cbn [bind] in J. injection J as _ <-. reflexivity. }
    destruct M as (e & E1 & E2).
    assert (LS : forall s, exists r t s1 s2, parameter_map (lin_op 1 s) q [v] = Ok r /\ parameter_dot_product r p = Ok t /\ parameter_dot_product q p = Ok s1 /\ parameter_dot_product v p = Ok s2 /\ lin_entries b 1 s t s1 s2).
    { intros s. exact (dot_lin (lin_op 1 s) 1 s (lin_op_linear 1 s) b q v p W Wv Wp Sk T Tp Fq Fv Fp). }
    destruct (LS 0) as (r0 & t0 & s1 & s2 & _ & _ & A1 & A2 & B1 & B2 & B3 & B4). destruct (B4 i Hi) as (x & x' & X1 & X2 & _).
    exists (fun s => - (x + s * x') + g s - c), D, x'. split; [|split; [|split]].
    - exists eps. split; [exact He|]. intros s Hs. destruct (Al s Hs) as (qs & t & Q1 & Q2 & Q3 & Q4). exists qs. split; [exact Q1|].
      destruct (LS s) as (r & u & s1' & s2' & R1 & R2 & R3 & R4 & R5 & R6 & R7 & R8). rewrite Q1 in R1. injection R1 as <-. rewrite A1 in R3. injection R3 as <-. rewrite A2 in R4. injection R4 as <-.
      destruct (R8 i Hi) as (z & z' & Z1 & Z2 & Z3). rewrite X1 in Z1. injection Z1 as <-. rewrite X2 in Z2. injection Z2 as <-.
      unfold cross_entropy. rewrite R2. cbn [bind]. rewrite Q2. cbn [bind].
      destruct (tmap2_at xadd (tmap xneg u) t b i) as (a & P1 & P2 & P3); [exact R5|exact Q3|exact Hi|]. rewrite P1. cbn [bind]. rewrite C1. cbn [bind].
      destruct (tmap2_at xsub a ec b i) as (w & W1 & W2 & W3); [exact P2|exact C2|exact Hi|]. exists w. split; [exact W1|]. split; [exact W2|]. rewrite W3, P3, C3, Q4. unfold tmap. rewrite tget_tbuild by (now rewrite R5). rewrite Z3. cbn. f_equal. ring.
    - exists e, yd. auto.
    - exists s2. auto.
    - apply is_derive_Reals in DD. apply is_derive_Reals. replace (D - x') with (- x' + D - 0) by ring.
      apply @is_derive_minus; [apply @is_derive_plus; [|exact DD]|apply @is_derive_const]. apply @is_derive_opp. apply (proj2 (DV_lin x x')).
  Qed.

  (** ** the gradient in the expectation parameters *)
  Definition ceR (f : family) (n : nat) (P Q : point) : R := - dotP (NP f) (EP f) n Q P + lnR n Q f - ecmR n (natR n P f) f.
  Lemma dims_exp l f n P : at_pt b i l (EP f) n P -> dims_ok (EP f) n = true.
  Proof. intros [C W S D V]. destruct (leaf_setup b l f _ W C eq_refl eq_refl S) as (n' & D' & K & _). assert (n' = n) by congruence. now subst n'. Qed.
  Lemma ecm_leaf_at l f n P : inb b i = true -> at_pt b i l (EP f) n P -> exp_dom f n P -> closed_nat f = true -> has_entropy_ep (EP f) = true ->
    value_is b i (expected_carrier_measure L l) (ecmR n (natR n P f) f).
  Proof.
    intros Hi A H Cl He. pose proof (dims_exp l f n P A) as K.
    apply (ecm_at solve b i f l l n (natR n P f) Hi He); [|now rewrite dims_ok_np_ep|now apply nat_ok|intros [->| ->]; discriminate Cl].
    apply (at_pt_eq _ _ _ _ _ _ _ A). apply pt_sym. now apply exp_nat.
  Qed.
  Lemma ce_leaf l q f n P Q : inb b i = true -> at_pt b i l (EP f) n P -> exp_dom f n P -> closed_nat f = true -> has_entropy_ep (EP f) = true ->
    at_pt b i q (NP f) n Q -> nat_dom f n Q -> real_im (NP f) Q -> value_is b i (cross_entropy L l q) (ceR f n P Q).
  Proof.
    intros Hi A H Cl He B K Z. destruct (ecm_leaf_at l f n P Hi A H Cl He) as (ec & C1 & C2 & C3).
    assert (M : leaf_match b q l).
    { unfold leaf_match. split; [exact (ap_wf _ _ _ _ _ _ B)|]. split; [exact (ap_wf _ _ _ _ _ _ A)|]. split; [exact (ap_shaped _ _ _ _ _ _ B)|]. split; [exact (ap_shaped _ _ _ _ _ _ A)|].
      split; [now rewrite (ap_dims _ _ _ _ _ _ A), (ap_dims _ _ _ _ _ _ B)|]. exists f. rewrite (ap_cls _ _ _ _ _ _ A), (ap_cls _ _ _ _ _ _ B). auto. }
    destruct (leaf_value b q l M) as (d & D1 & D2 & D3). destruct (ln_at solve b i q f n _ Hi B K) as (u & U1 & U2 & U3).
    assert (Eu : log_normalizer L q = Ok u) by (pose proof (ap_cls _ _ _ _ _ _ B) as Cy; destruct q as [c m ps subs]; cbn [dcls] in Cy; subst c; exact U1).
    unfold cross_entropy. rewrite D1. cbn [bind]. rewrite Eu. cbn [bind]. destruct (tmap2_at xadd (tmap xneg d) u b i) as (a & P1 & P2 & P3); [exact D2|exact U2|exact Hi|]. rewrite P1. cbn [bind]. rewrite C1. cbn [bind].
    destruct (tmap2_at xsub a ec b i) as (w & W1 & W2 & W3); [exact P2|exact C2|exact Hi|]. exists w. split; [exact W1|]. split; [exact W2|]. rewrite W3, P3, C3, U3. unfold tmap. rewrite tget_tbuild by (now rewrite D2). rewrite (D3 i Hi).
    pose proof (at_pt_pt b i q _ n Q Hi B) as E. rewrite (inner_at b i q l f n P Hi (at_pt_eq _ _ _ _ _ _ _ B E) A). cbn [xadd xsub xneg]. f_equal. unfold ceR.
    rewrite (dotP_pt (NP f) (EP f) n (point_of q i) Q P); [ring|now apply pt_sym|]. intros g j I Kg. apply filter_In in I as [I _]. now rewrite (im_real b i q _ _ _ g j B I Kg), (Z g j I Kg).
  Qed.

  Definition lsum (p : dist) (g : family -> nat -> point -> path -> R) : R :=
    rsum (map (fun pl : path * dist => match fam_n (snd pl) with Some (f, n) => g f n (point_of (snd pl) i) (fst pl) | None => 0 end) (leaves [] p)).
  Section Tree.
    Variables (p v : dist).
    Hypotheses (HP : exp_proper b i p) (Hent : all_nodes has_entropy_ep p = true) (Hcl : closed_leaves p) (Fp : finite_vars p) (HD : exp_direction b i p v).
    Definition pv (pth : path) : point := point_of (leafat v pth) i.
    Lemma tree_leaf pth l : In (pth, l) (leaves [] p) -> exists f n, dcls l = EP f /\ fam_n l = Some (f, n) /\ at_pt b i l (EP f) n (point_of l i) /\ exp_dom f n (point_of l i) /\ at_pt b i (leafat v pth) (EP f) n (pv pth) /\ closed_nat f = true /\ has_entropy_ep (EP f) = true /\ dims_ok (EP f) n = true /\ exp_sym f n (pv pth).
    Proof.
      intros I. destruct HP as (W & N & S & Hi & H). destruct HD as (Wv & Sk & T & Fv & Hv & Sy). destruct (exp_leaf p [] pth l W N I) as [f Hf]. destruct (leaf_wf p [] pth l W I) as [Wl _]. pose proof (shaped_in b p pth l S I) as Sl.
      destruct (exp_dom_at b i l f Hi Hf Wl Sl (H pth l I)) as (n & A & K). exists f, n. split; [exact Hf|]. split; [unfold fam_n; now rewrite Hf, (ap_dims _ _ _ _ _ _ A)|]. split; [exact A|]. split; [exact K|].
      destruct (tm_leaf b p v pth l W Wv T I) as [(_ & Wl' & _ & Sl' & Ed & _) I'].
      pose proof (proj1 (leaf_in p pth l W) I) as [Hd _]. destruct (skel_leafat p v pth l Sk Hd) as [Cl _]. destruct (Hv _ _ I') as (n' & D' & F'). assert (n' = n) by (pose proof (ap_dims _ _ _ _ _ _ A); congruence). subst n'.
      split. { apply at_pt_self; auto. congruence. }
      split. { rewrite closed_form_nat. exact (Hcl pth l f I Hf). }
      split. { pose proof (all_nodes_leaves has_entropy_ep p [] Hent pth l I) as Q. now rewrite Hf in Q. }
      split; [exact (dims_exp l f n _ A)|]. pose proof (Sy _ _ I' n D') as Sy'. rewrite Cl, Hf in Sy'. unfold exp_sym, pv. destruct f; try exact Logic.I; intros a c Ha Hc; destruct (Sy' a c Ha Hc) as [Q1 Q2]; auto.
    Qed.
    (** the functions of s *)
    Definition line (f : family) (P : point) (pth : path) (s : R) : point := padd (EP f) P (pv pth) s.
    Definition Xs (s : R) : R := lsum p (fun f n P pth => ceR f n (line f P pth s) (natR n P f)).
    Definition Cs (s : R) : R := lsum p (fun f n P pth => ecmR n (natR n (line f P pth s) f) f).
    Definition Ks (s : R) : R := lsum p (fun f n P pth => brR f n (natR n (line f P pth s) f) (natR n P f)).
    Definition dd : R := lsum p (fun f n P pth => dotP (NP f) (EP f) n (natR n P f) (pv pth)).
    Lemma lsum_ext g h : (forall pth l f n, In (pth, l) (leaves [] p) -> fam_n l = Some (f, n) -> g f n (point_of l i) pth = h f n (point_of l i) pth) -> lsum p g = lsum p h.
    Proof. intros E. unfold lsum. apply rsum_ext. intros [pth l] I. cbn [fst snd]. destruct (fam_n l) as [[f n]|] eqn:Q; [exact (E pth l f n I Q)|reflexivity]. Qed.
    Lemma K_dv : DV Ks 0 0.
    Proof.
      unfold Ks, lsum. eapply DV_eq; [apply DV_rsum|..]; [intros [pth l] I; cbn [fst snd]; instantiate (2 := fun _ => 0); instantiate (1 := fun _ => 0); cbv beta| |].
      - destruct (tree_leaf pth l I) as (f & n & Cf & Fn & A & K & B & M & E & D & S). rewrite Fn. apply (kl_flat f n _ _ M D); [now rewrite dims_ok_np_ep|exact S|exact K].
      - clear. induction (leaves [] p) as [|a l IH]; [reflexivity|]. cbn [map rsum]. rewrite IH. ring.
      - clear. induction (leaves [] p) as [|a l IH]; [reflexivity|]. cbn [map rsum]. rewrite IH. ring.
    Qed.
    Lemma C_dv : exists c, DV Cs (Cs 0) c.
    Proof.
      unfold Cs, lsum. assert (X : exists c, DV (fun s => rsum (map (fun pl : path * dist => match fam_n (snd pl) with Some (f, n) => ecmR n (natR n (line f (point_of (snd pl) i) (fst pl) s) f) f | None => 0 end) (leaves [] p)))
        (rsum (map (fun pl : path * dist => match fam_n (snd pl) with Some (f, n) => ecmR n (natR n (point_of (snd pl) i) f) f | None => 0 end) (leaves [] p))) c).
      { apply DV_rsum_ex. intros [pth l] I. cbn [fst snd]. destruct (tree_leaf pth l I) as (f & n & Cf & Fn & A & K & B & M & E & D & S). rewrite Fn. now apply ecm_dv. }
      destruct X as [c [_ X]]. exists c. split; [reflexivity|exact X].
    Qed.
    Lemma X_val s : Xs s = Xs 0 + Cs 0 - s * dd - Cs s.
    Proof.
      unfold Xs, Cs, dd, lsum. rewrite <- rsum_scal, <- rsum_add. rewrite !rsum_sub. apply rsum_ext. intros [pth l] I. cbn [fst snd]. destruct (fam_n l) as [[f n]|]; [|ring]. unfold ceR, line. rewrite !dot_line_r. ring.
    Qed.
    Lemma br_ce f n P Ps : closed_nat f = true -> dims_ok (EP f) n = true -> exp_dom f n Ps -> ceR f n Ps (natR n Ps f) = ceR f n Ps (natR n P f) - brR f n (natR n Ps f) (natR n P f).
    Proof.
      intros M D H. unfold ceR, brR. rewrite (dot_ext_r f n _ _ _ (psub_real _ _ _ (natR_im f n Ps M) (natR_im f n P M)) (exp_nat f n _ M D H)). rewrite dotP_psub. ring.
    Qed.
    Lemma sums_val (F : path * dist -> result (tensor xr)) r F0 (g : path * dist -> R) : inb b i = true -> well_formed r = true -> map fst (leaves [] p) = map fst (leaves [] r) -> sums_to F b (leaves [] r) F0 ->
      (forall pth l, In (pth, l) (leaves [] p) -> exists t, F (pth, leafat r pth) = Ok t /\ tget t i = Fin (g (pth, l))) -> value_is b i F0 (rsum (map g (leaves [] p))).
    Proof.
      intros Hi W Pe [_ (t & T1 & T2 & T3)] H. exists t. split; [exact T1|]. split; [exact T2|]. rewrite (T3 i Hi), (leaves_by_path p r W Pe), map_map. apply xsum_ext_Fin. intros [pth l] I. cbn [fst snd].
      destruct (H pth l I) as (u & U1 & U2). rewrite U1. cbn [entry]. exact U2.
    Qed.
    Theorem t_entropy_gradient : exists n hH hX hC d c, to_nat L p = Ok n /\ along_line b i p v (entropy_exp L) hH /\ along_line b i p v (fun r => cross_entropy L r n) hX /\
      along_line b i p v (expected_carrier_measure L) hC /\ value_is b i (parameter_dot_product n v) d /\ derivable_pt_lim hC 0 c /\ derivable_pt_lim hH 0 (- (d + c)) /\ derivable_pt_lim hX 0 (- (d + c)).
    Proof.
      pose proof HP as (W & N & S & Hi & H). pose proof HD as (Wv & Sk & T & Fv & Hv & Sy).
      destruct (g_nat_tree L G b p W N S) as (e & E1 & E2 & E3 & _ & E5 & E6). pose proof (F2_paths _ _ _ E5) as Pe.
      assert (Le : forall pth l f n, In (pth, l) (leaves [] p) -> fam_n l = Some (f, n) -> at_pt b i (leafat e pth) (NP f) n (natR n (point_of l i) f)).
      { intros pth l f n I Fn. destruct (tree_leaf pth l I) as (f' & n' & Cf & Fn' & A & K & B & M & E & D & Ss). rewrite Fn in Fn'. injection Fn' as <- <-.
        destruct (nat_at solve b i l f n _ Hi A K M) as (x & X1 & X2). destruct (F2_leafat (R := fun a c => l_to_nat L a = Ok c) p e W E2 E6 pth l I) as [Q _]. rewrite Q in X1. now injection X1 as <-. }
      destruct C_dv as (c & C1 & C2). destruct K_dv as [K1 K2].
      assert (DX : is_derive Xs 0 (- (dd + c))).
      { apply is_derive_ext with (f := fun s => (Xs 0 + Cs 0 + s * (- dd)) - Cs s); [intros s; rewrite (X_val s); cbv beta; change (@eq R (Xs 0 + Cs 0 + s * - dd - Cs s) (Xs 0 + Cs 0 - s * dd - Cs s)); ring|].
        replace (- (dd + c)) with (- dd - c) by ring. apply @is_derive_minus; [|exact C2]. exact (proj2 (DV_lin (Xs 0 + Cs 0) (- dd))). }
      assert (DH : is_derive (fun s => Xs s - Ks s) 0 (- (dd + c))).
      { replace (- (dd + c)) with (- (dd + c) - 0) by ring. apply @is_derive_minus; [exact DX|exact K2]. }
      assert (Op : locally 0 (fun s => forall pl, In pl (leaves [] p) -> match fam_n (snd pl) with Some (f, n) => exp_dom f n (line f (point_of (snd pl) i) (fst pl) s) | None => False end)).
      { apply loc_list. intros [pth l] I. destruct (tree_leaf pth l I) as (f & n & Cf & Fn & A & K & B & M & E & D & Ss). cbn [fst snd]. rewrite Fn. now apply exp_open. }
      destruct Op as [eps Op].
      assert (Al : forall s, Rabs s < eps -> exists r, parameter_map (lin_op 1 s) p [v] = Ok r /\ well_formed r = true /\ all_nodes has_entropy_ep r = true /\ shaped b r = true /\ tree_match b p r /\
        forall pth l f n, In (pth, l) (leaves [] p) -> fam_n l = Some (f, n) -> at_pt b i (leafat r pth) (EP f) n (line f (point_of l i) pth s) /\ exp_dom f n (line f (point_of l i) pth s)).
      { intros s Hs. specialize (Op s). assert (Bs : ball 0 eps s) by (unfold ball; cbn; unfold AbsRing_ball, abs, minus, plus, opp; cbn; now rewrite Ropp_0, Rplus_0_r). specialize (Op Bs).
        destruct (map_lin_full _ 1 s (lin_op_linear 1 s) b p v W Wv Sk T Fp Fv) as (r & R1 & R2 & R3 & R4 & R5 & R6 & R7). destruct (tm_shaped b p r W R2 R5) as [_ Sr]. exists r.
        split; [exact R1|]. split; [exact R2|]. split; [now apply (skel_all has_entropy_ep p r)|]. split; [exact Sr|]. split; [exact R5|]. intros pth l f n I Fn.
        destruct (tree_leaf pth l I) as (f' & n' & Cf & Fn' & A & K & B & M & E & D & Ss). rewrite Fn in Fn'. injection Fn' as <- <-. specialize (Op _ I). cbn [fst snd] in Op. rewrite Fn in Op. split; [|exact Op].
        destruct (R6 pth l I) as [G1 G2]. destruct (tm_leaf b p r pth l W R2 R5 I) as [(_ & Wl' & _ & Sl' & Ed & _) I']. pose proof (proj1 (leaf_in p pth l W) I) as [Hd _]. destruct (skel_leafat p r pth l R4 Hd) as [Cl _].
        apply line_at; auto; [congruence|rewrite <- Ed; exact (ap_dims _ _ _ _ _ _ A)| |]; rewrite <- Cf; auto. }
      exists e, (fun s => Xs s - Ks s), Xs, Cs, dd, c. split; [exact E1|].
      split.
      { exists (pos eps). split; [apply cond_pos|]. intros s Hs. destruct (Al s Hs) as (r & R1 & R2 & R3 & R4 & R5 & R6). exists r. split; [exact R1|].
        unfold Xs, Ks, lsum. rewrite rsum_sub. apply (sums_val _ r _ _ Hi R2 (F2_paths _ _ _ R5) (entropy_exp_sum L G b r R2 R3 R4)). intros pth l I. cbn [fst snd].
        destruct (tree_leaf pth l I) as (f & n & Cf & Fn & A & K & B & M & E & D & Ss). destruct (R6 pth l f n I Fn) as [Q1 Q2]. destruct (nat_at solve b i _ f n _ Hi Q1 Q2 M) as (x & X1 & X2).
        assert (Et : to_nat L (leafat r pth) = Ok x) by (pose proof (ap_cls _ _ _ _ _ _ Q1) as Cy; destruct (leafat r pth) as [c0 m ps subs]; cbn [dcls] in Cy; subst c0; exact X1).
        unfold entropy_exp. rewrite Et. cbn [bind]. destruct (ce_leaf (leafat r pth) x f n _ _ Hi Q1 Q2 M E X2 (nat_ok f n _ M Q2) (natR_im f n _ M)) as (t & T1 & _ & T3). exists t. split; [exact T1|]. rewrite T3, Fn. f_equal. now apply br_ce. }
      split.
      { exists (pos eps). split; [apply cond_pos|]. intros s Hs. destruct (Al s Hs) as (r & R1 & R2 & R3 & R4 & R5 & R6). exists r. split; [exact R1|]. assert (Tre : tree_match b r e) by (eapply tm_trans; [apply tm_sym; exact R5|exact E5]).
        apply (sums_val _ r _ _ Hi R2 (F2_paths _ _ _ R5) (ce_sum L G b r e R2 E2 R3 E3 Tre)). intros pth l I. cbn [fst snd].
        destruct (tree_leaf pth l I) as (f & n & Cf & Fn & A & K & B & M & E & D & Ss). destruct (R6 pth l f n I Fn) as [Q1 Q2].
        destruct (ce_leaf (leafat r pth) (leafat e pth) f n _ _ Hi Q1 Q2 M E (Le pth l f n I Fn) (nat_ok f n _ M K) (natR_im f n _ M)) as (t & T1 & _ & T3). exists t. split; [exact T1|]. rewrite T3, Fn. reflexivity. }
      split.
      { exists (pos eps). split; [apply cond_pos|]. intros s Hs. destruct (Al s Hs) as (r & R1 & R2 & R3 & R4 & R5 & R6). exists r. split; [exact R1|].
        apply (sums_val _ r _ _ Hi R2 (F2_paths _ _ _ R5) (ecm_sum_tree L G b r R2 R3 R4)). intros pth l I. cbn [fst snd].
        destruct (tree_leaf pth l I) as (f & n & Cf & Fn & A & K & B & M & E & D & Ss). destruct (R6 pth l f n I Fn) as [Q1 Q2].
        destruct (ecm_leaf_at (leafat r pth) f n _ Hi Q1 Q2 M E) as (t & T1 & _ & T3). exists t. split; [exact T1|]. rewrite T3, Fn. reflexivity. }
      split.
      { assert (Tev : tree_match b e v) by (eapply tm_trans; [apply tm_sym; exact E5|exact T]). destruct (dot_value b e v E2 Wv Tev) as (t & D1 & D2 & D3). exists t. split; [exact D1|]. split; [exact D2|].
        pose proof (F2_paths _ _ _ T) as Pv. rewrite (D3 i Hi), (leaves_by_path p v Wv Pv), (leaves_by_path p e E2 Pe).
        assert (X : forall l, combine (map (fun pq : path * dist => (fst pq, leafat e (fst pq))) l) (map (fun pq : path * dist => (fst pq, leafat v (fst pq))) l) = map (fun pq => ((fst pq, leafat e (fst pq)), (fst pq, leafat v (fst pq)))) l).
        { induction l as [|a l IH]; [reflexivity|]. cbn [map combine]. now rewrite IH. }
        rewrite X, map_map. apply xsum_ext_Fin. intros [pth l] I. cbn [fst snd].
        destruct (tree_leaf pth l I) as (f & n & Cf & Fn & A & K & B & M & E & D & Ss). rewrite Fn. pose proof (Le pth l f n I Fn) as Q. pose proof (at_pt_pt b i _ _ n _ Hi Q) as Qe.
        rewrite (inner_at b i _ _ f n (pv pth) Hi (at_pt_eq _ _ _ _ _ _ _ Q Qe) B). f_equal. apply dotP_pt; [now apply pt_sym|]. intros g j Ig Kg. apply filter_In in Ig as [Ig _]. now rewrite (im_real b i _ _ _ _ g j Q Ig Kg), (natR_im f n _ M g j Ig Kg). }
      split; [now apply is_derive_Reals|]. split; now apply is_derive_Reals.
    Qed.
  End Tree.
End T.

(** ** the minimum *)
Theorem t_ce_minimum solve b i p q e : joint_proper b i p -> joint_proper b i q -> same_skeleton p q -> tree_match b p q -> same_fixed_at b i p q -> not_clipped p i ->
  (forall pth l f, In (pth, l) (leaves [] p) -> dcls l = NP f -> has_entropy_ep (EP f) = true) ->
  to_exp (fam_methods solve) p = Ok e -> finite_vars p -> finite_vars q -> finite_vars e -> (exists c, value_is b i (expected_carrier_measure (fam_methods solve) e) c) ->
  exists x y, value_is b i (cross_entropy (fam_methods solve) e q) x /\ value_is b i (cross_entropy (fam_methods solve) e p) y /\ y <= x /\ (y = x <-> same_at b i p q).
Proof.
  intros (W & N & S & Hi & H) (Wq & Nq & Sq & _ & Hq) Sk T Fx U He E Fp Fq Fe (c & ec & C1 & C2 & C3).
  assert (Lf : forall d, well_formed d = true -> nat_tree d = true -> shaped b d = true -> tree_in_domain d i -> fin_at (log_normalizer (fam_methods solve) d) i).
  { intros d Wd Nd Sd Hd. destruct (ln_sum (fam_methods solve) (fam_good solve) b d Wd Nd Sd) as [_ (t & T1 & T2 & T3)]. unfold fin_at. rewrite T1. cbn [entry]. rewrite (T3 i Hi). exists (rsum (map (fun pl : path * dist => match fam_n (snd pl) with Some (f, n) => lnR n (point_of (snd pl) i) f | None => 0 end) (leaves [] d))).
    apply xsum_ext_Fin. intros [pth l] I. cbn [fst snd]. destruct (nat_leaf d [] pth l Wd Nd I) as [f Hf]. destruct (leaf_wf d [] pth l Wd I) as [Wl _]. pose proof (shaped_in b d pth l Sd I) as Sl.
    destruct (nat_dom_at b i l f Hi Hf Wl Sl (Hd pth l I)) as (n & A & K). unfold fam_n. rewrite Hf, (ap_dims _ _ _ _ _ _ A). destruct (ln_at solve b i l f n _ Hi A K) as (u & U1 & U2 & U3).
    assert (Eu : log_normalizer (fam_methods solve) l = Ok u) by (destruct l as [c0 m ps subs]; cbn [dcls] in Hf; subst c0; exact U1). rewrite Eu. exact U3. }
  destruct (kl_is_difference _ (fam_good solve) b p q e W Wq N Nq Sk T He E Fp Fq Fe) as (k & x & h & K1 & K2 & K3 & K4 & K5 & K6 & K7).
  destruct (t_kl solve b i p q W Wq N Sk T Hi H Hq U Fx) as (k' & kv & Q1 & Q2 & Q3 & Q4 & Q5). rewrite K1 in Q1. injection Q1 as <-.
  destruct (K7 i Hi (Lf p W N S H) (Lf q Wq Nq Sq Hq)) as (xv & yv & V1 & V2 & V3). { unfold fin_at. rewrite C1. exists c. exact C3. }
  rewrite Q3 in V3. injection V3 as V3. exists xv, yv. split; [exists x; auto|].
  split. { exists h. split; [|auto]. unfold entropy_nat in K3. rewrite E in K3. exact K3. }
  subst kv. split; [lra|]. rewrite <- Q5. split; intros; lra.
Qed.
