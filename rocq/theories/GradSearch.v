(** C53: the gradient of the entropy in the expectation parameters, for every family with an entropy. *)
From Coquelicot Require Import Coquelicot.
From Coq Require Import String List Bool Arith Reals Lia Lra.
From Verif Require Import Base XReal Tensor TensorFacts Support Dist DictFacts Iteration Structure Spec StructFacts AssembleFacts ParamFacts ReplaceFacts SumSpec DotSpec Tools ToolThms MappingFacts Joint DotFacts StructThms Laws SumFacts MapFacts
  JointThms JointThms2 DotLaws KlThms SpecFun Expr Fam ExprFacts FamTy FamFacts PointSpec PointFacts Val FamR FamVal ConvFacts DerivFacts MatDeriv BregFacts BregThms MatBreg LeafVal DerivThms KlPos IntFam IntThms JointKl InjThms MleThms ConjThms
  FisherSpec JointIntSpec CovSpec KlSpec GradSpec GradFacts BatchFacts ConvThms SearchFacts DensVal GradThms DensSpec VarSpec RootSpec VarThms RootThms MeanSpec MeanThms BoxFacts SearchCont SearchDir GradSearchSpec.
Import ListNotations.
Local Unset Asymmetric Patterns.
Local Open Scope R_scope.

Section T.
  Variable solve : minimizer -> dist -> nat -> xr.
  Notation L := (fam_methods solve).
  Notation G := (fam_good solve).
  Variables (b i : list nat).
  Lemma not_closed f : closed_nat f = false -> has_entropy_ep (EP f) = true -> sfam f = true.
  Proof. destruct f; intros A B; try discriminate A; try discriminate B; reflexivity. Qed.
  Lemma sfam_unclipped f P : sfam f = true -> unclipped f P.
  Proof. destruct f; intros A; try discriminate A; exact Logic.I. Qed.
  Lemma mean_pt_s f n q e P : sfam f = true -> at_pt b i e (EP f) n P -> mean_of L b i f q e ->
    at_pt b i q (NP f) n (point_of q i) /\ nat_dom f n (point_of q i) /\ pt_eq (EP f) n (expR n (point_of q i) f) P.
  Proof.
    intros F A ((C & W & S & Hi & Dom) & e' & E1 & E2). destruct (nat_dom_at b i q f Hi C W S Dom) as (n1 & B & K). rewrite (api_exp_leaf L q f C) in E1.
    assert (n1 = n). { destruct (exp_builds solve b q f n1 C W S (ap_dims _ _ _ _ _ _ B)) as (ps & P1 & _ & _ & P4 & _). rewrite E1 in P1. injection P1 as ->. destruct E2 as (_ & _ & _ & _ & _ & D4 & _). rewrite (ap_dims _ _ _ _ _ _ A), P4 in D4. congruence. }
    subst n1. split; [exact B|]. split; [exact K|]. pose proof (params_at_pt b i e e' (EP f) n _ Hi A E2) as A'.
    destruct (exp_at solve b i q f n _ Hi B K (sfam_unclipped f _ F)) as (x & X1 & X2). rewrite E1 in X1. injection X1 as <-.
    apply (pt_trans _ _ _ (point_of e' i)); [exact (at_pt_pt b i _ _ _ _ Hi X2)|apply pt_sym; exact (at_pt_pt b i _ _ _ _ Hi A')].
  Qed.
  Definition ceN (f : family) (n : nat) (P Q N : point) : R := - dotP (NP f) (EP f) n Q P + lnR n Q f - ecmR n N f.
  Lemma ce_leaf_s l q x f n P Q N : inb b i = true -> at_pt b i l (EP f) n P -> has_entropy_ep (EP f) = true ->
    to_nat L l = Ok x -> at_pt b i x (NP f) n N -> nat_dom f n N -> pt_eq (EP f) n (expR n N f) P ->
    at_pt b i q (NP f) n Q -> nat_dom f n Q -> real_im (NP f) Q -> value_is b i (cross_entropy L l q) (ceN f n P Q N) /\ value_is b i (expected_carrier_measure L l) (ecmR n N f).
  Proof.
    intros Hi A He T X HN EN B K Z. pose proof (dims_exp b i l f n P A) as Dm.
    assert (V : value_is b i (expected_carrier_measure L l) (ecmR n N f)).
    { apply (ecm_at solve b i f x l n N Hi He); [|now rewrite dims_ok_np_ep|exact HN|intros _; split; [|exact X]]; [apply (at_pt_eq _ _ _ _ _ _ _ A); now apply pt_sym|].
      pose proof (ap_cls _ _ _ _ _ _ A) as Cy. destruct l as [c0 m ps subs]. cbn [dcls] in Cy. subst c0. exact T. }
    split; [|exact V]. destruct V as (ec & C1 & C2 & C3).
    assert (M : leaf_match b q l).
    { unfold leaf_match. split; [exact (ap_wf _ _ _ _ _ _ B)|]. split; [exact (ap_wf _ _ _ _ _ _ A)|]. split; [exact (ap_shaped _ _ _ _ _ _ B)|]. split; [exact (ap_shaped _ _ _ _ _ _ A)|].
      split; [now rewrite (ap_dims _ _ _ _ _ _ A), (ap_dims _ _ _ _ _ _ B)|]. exists f. rewrite (ap_cls _ _ _ _ _ _ A), (ap_cls _ _ _ _ _ _ B). auto. }
    destruct (leaf_value b q l M) as (d & D1 & D2 & D3). destruct (ln_at solve b i q f n _ Hi B K) as (u & U1 & U2 & U3).
    assert (Eu : log_normalizer L q = Ok u) by (pose proof (ap_cls _ _ _ _ _ _ B) as Cy; destruct q as [c m ps subs]; cbn [dcls] in Cy; subst c; exact U1).
    unfold cross_entropy. rewrite D1. cbn [bind]. rewrite Eu. cbn [bind]. destruct (tmap2_at xadd (tmap xneg d) u b i) as (a & P1 & P2 & P3); [exact D2|exact U2|exact Hi|]. rewrite P1. cbn [bind]. rewrite C1. cbn [bind].
    destruct (tmap2_at xsub a ec b i) as (w & W1 & W2 & W3); [exact P2|exact C2|exact Hi|]. exists w. split; [exact W1|]. split; [exact W2|]. rewrite W3, P3, C3, U3. unfold tmap. rewrite tget_tbuild by (now rewrite D2). rewrite (D3 i Hi).
    pose proof (at_pt_pt b i q _ n Q Hi B) as E. rewrite (inner_at b i q l f n P Hi (at_pt_eq _ _ _ _ _ _ _ B E) A). cbn [xadd xsub xneg]. f_equal. unfold ceN.
    rewrite (dotP_pt (NP f) (EP f) n (point_of q i) Q P); [ring|now apply pt_sym|]. intros g j I Kg. apply filter_In in I as [I _]. now rewrite (im_real b i q _ _ _ g j B I Kg), (Z g j I Kg).
  Qed.
  Lemma ce_split f n P N Ns : real_im (NP f) N -> real_im (NP f) Ns -> pt_eq (EP f) n (expR n Ns f) P -> ceN f n P Ns Ns = ceN f n P N Ns - brR f n Ns N.
  Proof. intros Z Zs E. unfold ceN, brR. rewrite (dot_ext_r f n _ _ _ (psub_real _ _ _ Zs Z) E), dotP_psub. ring. Qed.

  Section Tree.
    Variables (p v : dist).
    Hypotheses (HP : exp_proper b i p) (Hent : all_nodes has_entropy_ep p = true) (Hf : found_along L b i p v) (Fp : finite_vars p) (HD : exp_direction b i p v).
    Notation pv := (pv i v).
    Notation line := (line i v).
    Lemma tleaf pth l : In (pth, l) (leaves [] p) -> exists f n, dcls l = EP f /\ fam_n l = Some (f, n) /\ at_pt b i l (EP f) n (point_of l i) /\ exp_dom f n (point_of l i) /\ at_pt b i (leafat v pth) (EP f) n (pv pth) /\ has_entropy_ep (EP f) = true /\ dims_ok (EP f) n = true /\ exp_sym f n (pv pth).
    Proof.
      intros I. destruct HP as (W & N & S & Hi & H). destruct HD as (Wv & Sk & T & Fv & Hv & Sy). destruct (exp_leaf p [] pth l W N I) as [f Hf']. destruct (leaf_wf p [] pth l W I) as [Wl _]. pose proof (shaped_in b p pth l S I) as Sl.
      destruct (exp_dom_at b i l f Hi Hf' Wl Sl (H pth l I)) as (n & A & K). exists f, n. split; [exact Hf'|]. split; [unfold fam_n; now rewrite Hf', (ap_dims _ _ _ _ _ _ A)|]. split; [exact A|]. split; [exact K|].
      destruct (tm_leaf b p v pth l W Wv T I) as [(_ & Wl' & _ & Sl' & Ed & _) I'].
      pose proof (proj1 (leaf_in p pth l W) I) as [Hd _]. destruct (skel_leafat p v pth l Sk Hd) as [Cl _]. destruct (Hv _ _ I') as (n' & D' & F'). assert (n' = n) by (pose proof (ap_dims _ _ _ _ _ _ A); congruence). subst n'.
      split. { apply at_pt_self; auto. congruence. }
      split. { pose proof (all_nodes_leaves has_entropy_ep p [] Hent pth l I) as Q. now rewrite Hf' in Q. }
      split; [exact (dims_exp b i l f n _ A)|]. pose proof (Sy _ _ I' n D') as Sy'. rewrite Cl, Hf' in Sy'. unfold exp_sym. destruct f; try exact Logic.I; intros a c Ha Hc; destruct (Sy' a c Ha Hc) as [Q1 Q2]; auto.
    Qed.
    Definition srch (r : dist) (pth : path) : point := match to_nat L (leafat r pth) with Ok q => point_of q i | Err _ => mkpt [] end.
    Definition Tn (f : family) (n : nat) (P : point) (pth : path) (s : R) : point :=
      if closed_nat f then natR n (line f P pth s) f else match parameter_map (lin_op 1 s) p [v] with Ok r => srch r pth | Err _ => mkpt [] end.
    Definition N0 (f : family) (n : nat) (P : point) (pth : path) : point := if closed_nat f then natR n P f else srch p pth.
    (** the tree at s *)
    Lemma at_s s : exists r, parameter_map (lin_op 1 s) p [v] = Ok r /\ well_formed r = true /\ all_nodes has_entropy_ep r = true /\ shaped b r = true /\ tree_match b p r /\
      forall pth l f n, In (pth, l) (leaves [] p) -> fam_n l = Some (f, n) -> at_pt b i (leafat r pth) (EP f) n (line f (point_of l i) pth s) /\ In (pth, leafat r pth) (leaves [] r).
    Proof.
      pose proof HP as (W & N & S & Hi & H). pose proof HD as (Wv & Sk & T & Fv & Hv & Sy).
      destruct (map_lin_full _ 1 s (lin_op_linear 1 s) b p v W Wv Sk T Fp Fv) as (r & R1 & R2 & R3 & R4 & R5 & R6 & R7). destruct (tm_shaped b p r W R2 R5) as [_ Sr]. exists r.
      split; [exact R1|]. split; [exact R2|]. split; [now apply (skel_all has_entropy_ep p r)|]. split; [exact Sr|]. split; [exact R5|]. intros pth l f n I Fn.
      destruct (tleaf pth l I) as (f' & n' & Cf & Fn' & A & K & B & E & D & Ss). rewrite Fn in Fn'. injection Fn' as <- <-.
      destruct (R6 pth l I) as [G1 G2]. destruct (tm_leaf b p r pth l W R2 R5 I) as [(_ & Wl' & _ & Sl' & Ed & _) I']. pose proof (proj1 (leaf_in p pth l W) I) as [Hd _]. destruct (skel_leafat p r pth l R4 Hd) as [Cl _]. split; [|exact I'].
      apply line_at; auto; [congruence|rewrite <- Ed; exact (ap_dims _ _ _ _ _ _ A)| |]; rewrite <- Cf; auto.
    Qed.
    (** natural parameters q of the leaf l, with values N *)
    Definition nat_of (f : family) (n : nat) (l : dist) (P N : point) : Prop :=
      nat_dom f n N /\ real_im (NP f) N /\ pt_eq (EP f) n (expR n N f) P /\ exists q, to_nat L l = Ok q /\ at_pt b i q (NP f) n N.
    Lemma nat_of_closed f n l P : inb b i = true -> closed_nat f = true -> at_pt b i l (EP f) n P -> exp_dom f n P -> nat_of f n l P (natR n P f).
    Proof.
      intros Hi M A K. split; [now apply nat_ok|]. split; [now apply natR_im|]. split; [apply exp_nat; auto; exact (dims_exp b i l f n P A)|]. destruct (nat_at solve b i l f n _ Hi A K M) as (x & X1 & X2). exists x. split; [|exact X2].
      pose proof (ap_cls _ _ _ _ _ _ A) as Cy. destruct l as [c0 m ps subs]. cbn [dcls] in Cy. subst c0. exact X1.
    Qed.
    Lemma nat_of_search f n r pth P : inb b i = true -> sfam f = true -> at_pt b i (leafat r pth) (EP f) n P -> In (pth, leafat r pth) (leaves [] r) -> searches_found L b i r -> nat_of f n (leafat r pth) P (srch r pth).
    Proof.
      intros Hi F A I H. destruct (H pth _ f I (ap_cls _ _ _ _ _ _ A)) as (q & Q1 & Q2); [destruct f; try discriminate F; reflexivity|]. unfold srch. rewrite Q1. destruct (mean_pt_s f n q _ P F A Q2) as (B1 & B2 & B3). split; [exact B2|]. split; [|split; [exact B3|exists q; auto]].
      intros g j Ig Kg. exact (im_real b i q _ _ _ g j B1 Ig Kg).
    Qed.
    Lemma N0_ok pth l f n : In (pth, l) (leaves [] p) -> fam_n l = Some (f, n) -> nat_of f n l (point_of l i) (N0 f n (point_of l i) pth).
    Proof.
      intros I Fn. pose proof HP as (W & _ & _ & Hi & _). destruct (tleaf pth l I) as (f' & n' & Cf & Fn' & A & K & B & E & D & Ss). rewrite Fn in Fn'. injection Fn' as <- <-. unfold N0. destruct (closed_nat f) eqn:M; [now apply nat_of_closed|].
      assert (El : leafat p pth = l) by (pose proof (proj1 (leaf_in p pth l W) I) as [Hd _]; unfold leafat; now rewrite Hd). pose proof (nat_of_search f n p pth (point_of l i) Hi (not_closed f M E)) as Q. rewrite El in Q. apply Q; auto. exact (proj1 Hf).
    Qed.
    Lemma Tn_ok pth l : In (pth, l) (leaves [] p) -> locally 0 (fun s => match fam_n l with Some (f, n) => forall r, parameter_map (lin_op 1 s) p [v] = Ok r -> nat_of f n (leafat r pth) (line f (point_of l i) pth s) (Tn f n (point_of l i) pth s) | None => False end).
    Proof.
      intros I. pose proof HP as (W & _ & _ & Hi & _). destruct (tleaf pth l I) as (f & n & Cf & Fn & A & K & B & E & D & Ss). rewrite Fn. unfold Tn. destruct (closed_nat f) eqn:M.
      - eapply filter_imp; [|exact (exp_open f n (point_of l i) (pv pth) M Ss K)]. cbv beta. intros s Hs r Hr. destruct (at_s s) as (r' & R1 & _ & _ & _ & _ & R6). rewrite Hr in R1. injection R1 as <-. destruct (R6 pth l f n I Fn) as [Q1 _]. now apply nat_of_closed.
      - destruct Hf as [_ (eps & He & Hs)]. exists (mkposreal eps He). intros s Bs r Hr. rewrite Hr. destruct (at_s s) as (r' & R1 & _ & _ & _ & _ & R6). rewrite Hr in R1. injection R1 as <-. destruct (R6 pth l f n I Fn) as [Q1 Q2].
        apply nat_of_search; auto; [now apply not_closed|]. apply (Hs s r); [|exact Hr]. unfold ball in Bs. cbn in Bs. unfold AbsRing_ball, abs, minus, plus, opp in Bs. cbn in Bs. now rewrite Ropp_0, Rplus_0_r in Bs.
    Qed.
    Lemma leaf_dv pth l f n : In (pth, l) (leaves [] p) -> fam_n l = Some (f, n) ->
      DV (fun s => brR f n (Tn f n (point_of l i) pth s) (N0 f n (point_of l i) pth)) 0 0 /\ exists d, DV (fun s => ecmR n (Tn f n (point_of l i) pth s) f) (ecmR n (N0 f n (point_of l i) pth) f) d.
    Proof.
      intros I Fn. destruct (tleaf pth l I) as (f' & n' & Cf & Fn' & A & K & B & E & D & Ss). rewrite Fn in Fn'. injection Fn' as <- <-. destruct (closed_nat f) eqn:M.
      - unfold Tn, N0. rewrite M. split; [apply kl_flat; auto; now rewrite dims_ok_np_ep|now apply ecm_dv].
      - pose proof (not_closed f M E) as F. destruct (N0_ok pth l f n I Fn) as (Q1 & Q2 & Q3 & _). pose proof (Tn_ok pth l I) as Ok'. rewrite Fn in Ok'. destruct Ok' as [eps Ok'].
        assert (HT : forall s, Rabs s < eps -> nat_dom f n (Tn f n (point_of l i) pth s) /\ real_im (NP f) (Tn f n (point_of l i) pth s) /\ pt_eq (EP f) n (expR n (Tn f n (point_of l i) pth s) f) (padd (EP f) (point_of l i) (pv pth) s)).
        { intros s Hs. assert (Bs : ball 0 eps s) by (unfold ball; cbn; unfold AbsRing_ball, abs, minus, plus, opp; cbn; now rewrite Ropp_0, Rplus_0_r). destruct (at_s s) as (r & R1 & _). destruct (Ok' s Bs r R1) as (T1 & T2 & T3 & _). auto. }
        assert (Dm : dims_ok (NP f) n = true) by now rewrite dims_ok_np_ep.
        split; [exact (search_flat f n _ _ _ _ eps F Dm Q1 Q2 Q3 (cond_pos eps) HT)|exact (ecm_search f n _ _ _ _ eps F Dm Q1 Q2 Q3 (cond_pos eps) HT)].
    Qed.
    Notation lsum := (lsum i p).
    Definition Ax : R := lsum (fun f n P pth => - dotP (NP f) (EP f) n (N0 f n P pth) P + lnR n (N0 f n P pth) f).
    Definition Xs (s : R) : R := lsum (fun f n P pth => ceN f n (line f P pth s) (N0 f n P pth) (Tn f n P pth s)).
    Definition Cs (s : R) : R := lsum (fun f n P pth => ecmR n (Tn f n P pth s) f).
    Definition Ks (s : R) : R := lsum (fun f n P pth => brR f n (Tn f n P pth s) (N0 f n P pth)).
    Definition dd : R := lsum (fun f n P pth => dotP (NP f) (EP f) n (N0 f n P pth) (pv pth)).
    Lemma K_dv : DV Ks 0 0.
    Proof.
      unfold Ks, GradThms.lsum. eapply DV_eq; [apply DV_rsum|..]; [intros [pth l] I; cbn [fst snd]; instantiate (2 := fun _ => 0); instantiate (1 := fun _ => 0); cbv beta| |].
      - destruct (tleaf pth l I) as (f & n & Cf & Fn & _). rewrite Fn. exact (proj1 (leaf_dv pth l f n I Fn)).
      - clear. induction (leaves [] p) as [|a l IH]; [reflexivity|]. cbn [map rsum]. rewrite IH. ring.
      - clear. induction (leaves [] p) as [|a l IH]; [reflexivity|]. cbn [map rsum]. rewrite IH. ring.
    Qed.
    Lemma C_dv : exists c, DV Cs (Cs 0) c.
    Proof.
      unfold Cs, GradThms.lsum. assert (X : exists c, DV (fun s => rsum (map (fun pl : path * dist => match fam_n (snd pl) with Some (f, n) => ecmR n (Tn f n (point_of (snd pl) i) (fst pl) s) f | None => 0 end) (leaves [] p)))
        (rsum (map (fun pl : path * dist => match fam_n (snd pl) with Some (f, n) => ecmR n (N0 f n (point_of (snd pl) i) (fst pl)) f | None => 0 end) (leaves [] p))) c).
      { apply DV_rsum_ex. intros [pth l] I. cbn [fst snd]. destruct (tleaf pth l I) as (f & n & Cf & Fn & _). rewrite Fn. exact (proj2 (leaf_dv pth l f n I Fn)). }
      destruct X as [c [_ X]]. exists c. split; [reflexivity|exact X].
    Qed.
    Lemma X_val s : Xs s = Ax - s * dd - Cs s.
    Proof.
      unfold Xs, Ax, Cs, dd, GradThms.lsum. rewrite <- rsum_scal. rewrite !rsum_sub. apply rsum_ext. intros [pth l] I. cbn [fst snd]. destruct (fam_n l) as [[f n]|]; [|ring]. unfold ceN, GradThms.line. rewrite !dot_line_r. ring.
    Qed.
    Theorem t_entropy_gradient_all : exists n hH hX hC d c, to_nat L p = Ok n /\ along_line b i p v (entropy_exp L) hH /\ along_line b i p v (fun r => cross_entropy L r n) hX /\
      along_line b i p v (expected_carrier_measure L) hC /\ value_is b i (parameter_dot_product n v) d /\ derivable_pt_lim hC 0 c /\ derivable_pt_lim hH 0 (- (d + c)) /\ derivable_pt_lim hX 0 (- (d + c)).
    Proof.
      pose proof HP as (W & N & S & Hi & H). pose proof HD as (Wv & Sk & T & Fv & Hv & Sy).
      destruct (g_nat_tree L G b p W N S) as (e & E1 & E2 & E3 & _ & E5 & E6). pose proof (F2_paths _ _ _ E5) as Pe.
      assert (Le : forall pth l f n, In (pth, l) (leaves [] p) -> fam_n l = Some (f, n) -> at_pt b i (leafat e pth) (NP f) n (N0 f n (point_of l i) pth)).
      { intros pth l f n I Fn. destruct (N0_ok pth l f n I Fn) as (_ & _ & _ & x & X1 & X2). destruct (tleaf pth l I) as (f' & n' & Cf & _). destruct (F2_leafat (R := fun a c => l_to_nat L a = Ok c) p e W E2 E6 pth l I) as [Q _].
        destruct l as [c0 m ps subs]. cbn [dcls] in Cf. subst c0. change (l_to_nat L (Dist (EP f') m ps subs) = Ok x) in X1. rewrite Q in X1. now injection X1 as <-. }
      destruct C_dv as (c & C1 & C2). destruct K_dv as [K1 K2].
      assert (DX : is_derive Xs 0 (- (dd + c))).
      { apply is_derive_ext with (f := fun s => (Ax + s * (- dd)) - Cs s); [intros s; rewrite (X_val s); cbv beta; change (@eq R (Ax + s * - dd - Cs s) (Ax - s * dd - Cs s)); ring|].
        replace (- (dd + c)) with (- dd - c) by ring. apply @is_derive_minus; [|exact C2]. exact (proj2 (DV_lin Ax (- dd))). }
      assert (DH : is_derive (fun s => Xs s - Ks s) 0 (- (dd + c))).
      { replace (- (dd + c)) with (- (dd + c) - 0) by ring. apply @is_derive_minus; [exact DX|exact K2]. }
      assert (Op : locally 0 (fun s => forall pl, In pl (leaves [] p) -> match fam_n (snd pl) with Some (f, n) => forall r, parameter_map (lin_op 1 s) p [v] = Ok r -> nat_of f n (leafat r (fst pl)) (line f (point_of (snd pl) i) (fst pl) s) (Tn f n (point_of (snd pl) i) (fst pl) s) | None => False end)).
      { apply loc_list. intros [pth l] I. cbn [fst snd]. exact (Tn_ok pth l I). }
      destruct Op as [eps Op].
      assert (Al : forall s, Rabs s < eps -> forall pth l f n r, In (pth, l) (leaves [] p) -> fam_n l = Some (f, n) -> parameter_map (lin_op 1 s) p [v] = Ok r -> nat_of f n (leafat r pth) (line f (point_of l i) pth s) (Tn f n (point_of l i) pth s)).
      { intros s Hs pth l f n r I Fn Hr. specialize (Op s). assert (Bs : ball 0 eps s) by (unfold ball; cbn; unfold AbsRing_ball, abs, minus, plus, opp; cbn; now rewrite Ropp_0, Rplus_0_r). specialize (Op Bs (pth, l) I). cbn [fst snd] in Op. rewrite Fn in Op. exact (Op r Hr). }
      exists e, (fun s => Xs s - Ks s), Xs, Cs, dd, c. split; [exact E1|].
      split.
      { exists (pos eps). split; [apply cond_pos|]. intros s Hs. destruct (at_s s) as (r & R1 & R2 & R3 & R4 & R5 & R6). exists r. split; [exact R1|].
        unfold Xs, Ks, GradThms.lsum. rewrite rsum_sub. apply (sums_val b i p _ r _ _ Hi R2 (F2_paths _ _ _ R5) (entropy_exp_sum L G b r R2 R3 R4)). intros pth l I. cbn [fst snd].
        destruct (tleaf pth l I) as (f & n & Cf & Fn & A & K & B & E & D & Ss). destruct (R6 pth l f n I Fn) as [Q1 _]. destruct (Al s Hs pth l f n r I Fn R1) as (T1 & T2 & T3 & x & X1 & X2). destruct (N0_ok pth l f n I Fn) as (Y1 & Y2 & _).
        unfold entropy_exp. rewrite X1. cbn [bind]. destruct (ce_leaf_s (leafat r pth) x x f n _ _ _ Hi Q1 E X1 X2 T1 T3 X2 T1 T2) as [(t & V1 & _ & V3) _]. exists t. split; [exact V1|]. rewrite V3, Fn. f_equal. now apply ce_split. }
      split.
      { exists (pos eps). split; [apply cond_pos|]. intros s Hs. destruct (at_s s) as (r & R1 & R2 & R3 & R4 & R5 & R6). exists r. split; [exact R1|]. assert (Tre : tree_match b r e) by (eapply tm_trans; [apply tm_sym; exact R5|exact E5]).
        apply (sums_val b i p _ r _ _ Hi R2 (F2_paths _ _ _ R5) (ce_sum L G b r e R2 E2 R3 E3 Tre)). intros pth l I. cbn [fst snd].
        destruct (tleaf pth l I) as (f & n & Cf & Fn & A & K & B & E & D & Ss). destruct (R6 pth l f n I Fn) as [Q1 _]. destruct (Al s Hs pth l f n r I Fn R1) as (T1 & T2 & T3 & x & X1 & X2). destruct (N0_ok pth l f n I Fn) as (Y1 & Y2 & _).
        destruct (ce_leaf_s (leafat r pth) (leafat e pth) x f n _ _ _ Hi Q1 E X1 X2 T1 T3 (Le pth l f n I Fn) Y1 Y2) as [(t & V1 & _ & V3) _]. exists t. split; [exact V1|]. rewrite V3, Fn. reflexivity. }
      split.
      { exists (pos eps). split; [apply cond_pos|]. intros s Hs. destruct (at_s s) as (r & R1 & R2 & R3 & R4 & R5 & R6). exists r. split; [exact R1|].
        apply (sums_val b i p _ r _ _ Hi R2 (F2_paths _ _ _ R5) (ecm_sum_tree L G b r R2 R3 R4)). intros pth l I. cbn [fst snd].
        destruct (tleaf pth l I) as (f & n & Cf & Fn & A & K & B & E & D & Ss). destruct (R6 pth l f n I Fn) as [Q1 _]. destruct (Al s Hs pth l f n r I Fn R1) as (T1 & T2 & T3 & x & X1 & X2).
        destruct (ce_leaf_s (leafat r pth) x x f n _ _ _ Hi Q1 E X1 X2 T1 T3 X2 T1 T2) as [_ (t & V1 & _ & V3)]. exists t. split; [exact V1|]. rewrite V3, Fn. reflexivity. }
      split.
      { assert (Tev : tree_match b e v) by (eapply tm_trans; [apply tm_sym; exact E5|exact T]). destruct (dot_value b e v E2 Wv Tev) as (t & D1 & D2 & D3). exists t. split; [exact D1|]. split; [exact D2|].
        pose proof (F2_paths _ _ _ T) as Pv. rewrite (D3 i Hi), (leaves_by_path p v Wv Pv), (leaves_by_path p e E2 Pe).
        assert (X : forall l, combine (map (fun pq : path * dist => (fst pq, leafat e (fst pq))) l) (map (fun pq : path * dist => (fst pq, leafat v (fst pq))) l) = map (fun pq => ((fst pq, leafat e (fst pq)), (fst pq, leafat v (fst pq)))) l).
        { induction l as [|a l IH]; [reflexivity|]. cbn [map combine]. now rewrite IH. }
        rewrite X, map_map. apply xsum_ext_Fin. intros [pth l] I. cbn [fst snd].
        destruct (tleaf pth l I) as (f & n & Cf & Fn & A & K & B & E & D & Ss). rewrite Fn. pose proof (Le pth l f n I Fn) as Q. pose proof (at_pt_pt b i _ _ n _ Hi Q) as Qe. destruct (N0_ok pth l f n I Fn) as (Y1 & Y2 & _).
        rewrite (inner_at b i _ _ f n (pv pth) Hi (at_pt_eq _ _ _ _ _ _ _ Q Qe) B). f_equal. apply dotP_pt; [now apply pt_sym|]. intros g j Ig Kg. apply filter_In in Ig as [Ig _]. now rewrite (im_real b i _ _ _ _ g j Q Ig Kg), (Y2 g j Ig Kg). }
      split; [now apply is_derive_Reals|]. split; now apply is_derive_Reals.
    Qed.
  End Tree.
  (** nothing is searched for where to_nat is a closed formula *)
  Lemma closed_found p v : exp_proper b i p -> all_nodes has_entropy_ep p = true -> closed_leaves p -> finite_vars p -> exp_direction b i p v -> found_along L b i p v.
  Proof.
    intros HP He Hc Fp HD. split; [intros pth l f I C N; rewrite (Hc pth l f I C) in N; discriminate N|]. exists 1. split; [lra|]. intros s r _ Hr pth l f I C N.
    destruct (at_s p v HP He Fp HD s) as (r' & R1 & R2 & _ & _ & R5 & R6). rewrite Hr in R1. injection R1 as <-. pose proof HP as (W & _). rewrite (leaves_by_path p r R2 (F2_paths _ _ _ R5)) in I. apply in_map_iff in I as ([pth' l'] & E & I). cbn [fst snd] in E. injection E as <- <-.
    destruct (tleaf p v HP He HD pth' l' I) as (f' & n & Cf & Fn & _). destruct (R6 pth' l' f' n I Fn) as [Q _]. rewrite (ap_cls _ _ _ _ _ _ Q) in C. injection C as <-. rewrite (Hc pth' l' f' I Cf) in N. discriminate N.
  Qed.
End T.
