(** C47 and C48 for distribution objects. *)
From Coquelicot Require Import Coquelicot.
From Coq Require Import String List Bool Arith ZArith Reals Lra Lia FunctionalExtensionality.
From Verif Require Import Base XReal Tensor TensorFacts Support Dist Iteration Structure Tools Joint Spec StructFacts SumSpec DotSpec DotFacts DotLaws TensorFacts2 PointSpec SpecFun Expr Fam
  DictFacts MappingFacts PointFacts LeafVal DerivFacts MatDeriv MatBreg DerivThms DensSpec DensVal DensThms ConvFacts ConvThms AssembleFacts SumFacts MapFacts JointThms JointThms2 BatchFacts LogPdfThms KlThms
  HessFacts Fisher FisherSpec FisherThms FisherMat SampleSpec FamR IntSpec IntFacts IntGen IntFam IntThms JointIntSpec JointInt DomConv DomConv2 Moments CovSpec Covar.
Import ListNotations.
Local Unset Asymmetric Patterns.
Local Open Scope string_scope.
Local Open Scope R_scope.

Section C.
  Variable solve : minimizer -> dist -> nat -> xr.
  Let L := fam_methods solve.
  Variables (b i : list nat) (q : dist).
  Hypothesis JP : joint_proper b i q.
  Let W : well_formed q = true. Proof. now destruct JP. Qed.
  Let N : nat_tree q = true. Proof. now destruct JP as (_ & ? & _). Qed.
  Let S : shaped b q = true. Proof. now destruct JP as (_ & _ & ? & _). Qed.
  Let Hi : inb b i = true. Proof. now destruct JP as (_ & _ & _ & ? & _). Qed.
  Let H : tree_in_domain q i. Proof. now destruct JP as (_ & _ & _ & _ & ?). Qed.
  Definition dp (v : dist) (p : path) : point := point_of (leafat v p) i.
  Lemma leaf_all p l : In (p, l) (leaves [] q) -> exists f n, In (p, (f, n)) (spaces q) /\ leafat q p = l /\ dcls l = NP f /\ fam_dim l = (f, n) /\ fam_n l = Some (f, n) /\ at_pt b i l (NP f) n (point_of l i) /\ nat_dom f n (point_of l i).
  Proof.
    intros I. destruct (leaf_space b i q JP p l I) as (f & n & H1 & H2 & H3 & H4 & H5). destruct (proper_dims b i f l H5) as (n' & D1 & F1 & D3 & _). assert (n' = n) by congruence. subst n'. exists f, n.
    split; [exact H1|]. split; [exact H2|]. split; [exact H3|]. split; [unfold fam_dim; now rewrite H3, H4|]. split; [unfold fam_n; now rewrite H3, H4|]. split; [|exact D3]. pose proof H5 as (_ & Wl & Sl & _ & _). now apply at_pt_self.
  Qed.
  Lemma dir_ok v : direction b i q v -> okd q (dp v).
  Proof.
    intros Dv p f n I. destruct (in_spaces b i q JP p f n I) as (l & I' & E & D & Pl). destruct (leaf_all p l I') as (f' & n' & _ & _ & C & Fd & _ & A & _). assert ((f', n') = (f, n)) by (rewrite <- Fd, <- E; now apply (dim_at b i q JP)). injection H0 as -> ->. exact (leaf_sym b i q W Hi v p l f n Dv I' C A).
  Qed.
  Lemma over_leaves (h : path -> family -> nat -> R) : rsum (map (fun l : leafspace => let '(p, (f, n)) := l in h p f n) (spaces q)) = rsum (map (fun pl => let '(f, n) := fam_dim (snd pl) in h (fst pl) f n) (leaves [] q)).
  Proof. rewrite (spaces_map b i q JP), map_map. apply rsum_ext. intros [p l] I. cbn [fst snd]. destruct (fam_dim l). reflexivity. Qed.
  (** ** the inner product with the sufficient statistics *)
  Lemma projection v : direction b i q v -> projection_is L b i q v (Xd i q (dp v)).
  Proof.
    intros Dv x xv O X. destruct (mle_tree L (fam_good solve) b q x W N S (proj1 O) (joint_shaped b i q x xv O)) as (est & tx & T1 & T2 & T3 & T4 & T5 & T6). pose proof Dv as (Wv & Sk & T & _).
    assert (Tv : tree_match b v tx) by (eapply tm_trans; [apply tm_sym; exact T|exact T5]). destruct (dot_value b v tx Wv T3 Tv) as (t & D1 & D2 & D3). exists est, tx, t. do 4 (split; [assumption|]).
    assert (Pv : map fst (leaves [] q) = map fst (leaves [] v)) by exact (F2_paths _ _ _ T). assert (Pe : map fst (leaves [] q) = map fst (leaves [] tx)) by exact (F2_paths _ _ _ T5).
    rewrite (D3 i Hi), (leaves_by_path q v Wv Pv), (leaves_by_path q tx T3 Pe), combine_path, map_map. unfold Xd. rewrite (sum_leaves b i q JP). apply xsum_ext_Fin. intros [p l] I. cbn [fst snd].
    destruct (leaf_all p l I) as (f & n & H1 & H2 & C & Fd & Fn & A & K). unfold xl. rewrite H2, Fd. destruct O as [O1 O2]. destruct (O2 p l I) as (a & A1 & A2).
    destruct (ss_at solve b i l f n _ a (xv p) Hi A K A2 (X p f n H1)) as (s & S1 & S2). pose proof (T6 p l f a I C A1) as T7. unfold L in T7. rewrite S1 in T7. injection T7 as ->.
    apply (inner_at b i _ _ f n); [exact Hi|exact (leaf_v b i q W Hi v p l f n Dv I C A)|exact S2].
  Qed.
  Lemma projection_val v X : direction b i q v -> projection_is L b i q v X -> forall xv, good_point q xv -> X xv = Xd i q (dp v) xv.
  Proof.
    intros Dv HX xv G. destruct (observe_all b i q JP xv G) as (x & O). destruct (HX x xv O (good_space q xv G)) as (est & s & t & A1 & A2 & A3 & _ & A5). destruct (projection v Dv x xv O (good_space q xv G)) as (est' & s' & t' & B1 & B2 & B3 & _ & B5).
    assert (est' = est) by congruence. subst est'. assert (s' = s) by congruence. subst s'. congruence.
  Qed.
  (** ** log_normalizer at q + s v *)
  Lemma ln_at_s v s r : direction b i q v -> well_formed r = true -> nat_tree r = true -> shaped b r = true -> map fst (leaves [] q) = map fst (leaves [] r) ->
    (forall p l f n, In (p, l) (leaves [] q) -> fam_dim l = (f, n) -> at_pt b i (leafat r p) (NP f) n (padd (NP f) (point_of l i) (dp v p) s) /\ nat_dom f n (padd (NP f) (point_of l i) (dp v p) s)) ->
    log_normalizer_is L b i r (As i q (dp v) s).
  Proof.
    intros Dv R2 R3 R4 R5 K. destruct (ln_sum L (fam_good solve) b r R2 R3 R4) as (_ & y & Y1 & Y2 & Y3). exists y. split; [exact Y1|]. split; [exact Y2|].
    rewrite (Y3 i Hi), (leaves_by_path q r R2 R5), map_map. unfold As. rewrite (over_leaves (fun p f n => lnR n (padd (NP f) (point_of (leafat q p) i) (dp v p) s) f)). apply xsum_ext_Fin. intros [p l] I. cbn [fst snd].
    destruct (leaf_all p l I) as (f & n & H1 & H2 & C & Fd & Fn & A & _). rewrite Fd, H2. destruct (K p l f n I Fd) as [A' K']. destruct (ln_at solve b i _ f n _ Hi A' K') as (u & U1 & U2 & U3).
    assert (E : log_normalizer L (leafat r p) = Ok u). { pose proof (ap_cls _ _ _ _ _ _ A') as Cl. destruct (leafat r p) as [c m ps subs]. cbn [dcls] in Cl. subst c. exact U1. }
    rewrite E. cbn [entry]. exact U3.
  Qed.
  Lemma spaces_good xv : spaces_ok (spaces q) nowhere xv -> good_point q xv. Proof. intros [_ O]. exact O. Qed.
  Theorem t_cgf v s r : finite_vars q -> direction b i q v -> parameter_map (lin_op 1 s) q [v] = Ok r -> tree_in_domain r i ->
    exists a a', log_normalizer_is L b i q a /\ log_normalizer_is L b i r a' /\ (exists P, joint_pdf_is L b i q P) /\ (exists X, projection_is L b i q v X) /\
      forall P X, joint_pdf_is L b i q P -> projection_is L b i q v X -> integral_joint q (fun xv => P xv * exp (s * X xv)) (exp (a' - a)).
  Proof.
    intros Fq Dv Hr Dr. pose proof Dv as (Wv & Sk & T & Fv & Hv & _). destruct (map_lin_full _ 1 s (lin_op_linear 1 s) b q v W Wv Sk T Fq Fv) as (r' & R1 & R2 & R3 & R4 & R5 & R6 & R7). assert (r' = r) by congruence. subst r'. destruct (tm_shaped b q r W R2 R5) as [_ Sr].
    assert (K : forall p l f n, In (p, l) (leaves [] q) -> fam_dim l = (f, n) -> at_pt b i (leafat r p) (NP f) n (padd (NP f) (point_of l i) (dp v p) s) /\ nat_dom f n (padd (NP f) (point_of l i) (dp v p) s)).
    { intros p l f n I Fd. destruct (leaf_all p l I) as (f' & n' & _ & _ & C & Fd' & Fn & A & Kd). assert (f' = f) by congruence. assert (n' = n) by congruence. subst f' n'.
      pose proof (leaf_v b i q W Hi v p l f n Dv I C A) as B. destruct (R6 p l I) as [G1 G2]. destruct (tm_leaf b q r p l W R2 R5 I) as [(_ & Wl' & _ & Sl' & Ed & _) I']. pose proof (proj1 (leaf_in q p l W) I) as [Hd _]. destruct (skel_leafat q r p l R4 Hd) as [Cl _].
      assert (A' : at_pt b i (leafat r p) (NP f) n (padd (NP f) (point_of l i) (dp v p) s)).
      { apply line_at; auto; [congruence|rewrite <- Ed; exact (ap_dims _ _ _ _ _ _ A)| |]; rewrite <- C; auto. }
      split; [exact A'|]. assert (Cr : dcls (leafat r p) = NP f) by congruence. destruct (nat_dom_at b i (leafat r p) f Hi Cr Wl' Sl' (Dr p _ I')) as (n' & A2 & K2).
      assert (n' = n) by (pose proof (ap_dims _ _ _ _ _ _ A'); pose proof (ap_dims _ _ _ _ _ _ A2); congruence). subst n'. apply (nat_dom_pt f n _ _ K2). apply pt_sym. now apply (at_pt_pt b i (leafat r p)). }
    exists (As i q (dp v) 0), (As i q (dp v) s). split.
    { apply (ln_at_s v 0 q Dv W N S eq_refl). intros p l f n I Fd. destruct (leaf_all p l I) as (f' & n' & _ & H2 & C & Fd' & Fn & A & Kd). assert (f' = f) by congruence. assert (n' = n) by congruence. subst f' n'. rewrite padd_0, H2. now split. }
    split; [assert (Nr : nat_tree r = true) by (now apply (skel_all is_nat q r)); exact (ln_at_s v s r Dv R2 Nr Sr (F2_paths _ _ _ R5) K)|]. split; [exact (proj1 (joint_normalised solve b i q JP))|]. split; [eexists; now apply projection|].
    intros P X HP HX. eapply joint_ext; [exact (spaces_nodup b i q JP)| |apply (mgf b i q JP (dp v) s)].
    - intros xv O. cbv beta. apply spaces_good in O. rewrite (joint_p_val solve b i q JP P HP xv O), (projection_val v X Dv HX xv O). reflexivity.
    - intros [p [f n]] I. destruct (in_spaces b i q JP p f n I) as (l & I' & E & D & Pl). rewrite E. apply (K p l f n I'). rewrite <- E. now apply (dim_at b i q JP).
  Qed.
  Theorem t_nearby v : finite_vars q -> direction b i q v -> exists eps, 0 < eps /\ forall s, Rabs s < eps -> exists r, parameter_map (lin_op 1 s) q [v] = Ok r /\ tree_in_domain r i.
  Proof.
    intros Fq Dv. destruct (dom_near b i q JP (dp v) (dir_ok v Dv)) as (eps & Pe & K). exists eps. split; [exact Pe|]. intros s Hs. pose proof Dv as (Wv & Sk & T & Fv & Hv & _).
    destruct (map_lin_full _ 1 s (lin_op_linear 1 s) b q v W Wv Sk T Fq Fv) as (r & R1 & R2 & R3 & R4 & R5 & R6 & R7). exists r. split; [exact R1|]. intros p lr Ir.
    assert (Pr : map fst (leaves [] q) = map fst (leaves [] r)) by exact (F2_paths _ _ _ R5). rewrite (leaves_by_path q r R2 Pr) in Ir. apply in_map_iff in Ir as ([p' l] & E & I). cbn [fst] in E. injection E as -> <-.
    destruct (leaf_all p l I) as (f & n & H1 & H2 & C & Fd & Fn & A & Kd). pose proof (leaf_v b i q W Hi v p l f n Dv I C A) as B. destruct (R6 p l I) as [G1 G2]. destruct (tm_leaf b q r p l W R2 R5 I) as [(_ & Wl' & _ & Sl' & Ed & _) I']. pose proof (proj1 (leaf_in q p l W) I) as [Hd _]. destruct (skel_leafat q r p l R4 Hd) as [Cl _].
    apply (at_pt_nat_dom b i _ f n (padd (NP f) (point_of l i) (dp v p) s) Hi).
    - apply line_at; auto; [congruence|rewrite <- Ed; exact (ap_dims _ _ _ _ _ _ A)| |]; rewrite <- C; auto.
    - pose proof (K s Hs _ H1) as K'. cbn beta iota in K'. rewrite H2 in K'. exact K'.
  Qed.
  (** ** means and covariances *)
  Lemma hs_Hs v u s : hs i q v u s = Hs i q (dp v) (dp u) s.
  Proof.
    unfold hs, Hs. rewrite (over_leaves (fun p f n => dotP (NP f) (EP f) n (dp u p) (expR n (padd (NP f) (point_of (leafat q p) i) (dp v p) s) f))). apply rsum_ext. intros [p l] I. unfold hl. cbn [fst snd].
    destruct (leaf_all p l I) as (f & n & H1 & H2 & C & Fd & Fn & A & _). rewrite Fn, Fd, H2. reflexivity.
  Qed.
  Lemma mean_at v : inside_clip q i -> direction b i q v -> mean_along L b i q v (Hs i q (dp v) (dp v) 0).
  Proof.
    intros U Dv. destruct (g_exp_tree L (fam_good solve) b q W N S) as (e & E1 & E2 & E3 & _ & E5 & E6). pose proof Dv as (Wv & Sk & T & _).
    assert (Te : tree_match b v e) by (eapply tm_trans; [apply tm_sym; exact T|exact E5]). destruct (dot_value b v e Wv E2 Te) as (t & D1 & D2 & D3). exists e, t. split; [exact E1|]. split; [exact D1|]. split; [exact D2|].
    assert (Pv : map fst (leaves [] q) = map fst (leaves [] v)) by exact (F2_paths _ _ _ T). assert (Pe : map fst (leaves [] q) = map fst (leaves [] e)) by exact (F2_paths _ _ _ E5).
    rewrite (D3 i Hi), (leaves_by_path q v Wv Pv), (leaves_by_path q e E2 Pe), combine_path, map_map. rewrite <- hs_Hs. unfold hs. apply xsum_ext_Fin. intros [p l] I. cbn [fst snd].
    destruct (leaf_q b i q W N S Hi H U p l I) as (f & n & Cf & Fn & A & K & In'). unfold hl. cbn [fst snd]. rewrite Fn, padd_0. destruct (exp_at solve b i l f n _ Hi A K (inside_un f _ In')) as (r & X1 & X2).
    apply (inner_at b i _ _ f n); [exact Hi|exact (leaf_v b i q W Hi v p l f n Dv I Cf A)|].
    destruct (F2_in _ _ _ _ E6 I) as ([p' l'] & I' & K1 & K2). cbn [fst snd] in *. subst p'. unfold L in K2. rewrite K2 in X1. injection X1 as <-. apply (leaf_in e p l' E2) in I' as [Hd _]. unfold leafat at 1. now rewrite Hd.
  Qed.
  Theorem t_covariance u v : finite_vars q -> inside_clip q i -> direction b i q u -> direction b i q v ->
    exists m m' D, mean_along L b i q u m /\ mean_along L b i q v m' /\ derivative_along L b i q v u D /\ (exists P, joint_pdf_is L b i q P) /\ (exists X, projection_is L b i q u X) /\ (exists Y, projection_is L b i q v Y) /\
      forall P X Y, joint_pdf_is L b i q P -> projection_is L b i q u X -> projection_is L b i q v Y ->
        integral_joint q (fun xv => P xv * X xv) m /\ integral_joint q (fun xv => P xv * Y xv) m' /\ integral_joint q (fun xv => P xv * ((X xv - m) * (Y xv - m'))) D.
  Proof.
    intros Fq U Du Dv. exists (Hs i q (dp u) (dp u) 0), (Hs i q (dp v) (dp v) 0), (Qd i q (dp v) (dp u)). split; [now apply mean_at|]. split; [now apply mean_at|]. split.
    { exists (hs i q v u). split; [now apply (t_along solve b i q W N S Fq Hi H U)|]. apply is_derive_Reals. eapply is_derive_ext; [|exact (Hs_derive b i q JP (dp v) (dp u) (dir_ok v Dv) (dir_ok u Du))]. intros s. cbv beta. symmetry. apply hs_Hs. }
    split; [exact (proj1 (joint_normalised solve b i q JP))|]. split; [eexists; now apply projection|]. split; [eexists; now apply projection|].
    intros P X Y HP HX HY. pose proof (spaces_nodup b i q JP) as Nd. unfold integral_joint. split; [|split].
    - eapply joint_ext; [exact Nd| |exact (proj1 (moments b i q JP (dp u) (dir_ok u Du)))]. intros xv O. cbv beta. apply spaces_good in O. now rewrite (joint_p_val solve b i q JP P HP xv O), (projection_val u X Du HX xv O).
    - eapply joint_ext; [exact Nd| |exact (proj1 (moments b i q JP (dp v) (dir_ok v Dv)))]. intros xv O. cbv beta. apply spaces_good in O. now rewrite (joint_p_val solve b i q JP P HP xv O), (projection_val v Y Dv HY xv O).
    - eapply joint_ext; [exact Nd| |exact (covariance0 solve b i q JP (dp u) (dp v) (dir_ok u Du) (dir_ok v Dv))]. intros xv O. cbv beta. apply spaces_good in O. now rewrite (joint_p_val solve b i q JP P HP xv O), (projection_val u X Du HX xv O), (projection_val v Y Dv HY xv O).
  Qed.
  (** ** the derivatives of log_normalizer are the cumulants *)
  Theorem t_cumulants v : finite_vars q -> direction b i q v ->
    exists eps A A1 A2, 0 < eps /\ (forall s, Rabs s < eps -> exists r, parameter_map (lin_op 1 s) q [v] = Ok r /\ log_normalizer_is L b i r (A s)) /\
      (forall s, Rabs s < eps -> derivable_pt_lim A s (A1 s)) /\ derivable_pt_lim A1 0 A2 /\ (exists P, joint_pdf_is L b i q P) /\ (exists X, projection_is L b i q v X) /\
      forall P X, joint_pdf_is L b i q P -> projection_is L b i q v X -> integral_joint q (fun xv => P xv * X xv) (A1 0) /\ integral_joint q (fun xv => P xv * (X xv - A1 0) ^ 2) A2.
  Proof.
    intros Fq Dv. destruct (dom_near b i q JP (dp v) (dir_ok v Dv)) as (eps & Pe & K). exists eps, (As i q (dp v)), (Hs i q (dp v) (dp v)), (Qd i q (dp v) (dp v)). split; [exact Pe|]. pose proof Dv as (Wv & Sk & T & Fv & Hv & _). split.
    { intros s Hs. destruct (map_lin_full _ 1 s (lin_op_linear 1 s) b q v W Wv Sk T Fq Fv) as (r & R1 & R2 & R3 & R4 & R5 & R6 & R7). exists r. split; [exact R1|]. destruct (tm_shaped b q r W R2 R5) as [_ Sr]. assert (Nr : nat_tree r = true) by (now apply (skel_all is_nat q r)).
      apply (ln_at_s v s r Dv R2 Nr Sr (F2_paths _ _ _ R5)). intros p l f n I Fd. destruct (leaf_all p l I) as (f' & n' & H1 & H2 & C & Fd' & Fn & A & Kd). assert (f' = f) by congruence. assert (n' = n) by congruence. subst f' n'.
      pose proof (leaf_v b i q W Hi v p l f n Dv I C A) as B. destruct (R6 p l I) as [G1 G2]. destruct (tm_leaf b q r p l W R2 R5 I) as [(_ & Wl' & _ & Sl' & Ed & _) I']. pose proof (proj1 (leaf_in q p l W) I) as [Hd _]. destruct (skel_leafat q r p l R4 Hd) as [Cl _].
      split.
      - apply line_at; auto; [congruence|rewrite <- Ed; exact (ap_dims _ _ _ _ _ _ A)| |]; rewrite <- C; auto.
      - pose proof (K s Hs _ H1) as K'. cbn beta iota in K'. rewrite H2 in K'. exact K'. }
    split; [intros s Hs; apply is_derive_Reals, As_derive; now apply K|]. split; [apply is_derive_Reals, (Hs_derive b i q JP); now apply dir_ok|].
    split; [exact (proj1 (joint_normalised solve b i q JP))|]. split; [eexists; now apply projection|].
    intros P X HP HX. pose proof (spaces_nodup b i q JP) as Nd. unfold integral_joint. split.
    - eapply joint_ext; [exact Nd| |exact (proj1 (moments b i q JP (dp v) (dir_ok v Dv)))]. intros xv O. cbv beta. apply spaces_good in O. now rewrite (joint_p_val solve b i q JP P HP xv O), (projection_val v X Dv HX xv O).
    - eapply joint_ext; [exact Nd| |exact (covariance0 solve b i q JP (dp v) (dp v) (dir_ok v Dv) (dir_ok v Dv))]. intros xv O. cbv beta. apply spaces_good in O. rewrite (joint_p_val solve b i q JP P HP xv O), (projection_val v X Dv HX xv O). ring.
  Qed.
End C.
