(** C30 for trees of distributions. *)
From Coquelicot Require Import Coquelicot.
From Coq Require Import String List Bool Arith Reals Lia Lra FunctionalExtensionality.
From Verif Require Import Base XReal Tensor TensorFacts TensorFacts2 Support Dist DictFacts Iteration Structure Spec StructFacts AssembleFacts SumSpec DotSpec Tools
  ToolThms Joint StructThms FlattenThms MapFacts SumFacts JointThms JointThms2 SpecFun GammaFn Expr Fam ExprFacts FamTy FamFacts SearchFacts DotFacts Laws DotLaws BatchFacts PointSpec PointFacts Val FamR FamVal ConvFacts LeafVal ConvThms DerivFacts MatDeriv MatHess MatBreg DerivThms
  KlPos InjThms HessFacts Fisher FisherSpec.
Import ListNotations.
Local Unset Asymmetric Patterns.
Local Open Scope string_scope.
Local Open Scope R_scope.

Lemma ball_abs (eps : posreal) s : Rabs s < eps -> ball 0 eps s.
Proof. intros H. unfold ball; cbn; unfold AbsRing_ball, abs, minus, plus, opp; cbn. now rewrite Ropp_0, Rplus_0_r. Qed.
Lemma var_len c f : family_of c = Some f -> length (var_fields c) = length (var_fields (NP f)).
Proof. destruct c as [g|g| | | | | | |]; cbn; try discriminate; intros E; injection E as <-; [reflexivity|]. symmetry. exact (forall2_length _ _ _ (pair_kinds g 0)). Qed.
Lemma inner_same b i v x e : length (var_fields (dcls v)) = length (var_fields (dcls x)) ->
  (forall g h, In (g, h) (combine (var_fields (dcls v)) (var_fields (dcls x))) -> dget (dparams v) (fd_name g) = dget (dparams x) (fd_name h)) -> leaf_inner b i v e = leaf_inner b i x e.
Proof.
  unfold leaf_inner. generalize (var_fields (dcls v)), (var_fields (dcls x)), (var_fields (dcls e)). intros lv lx le El P. f_equal. revert lx El le P. induction lv as [|g lv IH]; intros [|h lx] El [|k le] P; try discriminate El; try reflexivity.
  cbn [combine map fst snd]. rewrite (P g h (or_introl eq_refl)). f_equal. apply IH; [now injection El|]. intros g' h' I. apply P. now right.
Qed.
Section T.
  Variable solve : minimizer -> dist -> nat -> xr.
  Notation L := (fam_methods solve).
  Notation G := (fam_good solve).
  Variables (b i : list nat) (q : dist).
  Hypotheses (W : well_formed q = true) (N : nat_tree q = true) (S : shaped b q = true) (Fq : finite_vars q) (Hi : inb b i = true) (H : tree_in_domain q i) (U : inside_clip q i).
  Definition hl (v x : dist) (pq : path * dist) (s : R) : R :=
    match fam_n (snd pq) with Some (f, n) => dotP (NP f) (EP f) n (point_of (leafat x (fst pq)) i) (expR n (padd (NP f) (point_of (snd pq) i) (point_of (leafat v (fst pq)) i) s) f) | None => 0 end.
  Definition hs (v x : dist) (s : R) : R := rsum (map (fun pq => hl v x pq s) (leaves [] q)).
  Definition inside (f : family) (p : point) : Prop := match f with Logarithmic => -50 < p false "log_probability" [] < -1 / 10000000 | _ => True end.
  Lemma inside_un f p : inside f p -> unclipped f p.
  Proof. destruct f; cbn; trivial. unfold log_probability_floor, log_probability_ceiling. intros K. split; [lra|]. replace (- / 10000000) with (-1 / 10000000) by field. lra. Qed.
  Lemma inside_open f p v : inside f p -> locally 0 (fun s => inside f (padd (NP f) p v s)).
  Proof.
    intros K. destruct f; try (apply loc_true; intros; exact Logic.I). cbn [inside] in *. adds. apply filter_and; eapply loc_lt; try apply DV_lin; try apply DV_const; lra.
  Qed.
  Lemma leaf_q p l : In (p, l) (leaves [] q) -> exists f n, dcls l = NP f /\ fam_n l = Some (f, n) /\ at_pt b i l (NP f) n (point_of l i) /\ nat_dom f n (point_of l i) /\ inside f (point_of l i).
  Proof.
    intros I. destruct (nat_leaf q [] p l W N I) as [f Hf]. destruct (leaf_wf q [] p l W I) as [Wl _]. pose proof (shaped_in b q p l S I) as Sl.
    destruct (nat_dom_at b i l f Hi Hf Wl Sl (H p l I)) as (n & A & K). exists f, n. split; [exact Hf|]. split; [unfold fam_n; now rewrite Hf, (ap_dims _ _ _ _ _ _ A)|].
    split; [exact A|]. split; [exact K|]. destruct f; try exact Logic.I. exact (U p l I Hf).
  Qed.
  Lemma leaf_v v p l f n : direction b i q v -> In (p, l) (leaves [] q) -> dcls l = NP f -> at_pt b i l (NP f) n (point_of l i) -> at_pt b i (leafat v p) (NP f) n (point_of (leafat v p) i).
  Proof.
    intros (Wv & Sk & T & Fv & Hv & _) I Hf A. destruct (tm_leaf b q v p l W Wv T I) as [(_ & Wl' & _ & Sl' & Ed & _) I'].
    pose proof (proj1 (leaf_in q p l W) I) as [Hd _]. destruct (skel_leafat q v p l Sk Hd) as [Cl _]. destruct (Hv _ _ I') as (n' & D' & F'). assert (n' = n) by (pose proof (ap_dims _ _ _ _ _ _ A); congruence). subst n'.
    apply at_pt_self; auto. congruence.
  Qed.
  Lemma leaf_sym v p l f n : direction b i q v -> In (p, l) (leaves [] q) -> dcls l = NP f -> at_pt b i l (NP f) n (point_of l i) -> sym_dir f n (point_of (leafat v p) i).
  Proof.
    intros Dv I Hf A. pose proof (leaf_v v p l f n Dv I Hf A) as B. destruct Dv as (Wv & Sk & T & Fv & Hv & Sy). destruct (tm_leaf b q v p l W Wv T I) as [_ I']. pose proof (Sy _ _ I' n (ap_dims _ _ _ _ _ _ B)) as Z. pose proof (ap_cls _ _ _ _ _ _ B) as C.
    destruct f; try exact Logic.I; cbn [sym_dir]; intros a c Ha Hc; destruct (Z a c Ha Hc) as [Z1 Z2]; auto.
  Qed.
  (** the points q + s v are in the domain for small s *)
  Lemma near v : direction b i q v -> exists eps, 0 < eps /\ forall s, Rabs s < eps -> exists qs, parameter_map (lin_op 1 s) q [v] = Ok qs /\ well_formed qs = true /\ nat_tree qs = true /\ shaped b qs = true /\
    map fst (leaves [] q) = map fst (leaves [] qs) /\ tree_match b q qs /\
    forall p l, In (p, l) (leaves [] q) -> exists f n, dcls l = NP f /\ fam_n l = Some (f, n) /\ at_pt b i (leafat qs p) (NP f) n (padd (NP f) (point_of l i) (point_of (leafat v p) i) s) /\
      nat_dom f n (padd (NP f) (point_of l i) (point_of (leafat v p) i) s) /\ inside f (padd (NP f) (point_of l i) (point_of (leafat v p) i) s).
  Proof.
    intros Dv. pose proof Dv as (Wv & Sk & T & Fv & Hv & _).
    assert (Op : locally 0 (fun s => forall pq, In pq (leaves [] q) -> match fam_n (snd pq) with Some (f, n) => nat_dom f n (padd (NP f) (point_of (snd pq) i) (point_of (leafat v (fst pq)) i) s) /\ inside f (padd (NP f) (point_of (snd pq) i) (point_of (leafat v (fst pq)) i) s) | None => False end)).
    { apply loc_list. intros [p l] I. destruct (leaf_q p l I) as (f & n & Cf & Fn & A & K & In'). cbn [fst snd]. rewrite Fn. apply filter_and; [apply dom_open_s; [exact (leaf_sym v p l f n Dv I Cf A)|exact K]|now apply inside_open]. }
    destruct Op as [eps Op]. exists (pos eps). split; [apply cond_pos|]. intros s Hs. specialize (Op s (ball_abs _ _ Hs)).
    destruct (map_lin_full _ 1 s (lin_op_linear 1 s) b q v W Wv Sk T Fq Fv) as (qs & R1 & R2 & R3 & R4 & R5 & R6 & R7). destruct (tm_shaped b q qs W R2 R5) as [_ Sq].
    exists qs. split; [exact R1|]. split; [exact R2|]. split; [now apply (skel_all is_nat q qs)|]. split; [exact Sq|]. split; [exact (F2_paths _ _ _ R5)|]. split; [exact R5|].
    intros p l I. destruct (leaf_q p l I) as (f & n & Cf & Fn & A & K & In'). exists f, n. specialize (Op _ I). cbn [fst snd] in Op. rewrite Fn in Op. repeat (split; [assumption|]). split; [|exact Op].
    pose proof (leaf_v v p l f n Dv I Cf A) as B. destruct (R6 p l I) as [G1 G2]. destruct (tm_leaf b q qs p l W R2 R5 I) as [(_ & Wl' & _ & Sl' & Ed & _) I']. pose proof (proj1 (leaf_in q p l W) I) as [Hd _]. destruct (skel_leafat q qs p l R4 Hd) as [Cl _].
    apply line_at; auto; [congruence|rewrite <- Ed; exact (ap_dims _ _ _ _ _ _ A)| |]; rewrite <- Cf; auto.
  Qed.
  Lemma combine_path {A B} (g : path -> A) (h : path -> B) (l : list (path * dist)) : combine (map (fun pq : path * dist => (fst pq, g (fst pq))) l) (map (fun pq : path * dist => (fst pq, h (fst pq))) l) = map (fun pq => ((fst pq, g (fst pq)), (fst pq, h (fst pq)))) l.
  Proof. induction l as [|a l IH]; [reflexivity|]. cbn [map combine]. now rewrite IH. Qed.
  Lemma t_along v u : direction b i q v -> direction b i q u -> along L b i q v u (hs v u).
  Proof.
    intros Dv Du. destruct (near v Dv) as (eps & E0 & E). exists eps. split; [exact E0|]. intros s Hs. destruct (E s Hs) as (qs & R1 & R2 & R3 & R4 & R5 & R6 & R7).
    destruct (g_exp_tree L G b qs R2 R3 R4) as (e & E1 & E2 & E3 & _ & E5 & E6). pose proof Du as (Wu & Sku & Tu & Fu & Hu & _).
    assert (Te : tree_match b u e) by (eapply tm_trans; [apply tm_sym; exact Tu|eapply tm_trans; [exact R6|exact E5]]). destruct (dot_value b u e Wu E2 Te) as (t & D1 & D2 & D3).
    exists qs, e, t. split; [exact R1|]. split; [exact E1|]. split; [exact D1|]. split; [exact D2|].
    assert (Pv : map fst (leaves [] q) = map fst (leaves [] u)) by exact (F2_paths _ _ _ Tu).
    assert (Pe : map fst (leaves [] q) = map fst (leaves [] e)) by (rewrite R5; exact (F2_paths _ _ _ E5)).
    rewrite (D3 i Hi), (leaves_by_path q u Wu Pv), (leaves_by_path q e E2 Pe), combine_path, map_map. unfold hs. apply xsum_ext_Fin. intros [p l] I. cbn [fst snd].
    destruct (R7 p l I) as (f & n & Cf & Fn & A & K & In'). destruct (leaf_q p l I) as (f' & n' & Cf' & Fn' & A' & _). assert (f' = f) by congruence. assert (n' = n) by congruence. subst f' n'.
    unfold hl. cbn [fst snd]. rewrite Fn.
    destruct (exp_at solve b i _ f n _ Hi A K (inside_un f _ In')) as (r & X1 & X2). apply (inner_at b i _ _ f n); [exact Hi|exact (leaf_v u p l f n Du I Cf A')|].
    assert (Iq : In (p, leafat qs p) (leaves [] qs)). { destruct (tm_leaf b q qs p l W R2 R6 I) as [_ I']. exact I'. }
    destruct (F2_in _ _ _ _ E6 Iq) as ([p' l'] & I' & K1 & K2). cbn [fst snd] in *. subst p'. rewrite K2 in X1. injection X1 as <-. apply (leaf_in e p l' E2) in I' as [Hd _]. unfold leafat at 1. now rewrite Hd.
  Qed.
  Lemma t_hess v u : direction b i q v -> direction b i q u -> exists D, is_derive (hs v u) 0 D /\ is_derive (hs u v) 0 D /\ (u = v -> 0 <= D).
  Proof.
    intros Dv Du. set (d pq := Derive (fun s => hl v u pq s) 0). exists (rsum (map d (leaves [] q))).
    assert (X : forall pq, In pq (leaves [] q) -> is_derive (fun s => hl v u pq s) 0 (d pq) /\ is_derive (fun s => hl u v pq s) 0 (d pq) /\ (u = v -> 0 <= d pq)).
    { intros [p l] I. destruct (leaf_q p l I) as (f & n & Cf & Fn & A & K & In'). destruct (hess f n (point_of l i) K) as (Hh & D1 & D2).
      pose proof (leaf_sym v p l f n Dv I Cf A) as Sv. pose proof (leaf_sym u p l f n Du I Cf A) as Su. pose proof (proj2 (D1 (point_of (leafat u p) i) (point_of (leafat v p) i) Su Sv)) as X1. pose proof (proj2 (D1 (point_of (leafat v p) i) (point_of (leafat u p) i) Sv Su)) as X2. rewrite D2 in X2.
      assert (Ed : d (p, l) = Hh (point_of (leafat u p) i) (point_of (leafat v p) i)). { unfold d, hl. cbn [fst snd]. rewrite Fn. now apply is_derive_unique. }
      rewrite Ed. unfold hl. cbn [fst snd]. rewrite Fn. split; [exact X1|]. split; [exact X2|]. intros ->. eapply (hess_psd f n _ _ _ Sv K); [|exact X1]. eapply real_im_at. exact (leaf_v v p l f n Dv I Cf A). }
    clearbody d. unfold hs. revert X. induction (leaves [] q) as [|pq l IH]; intros X; cbn [map rsum fold_right].
    - split; [apply @is_derive_const|]. split; [apply @is_derive_const|]. intros _. apply Rle_refl.
    - destruct (X pq (or_introl eq_refl)) as (X1 & X2 & X3). destruct (IH (fun a Ha => X a (or_intror Ha))) as (Y1 & Y2 & Y3). split; [apply @is_derive_plus; assumption|]. split; [apply @is_derive_plus; assumption|].
      intros E. specialize (X3 E). specialize (Y3 E). apply Rplus_le_le_0_compat; assumption.
  Qed.
  Theorem t_symmetric v u : direction b i q v -> direction b i q u -> exists D, derivative_along L b i q v u D /\ derivative_along L b i q u v D /\ (u = v -> 0 <= D).
  Proof.
    intros Dv Du. destruct (t_hess v u Dv Du) as (D & D1 & D2 & D3). exists D. split; [|split; [|exact D3]].
    - exists (hs v u). split; [now apply t_along|]. now apply is_derive_Reals.
    - exists (hs u v). split; [now apply t_along|]. now apply is_derive_Reals.
  Qed.
  (** the second derivative of log_normalizer *)
  Theorem t_second v : direction b i q v -> exists g h D eps, 0 < eps /\ (forall s, Rabs s < eps -> derivable_pt_lim g s (h s) /\
      exists qs y es t, parameter_map (lin_op 1 s) q [v] = Ok qs /\ log_normalizer L qs = Ok y /\ shp y = b /\ tget y i = Fin (g s) /\
        to_exp L qs = Ok es /\ parameter_dot_product v es = Ok t /\ shp t = b /\ tget t i = Fin (h s)) /\
    derivable_pt_lim h 0 D /\ 0 <= D.
  Proof.
    intros Dv. destruct (t_hess v v Dv Dv) as (D & D1 & _ & D3). destruct (near v Dv) as (e1 & E1 & K1). destruct (t_along v v Dv Dv) as (e2 & E2 & K2).
    exists (fun s => rsum (map (fun pq => gl i v pq s) (leaves [] q))), (hs v v), D, (Rmin e1 e2). split; [now apply Rmin_glb_lt|]. split; [|split; [now apply is_derive_Reals|auto]].
    intros s Hs. assert (S1 : Rabs s < e1) by (pose proof (Rmin_l e1 e2); lra). assert (S2 : Rabs s < e2) by (pose proof (Rmin_r e1 e2); lra).
    destruct (K1 s S1) as (qs & R1 & R2 & R3 & R4 & R5 & R6 & R7). split.
    - apply is_derive_Reals. unfold hs. assert (X : forall pq, In pq (leaves [] q) -> is_derive (fun s => gl i v pq s) s (hl v v pq s)).
      { intros [p l] I. destruct (R7 p l I) as (f & n & Cf & Fn & A & K & In'). unfold gl, hl. cbn [fst snd]. rewrite Fn. now apply line_derive. }
      clear - X. revert X. induction (leaves [] q) as [|pq l IH]; intros X; cbn [map rsum fold_right]; [apply @is_derive_const|]. apply @is_derive_plus; [exact (X pq (or_introl eq_refl))|]. apply IH. intros a Ha. apply X. now right.
    - destruct (K2 s S2) as (qs' & es & t & Q1 & Q2 & Q3 & Q4 & Q5). rewrite R1 in Q1. injection Q1 as <-. destruct (ln_sum L G b qs R2 R3 R4) as (_ & y & Y1 & Y2 & Y3).
      exists qs, y, es, t. repeat (split; [assumption|]). split; [|repeat (split; [assumption|]); assumption].
      rewrite (Y3 i Hi), (leaves_by_path q qs R2 R5), map_map. apply xsum_ext_Fin. intros [p l] I. cbn [fst snd]. destruct (R7 p l I) as (f & n & Cf & Fn & A & K & In'). destruct (ln_at solve b i _ f n _ Hi A K) as (u & U1 & U2 & U3).
      assert (E : log_normalizer L (leafat qs p) = Ok u). { pose proof (ap_cls _ _ _ _ _ _ A) as Cl. destruct (leafat qs p) as [c m ps subs]. cbn [dcls] in Cl. subst c. exact U1. }
      rewrite E. cbn [entry]. rewrite U3. unfold gl. cbn [fst snd]. now rewrite Fn.
  Qed.
  (** the product with the Fisher information *)
  Lemma same_dot v vector e : well_formed v = true -> well_formed vector = true -> well_formed e = true -> tree_match b v e -> tree_match b vector e -> same_numbers v vector ->
    forall t t', parameter_dot_product v e = Ok t -> parameter_dot_product vector e = Ok t' -> tget t i = tget t' i.
  Proof.
    intros Wv Wx We Tv Tx Sn t t' E E'. destruct (dot_value b v e Wv We Tv) as (r & A1 & A2 & A3). destruct (dot_value b vector e Wx We Tx) as (r' & B1 & B2 & B3). assert (r = t) by congruence. assert (r' = t') by congruence. subst r r'.
    rewrite (A3 i Hi), (B3 i Hi). f_equal. clear - Sn Tv Tx. unfold same_numbers, tree_match in *. revert Tv Tx Sn. generalize (leaves [] v), (leaves [] vector), (leaves [] e). intros lv lx le Tv. revert lx. induction Tv as [|a c lv le Ha _ IH]; intros lx Tx Sn; inversion Sn; subst; [reflexivity|]. inversion Tx; subst. cbn [combine map]. f_equal; [|now apply IH].
    match goal with X : fst a = _ /\ _ |- _ => destruct X as [_ P] end. destruct Ha as [_ (_ & _ & _ & _ & _ & f & F1 & F2)]. match goal with X : fst _ = fst c /\ leaf_match _ _ _ |- _ => destruct X as [_ (_ & _ & _ & _ & _ & f' & F3 & F4)] end.
    assert (f' = f) by congruence. subst f'. cbn [fst snd]. apply inner_same; [|exact P]. rewrite (var_len _ f F1), (var_len _ f F3). reflexivity.
  Qed.
  Theorem t_apply vjp vector w : well_formed vector = true -> tree_match b q vector -> vjp q vector = Ok w -> pullback L b i q vector w ->
    exists e, apply_fisher_information L vjp q vector = Ok (e, w) /\ to_exp L q = Ok e /\
      forall v u, direction b i q v -> same_numbers v vector -> direction b i q u ->
        exists D t, derivative_along L b i q v u D /\ parameter_dot_product w u = Ok t /\ shp t = b /\ tget t i = Fin D.
  Proof.
    intros Wx Tx E P. destruct (g_exp_tree L G b q W N S) as (e & E1 & _). exists e. split; [unfold apply_fisher_information; rewrite E1; cbn [bind]; now rewrite E|]. split; [exact E1|].
    intros v u Dv Sn Du. destruct (P u Du) as (D & t & (h & (eps & E0 & A) & Dh) & T1 & T2 & T3). destruct (t_symmetric v u Dv Du) as (D' & DA & (h' & (eps' & E0' & A') & Dh') & _).
    enough (Eq : D' = D) by (exists D, t; rewrite <- Eq at 1; auto).
    apply is_derive_Reals in Dh. apply is_derive_Reals in Dh'. apply is_derive_unique in Dh'. rewrite <- Dh'. apply is_derive_unique. eapply is_derive_ext_loc; [|exact Dh].
    destruct (near u Du) as (e3 & E3 & K3).
    exists (mkposreal (Rmin e3 (Rmin eps eps')) (Rmin_glb_lt _ _ _ E3 (Rmin_glb_lt _ _ _ E0 E0'))). intros s Hs. unfold ball in Hs; cbn in Hs; unfold AbsRing_ball, abs, minus, plus, opp in Hs; cbn in Hs. rewrite Ropp_0, Rplus_0_r in Hs.
    pose proof (Rmin_l e3 (Rmin eps eps')). pose proof (Rmin_r e3 (Rmin eps eps')). pose proof (Rmin_l eps eps'). pose proof (Rmin_r eps eps').
    destruct (A s ltac:(lra)) as (qs & es & y & Q1 & Q2 & Q3 & Q4 & Q5). destruct (A' s ltac:(lra)) as (qs' & es' & y' & Q1' & Q2' & Q3' & Q4' & Q5'). rewrite Q1 in Q1'. injection Q1' as <-. rewrite Q2 in Q2'. injection Q2' as <-.
    destruct (K3 s ltac:(lra)) as (qs' & R1 & R2 & R3 & R4 & R5 & R6 & R7). rewrite Q1 in R1. injection R1 as <-. destruct (g_exp_tree L G b qs R2 R3 R4) as (e' & X1 & X2 & X3 & _ & X5 & X6). rewrite Q2 in X1. injection X1 as <-.
    destruct Dv as (Wv & _ & Tv & _ & _ & _).
    enough (Z : Fin (h s) = Fin (h' s)) by (now injection Z). rewrite <- Q5, <- Q5'. symmetry.
    apply (same_dot v vector es); auto; (eapply tm_trans; [apply tm_sym; eassumption|eapply tm_trans; [exact R6|exact X5]]).
  Qed.
End T.
