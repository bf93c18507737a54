(** C20 for trees of distributions. *)
From Coquelicot Require Import Coquelicot.
From Coq Require Import String List Bool Arith Reals Lia Lra.
From Verif Require Import Base XReal Tensor TensorFacts TensorFacts2 Support Dist DictFacts Iteration Structure Spec StructFacts AssembleFacts SumSpec DotSpec Tools
  ToolThms Joint StructThms FlattenThms MapFacts SumFacts JointThms JointThms2 SpecFun GammaFn Expr Fam ExprFacts FamTy FamFacts SearchFacts DotFacts Laws DotLaws BatchFacts PointSpec PointFacts Val FamR FamVal ConvFacts LeafVal ConvThms DerivFacts MatDeriv.
Import ListNotations.
Local Unset Asymmetric Patterns.
Local Open Scope string_scope.
Local Open Scope R_scope.

Lemma pair_kinds f n : Forall2 (fun x y => kind_of (fd_support x) = kind_of (fd_support y) /\ supp_shape (fd_support x) n = supp_shape (fd_support y) n) (var_fields (NP f)) (var_fields (EP f)).
Proof. destruct f; repeat constructor. Qed.
Lemma F2_combine {A B} (P : A -> B -> Prop) l m x y : Forall2 P l m -> In (x, y) (combine l m) -> P x y.
Proof. induction 1 as [|a b l m H _ IH]; intros []; [|auto]. injection H0 as <- <-. exact H. Qed.
Lemma ap_get b i q c n p f : at_pt b i q c n p -> In f (fields c) -> exists v, dget (dparams q) (fd_name f) = Some v /\ ashape v = (b ++ supp_shape (fd_support f) n)%list /\ v = pack (kind_of (fd_support f)) (match get_kind (kind_of (fd_support f)) v with Ok t => t | Err _ => tscalar dflt end).
Proof.
  intros [C W S D V] I. subst c. destruct (leaf_env b q n S D _ _ _ (fields_in_ctx _ n f I)) as (t & T1 & T2). exists (pack (kind_of (fd_support f)) t). split; [exact T1|].
  rewrite get_pack. split; [|reflexivity]. destruct (kind_of (fd_support f)); exact T2.
Qed.
(** the inner product of two simple distributions at a batch index *)
Lemma inner_at b i v e f n pe : inb b i = true -> at_pt b i v (NP f) n (point_of v i) -> at_pt b i e (EP f) n pe ->
  leaf_inner b i v e = Fin (dotP (NP f) (EP f) n (point_of v i) pe).
Proof.
  intros Hi A B. unfold leaf_inner, dotP. rewrite (ap_cls _ _ _ _ _ _ A), (ap_cls _ _ _ _ _ _ B). apply xsum_ext_Fin. intros [g h] Hgh. cbn [fst snd].
  destruct (F2_combine _ _ _ _ _ (pair_kinds f n) Hgh) as [Ek Es]. apply in_combine_both in Hgh as [Hg Hh]. cbn [fst snd] in *. apply filter_In in Hg as [Hg _]. apply filter_In in Hh as [Hh _].
  destruct (ap_get _ _ _ _ _ _ g A Hg) as (x & X1 & X2 & X3). destruct (ap_get _ _ _ _ _ _ h B Hh) as (y & Y1 & Y2 & Y3). rewrite X1, Y1. unfold array_inner.
  rewrite X2, skipn_app, skipn_all, Nat.sub_diag. cbn [skipn app]. apply xsum_ext_Fin. intros j Hj. apply in_indices in Hj.
  rewrite (entry_eq _ _ _ _ _ _ g x j A Hg X1 Hj). assert (Hj' := Hj). rewrite Es in Hj'. rewrite (entry_eq _ _ _ _ _ _ h y j B Hh Y1 Hj'). rewrite <- Ek.
  destruct (kind_of (fd_support g)) eqn:K; cbn; [|f_equal; ring]. f_equal. enough (E : point_of v i true (fd_name g) j = 0) by (rewrite E; ring). unfold point_of. rewrite X1, X3. reflexivity.
Qed.
Lemma fixed_names c f : In f (fields c) -> existsb (fun g => fd_fixed g && String.eqb (fd_name g) (fd_name f))%bool (fields c) = fd_fixed f.
Proof.
  intros I. pose proof (nodup_fields c) as N. revert I N. induction (fields c) as [|g l IH]; [intros []|]. intros [->|I] N; inversion N as [|? ? N1 N2]; subst; cbn [existsb].
  - rewrite String.eqb_refl, andb_true_r. destruct (fd_fixed f) eqn:E; [reflexivity|]. cbn. apply not_true_iff_false. intros X. apply existsb_exists in X as (h & H1 & H2). apply andb_prop in H2 as [_ H2].
    apply String.eqb_eq in H2. apply N1. rewrite <- H2. now apply in_map.
  - rewrite (IH I N2). destruct (String.eqb (fd_name g) (fd_name f)) eqn:E; [|now rewrite andb_false_r]. apply String.eqb_eq in E. exfalso. apply N1. rewrite E. now apply in_map.
Qed.
(** the leaf of parameter_map (lambda x, y: x + s * y) *)
Lemma line_at b i q v r c n s : inb b i = true -> at_pt b i q c n (point_of q i) -> at_pt b i v c n (point_of v i) ->
  dcls r = c -> well_formed r = true -> leaf_shaped b r = true -> dims_of r = Ok n -> leaf_fin r ->
  (forall f, In f (var_fields c) -> forall k, inb (ashape (fv q f)) k = true ->
     rv (entry_c (fv r f) k) = 1 * rv (entry_c (fv q f) k) + s * rv (entry_c (fv v f) k) /\ iv (entry_c (fv r f) k) = 1 * iv (entry_c (fv q f) k) + s * iv (entry_c (fv v f) k)) ->
  (forall f, In f (fields c) -> fd_fixed f = true -> dget (dparams r) (fd_name f) = dget (dparams q) (fd_name f)) ->
  at_pt b i r c n (padd c (point_of q i) (point_of v i) s).
Proof.
  intros Hi A B C W S D F V X. split; try assumption. intros m k sh j E Hj. destruct (ctx_field _ _ _ _ _ E) as (f & I & <- & -> & ->).
  destruct (ap_get _ _ _ _ _ _ f A I) as (x & X1 & X2 & X3). destruct (ap_get _ _ _ _ _ _ f B I) as (y & Y1 & Y2 & Y3).
  assert (Hij : inb (b ++ supp_shape (fd_support f) n) (i ++ j) = true) by (rewrite inb_app by (now apply inb_length); now rewrite Hi, Hj).
  pose proof (fixed_names c f I) as N. destruct (fd_fixed f) eqn:Ef.
  - unfold vals_of. rewrite (X f I Ef). pose proof (ap_vals _ _ _ _ _ _ A _ _ _ j E Hj) as Q. unfold vals_of in Q. rewrite Q.
    assert (P : forall k, padd c (point_of q i) (point_of v i) s k (fd_name f) j = point_of q i k (fd_name f) j) by (intros k; unfold padd; now rewrite N).
    unfold pvals. destruct (kind_of (fd_support f)); rewrite ?P; reflexivity.
  - assert (If : In f (var_fields c)) by (apply filter_In; now rewrite Ef). specialize (V f If (i ++ j)%list). unfold fv at 1 in V. rewrite X1, X2 in V. specialize (V Hij).
    assert (E' : dget (ctx_of (dcls r) n) (fd_name f) = Some (kind_of (fd_support f), supp_shape (fd_support f) n)) by (rewrite C; exact E).
    destruct (leaf_env b r n S D _ _ _ E') as (t & T1 & T2). rewrite <- C in If. specialize (F f If (i ++ j)%list). unfold fv in F, V. rewrite T1 in F, V. rewrite X1, Y1 in V.
    assert (Sz : ashape (pack (kind_of (fd_support f)) t) = (b ++ supp_shape (fd_support f) n)%list) by (destruct (kind_of (fd_support f)); exact T2). rewrite Sz in F. specialize (F Hij). apply fin_rv in F. destruct V as [V1 V2]. rewrite V1, V2 in F.
    assert (P : forall k, padd c (point_of q i) (point_of v i) s k (fd_name f) j = point_of q i k (fd_name f) j + s * point_of v i k (fd_name f) j) by (intros k; unfold padd; now rewrite N).
    unfold vals_of. rewrite T1, get_pack. unfold pvals. destruct (kind_of (fd_support f)); rewrite ?P; unfold point_of; rewrite X1, Y1; cbn [pack entry_c comp] in *.
    + injection F as F _. etransitivity; [exact F|]. f_equal. unfold rv, toR. ring.
    + etransitivity; [exact F|]. unfold rv, iv, toR. f_equal; f_equal; ring.
Qed.
Lemma DV_rsum {A} (l : list A) (g : A -> R -> R) v d : (forall a, In a l -> DV (g a) (v a) (d a)) -> DV (fun s => rsum (map (fun a => g a s) l)) (rsum (map v l)) (rsum (map d l)).
Proof.
  induction l as [|a l IH]; intros H; cbn [map rsum fold_right]; [apply DV_const|]. apply DV_plus; [apply H; now left|]. apply IH. intros; apply H; now right.
Qed.
Lemma loc_list {A} (l : list A) (P : A -> R -> Prop) : (forall a, In a l -> locally 0 (P a)) -> locally 0 (fun s => forall a, In a l -> P a s).
Proof.
  induction l as [|a l IH]; intros H. { apply filter_forall. intros s a []. }
  assert (H1 := H a (or_introl eq_refl)). assert (H2 := IH (fun x Hx => H x (or_intror Hx))). generalize (filter_and _ _ H1 H2). apply filter_imp. intros s [K1 K2] x [<-|Hx]; auto.
Qed.

Lemma skel_sub x y n s s' : same_skeleton x y -> dget (sub_distributions x) n = Some s -> dget (sub_distributions y) n = Some s' -> same_skeleton s s'.
Proof. intros H E E' p. specialize (H (n :: p)). cbn [dist_at] in H. now rewrite E, E' in H. Qed.
Lemma skel_all P x : forall y, well_formed x = true -> well_formed y = true -> same_skeleton x y -> all_nodes P x = true -> all_nodes P y = true.
Proof.
  induction x as [c m ps subs IH] using dist_rect'. intros [c' m' ps' subs'] W W' Sk A. pose proof (wf_inv _ _ _ _ W) as (_ & Hj & Hn & Hs). pose proof (wf_inv _ _ _ _ W') as (_ & _ & Hn' & Hs').
  destruct (Sk []) as [E1 E2]. cbn in E1, E2. injection E1 as <-. injection E2 as E2. cbn [all_nodes] in *. apply andb_prop in A as [A1 A2]. rewrite A1. cbn [andb]. apply forallb_forall. intros [n s'] I'. cbn [snd].
  assert (I : exists s, In (n, s) subs). { assert (X : In n (map fst subs)) by (rewrite E2; now apply (in_map fst) in I'). apply in_map_iff in X as ([n' s] & <- & X). eauto. } destruct I as [s I].
  rewrite Forall_forall in IH, Hs, Hs'.
  assert (Nd : NoDup (map fst subs) /\ NoDup (map fst subs')). { destruct (is_joint c) eqn:Ej; [|rewrite (Hn eq_refl) in I; destruct I]. now rewrite <- E2; split; apply Hj. }
  apply (IH (n, s) I s'); cbn [snd].
  - exact (Hs _ I).
  - exact (Hs' _ I').
  - apply (skel_sub _ _ n s s' Sk); apply In_dget; tauto.
  - rewrite forallb_forall in A2. exact (A2 _ I).
Qed.
Section T.
  Variable solve : minimizer -> dist -> nat -> xr.
  Notation L := (fam_methods solve).
  Notation G := (fam_good solve).
  Variables (b i : list nat) (q v : dist).
  Definition fam_n (l : dist) : option (family * nat) := match dcls l, dims_of l with NP f, Ok n | EP f, Ok n => Some (f, n) | _, _ => None end.
  Definition gl (pq : path * dist) (s : R) : R :=
    match fam_n (snd pq) with Some (f, n) => lnR n (padd (NP f) (point_of (snd pq) i) (point_of (leafat v (fst pq)) i) s) f | None => 0 end.
  Definition dl (pq : path * dist) : R :=
    match fam_n (snd pq) with Some (f, n) => dotP (NP f) (EP f) n (point_of (leafat v (fst pq)) i) (expR n (point_of (snd pq) i) f) | None => 0 end.

  Theorem t_jvp : well_formed q = true -> well_formed v = true -> nat_tree q = true -> same_skeleton q v -> tree_match b q v -> finite_vars q -> finite_vars v ->
    inb b i = true -> tree_in_domain q i -> tree_finite v i ->
    not_clipped q i ->
    exists y y_dot D g, log_normalizer_jvp L q v = Ok (y, y_dot) /\ shp y = b /\ shp y_dot = b /\ tget y_dot i = Fin D /\ tget y i = Fin (g 0) /\ derivable_pt_lim g 0 D /\
      exists eps, 0 < eps /\ forall s, Rabs s < eps -> exists qs t, parameter_map (lin_op 1 s) q [v] = Ok qs /\ log_normalizer L qs = Ok t /\ shp t = b /\ tget t i = Fin (g s).
  Proof.
    intros W Wv N Sk T Fq Fv Hi H Hv U. destruct (tm_shaped b q v W Wv T) as [S Sv].
    assert (Lf : forall p l, In (p, l) (leaves [] q) -> exists f n, dcls l = NP f /\ fam_n l = Some (f, n) /\ at_pt b i l (NP f) n (point_of l i) /\ nat_dom f n (point_of l i) /\
                at_pt b i (leafat v p) (NP f) n (point_of (leafat v p) i)).
    { intros p l I. destruct (nat_leaf q [] p l W N I) as [f Hf]. destruct (leaf_wf q [] p l W I) as [Wl _]. pose proof (shaped_in b q p l S I) as Sl.
      destruct (nat_dom_at b i l f Hi Hf Wl Sl (H p l I)) as (n & A & K). exists f, n. split; [exact Hf|]. split; [unfold fam_n; now rewrite Hf, (ap_dims _ _ _ _ _ _ A)|].
      split; [exact A|]. split; [exact K|]. destruct (tm_leaf b q v p l W Wv T I) as [(_ & Wl' & _ & Sl' & Ed & _) I'].
      pose proof (proj1 (leaf_in q p l W) I) as [Hd _]. destruct (skel_leafat q v p l Sk Hd) as [Cl _]. destruct (Hv _ _ I') as (n' & D' & F'). assert (n' = n) by (pose proof (ap_dims _ _ _ _ _ _ A); congruence). subst n'.
      apply at_pt_self; auto. congruence. }
    destruct (ln_sum L G b q W N S) as (_ & y & Y1 & Y2 & Y3). destruct (g_exp_tree L G b q W N S) as (e & E1 & E2 & E3 & _ & E5 & E6).
    assert (Tv : tree_match b v e) by (eapply tm_trans; [apply tm_sym; exact T|exact E5]). destruct (dot_value b v e Wv E2 Tv) as (yd & D1 & D2 & D3).
    exists y, yd, (rsum (map dl (leaves [] q))), (fun s => rsum (map (fun pq => gl pq s) (leaves [] q))).
    split. { unfold log_normalizer_jvp. rewrite Y1. cbn [bind]. rewrite E1. cbn [bind]. rewrite D1. reflexivity. }
    split; [exact Y2|]. split; [exact D2|].
    assert (Pv : map fst (leaves [] q) = map fst (leaves [] v)) by exact (F2_paths _ _ _ T).
    assert (Pe : map fst (leaves [] q) = map fst (leaves [] e)) by exact (F2_paths _ _ _ E5).
    split.
    { rewrite (D3 i Hi), (leaves_by_path q v Wv Pv), (leaves_by_path q e E2 Pe). clear D1 D2 D3.
      assert (X : forall l, combine (map (fun pq : path * dist => (fst pq, leafat v (fst pq))) l) (map (fun pq : path * dist => (fst pq, leafat e (fst pq))) l) = map (fun pq => ((fst pq, leafat v (fst pq)), (fst pq, leafat e (fst pq)))) l).
      { induction l as [|a l IH]; [reflexivity|]. cbn [map combine]. now rewrite IH. }
      rewrite X, map_map. apply xsum_ext_Fin. intros [p l] I. cbn [fst snd]. destruct (Lf p l I) as (f & n & Cf & Fn & A & K & B). unfold dl. cbn [fst snd]. rewrite Fn.
      destruct (exp_at solve b i l f n _ Hi A K (clip_leaf q i p l f U I Cf)) as (r & R1 & R2). apply (inner_at b i _ _ f n); [exact Hi|exact B|].
      destruct (F2_in _ _ _ _ E6 I) as ([p' l'] & I' & K1 & K2). cbn [fst snd] in *. subst p'. rewrite K2 in R1. injection R1 as <-. apply (leaf_in e p l' E2) in I' as [Hd _]. unfold leafat. now rewrite Hd. }
    assert (DVs : DV (fun s => rsum (map (fun pq => gl pq s) (leaves [] q))) (rsum (map (fun pq => gl pq 0) (leaves [] q))) (rsum (map dl (leaves [] q)))).
    { apply DV_rsum. intros [p l] I. destruct (Lf p l I) as (f & n & Cf & Fn & A & K & B). unfold gl, dl. cbn [fst snd]. rewrite Fn. destruct (ln_dv_all f n (point_of l i) (point_of (leafat v p) i) K) as [Q1 Q2]. split; [reflexivity|exact Q2]. }
    assert (LN : forall qs s, well_formed qs = true -> nat_tree qs = true -> shaped b qs = true -> map fst (leaves [] q) = map fst (leaves [] qs) ->
       (forall p l, In (p, l) (leaves [] q) -> exists f n, fam_n l = Some (f, n) /\ at_pt b i (leafat qs p) (NP f) n (padd (NP f) (point_of l i) (point_of (leafat v p) i) s) /\ ln_dom f n (padd (NP f) (point_of l i) (point_of (leafat v p) i) s)) ->
       exists t, log_normalizer L qs = Ok t /\ shp t = b /\ tget t i = Fin (rsum (map (fun pq => gl pq s) (leaves [] q)))).
    { intros qs s Wq Nq Sq Pq Q. destruct (ln_sum L G b qs Wq Nq Sq) as (_ & t & T1 & T2 & T3). exists t. split; [exact T1|]. split; [exact T2|]. rewrite (T3 i Hi), (leaves_by_path q qs Wq Pq), map_map.
      apply xsum_ext_Fin. intros [p l] I. cbn [fst snd]. destruct (Q p l I) as (f & n & Fn & A & K). destruct (ln_at_d solve b i _ f n _ Hi A K) as (u & U1 & U2 & U3).
      assert (E : log_normalizer L (leafat qs p) = Ok u). { pose proof (ap_cls _ _ _ _ _ _ A) as Cl. destruct (leafat qs p) as [c m ps subs]. cbn [dcls] in Cl. subst c. exact U1. }
      rewrite E. cbn [entry]. rewrite U3. unfold gl. cbn [fst snd]. now rewrite Fn. }
    split.
    { rewrite (Y3 i Hi). f_equal. apply xsum_ext_Fin. intros [p l] I. cbn [snd]. destruct (Lf p l I) as (f & n & Cf & Fn & A & K & B). destruct (ln_at solve b i _ f n _ Hi A K) as (u & U1 & U2 & U3).
      assert (E : log_normalizer L l = Ok u). { destruct l as [c m ps subs]. cbn [dcls] in Cf. subst c. exact U1. }
      rewrite E. cbn [entry]. rewrite U3. f_equal. unfold gl. cbn [fst snd]. rewrite Fn. symmetry. now destruct (ln_dv_all f n (point_of l i) (point_of (leafat v p) i) K) as [Q1 Q2]. }
    split. { apply is_derive_Reals. exact (proj2 DVs). }
    assert (Op : locally 0 (fun s => forall pq, In pq (leaves [] q) -> match fam_n (snd pq) with Some (f, n) => ln_dom f n (padd (NP f) (point_of (snd pq) i) (point_of (leafat v (fst pq)) i) s) | None => False end)).
    { apply loc_list. intros [p l] I. destruct (Lf p l I) as (f & n & Cf & Fn & A & K & B). cbn [fst snd]. rewrite Fn. now apply ln_open. }
    destruct Op as [eps Op]. exists (pos eps). split; [apply cond_pos|]. intros s Hs. specialize (Op s). assert (Bs : ball 0 eps s) by (unfold ball; cbn; unfold AbsRing_ball, abs, minus, plus, opp; cbn; now rewrite Ropp_0, Rplus_0_r). specialize (Op Bs).
    destruct (map_lin_full _ 1 s (lin_op_linear 1 s) b q v W Wv Sk T Fq Fv) as (qs & R1 & R2 & R3 & R4 & R5 & R6 & R7). destruct (tm_shaped b q qs W R2 R5) as [_ Sq].
    assert (Nq : nat_tree qs = true) by (now apply (skel_all is_nat q qs)).
    destruct (LN qs s R2 Nq Sq (F2_paths _ _ _ R5)) as (t & T1 & T2 & T3).
    { intros p l I. destruct (Lf p l I) as (f & n & Cf & Fn & A & K & B). exists f, n. specialize (Op _ I). cbn [fst snd] in Op. rewrite Fn in Op. repeat (split; [assumption|]). split; [|exact Op].
      destruct (R6 p l I) as [G1 G2]. destruct (tm_leaf b q qs p l W R2 R5 I) as [(_ & Wl' & _ & Sl' & Ed & _) I']. pose proof (proj1 (leaf_in q p l W) I) as [Hd _]. destruct (skel_leafat q qs p l R4 Hd) as [Cl _].
      apply line_at; auto; [congruence|rewrite <- Ed; exact (ap_dims _ _ _ _ _ _ A)| |]; rewrite <- Cf; auto. }
    exists qs, t. auto.
  Qed.
End T.
