(** C19 for trees of distributions. *)
From Coquelicot Require Import Coquelicot.
From Coq Require Import String List Bool Arith Reals Lia Lra.
From Verif Require Import Base XReal Tensor TensorFacts TensorFacts2 Support Dist DictFacts Iteration Structure Spec StructFacts AssembleFacts SumSpec DotSpec Tools
  ToolThms Joint StructThms FlattenThms MapFacts SumFacts JointThms JointThms2 SpecFun GammaFn Expr Fam ExprFacts FamTy FamFacts SearchFacts DotFacts Laws DotLaws BatchFacts PointSpec PointFacts Val FamR FamVal ConvFacts LeafVal ConvThms DerivFacts MatDeriv MatHess MatBreg DerivThms
  BregFacts BregThms KlSpec.
Import ListNotations.
Local Unset Asymmetric Patterns.
Local Open Scope string_scope.
Local Open Scope R_scope.

(** the leaf of parameter_map(jnp.subtract) *)
Lemma sub_at b i q v r c n pq pv : inb b i = true -> at_pt b i q c n pq -> at_pt b i v c n pv ->
  dcls r = c -> well_formed r = true -> leaf_shaped b r = true -> dims_of r = Ok n ->
  (forall f x y, In f (fields c) -> dget (dparams q) (fd_name f) = Some x -> dget (dparams v) (fd_name f) = Some y ->
     if fd_fixed f then dget (dparams r) (fd_name f) = Some x else exists u, sub_op [x; y] = Ok u /\ dget (dparams r) (fd_name f) = Some u) ->
  at_pt b i r c n (padd c pq pv (-1)).
Proof.
  intros Hi A B C W S D X. split; try assumption. intros m k sh j E Hj. destruct (ctx_field _ _ _ _ _ E) as (f & I & <- & -> & ->).
  destruct (ap_get _ _ _ _ _ _ f A I) as (x & X1 & X2 & X3). destruct (ap_get _ _ _ _ _ _ f B I) as (y & Y1 & Y2 & Y3).
  assert (Hij : inb (b ++ supp_shape (fd_support f) n) (i ++ j) = true) by (rewrite inb_app by (now apply inb_length); now rewrite Hi, Hj).
  pose proof (fixed_names c f I) as N. specialize (X f x y I X1 Y1). pose proof (ap_vals _ _ _ _ _ _ A _ _ _ j E Hj) as Q. pose proof (ap_vals _ _ _ _ _ _ B _ _ _ j E Hj) as V. unfold vals_of in *. rewrite X1 in Q. rewrite Y1 in V.
  destruct (fd_fixed f) eqn:Ef.
  - rewrite X, Q. assert (P : forall k, padd c pq pv (-1) k (fd_name f) j = pq k (fd_name f) j) by (intros k; unfold padd; now rewrite N).
    unfold pvals. destruct (kind_of (fd_support f)); now rewrite ?P.
  - destruct X as (u & U1 & U2). rewrite U2.
    assert (P : forall k, padd c pq pv (-1) k (fd_name f) j = pq k (fd_name f) j - pv k (fd_name f) j) by (intros k; unfold padd; rewrite N; ring).
    destruct (ex_intro (fun a => x = pack (kind_of (fd_support f)) a) _ X3) as [a Ea]. destruct (ex_intro (fun a => y = pack (kind_of (fd_support f)) a) _ Y3) as [d Ed]. clear X3 Y3. subst x y.
    revert a d U1 X2 Y2 Q V X1 Y1. clear -P Hij. destruct (kind_of (fd_support f)); cbn [pack get_kind as_real as_complex ashape]; intros a d U1 X2 Y2 Q V _ _.
    + change (tensor xr) in a, d. cbn [sub_op arr_sub] in U1. rewrite tmap2_same in U1 by congruence. cbn in U1. injection U1 as <-. cbn [get_kind as_real].
      etransitivity; [apply tget_tbuild; rewrite X2; exact Hij|]. cbv beta. change (tget a (i ++ j)%list = Fin (pq false (fd_name f) j)) in Q. change (tget d (i ++ j)%list = Fin (pv false (fd_name f) j)) in V. rewrite Q, V. cbn [pvals]. rewrite P. reflexivity.
    + change (tensor xc) in a, d. cbn [sub_op arr_sub as_complex] in U1. rewrite tmap2_same in U1 by congruence. cbn in U1. injection U1 as <-.
      etransitivity; [apply tget_tbuild; rewrite X2; exact Hij|]. cbv beta. change (tget a (i ++ j)%list = pvals pq KC (fd_name f) j) in Q. change (tget d (i ++ j)%list = pvals pv KC (fd_name f) j) in V. rewrite Q, V. cbn [pvals]. rewrite !P. reflexivity.
Qed.
Lemma rsum_opp l : rsum (map Ropp l) = - rsum l.
Proof. induction l as [|a l IH]; cbn [map rsum]; [ring|]. rewrite IH. ring. Qed.
Lemma rsum_ext {A} (g h : A -> R) l : (forall a, In a l -> g a = h a) -> rsum (map g l) = rsum (map h l).
Proof. intros H. f_equal. now apply map_ext_in. Qed.
Lemma dot_psub c e n p q x : dotP c e n (padd c p q (-1)) x = - dotP c e n (psub q p) x.
Proof.
  unfold dotP. rewrite <- rsum_opp, map_map. apply rsum_ext. intros [g h] Hgh. cbn [fst snd]. rewrite <- rsum_opp, map_map. apply rsum_ext. intros j _.
  apply in_combine_both in Hgh as [Hg _]. cbn [fst] in Hg. apply filter_In in Hg as [Hg Hf].
  assert (P : forall k, padd c p q (-1) k (fd_name g) j = p k (fd_name g) j - q k (fd_name g) j) by (intros k; unfold padd; rewrite (fixed_names c g Hg); destruct (fd_fixed g); [discriminate|ring]).
  rewrite !P. unfold psub. ring.
Qed.
Lemma rsum_nonneg {A} (g : A -> R) l : (forall a, In a l -> 0 <= g a) -> 0 <= rsum (map g l) /\ (rsum (map g l) = 0 -> forall a, In a l -> g a = 0).
Proof.
  induction l as [|a l IH]; intros H; cbn [map rsum]; [split; [lra|intros _ a []]|]. destruct IH as [I1 I2]. { intros; apply H; now right. } pose proof (H a (or_introl eq_refl)).
  split; [lra|]. intros E x [<-|Hx]; [lra|]. apply I2; [lra|exact Hx].
Qed.
Lemma rsum_0 {A} (g : A -> R) l : (forall a, In a l -> g a = 0) -> rsum (map g l) = 0.
Proof. induction l as [|a l IH]; intros H; cbn [map rsum]; [reflexivity|]. rewrite H by now left. rewrite IH; [ring|]. intros; apply H; now right. Qed.
Lemma entry_fin {t : tensor xr} {i r x} : r = Ok t -> tget t i = x -> entry r i = x.
Proof. intros -> <-. reflexivity. Qed.
Lemma F2_leaf_rel {R : dist -> dist -> Prop} x y : well_formed x = true -> well_formed y = true -> map fst (leaves [] x) = map fst (leaves [] y) ->
  (forall p l, In (p, l) (leaves [] x) -> R l (leafat y p)) -> Forall2 (fun p q => fst p = fst q /\ R (snd p) (snd q)) (leaves [] x) (leaves [] y).
Proof.
  intros Wx Wy E H. rewrite (leaves_by_path x y Wy E). clear E Wx Wy. revert H. generalize (leaves [] x). induction l as [|[p l] m IH]; intros H; constructor.
  - split; [reflexivity|]. cbn [fst snd]. apply H. now left.
  - apply IH. intros; apply H; now right.
Qed.
Lemma same_at_pt b i q r f n : inb b i = true -> at_pt b i q (NP f) n (point_of q i) -> at_pt b i r (NP f) n (point_of r i) -> same_leaf_at b i q r -> pt_eq (NP f) n (point_of q i) (point_of r i).
Proof.
  intros Hi A B (C & M & E). apply pt_intro. apply Forall_forall. intros g I j Hj.
  destruct (ap_get _ _ _ _ _ _ g A I) as (x & X1 & X2 & _). destruct (ap_get _ _ _ _ _ _ g B I) as (y & Y1 & Y2 & _).
  assert (I' : In g (fields (dcls q))) by (rewrite (ap_cls _ _ _ _ _ _ A); exact I). specialize (E g x y j I' X1 Y1). rewrite X2, skipn_app, skipn_all, Nat.sub_diag in E. specialize (E Hj).
  unfold point_of. rewrite X1, Y1, E. auto.
Qed.

Lemma im_real b i q c n p g j : at_pt b i q c n p -> In g (fields c) -> kind_of (fd_support g) = KR -> point_of q i true (fd_name g) j = 0.
Proof. intros A I K. destruct (ap_get _ _ _ _ _ _ g A I) as (x & X1 & _ & X3). unfold point_of. rewrite X1, X3, K. reflexivity. Qed.
Lemma dotP_pt c e n p q x : pt_eq c n p q -> (forall g j, In g (var_fields c) -> kind_of (fd_support g) = KR -> p true (fd_name g) j = q true (fd_name g) j) -> dotP c e n p x = dotP c e n q x.
Proof.
  intros H Z. unfold dotP. apply rsum_ext. intros [g h] Hgh. cbn [fst snd]. apply rsum_ext. intros j Hj. apply in_indices in Hj.
  apply in_combine_both in Hgh as [Hg _]. cbn [fst] in Hg. pose proof (Z g j Hg) as Z'. apply filter_In in Hg as [Hg _]. rewrite (pt_re c n p q g j H Hg Hj). destruct (kind_of (fd_support g)) eqn:K; [rewrite (Z' eq_refl); reflexivity|]. rewrite (pt_im c n p q g j H Hg K Hj). reflexivity.
Qed.
Lemma dotP_zero c e n p q x : dotP c e n p x = dotP c e n q x -> dotP c e n (psub q p) x = 0.
Proof.
  intros H. assert (E : dotP c e n q x = dotP c e n p x + dotP c e n (psub q p) x); [|lra]. clear H. unfold dotP. rewrite <- rsum_add. apply rsum_ext. intros [g h] _. cbn [fst snd]. rewrite <- rsum_add. apply rsum_ext. intros j _. unfold psub. ring.
Qed.
Lemma leaf_skel x y : dcls x = dcls y -> is_joint (dcls x) = false -> well_formed x = true -> well_formed y = true -> same_skeleton x y.
Proof.
  intros C J W W'. destruct x as [c m ps subs], y as [c' m' ps' subs']. cbn [dcls] in *. subst c'. pose proof (wf_inv _ _ _ _ W) as (_ & _ & Hn & _). pose proof (wf_inv _ _ _ _ W') as (_ & _ & Hn' & _).
  rewrite (Hn J), (Hn' J). intros [|n p]; split; reflexivity.
Qed.
Section T.
  Variable solve : minimizer -> dist -> nat -> xr.
  Notation L := (fam_methods solve).
  Notation G := (fam_good solve).
  Variables (b i : list nat) (p q : dist).
  Definition kl_leaf_R (pl : path * dist) : R :=
    match fam_n (snd pl) with Some (f, n) => brR f n (point_of (snd pl) i) (point_of (leafat q (fst pl)) i) | None => 0 end.

  Lemma fix_leaf l l' f n : inb b i = true -> at_pt b i l (NP f) n (point_of l i) -> at_pt b i l' (NP f) n (point_of l' i) -> same_fixed_leaf_at b i l l' -> fix_eq (NP f) n (point_of l i) (point_of l' i).
  Proof.
    intros Hi A B X. apply Forall_forall. intros g I Fg j Hj. destruct (ap_get _ _ _ _ _ _ g A I) as (x & X1 & X2 & _). destruct (ap_get _ _ _ _ _ _ g B I) as (y & Y1 & Y2 & _).
    assert (I' : In g (fields (dcls l))) by (rewrite (ap_cls _ _ _ _ _ _ A); exact I). specialize (X g x y j I' Fg X1 Y1). rewrite X2, skipn_app, skipn_all, Nat.sub_diag in X. specialize (X Hj).
    unfold point_of. rewrite X1, Y1, X. auto.
  Qed.
  Theorem t_kl_value : well_formed p = true -> well_formed q = true -> nat_tree p = true -> same_skeleton p q -> tree_match b p q -> inb b i = true ->
    tree_in_domain p i -> tree_in_domain q i -> not_clipped p i ->
    (forall pth l, In (pth, l) (leaves [] p) -> exists f n, dcls l = NP f /\ fam_n l = Some (f, n) /\ at_pt b i l (NP f) n (point_of l i) /\ nat_dom f n (point_of l i) /\
                at_pt b i (leafat q pth) (NP f) n (point_of (leafat q pth) i) /\ nat_dom f n (point_of (leafat q pth) i)) /\
    exists t, kl_divergence_nat L p q = Ok t /\ shp t = b /\ tget t i = Fin (rsum (map kl_leaf_R (leaves [] p))).
  Proof.
    intros W Wq N Sk T Hi H Hq U. destruct (tm_shaped b p q W Wq T) as [S Sq]. assert (Nq : nat_tree q = true) by (now apply (skel_all is_nat p q)).
    assert (Lf : forall pth l, In (pth, l) (leaves [] p) -> exists f n, dcls l = NP f /\ fam_n l = Some (f, n) /\ at_pt b i l (NP f) n (point_of l i) /\ nat_dom f n (point_of l i) /\
                at_pt b i (leafat q pth) (NP f) n (point_of (leafat q pth) i) /\ nat_dom f n (point_of (leafat q pth) i)).
    { intros pth l I. destruct (nat_leaf p [] pth l W N I) as [f Hf]. destruct (leaf_wf p [] pth l W I) as [Wl _]. pose proof (shaped_in b p pth l S I) as Sl.
      destruct (nat_dom_at b i l f Hi Hf Wl Sl (H pth l I)) as (n & A & K). exists f, n. split; [exact Hf|]. split; [unfold fam_n; now rewrite Hf, (ap_dims _ _ _ _ _ _ A)|].
      split; [exact A|]. split; [exact K|]. destruct (tm_leaf b p q pth l W Wq T I) as [(_ & Wl' & _ & Sl' & Ed & _) I'].
      pose proof (proj1 (leaf_in p pth l W) I) as [Hd _]. destruct (skel_leafat p q pth l Sk Hd) as [Cl _].
      destruct (nat_dom_at b i (leafat q pth) f Hi ltac:(congruence) Wl' Sl' (Hq _ _ I')) as (n' & A' & K'). assert (n' = n) by (pose proof (ap_dims _ _ _ _ _ _ A); pose proof (ap_dims _ _ _ _ _ _ A'); congruence). subst n'. auto. }
    split; [exact Lf|]. destruct (kl_sum L G b p q W Wq N Nq Sk T) as (_ & t & T1 & T2 & T3). exists t. split; [exact T1|]. split; [exact T2|]. rewrite (T3 i Hi). apply xsum_ext_Fin.
    intros [pth l] I. cbn [fst snd]. destruct (Lf pth l I) as (f & n & Cf & Fn & A & K & A' & K'). unfold kl_leaf_R. cbn [fst snd]. rewrite Fn. set (l' := leafat q pth) in *.
    assert (Nl : is_nat (dcls l) = true) by now rewrite Cf. assert (Jl : is_joint (dcls l) = false) by now rewrite Cf. assert (Jl' : is_joint (dcls l') = false) by now rewrite (ap_cls _ _ _ _ _ _ A').
    rewrite (kl_leaf L l l' Nl Jl). destruct (exp_at solve b i l f n _ Hi A K (clip_leaf p i pth l f U I Cf)) as (e & E1 & E2). rewrite E1. cbn [bind].
    destruct (tm_leaf b p q pth l W Wq T I) as [ML _]. fold l' in ML. pose proof (leaf_tm b l l' Jl Jl' ML) as TL.
    assert (MLL : leaf_match b l l). { destruct ML as (a1 & a2 & a3 & a4 & a5 & g & a6 & a7). repeat (split; [assumption|]). split; [reflexivity|eauto]. }
    assert (SkL : same_skeleton l l') by (apply leaf_skel; [pose proof (ap_cls _ _ _ _ _ _ A'); congruence|exact Jl|exact (ap_wf _ _ _ _ _ _ A)|exact (ap_wf _ _ _ _ _ _ A')]).
    destruct (map_match sub_op b l [l'] (ap_wf _ _ _ _ _ _ A)) as (r & R1 & R2 & _ & R4 & R5 & _ & R7).
    { intros y [<-|[]]. split; [exact (ap_wf _ _ _ _ _ _ A')|]. auto. } { now apply leaf_tm. }
    { intros v [|w [|? ?]] Hl Hf; try discriminate. inversion Hf; subst. now apply arr_sub_like. }
    rewrite R1. cbn [bind].
    destruct (skel_leafat l r [] l R4 eq_refl) as [Cr _]. assert (Er : leafat r [] = r) by reflexivity. rewrite Er in Cr. clear Er.
    assert (Mr : leaf_match b l r). { unfold tree_match in R5. rewrite !leaf_leaves in R5 by (rewrite ?Cr; assumption). inversion R5 as [|? ? ? ? [_ Q] _]. exact Q. }
    assert (Ar : at_pt b i r (NP f) n (padd (NP f) (point_of l i) (point_of l' i) (-1))).
    { destruct Mr as (_ & Q2 & _ & Q4 & Q5 & _). apply (sub_at b i l l'); auto; [congruence|pose proof (ap_dims _ _ _ _ _ _ A); congruence|].
      intros g x y Ig Gx Gy. assert (Fg : field_at l [fd_name g] = Some g). { destruct l as [cl ml psl subl]. cbn [dcls] in Cf. subst cl. cbn [field_at dcls]. now apply find_field. }
      specialize (R7 [fd_name g] g x [y] Fg). assert (Pl : forall d, param_at d [fd_name g] = dget (dparams d) (fd_name g)) by (intros []; reflexivity). rewrite !Pl in R7. specialize (R7 Gx).
      apply R7. constructor; [rewrite Pl; exact Gy|constructor]. }
    assert (Mre : leaf_match b r e).
    { destruct Mr as (_ & Q2 & _ & Q4 & Q5 & g & Q6 & Q7). unfold leaf_match. split; [exact Q2|]. split; [exact (ap_wf _ _ _ _ _ _ E2)|]. split; [exact Q4|]. split; [exact (ap_shaped _ _ _ _ _ _ E2)|].
      split; [pose proof (ap_dims _ _ _ _ _ _ A); pose proof (ap_dims _ _ _ _ _ _ E2); congruence|]. exists f. rewrite (ap_cls _ _ _ _ _ _ Ar), (ap_cls _ _ _ _ _ _ E2). auto. }
    destruct (leaf_value b r e Mre) as (d & D1 & D2 & D3). rewrite D1. cbn [bind].
    destruct (ln_at solve b i l' f n _ Hi A' K') as (v & V1 & V2 & V3). destruct (ln_at solve b i l f n _ Hi A K) as (u & U1 & U2 & U3).
    assert (Eu : forall y t, dcls y = NP f -> l_log_normalizer L y = Ok t -> log_normalizer L y = Ok t) by (intros [c m ps subs] t' Cy Q; cbn [dcls] in Cy; subst c; exact Q).
    rewrite (Eu l' v (ap_cls _ _ _ _ _ _ A') V1), (Eu l u Cf U1). cbn [bind]. rewrite tmap2_same by congruence. cbn [bind]. rewrite tmap2_same by (cbn [shp tbuild]; congruence). cbn [entry].
    rewrite tget_tbuild by (cbn [shp tbuild]; now rewrite D2). rewrite tget_tbuild by now rewrite D2. rewrite (D3 i Hi), U3, V3.
    rewrite (inner_at b i r e f n (expR n (point_of l i) f) Hi); [|apply (at_pt_eq _ _ _ _ _ _ _ Ar); now apply (at_pt_pt b)|exact E2].
    assert (Ed : dotP (NP f) (EP f) n (point_of r i) (expR n (point_of l i) f) = dotP (NP f) (EP f) n (padd (NP f) (point_of l i) (point_of l' i) (-1)) (expR n (point_of l i) f)).
    { symmetry. apply dotP_pt; [now apply (at_pt_pt b)|]. intros g j Ig Kg. pose proof Ig as Ig'. apply filter_In in Ig as [Ig Fg]. rewrite (im_real b i r _ _ _ g j Ar Ig Kg). unfold padd. rewrite (fixed_names _ g Ig). destruct (fd_fixed g); [discriminate|].
      rewrite (im_real b i l _ _ _ g j A Ig Kg), (im_real b i l' _ _ _ g j A' Ig Kg). ring. }
    rewrite Ed, dot_psub. cbn [xadd xsub xneg]. f_equal. unfold brR. ring.
  Qed.
  Theorem t_kl : well_formed p = true -> well_formed q = true -> nat_tree p = true -> same_skeleton p q -> tree_match b p q -> inb b i = true ->
    tree_in_domain p i -> tree_in_domain q i -> not_clipped p i -> same_fixed_at b i p q ->
    exists t k, kl_divergence_nat L p q = Ok t /\ shp t = b /\ tget t i = Fin k /\ 0 <= k /\ (k = 0 <-> same_at b i p q).
  Proof.
    intros W Wq N Sk T Hi H Hq U X. destruct (t_kl_value W Wq N Sk T Hi H Hq U) as (Lf & t & T1 & T2 & T3). exists t, (rsum (map kl_leaf_R (leaves [] p))). repeat (split; [assumption|]).
    assert (Px : map fst (leaves [] p) = map fst (leaves [] q)) by exact (F2_paths _ _ _ T).
    assert (Xl : forall pth l, In (pth, l) (leaves [] p) -> same_fixed_leaf_at b i l (leafat q pth)).
    { intros pth l I. unfold same_fixed_at in X. rewrite (leaves_by_path p q Wq Px) in X. revert I X. clear. generalize (leaves [] p). induction l0 as [|a m IH]; intros I X; [destruct I|]. cbn [map] in X. inversion X; subst. destruct I as [->|I]; auto. }
    assert (Br : forall pl, In pl (leaves [] p) -> 0 <= kl_leaf_R pl /\ (kl_leaf_R pl = 0 <-> same_leaf_at b i (snd pl) (leafat q (fst pl)))).
    { intros [pth l] I. destruct (Lf pth l I) as (f & n & Cf & Fn & A & K & A' & K'). unfold kl_leaf_R. cbn [fst snd]. rewrite Fn.
      pose proof (fix_leaf _ _ f n Hi A A' (Xl pth l I)) as Fx.
      assert (Z : pt_eq (NP f) n (point_of l i) (point_of (leafat q pth) i) -> brR f n (point_of l i) (point_of (leafat q pth) i) = 0) .
      { intros E. destruct (ln_at solve b i l f n _ Hi A K) as (u & U1 & _ & U3). destruct (ln_at solve b i l f n _ Hi (at_pt_eq _ _ _ _ _ _ _ A E) K') as (u' & U1' & _ & U3'). rewrite U1 in U1'. injection U1' as <-. rewrite U3 in U3'. injection U3' as Ev.
        unfold brR. rewrite <- Ev, dotP_zero; [ring|]. apply dotP_pt; [exact E|]. intros g j Ig Kg. apply filter_In in Ig as [Ig _]. now rewrite (im_real b i l _ _ _ g j A Ig Kg), (im_real b i _ _ _ _ g j A' Ig Kg). }
      destruct (br_pos f n _ _ K K' Fx) as [E|E].
      - rewrite (Z E). split; [lra|]. split; [intros _|reflexivity]. apply (at_pt_same b i _ _ (NP f) f n (point_of (leafat q pth) i)); [reflexivity| |exact A']. exact (at_pt_eq _ _ _ _ _ _ _ A E).
      - split; [lra|]. split; [lra|]. intros Sm. rewrite (Z (same_at_pt b i _ _ f n Hi A A' Sm)) in E. lra. }
    destruct (rsum_nonneg kl_leaf_R (leaves [] p)) as [P0 P1]. { intros a Ha. exact (proj1 (Br a Ha)). } split; [exact P0|]. split.
    - intros E. apply F2_leaf_rel; auto. intros pth l I. apply (proj2 (Br (pth, l) I)). now apply P1.
    - intros Sm. apply rsum_0. intros [pth l] I. apply (proj2 (Br _ I)). cbn [fst snd]. unfold same_at in Sm. rewrite (leaves_by_path p q Wq Px) in Sm.
      revert I Sm. clear. generalize (leaves [] p). induction l0 as [|a m IH]; intros I X; [destruct I|]. cbn [map] in X. inversion X as [|? ? ? ? Q1 Q2]; subst. destruct I as [->|I]; [exact (proj2 Q1)|auto].
  Qed.
End T.
