(** C10, C16-C18: parameter_map on matching trees, KL divergence, cross entropy and entropy. *)
From Coq Require Import FinFun String List Bool Arith Lia Reals.
From Verif Require Import Base XReal Tensor TensorFacts TensorFacts2 Support Dist DictFacts Iteration Structure Spec StructFacts AssembleFacts ParamFacts ReplaceFacts
  SumSpec Tools ToolThms MappingFacts Joint DotFacts StructThms Laws SumFacts MapFacts JointThms.
Import ListNotations.

(** two arrays of the same shape and dtype *)
Definition like (a a' : arr) : Prop :=
  ashape a' = ashape a /\ match a, a' with RA _, RA _ | CA _, CA _ => True | _, _ => False end.
Lemma like_kind a a' s : like a a' -> kind_ok s a' = kind_ok s a.
Proof. intros [_ H]. unfold kind_ok. destruct (supp_ring s), a, a'; easy. Qed.
Lemma list_eqb_refl (l : list nat) : shape_eqb l l = true.
Proof. unfold shape_eqb. induction l; cbn; [reflexivity|]. now rewrite Nat.eqb_refl. Qed.
Lemma shape_eqb_eq l : forall m, shape_eqb l m = true -> l = m.
Proof. unfold shape_eqb. induction l as [|a l IH]; intros [|b m] H; try discriminate; [reflexivity|]. cbn in H. apply andb_prop in H as [H1 H2]. apply Nat.eqb_eq in H1. f_equal; auto. Qed.
Lemma leaf_like b x r : dcls r = dcls x -> leaf_shaped b x = true ->
  (forall f, In f (fields (dcls x)) -> exists v w, dget (dparams x) (fd_name f) = Some v /\ dget (dparams r) (fd_name f) = Some w /\ like v w) ->
  leaf_shaped b r = true /\ dims_of r = dims_of x.
Proof.
  intros Hc Hs H. assert (Hd : dims_of r = dims_of x).
  { unfold dims_of. rewrite Hc. destruct (dimensions_field (dcls x)) as [n|] eqn:E; [|reflexivity].
    assert (Hf : exists f, In f (fields (dcls x)) /\ fd_name f = n).
    { assert (Hn : In n (map fd_name (fields (dcls x)))).
      { clear -E. destruct (dcls x) as [[]|[]| | | | | | |]; cbn in E; try discriminate E; injection E as <-; cbn; auto. }
      apply in_map_iff in Hn as (f & Hf & Hi). eauto. }
    destruct Hf as (f & Hi & <-). destruct (H f Hi) as (v & w & Hv & Hw & L & _).
    destruct x, r. cbn [attr dparams] in *. unfold attr. cbn [dparams]. rewrite Hv, Hw. cbn. now rewrite L. }
  split; [|exact Hd]. unfold leaf_shaped in *. rewrite Hd, Hc. destruct (dims_of x) as [n|]; [|discriminate]. apply andb_prop in Hs as [Hok Hs]. rewrite Hok. cbn [andb]. rewrite forallb_forall in *. intros f Hi. specialize (Hs f Hi).
  destruct (H f Hi) as (v & w & Hv & Hw & L). rewrite Hv in Hs. rewrite Hw. rewrite (like_kind v w _ L). destruct L as [L _]. now rewrite L.
Qed.
(** the parameters of two leaves of one class, shape and dimension *)
Lemma match_like b x y f : leaf_match b x y -> dcls y = dcls x -> In f (fields (dcls x)) ->
  exists v w, dget (dparams x) (fd_name f) = Some v /\ dget (dparams y) (fd_name f) = Some w /\ like v w.
Proof.
  intros (_ & _ & S1 & S2 & D & _) Hc Hi. unfold leaf_shaped in *. rewrite <- D in S2. destruct (dims_of x) as [n|]; [|discriminate]. rewrite Hc in S2. apply andb_prop in S1 as [_ S1]. apply andb_prop in S2 as [_ S2].
  rewrite forallb_forall in *. specialize (S1 f Hi). specialize (S2 f Hi). destruct (dget (dparams x) (fd_name f)) as [v|]; [|discriminate]. destruct (dget (dparams y) (fd_name f)) as [w|]; [|discriminate].
  exists v, w. split; [reflexivity|]. split; [reflexivity|]. apply andb_prop in S1 as [S1 K1]. apply andb_prop in S2 as [S2 K2]. apply shape_eqb_eq in S1, S2. split; [congruence|].
  unfold kind_ok in *. destruct (supp_ring (fd_support f)), v, w; easy.
Qed.
Lemma tm_leaf b x y p q : well_formed x = true -> well_formed y = true -> tree_match b x y -> In (p, q) (leaves [] x) ->
  leaf_match b q (leafat y p) /\ In (p, leafat y p) (leaves [] y).
Proof. intros Wx Wy H Hi. exact (F2_leafat x y Wx Wy H p q Hi). Qed.
Lemma tm_of b x y : well_formed x = true -> well_formed y = true -> map fst (leaves [] x) = map fst (leaves [] y) ->
  (forall p q, In (p, q) (leaves [] x) -> leaf_match b q (leafat y p)) -> tree_match b x y.
Proof.
  intros Wx Wy E H. unfold tree_match. rewrite (leaves_by_path x y Wy E). revert H. generalize (leaves [] x).
  induction l as [|[p q] l IH]; intros H; constructor; [|apply IH; intros; apply H; now right]. split; [reflexivity|]. apply H. now left.
Qed.
Lemma leaf_match_trans b x y z : leaf_match b x y -> leaf_match b y z -> leaf_match b x z.
Proof.
  intros (A1 & A2 & A3 & A4 & A5 & f & A6 & A7) (B1 & B2 & B3 & B4 & B5 & g & B6 & B7). unfold leaf_match. repeat (split; [first [assumption|congruence]|]). exists f. split; congruence.
Qed.
Lemma leaf_match_sym b x y : leaf_match b x y -> leaf_match b y x.
Proof. intros (A1 & A2 & A3 & A4 & A5 & f & A6 & A7). unfold leaf_match. repeat (split; [first [assumption|congruence]|]). exists f. auto. Qed.
Lemma tm_sym b x y : tree_match b x y -> tree_match b y x.
Proof. unfold tree_match. induction 1 as [|p q l m [H1 H2] _ IH]; constructor; auto. split; [auto|now apply leaf_match_sym]. Qed.
Lemma F2_trans_leaf b (l m : list (path * dist)) : Forall2 (fun p q => fst p = fst q /\ leaf_match b (snd p) (snd q)) l m -> forall k,
  Forall2 (fun p q => fst p = fst q /\ leaf_match b (snd p) (snd q)) m k -> Forall2 (fun p q => fst p = fst q /\ leaf_match b (snd p) (snd q)) l k.
Proof.
  induction 1 as [|p q l m [H1 H2] _ IH]; intros k Hk; inversion Hk; subst; constructor; auto. destruct H3 as [H3 H4]. split; [congruence|]. eapply leaf_match_trans; eauto.
Qed.
Lemma tm_trans b x y z : tree_match b x y -> tree_match b y z -> tree_match b x z.
Proof. intros H1 H2. exact (F2_trans_leaf b _ _ H1 _ H2). Qed.
Lemma skel_leafat x y p q : same_skeleton x y -> dist_at x p = Some q -> dcls (leafat y p) = dcls q /\ dist_at y p = Some (leafat y p).
Proof. intros S H. destruct (S p) as [S1 _]. rewrite H in S1. unfold leafat. destruct (dist_at y p); [|discriminate]. cbn in S1. injection S1 as S1. auto. Qed.
Lemma tm_shaped b x y : well_formed x = true -> well_formed y = true -> tree_match b x y -> shaped b x = true /\ shaped b y = true.
Proof.
  intros Wx Wy H. split.
  - apply (shaped_of_leaves b x [] Wx). intros p q Hi. now destruct (tm_leaf b x y p q Wx Wy H Hi) as [(_ & _ & S1 & _) _].
  - apply (shaped_of_leaves b y [] Wy). intros p q Hi. apply tm_sym in H. now destruct (tm_leaf b y x p q Wy Wx H Hi) as [(_ & _ & S1 & _) _].
Qed.

Lemma param_leaf d : forall p v, well_formed d = true -> param_at d p = Some v -> exists p' n q, p = p' ++ [n] /\ dist_at d p' = Some q /\ is_joint (dcls q) = false.
Proof.
  induction d as [c m ps subs IH] using dist_rect'. intros p v W H. pose proof (wf_inv _ _ _ _ W) as (Hps & _ & _ & Hsub). destruct p as [|n [|n' p]]; [discriminate| |].
  - exists [], n, (Dist c m ps subs). split; [reflexivity|]. split; [reflexivity|]. cbn [param_at dparams] in H. apply dget_In, (in_map fst) in H. rewrite Hps in H. cbn [dcls]. destruct c; try reflexivity; destruct H.
  - change (match dget subs n with Some s => param_at s (n' :: p) | None => None end = Some v) in H. destruct (dget subs n) as [s|] eqn:E; [|discriminate].
    pose proof (dget_In _ _ _ E) as Hi. rewrite Forall_forall in IH, Hsub.
    destruct (IH _ Hi (n' :: p) v (Hsub _ Hi) H) as (p' & k & q & Ep & Hq & J). exists (n :: p'), k, q. split; [now rewrite Ep|]. split; [|exact J]. cbn [dist_at sub_distributions]. now rewrite E.
Qed.
Lemma dist_at_app d p : forall q x, dist_at d p = Some q -> param_at d (p ++ [x]) = dget (dparams q) x.
Proof. intros q x H. exact (param_at_dist d p q x H). Qed.
(** parameter_map with an operation that keeps shapes *)
Lemma map_match op b x ys : well_formed x = true ->
  (forall y, In y ys -> well_formed y = true /\ same_skeleton x y /\ tree_match b x y) -> tree_match b x x ->
  (forall v ws, length ws = length ys -> Forall (like v) ws -> exists u, op (v :: ws) = Ok u /\ like v u) ->
  exists r, parameter_map op x ys = Ok r /\ well_formed r = true /\ no_custom_minimizer r = true /\ same_skeleton x r /\ tree_match b x r /\
    (forall p q, In (p, q) (leaves [] x) -> parameter_map op q (map (fun y => leafat y p) ys) = Ok (leafat r p)) /\
    (forall p f v ws, field_at x p = Some f -> param_at x p = Some v -> Forall2 (fun y w => param_at y p = Some w) ys ws ->
      if fd_fixed f then param_at r p = Some v else exists u, op (v :: ws) = Ok u /\ param_at r p = Some u).
Proof.
  intros Wx Hys Txx Hop. destruct (tm_shaped b x x Wx Wx Txx) as [Sx _]. destruct (create_shaped b x Wx Sx) as [infos Hc].
  assert (Hys' : forall y, In y ys -> well_formed y = true /\ same_skeleton x y) by (intros y Hy; destruct (Hys y Hy) as (A & B & _); auto).
  assert (Hlk : forall p v ws, param_at x p = Some v -> Forall2 (fun y w => param_at y p = Some w) ys ws -> length ws = length ys /\ Forall (like v) ws).
  { intros p v ws Hv Hw. split; [symmetry; now apply (forall2_length _ _ _ Hw)|]. apply Forall_forall. intros w Hi. destruct (Forall2_in_r _ _ _ _ Hw Hi) as (y & Hy & Hp).
    destruct (Hys y Hy) as (Wy & Sy & Ty). clear Hw.
    destruct (param_field x p v Wx Hv) as [f Hf].
    destruct (param_leaf x p v Wx Hv) as (p' & n & q & -> & Hq & Jq). rewrite (param_at_dist x p' q n Hq) in Hv.
    assert (Hql : In (p', q) (leaves [] x)) by (apply leaf_in; auto). destruct (tm_leaf b x y p' q Wx Wy Ty Hql) as [M _].
    destruct (skel_leafat x y p' q Sy Hq) as [C D]. rewrite (param_at_dist y p' _ n D) in Hp.
    assert (Hif : exists f, In f (fields (dcls q)) /\ fd_name f = n).
    { assert (Wq : well_formed q = true) by exact (dist_at_wf x p' q Wx Hq). destruct q as [c m ps subs]. apply wf_inv in Wq as (E & _). cbn [dparams dcls] in *.
      apply dget_In in Hv. apply (in_map fst) in Hv. cbn in Hv. rewrite E in Hv. apply in_map_iff in Hv as (g & Hg & Hgi). eauto. }
    destruct Hif as (g & Hg & <-). destruct (match_like b q _ g M C Hg) as (v' & w' & E1 & E2 & Lk). congruence. }
  destruct (parameter_map_spec op x ys infos Wx Hc Hys') as (r & R1 & R2 & R3 & R4 & R5).
  { intros p f v ws _ _ Hv Hw. destruct (Hlk p v ws Hv Hw) as [H1 H2]. destruct (Hop v ws H1 H2) as (u & Hu & _). eauto. }
  exists r. split; [exact R1|]. split; [exact R2|]. split; [exact R3|]. split; [exact R4|]. split; [|split; [exact (map_leaves op b x ys r Wx Sx Hys' R1)|exact R5]].
  apply tm_of; auto; [now apply skel_leaf_paths|]. intros p q Hi. pose proof (proj1 (leaf_in x p q Wx) Hi) as [Hd Hj].
  destruct (skel_leafat x r p q R4 Hd) as [C D]. destruct (leaf_wf x [] p q Wx Hi) as [Wq _].
  assert (Wr : well_formed (leafat r p) = true) by exact (dist_at_wf r p _ R2 D).
  assert (Hfl : forall f, In f (fields (dcls q)) -> exists v w, dget (dparams q) (fd_name f) = Some v /\ dget (dparams (leafat r p)) (fd_name f) = Some w /\ like v w).
  { intros f Hf. destruct (tm_leaf b x x p q Wx Wx Txx Hi) as [M _].
    assert (El : leafat x p = q) by (unfold leafat; now rewrite Hd). rewrite El in M. destruct (match_like b q q f M eq_refl Hf) as (v & _ & Hv & _).
    assert (Hpx : param_at x (p ++ [fd_name f]) = Some v) by (rewrite (param_at_dist x p q _ Hd); exact Hv).
    destruct (param_field x _ v Wx Hpx) as [g Hg]. pose proof (ys_values x ys _ v Hys' Wx Hpx) as Hw. specialize (R5 _ g v _ Hg Hpx Hw).
    rewrite (param_at_dist r p _ _ D) in R5. destruct (fd_fixed g).
    - exists v, v. split; [exact Hv|]. split; [exact R5|]. split; [reflexivity|]. now destruct v.
    - destruct R5 as (u & Hu & Hr). destruct (Hlk _ v _ Hpx Hw) as [H1 H2]. destruct (Hop v _ H1 H2) as (u' & Hu' & Lk). rewrite Hu in Hu'. injection Hu' as <-. eauto. }
  destruct (leaf_like b q (leafat r p) C (shaped_in b x p q Sx Hi) Hfl) as [L1 L2].
  unfold leaf_match. repeat (split; [first [assumption|now symmetry|exact (shaped_in b x p q Sx Hi)]|]).
  destruct (tm_leaf b x x p q Wx Wx Txx Hi) as [(_ & _ & _ & _ & _ & f & F1 & _) _]. exists f. rewrite C. auto.
Qed.

Lemma arr_sub_like v w : like v w -> exists u, sub_op [v; w] = Ok u /\ like v u.
Proof.
  intros [Hs Hk]. cbn. destruct v as [t|t], w as [u|u]; try easy; cbn [arr_sub ashape as_complex] in *.
  - rewrite tmap2_same by congruence. cbn. eexists. split; [reflexivity|]. split; [reflexivity|exact I].
  - rewrite tmap2_same by congruence. cbn. eexists. split; [reflexivity|]. split; [reflexivity|exact I].
Qed.
Lemma nat_tm_self b d : well_formed d = true -> (nat_tree d = true \/ exp_tree d = true) -> shaped b d = true -> tree_match b d d.
Proof.
  intros W N S. unfold tree_match. assert (H : forall p q, In (p, q) (leaves [] d) -> leaf_match b q q).
  { intros p q Hi. destruct (leaf_wf d [] p q W Hi) as [Wq _]. pose proof (shaped_in b d p q S Hi) as Sq. unfold leaf_match. repeat (split; [first [assumption|reflexivity]|]).
    destruct N as [N|N]; [destruct (nat_leaf d [] p q W N Hi) as [f Hf]|destruct (exp_leaf d [] p q W N Hi) as [f Hf]]; exists f; rewrite Hf; auto. }
  revert H. generalize (leaves [] d). induction l as [|[p q] l IH]; intros H; constructor; [|apply IH; intros; apply (H p0); now right]. split; [reflexivity|]. apply (H p). now left.
Qed.
Lemma leaf_tm b x y : is_joint (dcls x) = false -> is_joint (dcls y) = false -> leaf_match b x y -> tree_match b x y.
Proof. intros J1 J2 H. unfold tree_match. rewrite !leaf_leaves by assumption. constructor; [|constructor]. auto. Qed.
Lemma bind3 (A B C : result (tensor xr)) (op1 op2 : xr -> xr -> xr) :
  (let* a := A in let* b := B in let* x := tmap2 op1 a b in let* c := C in tmap2 op2 x c) =
  (let* x := (let* a := A in let* b := B in tmap2 op1 a b) in let* c := C in tmap2 op2 x c).
Proof. rewrite !bind_assoc. apply bind_ext. intros a _. now rewrite bind_assoc. Qed.

Section Main.
  Variable L : leaf_methods.
  Hypothesis G : good L.

  Lemma kl_leaf pl ql : is_nat (dcls pl) = true -> is_joint (dcls pl) = false ->
    kl_divergence_nat L pl ql = (let* e := l_to_exp L pl in let* d := parameter_map sub_op pl [ql] in
      let* x := (let* a := parameter_dot_product d e in let* b := log_normalizer L ql in tmap2 xadd a b) in let* c := log_normalizer L pl in tmap2 xsub x c).
  Proof.
    intros N J. unfold kl_divergence_nat, kl_divergence_exp. cbn [bind]. assert (E : to_exp L pl = l_to_exp L pl) by (destruct pl as [[] m ps subs]; try discriminate; reflexivity).
    rewrite E. apply bind_ext. intros e _. apply bind_ext. intros d _. apply bind3.
  Qed.
  Lemma exp_match_tree b d e : well_formed d = true -> nat_tree d = true -> shaped b d = true -> to_exp L d = Ok e -> well_formed e = true /\ exp_tree e = true /\ tree_match b d e.
  Proof. intros W N S E. destruct (g_exp_tree L G b d W N S) as (e' & E1 & E2 & E3 & _ & E5 & _). rewrite E in E1. injection E1 as <-. auto. Qed.
  Lemma kl_sum b p q : well_formed p = true -> well_formed q = true -> nat_tree p = true -> nat_tree q = true -> same_skeleton p q -> tree_match b p q ->
    sums_to (fun pl : path * dist => kl_divergence_nat L (snd pl) (leafat q (fst pl))) b (leaves [] p) (kl_divergence_nat L p q).
  Proof.
    intros Wp Wq Np Nq Sk T. destruct (tm_shaped b p q Wp Wq T) as [Sp Sq]. destruct (g_exp_tree L G b p Wp Np Sp) as (e & E1 & E2 & E3 & E4 & E5 & E6).
    pose proof (nat_tm_self b p Wp (or_introl Np) Sp) as Tpp.
    destruct (map_match sub_op b p [q] Wp) as (r & R1 & R2 & R3 & R4 & R5 & R6 & _); auto.
    { intros y [<-|[]]. auto. }
    { intros v [|w [|? ?]] Hl Hf; try discriminate. inversion Hf; subst. now apply arr_sub_like. }
    assert (Et : kl_divergence_nat L p q = (let* x := (let* a := parameter_dot_product r e in let* b := log_normalizer L q in tmap2 xadd a b) in let* c := log_normalizer L p in tmap2 xsub x c)).
    { unfold kl_divergence_nat, kl_divergence_exp. rewrite E1. cbn [bind]. rewrite R1. cbn [bind]. apply bind3. }
    rewrite Et. clear Et. apply (sums_ext (fun pl : path * dist => let* x := (let* a := parameter_dot_product (leafat r (fst pl)) (leafat e (fst pl)) in let* b := log_normalizer L (leafat q (fst pl)) in tmap2 xadd a b) in
       let* c := log_normalizer L (snd pl) in tmap2 xsub x c)).
    - intros [pth pl] Hi. cbn [fst snd]. rewrite kl_leaf.
      + assert (A1 : l_to_exp L pl = Ok (leafat e pth)) by (destruct (F2_leafat (R := fun a c => l_to_exp L a = Ok c) p e Wp E2 E6 pth pl Hi) as [A _]; exact A).
        rewrite A1. cbn [bind]. specialize (R6 pth pl Hi). cbn [map] in R6. rewrite R6. reflexivity.
      + destruct (nat_leaf p [] pth pl Wp Np Hi) as [f ->]. reflexivity.
      + destruct (nat_leaf p [] pth pl Wp Np Hi) as [f ->]. reflexivity.
    - apply sums_op2; [intros; apply xsum_sub| |now apply ln_sum].
      apply sums_op2; [intros; apply xsum_add| |].
      + apply dot_rebase; auto; [now apply F2_paths in R5|]. eapply tm_trans; [apply tm_sym; exact R5|exact E5].
      + apply (sums_rebase (fun pq => log_normalizer L (snd pq))); auto; [now apply F2_paths in T|now apply ln_sum].
  Qed.
  Lemma kl_exp_leaf pl ql : is_exp (dcls pl) = true -> is_joint (dcls pl) = false ->
    kl_divergence_exp L pl ql None = (let* e := l_to_nat L pl in let* d := parameter_map sub_op e [ql] in
      let* x := (let* a := parameter_dot_product d pl in let* b := log_normalizer L ql in tmap2 xadd a b) in let* c := log_normalizer L e in tmap2 xsub x c).
  Proof.
    intros N J. unfold kl_divergence_exp. assert (E : to_nat L pl = l_to_nat L pl) by (destruct pl as [[] m ps subs]; try discriminate; reflexivity).
    rewrite E. apply bind_ext. intros e _. apply bind_ext. intros d _. apply bind3.
  Qed.
  Lemma to_nat_skel b p q n : well_formed p = true -> exp_tree p = true -> shaped b p = true -> to_nat L p = Ok n -> well_formed q = true -> nat_tree q = true ->
    map fst (leaves [] p) = map fst (leaves [] q) -> same_skeleton n q -> tree_match b p q -> tree_match b n q.
  Proof.
    intros Wp Np Sp Hn Wq Nq E Sk T. destruct (g_nat_tree L G b p Wp Np Sp) as (n' & N1 & N2 & N3 & N4 & N5 & N6). rewrite Hn in N1. injection N1 as <-.
    eapply tm_trans; [apply tm_sym; exact N5|exact T].
  Qed.
  Lemma kl_exp_sum b p q n : well_formed p = true -> well_formed q = true -> exp_tree p = true -> nat_tree q = true -> to_nat L p = Ok n -> same_skeleton n q -> tree_match b p q ->
    sums_to (fun pl : path * dist => kl_divergence_exp L (snd pl) (leafat q (fst pl)) None) b (leaves [] p) (kl_divergence_exp L p q None).
  Proof.
    intros Wp Wq Np Nq Hn Sk T. destruct (tm_shaped b p q Wp Wq T) as [Sp Sq]. destruct (g_nat_tree L G b p Wp Np Sp) as (e & E1 & E2 & E3 & E4 & E5 & E6).
    rewrite Hn in E1. injection E1 as <-. destruct (tm_shaped b p n Wp E2 E5) as [_ Sn].
    pose proof (nat_tm_self b n E2 (or_introl E3) Sn) as Tnn. assert (Tnq : tree_match b n q) by (eapply tm_trans; [apply tm_sym; exact E5|exact T]).
    destruct (map_match sub_op b n [q] E2) as (r & R1 & R2 & R3 & R4 & R5 & R6 & _); auto.
    { intros y [<-|[]]. auto. }
    { intros v [|w [|? ?]] Hl Hf; try discriminate. inversion Hf; subst. now apply arr_sub_like. }
    assert (Et : kl_divergence_exp L p q None = (let* x := (let* a := parameter_dot_product r p in let* b := log_normalizer L q in tmap2 xadd a b) in let* c := log_normalizer L n in tmap2 xsub x c)).
    { unfold kl_divergence_exp. rewrite Hn. cbn [bind]. rewrite R1. cbn [bind]. apply bind3. }
    rewrite Et. clear Et.
    pose proof (F2_paths _ _ _ E5) as Ppn. pose proof (F2_paths _ _ _ R5) as Pnr.
    apply (sums_ext (fun pl : path * dist => let* x := (let* a := parameter_dot_product (leafat r (fst pl)) (leafat p (fst pl)) in let* b := log_normalizer L (leafat q (fst pl)) in tmap2 xadd a b) in
       let* c := log_normalizer L (leafat n (fst pl)) in tmap2 xsub x c)).
    - intros [pth pl] Hi. cbn [fst snd]. rewrite kl_exp_leaf.
      + destruct (F2_leafat (R := fun a c => l_to_nat L a = Ok c) p n Wp E2 E6 pth pl Hi) as [A1 A2].
        rewrite A1. cbn [bind]. specialize (R6 pth _ A2). cbn [map] in R6. rewrite R6. cbn [bind].
        assert (El : leafat p pth = pl) by (apply (leaf_in p pth pl Wp) in Hi as [Hi _]; unfold leafat; now rewrite Hi). now rewrite El.
      + destruct (exp_leaf p [] pth pl Wp Np Hi) as [f ->]. reflexivity.
      + destruct (exp_leaf p [] pth pl Wp Np Hi) as [f ->]. reflexivity.
    - apply sums_op2; [intros; apply xsum_sub| |].
      + apply sums_op2; [intros; apply xsum_add| |].
        * apply dot_rebase; auto; [congruence|]. eapply tm_trans; [apply tm_sym; exact R5|apply tm_sym; exact E5].
        * apply (sums_rebase (fun pq => log_normalizer L (snd pq))); auto; [now apply F2_paths in T|now apply ln_sum].
      + apply (sums_rebase (fun pq => log_normalizer L (snd pq))); auto. now apply ln_sum.
  Qed.
  Lemma ce_bind (A B C : result (tensor xr)) :
    (let* dp := A in let* lq := B in let* a := tmap2 xadd (tmap xneg dp) lq in let* e := C in tmap2 xsub a e) =
    (let* a := (let* dp := (let* d := A in Ok (tmap xneg d)) in let* lq := B in tmap2 xadd dp lq) in let* e := C in tmap2 xsub a e).
  Proof. rewrite !bind_assoc. apply bind_ext. intros a _. cbn [bind]. now rewrite bind_assoc. Qed.
  Lemma ce_sum b p q : well_formed p = true -> well_formed q = true -> all_nodes has_entropy_ep p = true -> nat_tree q = true -> tree_match b p q ->
    sums_to (fun pl : path * dist => cross_entropy L (snd pl) (leafat q (fst pl))) b (leaves [] p) (cross_entropy L p q).
  Proof.
    intros Wp Wq Np Nq T. destruct (tm_shaped b p q Wp Wq T) as [Sp Sq]. unfold cross_entropy. rewrite ce_bind.
    apply (sums_ext (fun pl : path * dist => let* a := (let* dp := (let* d := parameter_dot_product (leafat q (fst pl)) (snd pl) in Ok (tmap xneg d)) in let* lq := log_normalizer L (leafat q (fst pl)) in tmap2 xadd dp lq) in
      let* e := expected_carrier_measure L (snd pl) in tmap2 xsub a e)); [intros [pth pl] Hi; symmetry; apply ce_bind|].
    apply sums_op2; [intros; apply xsum_sub| |now apply ecm_sum_tree].
    apply sums_op2; [intros; apply xsum_add| |].
    - apply sums_op1; [intros; apply xsum_neg'|]. eapply sums_ext; [|apply (dot_rebase b p q p); auto; [now apply F2_paths in T|apply tm_sym; exact T]].
      intros [pth pl] Hi. cbn [fst snd]. assert (El : leafat p pth = pl) by (apply (leaf_in p pth pl Wp) in Hi as [Hi _]; unfold leafat; now rewrite Hi). now rewrite El.
    - apply (sums_rebase (fun pq => log_normalizer L (snd pq))); auto; [now apply F2_paths in T|now apply ln_sum].
  Qed.
  Lemma entropy_nat_sum b q : well_formed q = true -> nat_tree q = true -> shaped b q = true ->
    (forall p l f, In (p, l) (leaves [] q) -> dcls l = NP f -> has_entropy_ep (EP f) = true) ->
    sums_to (fun pl : path * dist => entropy_nat L (snd pl)) b (leaves [] q) (entropy_nat L q).
  Proof.
    intros Wq Nq Sq He. destruct (g_exp_tree L G b q Wq Nq Sq) as (e & E1 & E2 & E3 & E4 & E5 & E6). assert (Etop : entropy_nat L q = cross_entropy L e q) by (unfold entropy_nat; now rewrite E1). rewrite Etop.
    pose proof (F2_paths _ _ _ E5) as Pq.
    assert (Hh : all_nodes has_entropy_ep e = true).
    { assert (HL : forall p l, In (p, l) (leaves [] e) -> has_entropy_ep (dcls l) = true).
      { intros p l Hi. apply tm_sym in E5. destruct (tm_leaf b e q p l E2 Wq E5 Hi) as [(_ & _ & _ & _ & _ & f & F1 & F2) Hq].
        destruct (nat_leaf q [] p _ Wq Nq Hq) as [g Hg]. destruct (exp_leaf e [] p l E2 E3 Hi) as [h Hh]. rewrite Hg in F2. rewrite Hh in F1 |- *. cbn in F1, F2. injection F1 as ->. injection F2 as ->.
        exact (He p _ f Hq Hg). }
      revert E2 E3 HL. clear. intros E2 E3 HL. unfold exp_tree in E3.
      assert (K : forall base, (forall p l, In (p, l) (leaves base e) -> has_entropy_ep (dcls l) = true) -> all_nodes has_entropy_ep e = true); [|now apply (K [])].
      clear HL. induction e as [c m ps subs IH] using dist_rect'. intros base HL. cbn [all_nodes] in *. apply andb_prop in E3 as [Ec E3]. apply wf_inv in E2 as (_ & Hj & Hs & Hsub).
      cbn [leaves] in HL. destruct (is_joint c) eqn:J.
      - apply andb_true_intro. split; [destruct c; try discriminate; reflexivity|]. apply forallb_forall. intros ns Hi. rewrite Forall_forall in IH, Hsub. rewrite forallb_forall in E3.
        apply (IH _ Hi (Hsub _ Hi) (E3 _ Hi) (base ++ [fst ns])). intros p l Hl. apply (HL p). apply in_flat_map. eauto.
      - rewrite (Hs eq_refl). cbn. rewrite andb_true_r. exact (HL base _ (or_introl eq_refl)). }
    pose proof (ce_sum b e q E2 Wq Hh Nq (tm_sym _ _ _ E5)) as S. apply (sums_rebase _ b q e _ E2) in S; [|exact Pq].
    eapply sums_ext; [|exact S]. intros [pth l] Hi. cbn [fst snd].
    destruct (F2_leafat (R := fun a c => l_to_exp L a = Ok c) q e Wq E2 E6 pth l Hi) as [A1 A2].
    assert (El : leafat q pth = l) by (apply (leaf_in q pth l Wq) in Hi as [Hi _]; unfold leafat; now rewrite Hi). rewrite El.
    destruct (nat_leaf q [] pth l Wq Nq Hi) as [f Hf]. assert (Et : to_exp L l = l_to_exp L l) by (destruct l as [c m ps subs]; cbn in Hf; subst c; reflexivity). unfold entropy_nat, entropy_exp. rewrite Et, A1. reflexivity.
  Qed.
  Lemma entropy_exp_sum b p : well_formed p = true -> all_nodes has_entropy_ep p = true -> shaped b p = true ->
    sums_to (fun pl : path * dist => entropy_exp L (snd pl)) b (leaves [] p) (entropy_exp L p).
  Proof.
    intros Wp Hh Sp. assert (Np : exp_tree p = true).
    { clear -Hh. unfold exp_tree. induction p as [c m ps subs IH] using dist_rect'. cbn [all_nodes] in *. apply andb_prop in Hh as [Hc Hh]. apply andb_true_intro. split; [destruct c; try discriminate; reflexivity|].
      apply forallb_forall. intros ns Hi. rewrite Forall_forall in IH. rewrite forallb_forall in Hh. auto. }
    destruct (g_nat_tree L G b p Wp Np Sp) as (e & E1 & E2 & E3 & E4 & E5 & E6). assert (Etop : entropy_exp L p = cross_entropy L p e) by (unfold entropy_exp; now rewrite E1). rewrite Etop.
    eapply sums_ext; [|apply (ce_sum b p e Wp E2 Hh E3 E5)]. intros [pth l] Hi. cbn [fst snd].
    destruct (F2_leafat (R := fun a c => l_to_nat L a = Ok c) p e Wp E2 E6 pth l Hi) as [A1 A2].
    destruct (exp_leaf p [] pth l Wp Np Hi) as [f Hf]. assert (Et : to_nat L l = l_to_nat L l) by (destruct l as [c m ps subs]; cbn in Hf; subst c; reflexivity). unfold entropy_nat, entropy_exp. rewrite Et, A1. reflexivity.
  Qed.
End Main.
