(** C70: the three-point identity of the Kullback-Leibler divergence, and its consequences. *)
From Coquelicot Require Import Coquelicot.
From Coq Require Import String List Bool Arith Reals Lia Lra.
From Verif Require Import Base XReal Tensor TensorFacts Support Dist DictFacts Iteration Structure Spec StructFacts AssembleFacts ParamFacts ReplaceFacts SumSpec DotSpec Tools ToolThms MappingFacts Joint DotFacts StructThms Laws SumFacts MapFacts
  JointThms JointThms2 DotLaws KlThms SpecFun Expr Fam ExprFacts FamTy FamFacts BatchFacts ConvThms PointSpec PointFacts Val FamR FamVal ConvFacts DerivFacts MatDeriv BregFacts BregThms MatBreg LeafVal DerivThms KlPos IntGen IntFam IntThms JointKl InjThms MleThms
  CombThms FisherSpec FisherThms JointIntSpec CovSpec KlSpec GradSpec.
Import ListNotations.
Local Unset Asymmetric Patterns.
Local Open Scope R_scope.

Section T.
  Variable solve : minimizer -> dist -> nat -> xr.
  Notation L := (fam_methods solve).
  Notation G := (fam_good solve).
  Variables (b i : list nat) (p : dist).
  Definition ip (x y : dist) (pl : path * dist) : R :=
    match fam_n (snd pl) with Some (f, n) => dotP (NP f) (EP f) n (point_of (leafat x (fst pl)) i) (expR n (point_of (leafat y (fst pl)) i) f) | None => 0 end.
  Hypothesis P : joint_proper b i p.

  Lemma leaf_of x : well_formed x = true -> tree_in_domain x i -> same_skeleton p x -> tree_match b p x ->
    forall pth l, In (pth, l) (leaves [] p) -> exists f n, dcls l = NP f /\ fam_n l = Some (f, n) /\ at_pt b i (leafat x pth) (NP f) n (point_of (leafat x pth) i) /\ nat_dom f n (point_of (leafat x pth) i).
  Proof.
    destruct P as (W & N & S & Hi & H). intros Wx Hx Sk T pth l I. destruct (nat_leaf p [] pth l W N I) as [f Hf]. destruct (leaf_wf p [] pth l W I) as [Wl _]. pose proof (shaped_in b p pth l S I) as Sl.
    destruct (nat_dom_at b i l f Hi Hf Wl Sl (H pth l I)) as (n & A & K). exists f, n. split; [exact Hf|]. split; [unfold fam_n; now rewrite Hf, (ap_dims _ _ _ _ _ _ A)|].
    destruct (tm_leaf b p x pth l W Wx T I) as [(_ & Wl' & _ & Sl' & Ed & _) I']. pose proof (proj1 (leaf_in p pth l W) I) as [Hd _]. destruct (skel_leafat p x pth l Sk Hd) as [Cl _].
    destruct (nat_dom_at b i (leafat x pth) f Hi ltac:(congruence) Wl' Sl' (Hx _ _ I')) as (n' & A' & K'). assert (n' = n) by (pose proof (ap_dims _ _ _ _ _ _ A); pose proof (ap_dims _ _ _ _ _ _ A'); congruence). subst n'. auto.
  Qed.
  (** the inner product of a tree v and y.to_exp(), leaf by leaf *)
  Lemma ip_gen v y (g : path -> family -> point) : well_formed v = true -> tree_match b p v -> joint_proper b i y -> not_clipped y i -> same_skeleton p y -> tree_match b p y ->
    (forall pth l f n, In (pth, l) (leaves [] p) -> dcls l = NP f -> fam_n l = Some (f, n) -> at_pt b i (leafat v pth) (NP f) n (g pth f) /\ forall h j, In h (var_fields (NP f)) -> kind_of (fd_support h) = KR -> g pth f true (fd_name h) j = 0) ->
    mean_along L b i y v (rsum (map (fun pl : path * dist => match fam_n (snd pl) with Some (f, n) => dotP (NP f) (EP f) n (g (fst pl) f) (expR n (point_of (leafat y (fst pl)) i) f) | None => 0 end) (leaves [] p))).
  Proof.
    pose proof P as (W & N & S & Hi & H). intros Wv Tv (Wy & Ny & Sy & _ & Hy) U Sk T Av.
    destruct (g_exp_tree L G b y Wy Ny Sy) as (e & E1 & E2 & E3 & _ & E5 & E6).
    assert (Te : tree_match b v e) by (eapply tm_trans; [apply tm_sym; exact Tv|eapply tm_trans; [exact T|exact E5]]). destruct (dot_value b v e Wv E2 Te) as (t & D1 & D2 & D3).
    exists e, t. split; [exact E1|]. split; [exact D1|]. split; [exact D2|].
    assert (Pv : map fst (leaves [] p) = map fst (leaves [] v)) by exact (F2_paths _ _ _ Tv).
    assert (Pe : map fst (leaves [] p) = map fst (leaves [] e)) by (rewrite (F2_paths _ _ _ T); exact (F2_paths _ _ _ E5)).
    rewrite (D3 i Hi), (leaves_by_path p v Wv Pv), (leaves_by_path p e E2 Pe), combine_path, map_map. apply xsum_ext_Fin. intros [pth l] I. cbn [fst snd].
    destruct (leaf_of y Wy Hy Sk T pth l I) as (f & n & Cf & Fn & A & K). rewrite Fn. pose proof (Av pth l f n I Cf Fn) as [B Bz].
    destruct (tm_leaf b p y pth l W Wy T I) as [_ Iy].
    destruct (exp_at solve b i _ f n _ Hi A K (clip_leaf y i pth (leafat y pth) f U Iy (ap_cls _ _ _ _ _ _ A))) as (r & X1 & X2).
    assert (Er : l_to_exp L (leafat y pth) = Ok (leafat e pth)). { destruct (F2_leafat (R := fun a c => l_to_exp L a = Ok c) y e Wy E2 E6 pth _ Iy) as [Q _]. exact Q. }
    assert (r = leafat e pth) by congruence. subst r.
    pose proof (at_pt_pt _ _ _ _ _ _ Hi B) as Es. pose proof (at_pt_eq _ _ _ _ _ _ _ B Es) as B'.
    rewrite (inner_at b i (leafat v pth) (leafat e pth) f n _ Hi B' X2). f_equal. symmetry. apply dotP_pt; [exact Es|].
    intros h j Ih Kh. rewrite (Bz h j Ih Kh). apply filter_In in Ih as [Ih Fh]. now rewrite (im_real b i _ _ _ _ h j B' Ih Kh).
  Qed.
  Lemma real_leaf x : well_formed x = true -> tree_in_domain x i -> same_skeleton p x -> tree_match b p x ->
    forall pth l f n, In (pth, l) (leaves [] p) -> dcls l = NP f -> fam_n l = Some (f, n) -> at_pt b i (leafat x pth) (NP f) n (point_of (leafat x pth) i) /\
      forall h j, In h (var_fields (NP f)) -> kind_of (fd_support h) = KR -> point_of (leafat x pth) i true (fd_name h) j = 0.
  Proof.
    intros Wx Hx Sk T pth l f n I Cf Fn. destruct (leaf_of x Wx Hx Sk T pth l I) as (f' & n' & Cf' & Fn' & A & K). assert (f' = f) by congruence. assert (n' = n) by congruence. subst f' n'.
    split; [exact A|]. intros h j Ih Kh. apply filter_In in Ih as [Ih _]. exact (im_real b i _ _ _ _ h j A Ih Kh).
  Qed.
  Lemma ip_val x y : joint_proper b i x -> same_skeleton p x -> tree_match b p x -> joint_proper b i y -> not_clipped y i -> same_skeleton p y -> tree_match b p y ->
    mean_along L b i y x (rsum (map (ip x y) (leaves [] p))).
  Proof.
    intros (Wx & Nx & Sx & _ & Hx) Skx Tx Py Uy Sky Ty.
    exact (ip_gen x y (fun pth _ => point_of (leafat x pth) i) Wx Tx Py Uy Sky Ty (real_leaf x Wx Hx Skx Tx)).
  Qed.
  (** the divergence of two trees like p, as a sum over the leaves of p *)
  Definition klv (x y : dist) (pl : path * dist) : R :=
    match fam_n (snd pl) with Some (f, n) => brR f n (point_of (leafat x (fst pl)) i) (point_of (leafat y (fst pl)) i) | None => 0 end.
  Lemma kl_val x y : joint_proper b i x -> joint_proper b i y -> not_clipped x i -> same_skeleton p x -> tree_match b p x -> same_skeleton p y -> tree_match b p y ->
    value_is b i (kl_divergence_nat L x y) (rsum (map (klv x y) (leaves [] p))).
  Proof.
    pose proof P as (W & N & S & Hi & H). intros (Wx & Nx & Sx & _ & Hx) (Wy & Ny & Sy & _ & Hy) U Skx Tx Sky Ty.
    destruct (t_kl_value solve b i x y Wx Wy Nx (skel_trans _ _ _ (skel_sym _ _ Skx) Sky) (tm_trans _ _ _ _ (tm_sym _ _ _ Tx) Ty) Hi Hx Hy U) as (_ & t & T1 & T2 & T3).
    exists t. split; [exact T1|]. split; [exact T2|]. rewrite T3. f_equal.
    rewrite (leaves_by_path p x Wx (F2_paths _ _ _ Tx)), map_map. apply rsum_ext. intros [pth l] I. unfold kl_leaf_R, klv. cbn [fst snd].
    destruct (leaf_of x Wx Hx Skx Tx pth l I) as (f & n & Cf & Fn & A & K). rewrite Fn. unfold fam_n. now rewrite (ap_cls _ _ _ _ _ _ A), (ap_dims _ _ _ _ _ _ A).
  Qed.
End T.

Lemma three_leaf i p q r (l : path * dist) : klv i p r l = klv i p q l + klv i q r l + (ip i r q l - ip i r p l - ip i q q l + ip i q p l).
Proof. unfold klv, ip. destruct (fam_n (snd l)) as [[f n]|]; [|lra]. unfold brR. rewrite !dotP_psub. lra. Qed.
Lemma rsum_three {A} (a b c d e f g : A -> R) l : (forall x, In x l -> a x = b x + c x + (d x - e x - f x + g x)) ->
  rsum (map a l) = rsum (map b l) + rsum (map c l) + (rsum (map d l) - rsum (map e l) - rsum (map f l) + rsum (map g l)).
Proof.
  induction l as [|x l IH]; intros H; cbn [map rsum fold_right]; [lra|]. specialize (IH (fun y Hy => H y (or_intror Hy))). pose proof (H x (or_introl eq_refl)). unfold rsum in *. cbn [fold_right] in *. lra.
Qed.
Lemma mean_fun L b i q v m m' : mean_along L b i q v m -> mean_along L b i q v m' -> m = m'.
Proof. intros (e & t & E & D & _ & V) (e' & t' & E' & D' & _ & V'). rewrite E in E'. injection E' as <-. rewrite D in D'. injection D' as <-. rewrite V in V'. now injection V'. Qed.
Lemma value_fun b i r m m' : value_is b i r m -> value_is b i r m' -> m = m'.
Proof. intros (t & E & _ & V) (t' & E' & _ & V'). rewrite E in E'. injection E' as <-. rewrite V in V'. now injection V'. Qed.
Lemma tm_refl_l b x y : tree_match b x y -> tree_match b x x.
Proof. intros T. exact (tm_trans _ _ _ _ T (tm_sym _ _ _ T)). Qed.
Lemma skel_refl x : same_skeleton x x. Proof. intros p. split; reflexivity. Qed.

Section Thms.
  Variable solve : minimizer -> dist -> nat -> xr.
  Notation L := (fam_methods solve).
  Variables (b i : list nat).
  Theorem t_three p q r : joint_proper b i p -> joint_proper b i q -> joint_proper b i r -> not_clipped p i -> not_clipped q i ->
    same_skeleton p q -> tree_match b p q -> same_skeleton p r -> tree_match b p r ->
    exists kpr kpq kqr rq rp qq qp, value_is b i (kl_divergence_nat L p r) kpr /\ value_is b i (kl_divergence_nat L p q) kpq /\ value_is b i (kl_divergence_nat L q r) kqr /\
      mean_along L b i q r rq /\ mean_along L b i p r rp /\ mean_along L b i q q qq /\ mean_along L b i p q qp /\
      kpr = kpq + kqr + ((rq - rp) - (qq - qp)).
  Proof.
    intros Pp Pq Pr Up Uq Skq Tq Skr Tr. pose proof (tm_refl_l _ _ _ Tq) as Tp. pose proof (skel_refl p) as Skp.
    exists (rsum (map (klv i p r) (leaves [] p))), (rsum (map (klv i p q) (leaves [] p))), (rsum (map (klv i q r) (leaves [] p))).
    exists (rsum (map (ip i r q) (leaves [] p))), (rsum (map (ip i r p) (leaves [] p))), (rsum (map (ip i q q) (leaves [] p))), (rsum (map (ip i q p) (leaves [] p))).
    do 3 (split; [now apply kl_val|]). do 4 (split; [now apply ip_val|]).
    rewrite (rsum_three _ _ _ _ _ _ _ _ (fun x _ => three_leaf i p q r x)). lra.
  Qed.
  Theorem t_symmetrised p q : joint_proper b i p -> joint_proper b i q -> not_clipped p i -> not_clipped q i -> same_skeleton p q -> tree_match b p q ->
    exists kpq kqp pp pq qp qq, value_is b i (kl_divergence_nat L p q) kpq /\ value_is b i (kl_divergence_nat L q p) kqp /\
      mean_along L b i p p pp /\ mean_along L b i q p pq /\ mean_along L b i p q qp /\ mean_along L b i q q qq /\
      kpq + kqp = (pp - pq) - (qp - qq).
  Proof.
    intros Pp Pq Up Uq Sk T. pose proof (tm_refl_l _ _ _ T) as Tp. pose proof (skel_refl p) as Skp.
    destruct (t_three p q p Pp Pq Pp Up Uq Sk T Skp Tp) as (k0 & kpq & kqp & pq & pp & qq & qp & K0 & K1 & K2 & M1 & M2 & M3 & M4 & E).
    exists kpq, kqp, pp, pq, qp, qq. repeat (split; [assumption|]).
    assert (Z : k0 = 0). { apply (value_fun _ _ _ _ _ K0). destruct Pp as (W & N & S & Hi & H). pose proof (kl_val solve b i p (conj W (conj N (conj S (conj Hi H)))) p p (conj W (conj N (conj S (conj Hi H)))) (conj W (conj N (conj S (conj Hi H)))) Up Skp Tp Skp Tp) as V.
      enough (Q : rsum (map (klv i p p) (leaves [] p)) = 0) by (rewrite Q in V; exact V). apply rsum_0. intros [pth l] _. unfold klv. cbn [fst snd]. destruct (fam_n l) as [[f n]|]; [|reflexivity]. unfold brR. rewrite dotP_psub. lra. }
    lra.
  Qed.
  (** the inner products with a difference r - q *)
  Lemma diff_val p q r v y : joint_proper b i p -> joint_proper b i q -> joint_proper b i r -> same_skeleton p q -> tree_match b p q -> same_skeleton p r -> tree_match b p r ->
    finite_vars q -> finite_vars r -> parameter_map (lin_op 1 (-1)) r [q] = Ok v ->
    joint_proper b i y -> not_clipped y i -> same_skeleton p y -> tree_match b p y ->
    exists ry qy, mean_along L b i y r ry /\ mean_along L b i y q qy /\ mean_along L b i y v (ry - qy).
  Proof.
    intros Pp Pq Pr Skq Tq Skr Tr Fq Fr V Py Uy Sky Ty. exists (rsum (map (ip i r y) (leaves [] p))), (rsum (map (ip i q y) (leaves [] p))).
    split; [now apply ip_val|]. split; [now apply ip_val|].
    pose proof Pp as (W & N & S & Hi & H). pose proof Pq as (Wq & Nq & Sq & _ & Hq). pose proof Pr as (Wr & Nr & Sr & _ & Hr).
    destruct (map_lin_full _ 1 (-1) (lin_op_linear 1 (-1)) b r q Wr Wq (skel_trans _ _ _ (skel_sym _ _ Skr) Skq) (tm_trans _ _ _ _ (tm_sym _ _ _ Tr) Tq) Fr Fq) as (v' & R1 & R2 & R3 & R4 & R5 & R6 & R7).
    rewrite V in R1. injection R1 as <-.
    assert (Tv : tree_match b p v) by exact (tm_trans _ _ _ _ Tr R5).
    enough (Q : mean_along L b i y v (rsum (map (fun pl : path * dist => match fam_n (snd pl) with Some (f, n) => dotP (NP f) (EP f) n (padd (NP f) (point_of (leafat r (fst pl)) i) (point_of (leafat q (fst pl)) i) (-1)) (expR n (point_of (leafat y (fst pl)) i) f) | None => 0 end) (leaves [] p)))).
    { rewrite rsum_sub. erewrite rsum_ext; [exact Q|]. intros [pth l] _. unfold ip. cbn [fst snd]. destruct (fam_n l) as [[f n]|]; [|lra]. rewrite dot_padd. lra. }
    apply (ip_gen solve b i p Pp v y (fun pth f => padd (NP f) (point_of (leafat r pth) i) (point_of (leafat q pth) i) (-1)) R2 Tv Py Uy Sky Ty).
    intros pth l f n I Cf Fn. destruct (real_leaf b i p Pp r Wr Hr Skr Tr pth l f n I Cf Fn) as [A Az]. destruct (real_leaf b i p Pp q Wq Hq Skq Tq pth l f n I Cf Fn) as [B Bz].
    split; [|intros h j Ih Kh; unfold padd; rewrite (Az h j Ih Kh), (Bz h j Ih Kh); destruct (existsb _ _); lra].
    destruct (tm_leaf b p r pth l W Wr Tr I) as [_ Ir]. destruct (R6 pth _ Ir) as [G1 G2]. pose proof (R7 pth _ Ir) as G3.
    destruct (tm_leaf b r v pth _ Wr R2 R5 Ir) as [(_ & Wl' & _ & Sl' & Ed & _) _]. pose proof (proj1 (leaf_in r pth _ Wr) Ir) as [Hd _]. destruct (skel_leafat r v pth _ R4 Hd) as [Cl _].
    pose proof (ap_cls _ _ _ _ _ _ A) as Cr. rewrite Cr in *.
    apply DerivThms.line_at; auto; [rewrite <- Ed; exact (ap_dims _ _ _ _ _ _ A)].
  Qed.

  Theorem t_difference p q r v : joint_proper b i p -> joint_proper b i q -> joint_proper b i r -> not_clipped p i -> not_clipped q i ->
    same_skeleton p q -> tree_match b p q -> same_skeleton p r -> tree_match b p r -> finite_vars q -> finite_vars r -> parameter_map (lin_op 1 (-1)) r [q] = Ok v ->
    exists kpr kpq kqr mp mq, value_is b i (kl_divergence_nat L p r) kpr /\ value_is b i (kl_divergence_nat L p q) kpq /\ value_is b i (kl_divergence_nat L q r) kqr /\
      mean_along L b i p v mp /\ mean_along L b i q v mq /\ kpr = kpq + kqr + (mq - mp).
  Proof.
    intros Pp Pq Pr Up Uq Skq Tq Skr Tr Fq Fr V. pose proof (tm_refl_l _ _ _ Tq) as Tp. pose proof (skel_refl p) as Skp.
    destruct (t_three p q r Pp Pq Pr Up Uq Skq Tq Skr Tr) as (kpr & kpq & kqr & rq & rp & qq & qp & K1 & K2 & K3 & M1 & M2 & M3 & M4 & E).
    destruct (diff_val p q r v p Pp Pq Pr Skq Tq Skr Tr Fq Fr V Pp Up Skp Tp) as (a & c & A1 & A2 & A3).
    destruct (diff_val p q r v q Pp Pq Pr Skq Tq Skr Tr Fq Fr V Pq Uq Skq Tq) as (a' & c' & B1 & B2 & B3).
    exists kpr, kpq, kqr, (a - c), (a' - c'). repeat (split; [assumption|]).
    rewrite <- (mean_fun _ _ _ _ _ _ _ M1 B1), <- (mean_fun _ _ _ _ _ _ _ M2 A1), <- (mean_fun _ _ _ _ _ _ _ M3 B2), <- (mean_fun _ _ _ _ _ _ _ M4 A2). lra.
  Qed.
  Theorem t_pythagoras p q r v m : joint_proper b i p -> joint_proper b i q -> joint_proper b i r -> not_clipped p i -> not_clipped q i ->
    same_skeleton p q -> tree_match b p q -> same_skeleton p r -> tree_match b p r -> same_fixed_at b i q r -> finite_vars q -> finite_vars r ->
    parameter_map (lin_op 1 (-1)) r [q] = Ok v -> mean_along L b i p v m -> mean_along L b i q v m ->
    exists kpr kpq kqr, value_is b i (kl_divergence_nat L p r) kpr /\ value_is b i (kl_divergence_nat L p q) kpq /\ value_is b i (kl_divergence_nat L q r) kqr /\
      kpr = kpq + kqr /\ kpq <= kpr /\ (kpq = kpr <-> same_at b i q r).
  Proof.
    intros Pp Pq Pr Up Uq Skq Tq Skr Tr Fx Fq Fr V Mp Mq.
    destruct (t_difference p q r v Pp Pq Pr Up Uq Skq Tq Skr Tr Fq Fr V) as (kpr & kpq & kqr & mp & mq & K1 & K2 & K3 & M1 & M2 & E).
    rewrite <- (mean_fun _ _ _ _ _ _ _ Mp M1), <- (mean_fun _ _ _ _ _ _ _ Mq M2) in E.
    destruct Pq as (Wq & Nq & Sq & Hi & Hq). destruct Pr as (Wr & Nr & Sr & _ & Hr).
    destruct (t_kl solve b i q r Wq Wr Nq (skel_trans _ _ _ (skel_sym _ _ Skq) Skr) (tm_trans _ _ _ _ (tm_sym _ _ _ Tq) Tr) Hi Hq Hr Uq Fx) as (t & k & T1 & T2 & T3 & T4 & T5).
    assert (k = kqr) by (apply (value_fun b i (kl_divergence_nat L q r)); [exists t; auto|exact K3]). subst k.
    exists kpr, kpq, kqr. repeat (split; [assumption|]). split; [lra|]. split; [lra|]. rewrite <- T5. split; intros; lra.
  Qed.
End Thms.
