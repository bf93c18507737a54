(** C71: mixtures of natural parameters. *)
From Coquelicot Require Import Coquelicot.
From Coq Require Import String List Bool Arith Reals Lia Lra.
From Verif Require Import Base XReal Tensor TensorFacts TensorFacts2 Support Dist DictFacts Iteration Structure Spec StructFacts AssembleFacts ParamFacts ReplaceFacts SumSpec DotSpec Tools ToolThms MappingFacts Joint DotFacts StructThms Laws SumFacts MapFacts
  JointThms JointThms2 DotLaws KlThms SpecFun Expr Fam ExprFacts FamTy FamFacts BatchFacts ConvThms PointSpec PointFacts Val FamR FamVal ConvFacts DerivFacts MatDeriv MatHess BregFacts BregThms MatBreg LeafVal DerivThms KlPos IntGen IntFam IntThms JointKl InjThms MleThms
  VarThms GradFacts FisherMat FisherSpec JointIntSpec CovSpec KlSpec GradSpec KlTri.
Import ListNotations.
Local Unset Asymmetric Patterns.
Local Open Scope string_scope.
Local Open Scope R_scope.

(** ** leaves *)
Lemma dom_convex f n p q s : f <> VonMisesFisher -> nat_dom f n p -> nat_dom f n q -> 0 <= s <= 1 -> nat_dom f n (padd (NP f) p (psub q p) s).
Proof.
  intros Nv A B Hs. destruct (mat f) eqn:M; [exact (mat_convex f n p q s M A B Hs)|].
  assert (Lt : forall x y z, x < z -> y < z -> x + s * (y - x) < z).
  { intros x y z X Y. destruct (Req_dec s 1) as [->|]; [lra|]. pose proof (Rmult_lt_0_compat (1 - s) (z - x) ltac:(lra) ltac:(lra)). pose proof (Rmult_le_pos s (z - y) ltac:(lra) ltac:(lra)). lra. }
  assert (Gt : forall x y z, z < x -> z < y -> z < x + s * (y - x)) by (intros x y z X Y; pose proof (Lt (- x) (- y) (- z) ltac:(lra) ltac:(lra)); lra).
  destruct f; try discriminate M; try (now destruct Nv); revert A B; cbn [nat_dom]; adds; unfold psub; try (intros; exact Logic.I); try (intros; solve [auto]).
  all: try solve [intros [? ?] [? ?]; split; auto].
  - intros [A1 A2] [B1 B2]. split; [auto|].
    destruct (Req_dec s 0) as [->|S0]; [rewrite !Rmult_0_l, !Rplus_0_r; exact A2|]. destruct (Req_dec s 1) as [->|S1]; [rewrite !Rmult_1_l; replace (p false "negative_precision" [] + (q false "negative_precision" [] - p false "negative_precision" [])) with (q false "negative_precision" []) by ring;
      replace (p false "pseudo_precision" [] + (q false "pseudo_precision" [] - p false "pseudo_precision" [])) with (q false "pseudo_precision" []) by ring; replace (p true "pseudo_precision" [] + (q true "pseudo_precision" [] - p true "pseudo_precision" [])) with (q true "pseudo_precision" []) by ring; exact B2|].
    set (a := p false "pseudo_precision" []) in *. set (a' := p true "pseudo_precision" []) in *. set (c := p false "negative_precision" []) in *. set (d := q false "pseudo_precision" []) in *. set (d' := q true "pseudo_precision" []) in *. set (e := q false "negative_precision" []) in *.
    assert (X1 : (1 - s) * c < 0) by nra. assert (X2 : s * e < 0) by nra.
    assert (Y1 : ((1 - s) * a) * ((1 - s) * a) + ((1 - s) * a') * ((1 - s) * a') < ((1 - s) * c) * ((1 - s) * c)).
    { replace (((1 - s) * a) * ((1 - s) * a) + ((1 - s) * a') * ((1 - s) * a')) with ((1 - s) * (1 - s) * (a * a + a' * a')) by ring. replace (((1 - s) * c) * ((1 - s) * c)) with ((1 - s) * (1 - s) * (c * c)) by ring. apply Rmult_lt_compat_l; [nra|exact A2]. }
    assert (Y2 : (s * d) * (s * d) + (s * d') * (s * d') < (s * e) * (s * e)).
    { replace ((s * d) * (s * d) + (s * d') * (s * d')) with (s * s * (d * d + d' * d')) by ring. replace ((s * e) * (s * e)) with (s * s * (e * e)) by ring. apply Rmult_lt_compat_l; [nra|exact B2]. }
    pose proof (cone _ _ _ _ _ _ X1 Y1 X2 Y2) as C. nra.
  - intros A B k K. destruct (A k K), (B k K). split; auto.
Qed.
Lemma mix_at b i q v r c n s : inb b i = true -> at_pt b i q c n (point_of q i) -> at_pt b i v c n (point_of v i) ->
  dcls r = c -> well_formed r = true -> leaf_shaped b r = true -> dims_of r = Ok n -> leaf_fin r ->
  (forall f, In f (var_fields c) -> forall k, inb (ashape (fv q f)) k = true ->
     rv (entry_c (fv r f) k) = (1 - s) * rv (entry_c (fv q f) k) + s * rv (entry_c (fv v f) k) /\ iv (entry_c (fv r f) k) = (1 - s) * iv (entry_c (fv q f) k) + s * iv (entry_c (fv v f) k)) ->
  (forall f, In f (fields c) -> fd_fixed f = true -> dget (dparams r) (fd_name f) = dget (dparams q) (fd_name f)) ->
  at_pt b i r c n (padd c (point_of q i) (psub (point_of v i) (point_of q i)) s).
Proof.
  intros Hi A B C W S D F V X. split; try assumption. intros m k sh j E Hj. destruct (ctx_field _ _ _ _ _ E) as (f & I & <- & -> & ->).
  destruct (ap_get _ _ _ _ _ _ f A I) as (x & X1 & X2 & X3). destruct (ap_get _ _ _ _ _ _ f B I) as (y & Y1 & Y2 & Y3).
  assert (Hij : inb (b ++ supp_shape (fd_support f) n) (i ++ j) = true) by (rewrite inb_app by (now apply inb_length); now rewrite Hi, Hj).
  pose proof (fixed_names c f I) as N. destruct (fd_fixed f) eqn:Ef.
  - unfold vals_of. rewrite (X f I Ef). pose proof (ap_vals _ _ _ _ _ _ A _ _ _ j E Hj) as Q. unfold vals_of in Q. rewrite Q.
    assert (P : forall k, padd c (point_of q i) (psub (point_of v i) (point_of q i)) s k (fd_name f) j = point_of q i k (fd_name f) j) by (intros k; unfold padd; now rewrite N).
    unfold pvals. destruct (kind_of (fd_support f)); rewrite ?P; reflexivity.
  - assert (If : In f (var_fields c)) by (apply filter_In; now rewrite Ef). specialize (V f If (i ++ j)%list). unfold fv at 1 in V. rewrite X1, X2 in V. specialize (V Hij).
    assert (E' : dget (ctx_of (dcls r) n) (fd_name f) = Some (kind_of (fd_support f), supp_shape (fd_support f) n)) by (rewrite C; exact E).
    destruct (leaf_env b r n S D _ _ _ E') as (t & T1 & T2). rewrite <- C in If. specialize (F f If (i ++ j)%list). unfold fv in F, V. rewrite T1 in F, V. rewrite X1, Y1 in V.
    assert (Sz : ashape (pack (kind_of (fd_support f)) t) = (b ++ supp_shape (fd_support f) n)%list) by (destruct (kind_of (fd_support f)); exact T2). rewrite Sz in F. specialize (F Hij). apply fin_rv in F. destruct V as [V1 V2]. rewrite V1, V2 in F.
    assert (P : forall k, padd c (point_of q i) (psub (point_of v i) (point_of q i)) s k (fd_name f) j = point_of q i k (fd_name f) j + s * (point_of v i k (fd_name f) j - point_of q i k (fd_name f) j)) by (intros k; unfold padd, psub; now rewrite N).
    unfold vals_of. rewrite T1, get_pack. unfold pvals. destruct (kind_of (fd_support f)); rewrite ?P; unfold point_of; rewrite X1, Y1; cbn [pack entry_c comp] in *.
    + injection F as F _. etransitivity; [exact F|]. f_equal. unfold rv, toR. ring.
    + etransitivity; [exact F|]. unfold rv, iv, toR. f_equal; f_equal; ring.
Qed.
Lemma br_zero f n p q : dims_ok (NP f) n = true -> nat_dom f n p -> nat_dom f n q -> real_im (NP f) p -> real_im (NP f) q -> pt_eq (NP f) n p q -> brR f n p q = 0.
Proof.
  intros D P Q Ip Iq E. unfold brR. rewrite dotP_psub, (dotP_pt _ _ _ p q _ E); [|intros g j Ig Kg; apply filter_In in Ig as [Ig _]; now rewrite (Ip g j Ig Kg), (Iq g j Ig Kg)].
  rewrite (GradFacts.lnR_pt f n p q D P Q E). lra.
Qed.
Lemma pt_sym c n p q : pt_eq c n p q -> pt_eq c n q p.
Proof. intros H m k s j E Hj. symmetry. exact (H m k s j E Hj). Qed.
Lemma pt_trans c n p q r : pt_eq c n p q -> pt_eq c n q r -> pt_eq c n p r.
Proof. intros H G m k s j E Hj. etransitivity; [exact (H m k s j E Hj)|exact (G m k s j E Hj)]. Qed.
Section C.
  Variables (f : family) (n : nat) (P Q M : point) (s : R).
  Hypothesis (D : dims_ok (NP f) n = true) (KP : nat_dom f n P) (KQ : nat_dom f n Q) (KM : nat_dom f n M) (IP : real_im (NP f) P) (IQ : real_im (NP f) Q) (IM : real_im (NP f) M)
    (Fx : fix_eq (NP f) n P Q) (EM : pt_eq (NP f) n (padd (NP f) P (psub Q P) s) M) (Hs : 0 <= s <= 1).
  Lemma mix_dot e : dotP (NP f) (EP f) n M e = dotP (NP f) (EP f) n P e + s * (dotP (NP f) (EP f) n Q e - dotP (NP f) (EP f) n P e).
  Proof.
    rewrite <- dotP_psub, <- dot_padd. symmetry. apply dotP_pt; [exact EM|]. intros g j Ig Kg. apply filter_In in Ig as [Ig _]. rewrite (IM g j Ig Kg). unfold padd, psub. rewrite (IP g j Ig Kg), (IQ g j Ig Kg). destruct (existsb _ _); lra.
  Qed.
  Lemma fix_MP : fix_eq (NP f) n M P.
  Proof.
    apply pt_elim in EM. apply Forall_forall. intros g I Fg j Hj. rewrite Forall_forall in EM. destruct (EM g I j Hj) as [E1 E2].
    assert (X : forall k, padd (NP f) P (psub Q P) s k (fd_name g) j = P k (fd_name g) j) by (intros k; unfold padd; rewrite (fixed_names _ g I), Fg; reflexivity). rewrite !X in *. split; [now symmetry|]. intros K. symmetry. auto.
  Qed.
  Lemma fix_MQ : fix_eq (NP f) n M Q.
  Proof.
    pose proof fix_MP as F. unfold fix_eq in *. rewrite Forall_forall in *. intros g I Fg j Hj. destruct (F g I Fg j Hj) as [A B]. destruct (Fx g I Fg j Hj) as [A' B']. split; [congruence|]. intros K. rewrite (B K). auto.
  Qed.
  Lemma gap : (1 - s) * lnR n P f + s * lnR n Q f - lnR n M f = (1 - s) * brR f n M P + s * brR f n M Q.
  Proof. unfold brR. rewrite !dotP_psub, mix_dot. lra. Qed.
  Lemma convex_leaf : lnR n M f <= (1 - s) * lnR n P f + s * lnR n Q f /\ (0 < s < 1 -> (lnR n M f = (1 - s) * lnR n P f + s * lnR n Q f <-> pt_eq (NP f) n P Q)).
  Proof.
    pose proof gap as G. destruct (br_pos f n M P KM KP fix_MP) as [E1|E1]; destruct (br_pos f n M Q KM KQ fix_MQ) as [E2|E2].
    - rewrite (br_zero f n M P D KM KP IM IP E1), (br_zero f n M Q D KM KQ IM IQ E2) in G. split; [lra|]. intros _. split; [intros _; exact (pt_trans _ _ _ _ _ (pt_sym _ _ _ _ E1) E2)|lra].
    - rewrite (br_zero f n M P D KM KP IM IP E1) in G. split; [nra|]. intros S. split; [nra|]. intros E. rewrite (br_zero f n M Q D KM KQ IM IQ (pt_trans _ _ _ _ _ E1 E)) in E2. lra.
    - rewrite (br_zero f n M Q D KM KQ IM IQ E2) in G. split; [nra|]. intros S. split; [nra|]. intros E. rewrite (br_zero f n M P D KM KP IM IP (pt_trans _ _ _ _ _ E2 (pt_sym _ _ _ _ E))) in E1. lra.
    - split; [nra|]. intros S. split; [nra|]. intros E. exfalso.
      enough (X : pt_eq (NP f) n M P) by (rewrite (br_zero f n M P D KM KP IM IP X) in E1; lra). apply (pt_trans _ _ _ _ _ (pt_sym _ _ _ _ EM)). apply pt_intro. apply pt_elim in E. rewrite Forall_forall in *. intros g I j Hj. destruct (E g I j Hj) as [A B].
      unfold padd, psub. split; [rewrite A; destruct (existsb _ _); ring|]. intros K. rewrite (B K). destruct (existsb _ _); ring.
  Qed.
End C.

(** ** trees *)
Section T.
  Variable solve : minimizer -> dist -> nat -> xr.
  Notation L := (fam_methods solve).
  Notation G := (fam_good solve).
  Variables (b i : list nat).
  Lemma ln_val_tree q : joint_proper b i q ->
    log_normalizer_is L b i q (rsum (map (fun pl : path * dist => match fam_n (snd pl) with Some (f, n) => lnR n (point_of (snd pl) i) f | None => 0 end) (leaves [] q))).
  Proof.
    intros (W & N & S & Hi & H). destruct (ln_sum L G b q W N S) as [_ (t & T1 & T2 & T3)]. exists t. split; [exact T1|]. split; [exact T2|]. rewrite (T3 i Hi). apply xsum_ext_Fin.
    intros [pth l] I. cbn [fst snd]. destruct (nat_leaf q [] pth l W N I) as [f Hf]. destruct (leaf_wf q [] pth l W I) as [Wl _]. pose proof (shaped_in b q pth l S I) as Sl.
    destruct (nat_dom_at b i l f Hi Hf Wl Sl (H pth l I)) as (n & A & K). unfold fam_n. rewrite Hf, (ap_dims _ _ _ _ _ _ A). destruct (ln_at solve b i l f n _ Hi A K) as (u & U1 & U2 & U3).
    assert (Eu : log_normalizer L l = Ok u) by (destruct l as [c0 m ps subs]; cbn [dcls] in Hf; subst c0; exact U1). rewrite Eu. exact U3.
  Qed.
  Variables (p q m : dist) (s : R).
  Hypothesis (Pp : joint_proper b i p) (Pq : joint_proper b i q) (Sk : same_skeleton p q) (T : tree_match b p q) (Fx : same_fixed_at b i p q) (Fp : finite_vars p) (Fq : finite_vars q)
    (Hs : 0 <= s <= 1) (V : parameter_map (lin_op (1 - s) s) p [q] = Ok m).
  Lemma mix_tree : well_formed m = true /\ same_skeleton p m /\ tree_match b p m /\
    forall pth l, In (pth, l) (leaves [] p) -> exists f n, dcls l = NP f /\ fam_n l = Some (f, n) /\ at_pt b i l (NP f) n (point_of l i) /\ nat_dom f n (point_of l i) /\
      at_pt b i (leafat q pth) (NP f) n (point_of (leafat q pth) i) /\ nat_dom f n (point_of (leafat q pth) i) /\
      at_pt b i (leafat m pth) (NP f) n (padd (NP f) (point_of l i) (psub (point_of (leafat q pth) i) (point_of l i)) s) /\ fix_eq (NP f) n (point_of l i) (point_of (leafat q pth) i).
  Proof.
    pose proof Pp as (W & N & S & Hi & H). pose proof Pq as (Wq & Nq & Sq & _ & Hq).
    destruct (map_lin_full _ (1 - s) s (lin_op_linear (1 - s) s) b p q W Wq Sk T Fp Fq) as (v' & R1 & R2 & R3 & R4 & R5 & R6 & R7). rewrite V in R1. injection R1 as <-.
    split; [exact R2|]. split; [exact R4|]. split; [exact R5|]. intros pth l I.
    destruct (leaf_of b i p Pp p W H (skel_refl p) (tm_refl_l _ _ _ T) pth l I) as (f & n & Cf & Fn & A & K). destruct (leaf_of b i p Pp q Wq Hq Sk T pth l I) as (f' & n' & Cf' & Fn' & B & K').
    assert (f' = f) by congruence. assert (n' = n) by congruence. subst f' n'.
    pose proof (proj1 (leaf_in p pth l W) I) as [Hd _]. assert (El : leafat p pth = l) by (unfold leafat; now rewrite Hd). rewrite El in *.
    exists f, n. do 6 (split; [assumption|]).
    destruct (R6 pth l I) as [G1 G2]. pose proof (R7 pth l I) as G3. destruct (tm_leaf b p m pth l W R2 R5 I) as [(_ & Wl' & _ & Sl' & Ed & _) _]. destruct (skel_leafat p m pth l R4 Hd) as [Cl _]. rewrite Cf in *.
    split; [apply mix_at; auto; rewrite <- Ed; exact (ap_dims _ _ _ _ _ _ A)|].
    apply (fix_leaf b i _ _ f n Hi A B). unfold same_fixed_at in Fx. rewrite (leaves_by_path p q Wq (F2_paths _ _ _ T)) in Fx. revert I Fx. clear. generalize (leaves [] p). induction l0 as [|a x IH]; intros I X; [destruct I|]. cbn [map] in X. inversion X; subst. destruct I as [->|I]; auto.
  Qed.
  Theorem t_mix_domain : (forall pth l, In (pth, l) (leaves [] p) -> dcls l <> NP VonMisesFisher) -> joint_proper b i m /\ same_skeleton p m /\ tree_match b p m.
  Proof.
    intros Nv. destruct mix_tree as (Wm & Skm & Tm & Lf). pose proof Pp as (W & N & S & Hi & H). split; [|auto]. destruct (tm_shaped b p m W Wm Tm) as [_ Sm]. split; [exact Wm|]. split; [now apply (skel_all is_nat p m)|]. split; [exact Sm|]. split; [exact Hi|].
    intros pth lm Im. rewrite (leaves_by_path p m Wm (F2_paths _ _ _ Tm)) in Im. apply in_map_iff in Im as ([pth' l] & E & I). cbn [fst snd] in E. injection E as <- <-.
    destruct (Lf pth' l I) as (f & n & Cf & Fn & A & K & B & K' & C & X). exists n. split; [exact (ap_dims _ _ _ _ _ _ C)|]. split; [exact (at_pt_fin _ _ _ _ _ _ C)|].
    rewrite (ap_cls _ _ _ _ _ _ C). apply (nat_dom_pt f n _ _ (dom_convex f n _ _ s ltac:(intros ->; exact (Nv _ _ I Cf)) K K' Hs) (at_pt_pt _ _ _ _ _ _ Hi C)).
  Qed.
  Theorem t_convex : joint_proper b i m ->
    exists ap aq am, log_normalizer_is L b i p ap /\ log_normalizer_is L b i q aq /\ log_normalizer_is L b i m am /\
      am <= (1 - s) * ap + s * aq /\ (0 < s < 1 -> (am = (1 - s) * ap + s * aq <-> same_at b i p q)).
  Proof.
    intros Pm. pose proof mix_tree as (Wm & Skm & Tm & Lf). pose proof Pp as (W & N & S & Hi & H). pose proof Pq as (Wq & Nq & Sq & _ & Hq). pose proof Pm as (_ & Nm & Sm & _ & Hm).
    eexists _, _, _. split; [exact (ln_val_tree p Pp)|]. split; [exact (ln_val_tree q Pq)|]. split; [exact (ln_val_tree m Pm)|].
    rewrite (leaves_by_path p q Wq (F2_paths _ _ _ T)), (leaves_by_path p m Wm (F2_paths _ _ _ Tm)), !map_map. cbn [fst snd].
    set (ga := fun pl : path * dist => (match fam_n (snd pl) with Some (f, n) => lnR n (point_of (snd pl) i) f | None => 0 end)).
    set (gq := fun pl : path * dist => (match fam_n (leafat q (fst pl)) with Some (f, n) => lnR n (point_of (leafat q (fst pl)) i) f | None => 0 end)).
    set (gm := fun pl : path * dist => (match fam_n (leafat m (fst pl)) with Some (f, n) => lnR n (point_of (leafat m (fst pl)) i) f | None => 0 end)).
    set (g := fun pl => (1 - s) * ga pl + s * gq pl - gm pl).
    assert (Eg : rsum (map g (leaves [] p)) = (1 - s) * rsum (map ga (leaves [] p)) + s * rsum (map gq (leaves [] p)) - rsum (map gm (leaves [] p))).
    { unfold g. clear. induction (leaves [] p) as [|a x IH]; cbn [map rsum fold_right]; [lra|]. unfold rsum in *. cbn [fold_right]. lra. }
    assert (X : forall pl, In pl (leaves [] p) -> 0 <= g pl /\ (0 < s < 1 -> (g pl = 0 <-> same_leaf_at b i (snd pl) (leafat q (fst pl))))).
    { intros [pth l] I. destruct (Lf pth l I) as (f & n & Cf & Fn & A & K & B & K' & C & F). unfold g, ga, gq, gm. cbn [fst snd]. rewrite Fn. unfold fam_n. rewrite (ap_cls _ _ _ _ _ _ B), (ap_dims _ _ _ _ _ _ B), (ap_cls _ _ _ _ _ _ C), (ap_dims _ _ _ _ _ _ C).
      pose proof (at_pt_pt _ _ _ _ _ _ Hi C) as Es. pose proof (at_pt_eq _ _ _ _ _ _ _ C Es) as C'.
      destruct (leaf_of b i p Pp m Wm Hm Skm Tm pth l I) as (f' & n' & Cf' & Fn' & _ & Km). assert (f' = f) by congruence. assert (n' = n) by congruence. subst f' n'.
      destruct (convex_leaf f n (point_of l i) (point_of (leafat q pth) i) (point_of (leafat m pth) i) s (VarThms.at_pt_dok _ _ _ _ _ _ A) K K' Km) as [Y1 Y2]; auto.
      1-3: intros h j Ih Kh; eauto using im_real.
      split; [lra|]. intros S01. specialize (Y2 S01). split.
      - intros E. apply (at_pt_same b i _ _ (NP f) f n (point_of (leafat q pth) i)); [reflexivity| |exact B]. apply (at_pt_eq _ _ _ _ _ _ _ A). apply Y2. lra.
      - intros Sl. pose proof (proj2 Y2 (same_at_pt b i _ _ f n Hi A B Sl)). lra. }
    destruct (rsum_nonneg g (leaves [] p)) as [P0 P1]. { intros a Ha. exact (proj1 (X a Ha)). } split; [lra|]. intros S01. split.
    - intros E. apply F2_leaf_rel; auto; [exact (F2_paths _ _ _ T)|]. intros pth l I. apply (proj2 (X (pth, l) I) S01). apply P1; [lra|exact I].
    - intros Sa. enough (Z : rsum (map g (leaves [] p)) = 0) by lra. apply rsum_0. intros [pth l] I. apply (proj2 (X _ I) S01). cbn [fst snd]. unfold same_at in Sa. rewrite (leaves_by_path p q Wq (F2_paths _ _ _ T)) in Sa.
      revert I Sa. clear. generalize (leaves [] p). induction l0 as [|a x IH]; intros I Y; [destruct I|]. cbn [map] in Y. inversion Y as [|? ? ? ? Q1 Q2]; subst. destruct I as [->|I]; [exact (proj2 Q1)|auto].
  Qed.

  (** the gap of the divergences from x is that of the log normalizers *)
  Theorem t_gap x : joint_proper b i m -> joint_proper b i x -> not_clipped x i -> same_skeleton p x -> tree_match b p x ->
    exists kp kq km ap aq am, value_is b i (kl_divergence_nat L x p) kp /\ value_is b i (kl_divergence_nat L x q) kq /\ value_is b i (kl_divergence_nat L x m) km /\
      log_normalizer_is L b i p ap /\ log_normalizer_is L b i q aq /\ log_normalizer_is L b i m am /\
      (1 - s) * kp + s * kq - km = (1 - s) * ap + s * aq - am.
  Proof.
    intros Pm Px Ux Skx Tx. pose proof mix_tree as (Wm & Skm & Tm & Lf). pose proof Pp as (W & N & S & Hi & H). pose proof Pq as (Wq & Nq & Sq & _ & Hq). pose proof Pm as (_ & Nm & Sm & _ & Hm). pose proof Px as (Wx & Nx & Sx & _ & Hx).
    eexists _, _, _, _, _, _. split; [exact (kl_val solve b i p Pp x p Px Pp Ux Skx Tx (skel_refl p) (tm_refl_l _ _ _ T))|]. split; [exact (kl_val solve b i p Pp x q Px Pq Ux Skx Tx Sk T)|]. split; [exact (kl_val solve b i p Pp x m Px Pm Ux Skx Tx Skm Tm)|].
    split; [exact (ln_val_tree p Pp)|]. split; [exact (ln_val_tree q Pq)|]. split; [exact (ln_val_tree m Pm)|].
    rewrite (leaves_by_path p q Wq (F2_paths _ _ _ T)), (leaves_by_path p m Wm (F2_paths _ _ _ Tm)), !map_map. cbn [fst snd].
    set (ga := fun pl : path * dist => (match fam_n (snd pl) with Some (f, n) => lnR n (point_of (snd pl) i) f | None => 0 end)).
    set (gq := fun pl : path * dist => (match fam_n (leafat q (fst pl)) with Some (f, n) => lnR n (point_of (leafat q (fst pl)) i) f | None => 0 end)).
    set (gm := fun pl : path * dist => (match fam_n (leafat m (fst pl)) with Some (f, n) => lnR n (point_of (leafat m (fst pl)) i) f | None => 0 end)).
    assert (X : forall pl, In pl (leaves [] p) -> (1 - s) * klv i x p pl + s * klv i x q pl - klv i x m pl = (1 - s) * ga pl + s * gq pl - gm pl).
    { intros [pth l] I. destruct (Lf pth l I) as (f & n & Cf & Fn & A & K & B & K' & C & F). unfold klv, ga, gq, gm. cbn [fst snd]. rewrite Fn. unfold fam_n. rewrite (ap_cls _ _ _ _ _ _ B), (ap_dims _ _ _ _ _ _ B), (ap_cls _ _ _ _ _ _ C), (ap_dims _ _ _ _ _ _ C).
      pose proof (proj1 (leaf_in p pth l W) I) as [Hd _]. assert (El : leafat p pth = l) by (unfold leafat; now rewrite Hd). rewrite El.
      pose proof (at_pt_pt _ _ _ _ _ _ Hi C) as Es. pose proof (at_pt_eq _ _ _ _ _ _ _ C Es) as C'.
      unfold brR. rewrite !dotP_psub, (mix_dot f n (point_of l i) (point_of (leafat q pth) i) (point_of (leafat m pth) i) s); [lra| | | |exact Es]; intros h j Ih Kh; eauto using im_real. }
    revert X. generalize (leaves [] p) as ls. induction ls as [|a l IH]; intros X; cbn [map rsum fold_right]; [lra|]. unfold rsum in *. cbn [fold_right]. specialize (IH (fun y Hy => X y (or_intror Hy))). pose proof (X a (or_introl eq_refl)). lra.
  Qed.
  Theorem t_kl_convex x : joint_proper b i m -> joint_proper b i x -> not_clipped x i -> same_skeleton p x -> tree_match b p x ->
    exists kp kq km, value_is b i (kl_divergence_nat L x p) kp /\ value_is b i (kl_divergence_nat L x q) kq /\ value_is b i (kl_divergence_nat L x m) km /\
      km <= (1 - s) * kp + s * kq /\ (0 < s < 1 -> (km = (1 - s) * kp + s * kq <-> same_at b i p q)).
  Proof.
    intros Pm Px Ux Skx Tx. destruct (t_gap x Pm Px Ux Skx Tx) as (kp & kq & km & ap & aq & am & K1 & K2 & K3 & A1 & A2 & A3 & E).
    destruct (t_convex Pm) as (ap' & aq' & am' & B1 & B2 & B3 & C1 & C2).
    rewrite <- (value_fun b i (log_normalizer L p) _ _ A1 B1), <- (value_fun b i (log_normalizer L q) _ _ A2 B2), <- (value_fun b i (log_normalizer L m) _ _ A3 B3) in *.
    exists kp, kq, km. do 3 (split; [assumption|]). split; [lra|]. intros S01. rewrite <- (C2 S01). split; intros; lra.
  Qed.
  Theorem t_jensen : joint_proper b i m -> not_clipped m i ->
    exists kp kq ap aq am, value_is b i (kl_divergence_nat L m p) kp /\ value_is b i (kl_divergence_nat L m q) kq /\
      log_normalizer_is L b i p ap /\ log_normalizer_is L b i q aq /\ log_normalizer_is L b i m am /\
      (1 - s) * kp + s * kq = (1 - s) * ap + s * aq - am.
  Proof.
    intros Pm Um. destruct mix_tree as (Wm & Skm & Tm & Lf). destruct (t_gap m Pm Pm Um Skm Tm) as (kp & kq & km & ap & aq & am & K1 & K2 & K3 & A1 & A2 & A3 & E).
    exists kp, kq, ap, aq, am. do 5 (split; [assumption|]). enough (km = 0) by lra. apply (value_fun _ _ _ _ _ K3). pose proof (kl_val solve b i p Pp m m Pm Pm Um Skm Tm Skm Tm) as V0.
    enough (Q : rsum (map (klv i m m) (leaves [] p)) = 0) by (rewrite Q in V0; exact V0). apply rsum_0. intros [pth l] _. unfold klv. cbn [fst snd]. destruct (fam_n l) as [[f n]|]; [|reflexivity]. unfold brR. rewrite dotP_psub. lra.
  Qed.
End T.
