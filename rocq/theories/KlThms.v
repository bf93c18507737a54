(** C18: the divergence as a difference of cross entropy and entropy. *)
From Coq Require Import FinFun String List Bool Arith Lia Reals Lra.
From Verif Require Import Base XReal Tensor TensorFacts TensorFacts2 Support Dist DictFacts Iteration Structure Spec StructFacts AssembleFacts ParamFacts ReplaceFacts
  SumSpec DotSpec Tools ToolThms MappingFacts Joint DotFacts StructThms Laws SumFacts MapFacts JointThms JointThms2 DotLaws.
Import ListNotations.

Lemma tmap2_at (op : xr -> xr -> xr) (x y : tensor xr) b i : shp x = b -> shp y = b -> inb b i = true -> exists t, tmap2 op x y = Ok t /\ shp t = b /\ tget t i = op (tget x i) (tget y i).
Proof. intros H1 H2 Hi. rewrite tmap2_same by congruence. eexists. split; [reflexivity|]. split; [exact H1|]. rewrite tget_tbuild; [reflexivity|]. now rewrite H1. Qed.
Lemma tmap2_all (op : xr -> xr -> xr) (x y : tensor xr) b : shp x = b -> shp y = b -> exists t, tmap2 op x y = Ok t /\ shp t = b /\ forall i, inb b i = true -> tget t i = op (tget x i) (tget y i).
Proof. intros H1 H2. rewrite tmap2_same by congruence. eexists. split; [reflexivity|]. split; [exact H1|]. intros i Hi. rewrite tget_tbuild; [reflexivity|]. now rewrite H1. Qed.
Lemma has_entropy_tree b q e : well_formed q = true -> well_formed e = true -> nat_tree q = true -> exp_tree e = true -> tree_match b q e ->
  (forall p l f, In (p, l) (leaves [] q) -> dcls l = NP f -> has_entropy_ep (EP f) = true) -> all_nodes has_entropy_ep e = true.
Proof.
  intros Wq E2 Nq E3 E5 He.
  assert (HL : forall p l, In (p, l) (leaves [] e) -> has_entropy_ep (dcls l) = true).
  { intros p l Hi. apply tm_sym in E5. destruct (tm_leaf b e q p l E2 Wq E5 Hi) as [(_ & _ & _ & _ & _ & f & F1 & F2) Hq].
    destruct (nat_leaf q [] p _ Wq Nq Hq) as [g Hg]. destruct (exp_leaf e [] p l E2 E3 Hi) as [h Hh]. rewrite Hg in F2. rewrite Hh in F1 |- *. cbn in F1, F2. injection F1 as ->. injection F2 as ->.
    exact (He p _ f Hq Hg). }
  revert E2 E3 HL. clear. intros E2 E3 HL. unfold exp_tree in E3.
  assert (K : forall base, (forall p l, In (p, l) (leaves base e) -> has_entropy_ep (dcls l) = true) -> all_nodes has_entropy_ep e = true); [|now apply (K [])].
  clear HL. induction e as [c m ps subs IH] using dist_rect'. intros base HL. cbn [all_nodes] in *. apply andb_prop in E3 as [Ec E3]. apply wf_inv in E2 as (_ & Hj & Hs & Hsub).
  cbn [leaves] in HL. destruct (is_joint c) eqn:J.
  - apply andb_true_intro. split; [destruct c; try discriminate; reflexivity|]. apply forallb_forall. intros ns Hi. rewrite Forall_forall in IH, Hsub. rewrite forallb_forall in E3.
    apply (IH _ Hi (Hsub _ Hi) (E3 _ Hi) (base ++ [fst ns])). intros p l Hl. apply (HL p). apply in_flat_map. eauto.
  - rewrite (Hs eq_refl). cbn. rewrite andb_true_r. exact (HL base _ (or_introl eq_refl)).
Qed.

Section Main.
  Variable L : leaf_methods.
  Hypothesis G : good L.
  Lemma ln_ok b d : well_formed d = true -> nat_tree d = true -> shaped b d = true -> exists t, log_normalizer L d = Ok t /\ shp t = b.
  Proof. intros W N S. destruct (ln_sum L G b d W N S) as [_ (t & T1 & T2 & _)]. eauto. Qed.
  Lemma ecm_ok b d : well_formed d = true -> all_nodes has_entropy_ep d = true -> shaped b d = true -> exists t, expected_carrier_measure L d = Ok t /\ shp t = b.
  Proof. intros W N S. destruct (ecm_sum_tree L G b d W N S) as [_ (t & T1 & T2 & _)]. eauto. Qed.

  Lemma kl_is_difference b p q e : well_formed p = true -> well_formed q = true -> nat_tree p = true -> nat_tree q = true -> same_skeleton p q -> tree_match b p q ->
    (forall pth l f, In (pth, l) (leaves [] p) -> dcls l = NP f -> has_entropy_ep (EP f) = true) ->
    to_exp L p = Ok e -> finite_vars p -> finite_vars q -> finite_vars e ->
    exists k c h, kl_divergence_nat L p q = Ok k /\ cross_entropy L e q = Ok c /\ entropy_nat L p = Ok h /\ shp k = b /\ shp c = b /\ shp h = b /\
      forall i, inb b i = true -> fin_at (log_normalizer L p) i -> fin_at (log_normalizer L q) i -> fin_at (expected_carrier_measure L e) i ->
        exists x y, tget c i = Fin x /\ tget h i = Fin y /\ tget k i = Fin (x - y).
  Proof.
    intros Wp Wq Np Nq Sk T He Ee Fp Fq Fe. destruct (tm_shaped b p q Wp Wq T) as [Sp Sq]. destruct (g_exp_tree L G b p Wp Np Sp) as (e' & E1 & E2 & E3 & E4 & E5 & E6). rewrite Ee in E1. injection E1 as <-.
    destruct (tm_shaped b p e Wp E2 E5) as [_ Se].
    pose proof (has_entropy_tree b p e Wp E2 Np E3 E5 He) as Hh.
    destruct (ln_ok b p Wp Np Sp) as (lp & LP1 & LP2). destruct (ln_ok b q Wq Nq Sq) as (lq & LQ1 & LQ2). destruct (ecm_ok b e E2 Hh Se) as (ec & EC1 & EC2).
    destruct (dot_lin sub_op 1 (-1) sub_op_linear b p q e Wp Wq E2 Sk T E5 Fp Fq Fe) as (r & t & s1 & s2 & D1 & D2 & D3 & D4 & D5 & D6 & D7 & D8).
    destruct (tmap2_all xadd t lq b D5 LQ2) as (a1 & A1 & A2 & A3). destruct (tmap2_all xsub a1 lp b A2 LP2) as (k & K1 & K2 & K3).
    assert (Ntm : forall s : tensor xr, shp s = b -> shp (tmap xneg s) = b /\ forall i, inb b i = true -> tget (tmap xneg s) i = xneg (tget s i)).
    { intros s Hs. split; [exact Hs|]. intros i Hi. unfold tmap. rewrite tget_tbuild; [reflexivity|]. now rewrite Hs. }
    destruct (Ntm s2 D7) as [N1 N2]. destruct (Ntm s1 D6) as [M1 M2].
    destruct (tmap2_all xadd (tmap xneg s2) lq b N1 LQ2) as (a2 & B1 & B2 & B3). destruct (tmap2_all xsub a2 ec b B2 EC2) as (c & C1 & C2 & C3).
    destruct (tmap2_all xadd (tmap xneg s1) lp b M1 LP2) as (a3 & F1 & F2 & F3). destruct (tmap2_all xsub a3 ec b F2 EC2) as (h & H1 & H2 & H3).
    exists k, c, h.
    split. { unfold kl_divergence_nat, kl_divergence_exp. rewrite Ee. cbn [bind]. rewrite D1. cbn [bind]. rewrite D2. cbn [bind]. rewrite LQ1. cbn [bind]. rewrite A1. cbn [bind]. rewrite LP1. cbn [bind]. exact K1. }
    split. { unfold cross_entropy. rewrite D4. cbn [bind]. rewrite LQ1. cbn [bind]. rewrite B1. cbn [bind]. rewrite EC1. cbn [bind]. exact C1. }
    split. { unfold entropy_nat. rewrite Ee. cbn [bind]. unfold cross_entropy. rewrite D3. cbn [bind]. rewrite LP1. cbn [bind]. rewrite F1. cbn [bind]. rewrite EC1. cbn [bind]. exact H1. }
    split; [exact K2|]. split; [exact C2|]. split; [exact H2|]. intros i Hi (vp & Vp) (vq & Vq) (ve & Ve). rewrite LP1 in Vp. rewrite LQ1 in Vq. rewrite EC1 in Ve. cbn [entry] in *.
    destruct (D8 i Hi) as (x & y & X & Y & Z).
    rewrite (C3 i Hi), (B3 i Hi), (N2 i Hi), (H3 i Hi), (F3 i Hi), (M2 i Hi), (K3 i Hi), (A3 i Hi), X, Y, Z, Vp, Vq, Ve. cbn.
    exists (- y + vq + - ve)%R, (- x + vp + - ve)%R. split; [reflexivity|]. split; [reflexivity|]. f_equal. ring.
  Qed.
  Lemma kl_self b p e : well_formed p = true -> nat_tree p = true -> shaped b p = true -> to_exp L p = Ok e -> finite_vars p -> finite_vars e ->
    exists k, kl_divergence_nat L p p = Ok k /\ shp k = b /\ forall i, inb b i = true -> fin_at (log_normalizer L p) i -> tget k i = Fin 0.
  Proof.
    intros Wp Np Sp Ee Fp Fe. destruct (g_exp_tree L G b p Wp Np Sp) as (e' & E1 & E2 & E3 & E4 & E5 & E6). rewrite Ee in E1. injection E1 as <-.
    pose proof (nat_tm_self b p Wp (or_introl Np) Sp) as T. destruct (ln_ok b p Wp Np Sp) as (lp & LP1 & LP2).
    destruct (dot_lin sub_op 1 (-1) sub_op_linear b p p e Wp Wp E2 (skel_refl p) T E5 Fp Fp Fe) as (r & t & s1 & s2 & D1 & D2 & D3 & D4 & D5 & D6 & D7 & D8).
    destruct (tmap2_all xadd t lp b D5 LP2) as (a1 & A1 & A2 & A3). destruct (tmap2_all xsub a1 lp b A2 LP2) as (k & K1 & K2 & K3).
    exists k. split. { unfold kl_divergence_nat, kl_divergence_exp. rewrite Ee. cbn [bind]. rewrite D1. cbn [bind]. rewrite D2. cbn [bind]. rewrite LP1. cbn [bind]. rewrite A1. cbn [bind]. exact K1. }
    split; [exact K2|]. intros i Hi (vp & Vp). rewrite LP1 in Vp. cbn [entry] in Vp. destruct (D8 i Hi) as (x & y & X & Y & Z). rewrite D3 in D4. injection D4 as <-. rewrite X in Y. injection Y as <-.
    rewrite (K3 i Hi), (A3 i Hi), Z, Vp. cbn. f_equal. ring.
  Qed.
End Main.
