(** kl_divergence of the expectation parametrizations (C19, C31): its value at one batch element is the one of the natural parametrizations. *)
From Coquelicot Require Import Coquelicot.
From Coq Require Import String List Bool Arith Reals Lia Lra.
From Verif Require Import Base XReal Tensor TensorFacts Support Dist DictFacts Iteration Structure Spec SumSpec DotSpec Tools Joint Expr Fam ExprFacts FamTy FamFacts DotFacts StructThms SumFacts MapFacts JointThms JointThms2 DotLaws BatchFacts
  PointSpec PointFacts ConvFacts LeafVal ConvThms DerivThms KlSpec KlPos.
Import ListNotations.
Local Unset Asymmetric Patterns.
Local Open Scope R_scope.

Lemma field_of b x n g : leaf_shaped b x = true -> dims_of x = Ok n -> In g (fields (dcls x)) -> exists a, dget (dparams x) (fd_name g) = Some a /\ ashape a = (b ++ supp_shape (fd_support g) n)%list.
Proof.
  intros S D I. destruct (leaf_env b x n S D _ _ _ (fields_in_ctx _ n g I)) as (t & T1 & T2). exists (pack (kind_of (fd_support g)) t). split; [exact T1|]. destruct (kind_of (fd_support g)); exact T2.
Qed.
Lemma inner_same b i d x y f : dcls d = NP f -> dcls x = EP f -> leaf_match b d x -> same_leaf_at b i x y -> leaf_inner b i d x = leaf_inner b i d y.
Proof.
  intros Cd Cx M1 (C & M & S). unfold leaf_inner. f_equal. rewrite <- C, Cd, Cx. apply map_ext_in. intros [g h] Hgh. destruct M as (Wx & Wy & Sx & Sy & Dm & _). destruct M1 as (_ & _ & Sd & _ & Dd & _).
  destruct (leaf_dims b x Sx) as (n & Dx & _). assert (Dy : dims_of y = Ok n) by congruence. assert (Ddd : dims_of d = Ok n) by congruence.
  destruct (F2_combine _ _ _ _ _ (pair_kinds f n) Hgh) as [Ek Es]. apply in_combine_both in Hgh as [Hg Hh]. cbn [fst snd] in *. apply filter_In in Hg as [Hg _]. apply filter_In in Hh as [Hh _].
  rewrite <- Cd in Hg. rewrite <- Cx in Hh. destruct (field_of b d n g Sd Ddd Hg) as (v & V1 & V2). destruct (field_of b x n h Sx Dx Hh) as (w & W1 & W2). pose proof Hh as Hh'. rewrite C in Hh'. destruct (field_of b y n h Sy Dy Hh') as (u & U1 & U2).
  rewrite V1, W1, U1. unfold array_inner. f_equal. apply map_ext_in. intros j Hj. apply in_indices in Hj. rewrite V2, Es in Hj. do 2 f_equal. apply (S h w u j Hh W1 U1). now rewrite W2.
Qed.

Section T.
  Variable solve : minimizer -> dist -> nat -> xr.
  Notation L := (fam_methods solve).
  Notation G := (fam_good solve).
  Lemma kl_exp_same b i p sn r q t : well_formed p = true -> exp_tree p = true -> shaped b p = true -> inb b i = true -> well_formed q = true ->
    to_nat L p = Ok sn -> to_exp L sn = Ok r -> same_at b i p r -> same_skeleton sn q -> tree_match b sn q -> kl_divergence_nat L sn q = Ok t -> shp t = b ->
    exists t', kl_divergence_exp L p q None = Ok t' /\ shp t' = b /\ tget t' i = tget t i.
  Proof.
    intros W N S Hi Wq En Er Sa Sk T Et St. destruct (g_nat_tree L G b p W N S) as (sn' & E1 & E2 & E3 & _ & E5 & _). assert (sn' = sn) by congruence. subst sn'.
    destruct (tm_shaped b p sn W E2 E5) as [_ Ss]. destruct (g_exp_tree L G b sn E2 E3 Ss) as (r' & R1 & R2 & R3 & _ & R5 & _). assert (r' = r) by congruence. subst r'.
    destruct (map_match sub_op b sn [q] E2) as (d & D1 & D2 & _ & D4 & D5 & _ & _).
    { intros y [<-|[]]. auto. } { apply nat_tm_self; auto. } { intros v [|w [|? ?]] Hl Hf; try discriminate. inversion Hf; subst. now apply arr_sub_like. }
    assert (Tdr : tree_match b d r) by (eapply tm_trans; [apply tm_sym; exact D5|exact R5]). assert (Tdp : tree_match b d p) by (eapply tm_trans; [apply tm_sym; exact D5|apply tm_sym; exact E5]).
    destruct (dot_value b d r D2 R2 Tdr) as (u & U1 & U2 & U3). destruct (dot_value b d p D2 W Tdp) as (v & V1 & V2 & V3).
    unfold kl_divergence_nat, kl_divergence_exp in *. rewrite Er in Et. cbn [bind] in Et. rewrite D1 in Et. cbn [bind] in Et. rewrite U1 in Et. cbn [bind] in Et. rewrite En. cbn [bind]. rewrite D1. cbn [bind]. rewrite V1. cbn [bind].
    destruct (log_normalizer L q) as [lq|] eqn:Eq; [|discriminate]. cbn [bind] in *. destruct (log_normalizer L sn) as [ls|] eqn:Es; [|destruct (tmap2 xadd u lq); discriminate].
    assert (Sq : shp lq = b). { destruct (tm_shaped b sn q E2 Wq T) as [_ Sq]. assert (Nq : nat_tree q = true) by (now apply (skel_all is_nat sn q)). destruct (ln_sum L G b q Wq Nq Sq) as (_ & w & W1 & W2 & _). congruence. }
    assert (Ssn : shp ls = b). { destruct (ln_sum L G b sn E2 E3 Ss) as (_ & w & W1 & W2 & _). congruence. }
    rewrite (tmap2_same _ _ _ _ _ xadd v lq) by congruence. rewrite (tmap2_same _ _ _ _ _ xadd u lq) in Et by congruence. cbn [bind] in *. rewrite tmap2_same in Et |- * by (cbn [shp tbuild]; congruence). injection Et as <-. eexists. split; [reflexivity|].
    cbn [shp tbuild]. split; [exact V2|]. rewrite !tget_tbuild by (cbn [shp tbuild]; rewrite ?U2, ?V2; assumption). do 2 f_equal. rewrite (U3 i Hi), (V3 i Hi). f_equal.
    clear - Sa Tdr Tdp E3 D4 D2 E2 R3 N W. assert (Nd : nat_tree d = true) by (now apply (skel_all is_nat sn d)).
    assert (Cl : forall pth l, In (pth, l) (leaves [] d) -> exists f, dcls l = NP f) by (intros pth l I; exact (nat_leaf d [] pth l D2 Nd I)).
    assert (Cp : forall pth l, In (pth, l) (leaves [] p) -> exists f, dcls l = EP f). 
    { intros pth l I. exact (exp_leaf p [] pth l W N I). }
    unfold tree_match, same_at in *. clear - Sa Tdr Tdp Cl Cp. revert Tdr Tdp Cl Cp. generalize (leaves [] d). induction Sa as [|[a x] [a' y] l m [E1 E2] _ IH]; intros k K1 K2 Cl Cp; inversion K1; subst; [reflexivity|]. inversion K2; subst.
    cbn [combine map fst snd] in *. f_equal; [|apply IH; auto; intros; eapply Cl || eapply Cp; right; eauto]. destruct x0 as [c z]. cbn [fst snd] in *. destruct (Cl c z (or_introl eq_refl)) as [f Cz]. destruct (Cp a x (or_introl eq_refl)) as [g Cx].
    match goal with Q : c = a /\ leaf_match b z x |- _ => destruct Q as [_ M] end. assert (g = f) by (destruct M as (_ & _ & _ & _ & _ & h & M1 & M2); rewrite Cz in M1; rewrite Cx in M2; cbn in M1, M2; congruence). subst g. eapply inner_same; eauto.
  Qed.
  Theorem t_kl_exp_found b i p sn r q : well_formed p = true -> exp_tree p = true -> shaped b p = true -> inb b i = true -> well_formed q = true ->
    to_nat L p = Ok sn -> to_exp L sn = Ok r -> same_at b i p r -> tree_in_domain sn i -> not_clipped sn i -> same_skeleton sn q -> tree_match b p q -> tree_in_domain q i -> same_fixed_at b i sn q ->
    exists t k, kl_divergence_exp L p q None = Ok t /\ shp t = b /\ tget t i = Fin k /\ 0 <= k /\ (k = 0 <-> same_at b i sn q).
  Proof.
    intros W N S Hi Wq En Er Sa E5 Nc Sk T Hq X. destruct (g_nat_tree L G b p W N S) as (sn' & E1 & E2 & E3 & _ & E4 & _). assert (sn' = sn) by congruence. subst sn'.
    assert (Tq : tree_match b sn q) by (eapply tm_trans; [apply tm_sym; exact E4|exact T]).
    destruct (t_kl solve b i sn q E2 Wq E3 Sk Tq Hi E5 Hq Nc X) as (t & k & K1 & K2 & K3 & K4 & K5).
    destruct (kl_exp_same b i p sn r q t W N S Hi Wq En Er Sa Sk Tq K1 K2) as (t' & T1 & T2 & T3). exists t', k. rewrite T3. auto.
  Qed.
  Theorem t_kl_exp b i p sn q : well_formed p = true -> exp_tree p = true -> shaped b p = true -> inb b i = true -> tree_in_domain p i ->
    families (fun f => closed_form f = true) p -> well_formed q = true -> to_nat L p = Ok sn -> same_skeleton sn q -> tree_match b p q -> tree_in_domain q i -> same_fixed_at b i sn q ->
    exists t k, kl_divergence_exp L p q None = Ok t /\ shp t = b /\ tget t i = Fin k /\ 0 <= k /\ (k = 0 <-> same_at b i sn q).
  Proof.
    intros W N S Hi H M Wq En Sk T Hq X. destruct (t_nat solve b p i W N S Hi H M) as (sn' & E1 & E2 & E3 & E4 & E5). assert (sn' = sn) by congruence. subst sn'.
    destruct (t_exp_nat solve b p i W N S Hi H M) as (sn2 & r & E1b & R1 & _ & _ & R4). assert (sn2 = sn) by congruence. subst sn2.
    assert (Tq : tree_match b sn q) by (eapply tm_trans; [apply tm_sym; exact E4|exact T]).
    assert (Ms : forall pth l f, In (pth, l) (leaves [] sn) -> family_of (dcls l) = Some f -> closed_form f = true).
    { intros pth l f I F. destruct (tm_leaf b sn p pth l E2 W (tm_sym _ _ _ E4) I) as [(_ & _ & _ & _ & _ & g & G1 & G2) I']. apply (M pth _ f I'). congruence. }
    assert (Nc : not_clipped sn i). { intros pth l I C. assert (Z := Ms pth l Logarithmic I). rewrite C in Z. specialize (Z eq_refl). discriminate Z. }
    destruct (t_kl solve b i sn q E2 Wq E3 Sk Tq Hi E5 Hq Nc X) as (t & k & K1 & K2 & K3 & K4 & K5).
    destruct (kl_exp_same b i p sn r q t W N S Hi Wq En R1 R4 Sk Tq K1 K2) as (t' & T1 & T2 & T3). exists t', k. rewrite T3. auto.
  Qed.
End T.
