(** The Kullback-Leibler divergence of the code is the textbook one (C63). *)
From Coquelicot Require Import Coquelicot.
From Coq Require Import String List Bool Arith ZArith Reals Lra Lia.
From Verif Require Import TensorFacts2 StructFacts AssembleFacts ToolThms FlattenThms GammaFn SearchFacts Laws MatDeriv MatHess MatBreg TensorFacts DictFacts Expr ExprFacts FamTy FamFacts StructThms MapFacts JointThms BatchFacts DerivThms Base XReal Tensor Support Dist Iteration Structure Tools Joint Fam LeafVal ConvThms Spec SumSpec SumFacts DotSpec DotFacts DotLaws PointSpec PointFacts DensSpec SpecFun Val FamR FamVal DerivFacts DensVal DensThms ConvFacts IntSpec IntFam IntThms JointThms2 BregFacts BregThms KlSpec KlPos KlExp TextSpec TextFacts TextThms EntSpec EntFacts DivSpec DivFacts.
Import ListNotations.
Local Unset Asymmetric Patterns.
Local Open Scope string_scope.
Local Open Scope R_scope.
Local Notation C := Complex.C (only parsing).

Ltac dfill := repeat match goal with |- _ /\ _ => split end; first [eassumption|reflexivity|eauto].
Lemma fix_scalar f n p q nm s : fix_eq (NP f) n p q -> In (fixd nm s) (fields (NP f)) -> supp_shape s n = [] -> p false nm [] = q false nm [].
Proof.
  intros X I Z. pose proof (proj1 (Forall_forall _ _) X _ I eq_refl) as K. unfold pt_field in K. cbn [fd_support fixd fd_name] in K. rewrite Z in K. destruct (K [] eq_refl) as [K' _]. exact K'.
Qed.
Lemma div_of_classical f n p q d d' : fix_eq (NP f) n p q -> classical f n p d -> classical f n q d' -> exists k, divergent f n p q k.
Proof.
  destruct f; intros X K1 K2; cbn [classical] in K1, K2; cbn [divergent];
    try match type of X with
    | fix_eq (NP NegativeBinomial) _ _ _ => assert (Fx : p false "failures" [] = q false "failures" []) by (eapply (fix_scalar _ n p q "failures" _ X); [cbn; tauto|reflexivity])
    | fix_eq (NP Weibull) _ _ _ => assert (Fx : p false "concentration" [] = q false "concentration" []) by (eapply (fix_scalar _ n p q "concentration" _ X); [cbn; tauto|reflexivity])
    | fix_eq (NP MultivariateFixedVarianceNormal) _ _ _ => assert (Fx : p false "variance" [] = q false "variance" []) by (eapply (fix_scalar _ n p q "variance" _ X); [cbn; tauto|reflexivity])
    end;
    repeat match type of K1 with ex _ => let x := fresh "v" in destruct K1 as [x K1] end; repeat match type of K2 with ex _ => let x := fresh "v" in destruct K2 as [x K2] end;
    repeat match goal with K : _ /\ _ |- _ => destruct K end;
    try (eexists; reflexivity); eexists;
    first [solve [exists v, v0; dfill]|solve [exists v, v0, v1, v2; dfill]|solve [exists v, v0, v1, v2, v3, v4; dfill]|idtac].
  exists v, v1, v0. rewrite <- Fx. dfill.
Qed.

Lemma div_sum (i : list nat) (g : path * dist -> R) (h : path -> dist) : forall l ks,
  Forall2 (fun lm k => exists f n, dcls (snd (fst lm)) = NP f /\ dims_of (snd (fst lm)) = Ok n /\ divergent f n (point_of (snd (fst lm)) i) (point_of (snd (snd lm)) i) k) (combine l (map (fun pl => (fst pl, h (fst pl))) l)) ks ->
  (forall pth x f n k, In (pth, x) l -> dcls x = NP f -> dims_of x = Ok n -> divergent f n (point_of x i) (point_of (h pth) i) k -> g (pth, x) = k) -> rsum (map g l) = fold_right Rplus 0 ks.
Proof.
  induction l as [|[pth x] l IH]; intros ks F K; cbn [map combine fst snd] in F; inversion F as [|? ? ? ? (f & n & C1 & C2 & C3) F']; subst; [reflexivity|]. cbn [map rsum fold_right fst snd] in *. f_equal; [apply (K pth x f n); auto; now left|].
  apply IH; [exact F'|]. intros. eapply K; eauto. now right.
Qed.
Section E.
  Variable solve : minimizer -> dist -> nat -> xr.
  Notation L := (fam_methods solve).
  Theorem kl_textbook b i p q ks : well_formed p = true -> well_formed q = true -> nat_tree p = true -> same_skeleton p q -> tree_match b p q -> inb b i = true ->
    tree_in_domain p i -> tree_in_domain q i -> not_clipped p i -> divergences i p q ks -> exists t, kl_divergence_nat L p q = Ok t /\ shp t = b /\ tget t i = Fin (fold_right Rplus 0 ks).
  Proof.
    intros W Wq N Sk T Hi H Hq U X. destruct (t_kl_value solve b i p q W Wq N Sk T Hi H Hq U) as (Lf & t & T1 & T2 & T3). exists t. split; [exact T1|]. split; [exact T2|]. rewrite T3. f_equal.
    assert (Px : map fst (leaves [] p) = map fst (leaves [] q)) by exact (F2_paths _ _ _ T). unfold divergences in X. rewrite (leaves_by_path p q Wq Px) in X. apply (div_sum i _ (fun pth => leafat q pth) _ _ X).
    intros pth l f n k I Cf Dn Dv. destruct (Lf pth l I) as (f' & n' & Cf' & Fn & A & K & A' & K'). assert (f' = f) by congruence. subst f'. assert (n' = n) by (pose proof (ap_dims _ _ _ _ _ _ A); congruence). subst n'.
    unfold kl_leaf_R. cbn [fst snd]. rewrite Fn. assert (Pl : proper b i f l). { split; [exact Cf|]. split; [exact (ap_wf _ _ _ _ _ _ A)|]. split; [exact (ap_shaped _ _ _ _ _ _ A)|]. split; [exact Hi|exact (H pth l I)]. }
    destruct (proper_dims b i f l Pl) as (n' & D1 & _ & _ & D4 & _). assert (n' = n) by congruence. subst n'. exact (div_all f n _ _ k D4 K K' Dv).
  Qed.
  Theorem divergences_total b i p q : well_formed p = true -> well_formed q = true -> nat_tree p = true -> same_skeleton p q -> tree_match b p q -> inb b i = true ->
    tree_in_domain p i -> tree_in_domain q i -> same_fixed_at b i p q -> exists ks, divergences i p q ks.
  Proof.
    intros W Wq N Sk T Hi H Hq X. unfold divergences. unfold same_fixed_at, tree_match in *. assert (Nq : nat_tree q = true) by (now apply (skel_all is_nat p q)). destruct (tm_shaped b p q W Wq T) as [S Sq].
    assert (Lp : forall pth l, In (pth, l) (leaves [] p) -> exists f, proper b i f l) by (intros pth l I; destruct (nat_leaf p [] pth l W N I) as [f Hf]; destruct (leaf_wf p [] pth l W I) as [Wl _]; exists f; repeat (split; [first [assumption|exact (shaped_in b p pth l S I)]|]); exact (H pth l I)).
    assert (Lq : forall pth l, In (pth, l) (leaves [] q) -> exists f, proper b i f l) by (intros pth l I; destruct (nat_leaf q [] pth l Wq Nq I) as [f Hf]; destruct (leaf_wf q [] pth l Wq I) as [Wl _]; exists f; repeat (split; [first [assumption|exact (shaped_in b q pth l Sq I)]|]); exact (Hq pth l I)).
    clear - T X Lp Lq Hi. revert T X Lp Lq. generalize (leaves [] p) (leaves [] q). intros l m T. induction T as [|[pa x] [pb y] l m [_ M] T IH]; intros X Lp Lq; [exists []; constructor|]. inversion X as [|? ? ? ? X1 X2]; subst.
    destruct (IH X2 ltac:(intros; eapply Lp; right; eauto) ltac:(intros; eapply Lq; right; eauto)) as [ks Hk]. destruct (Lp pa x (or_introl eq_refl)) as [f Px]. destruct (Lq pb y (or_introl eq_refl)) as [g Py]. cbn [snd] in *.
    destruct (proper_dims b i f x Px) as (n & D1 & A & D3 & D4 & _). destruct (proper_dims b i g y Py) as (n' & D1' & A' & D3' & D4' & _). apply (at_pt_self b i x (NP f) n) in A; try apply Px; auto. apply (at_pt_self b i y (NP g) n') in A'; try apply Py; auto. destruct M as (_ & _ & _ & _ & Ed & h & Fh & Fh'). 
    assert (g = f) by (rewrite (proj1 Px) in Fh; rewrite (proj1 Py) in Fh'; cbn in Fh, Fh'; congruence). subst g. assert (n' = n) by congruence. subst n'.
    destruct (total f n _ D4 D3) as [d K]. destruct (total f n _ D4' D3') as [d' K']. destruct (div_of_classical f n _ _ d d' (fix_leaf b i x y f n Hi A A' X1) K K') as [k Hk']. exists (k :: ks). cbn [combine]. constructor; [|exact Hk]. exists f, n. cbn [fst snd]. split; [exact (proj1 Px)|]. auto.
  Qed.
  Theorem kl_exp_textbook b i p sn r q ks : well_formed p = true -> exp_tree p = true -> shaped b p = true -> inb b i = true -> well_formed q = true ->
    to_nat L p = Ok sn -> to_exp L sn = Ok r -> same_at b i p r -> tree_in_domain sn i -> not_clipped sn i -> same_skeleton sn q -> tree_match b p q -> tree_in_domain q i -> divergences i sn q ks ->
    exists t, kl_divergence_exp L p q None = Ok t /\ shp t = b /\ tget t i = Fin (fold_right Rplus 0 ks).
  Proof.
    intros W N S Hi Wq En Er Sa E5 Nc Sk T Hq X. destruct (g_nat_tree L (fam_good solve) b p W N S) as (sn' & E1 & E2 & E3 & _ & E4 & _). assert (sn' = sn) by congruence. subst sn'.
    assert (Tq : tree_match b sn q) by (eapply tm_trans; [apply tm_sym; exact E4|exact T]).
    destruct (kl_textbook b i sn q ks E2 Wq E3 Sk Tq Hi E5 Hq Nc X) as (t & K1 & K2 & K3).
    destruct (kl_exp_same solve b i p sn r q t W N S Hi Wq En Er Sa Sk Tq K1 K2) as (t' & T1 & T2 & T3). exists t'. rewrite T3. auto.
  Qed.
End E.
