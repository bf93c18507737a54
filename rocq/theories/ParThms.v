(** The conversions of the code are the textbook ones (C64). *)
From Coquelicot Require Import Coquelicot.
From Coq Require Import String List Bool Arith ZArith Reals Lra Lia.
From Verif Require Import Base XReal Tensor TensorFacts TensorFacts2 Support Dist DictFacts Iteration Structure Spec StructFacts AssembleFacts SumSpec DotSpec Tools
  ToolThms Joint StructThms FlattenThms MapFacts SumFacts JointThms JointThms2 SpecFun GammaFn Expr Fam ExprFacts FamTy FamFacts SearchFacts DotFacts DotLaws BatchFacts PointSpec PointFacts DensSpec Val FamR FamVal ConvFacts LeafVal ConvThms ConjThms
  TextSpec TextThms ParSpec ParFacts.
Import ListNotations.
Local Unset Asymmetric Patterns.
Local Open Scope string_scope.
Local Open Scope R_scope.
Local Notation C := Complex.C (only parsing).

Ltac rw_ e e' K := repeat match goal with X : forall k, _ -> e _ _ [k] = e' _ _ [k] |- _ => rewrite <- (X _ K); clear X end.
Lemma moments_ext f n p e e' : dims_ok (EP f) n = true -> pt_eq (EP f) n e e' -> moments f n p e -> moments f n p e'.
Proof.
  intros D Q M. pose proof Q as Q'. destruct f; cbn [fields] in Q; pts Q; unp; cbn [moments] in *; repeat match goal with Q : e _ _ [] = e' _ _ [] |- _ => rewrite <- Q; clear Q end; trivial;
  try solve [destruct M as (a & M); exists a; repeat match goal with M : _ /\ _ |- _ => destruct M end; repeat (split; [assumption|]); try (split; [|assumption]); intros k K; rw_ e e' K; auto];
  try solve [destruct M as (a & c & M); exists a, c; repeat match goal with M : _ /\ _ |- _ => destruct M end; repeat (split; [assumption|]); try (split; [|assumption]); intros k K; rw_ e e' K; auto];
  try solve [intros k K; rw_ e e' K; auto].
  - cbn in D. apply Nat.eqb_eq in D. subst n. rewrite <- !Q by lia. exact M.
  - destruct M as (V & HV & F & G). exists V. do 2 (split; [assumption|]). intros a b A B. rewrite <- (pt_re2 _ n e e' _ "variance" a b n n Q' (or_introl eq_refl) eq_refl eq_refl A B), <- (pt_im2 _ n e e' _ "variance" a b n n Q' (or_introl eq_refl) eq_refl eq_refl eq_refl A B). auto.
  - destruct M as (m & V & HV & F & G & H & J). exists m, V. do 3 (split; [assumption|]). split; [intros a A; rewrite <- Q by exact A; auto|]. intros a b A B. rewrite <- (pt_re2 _ n e e' _ "second_moment" a b n n Q' (or_intror (or_introl eq_refl)) eq_refl eq_refl A B). auto.
Qed.

Lemma F2_in2 {A B} (P Q : A -> B -> Prop) l m : Forall2 P l m -> (forall x y, In x l -> P x y -> Q x y) -> Forall2 Q l m.
Proof. induction 1; intros K; constructor; [apply K; [now left|assumption]|apply IHForall2; intros x0 y0 I; apply K; now right]. Qed.

Lemma F2_flip_ {A B} (P : A -> B -> Prop) l m : Forall2 P l m -> Forall2 (fun y x => In y m /\ In x l /\ P x y) m l.
Proof.
  induction 1 as [|x y l m H F IH]; [constructor|]. constructor; [split; [now left|split; [now left|exact H]]|]. apply (F2_in2 _ _ _ _ IH). intros u v _ (A1 & A2 & A3). cbn. auto.
Qed.
Section E.
  Variable solve : minimizer -> dist -> nat -> xr.
  Notation L := (fam_methods solve).
  Theorem to_exp_textbook b i p : well_formed p = true -> nat_tree p = true -> shaped b p = true -> inb b i = true -> tree_in_domain p i -> not_clipped p i ->
    exists e, to_exp L p = Ok e /\ well_formed e = true /\ tree_match b p e /\ converted i p e.
  Proof.
    intros W N S Hi H U. destruct (g_exp_tree L (fam_good solve) b p W N S) as (e & E1 & E2 & E3 & _ & E5 & E6). exists e. repeat (split; [assumption|]).
    apply (F2_in2 _ _ _ _ E6). intros [k q] [k' r] I [K1 K2]. cbn [fst snd] in *. split; [exact K1|]. subst k'.
    destruct (nat_leaf p [] k q W N I) as [f Hf]. destruct (leaf_wf p [] k q W I) as [Wq _]. pose proof (shaped_in b p k q S I) as Sq.
    destruct (nat_dom_at b i q f Hi Hf Wq Sq (H k q I)) as (n & A & K).
    destruct (exp_at solve b i q f n _ Hi A K (clip_leaf p i k q f U I Hf)) as (r' & R1 & R2). rewrite K2 in R1. injection R1 as <-.
    assert (D : dims_ok (NP f) n = true) by (destruct (leaf_setup b q f _ Wq Hf eq_refl eq_refl Sq) as (n' & D' & D'' & _); assert (n' = n) by (pose proof (ap_dims _ _ _ _ _ _ A); congruence); now subst).
    exists f, n. split; [exact Hf|]. split; [exact (ap_cls _ _ _ _ _ _ R2)|]. split; [exact (ap_dims _ _ _ _ _ _ A)|]. split; [exact (ap_dims _ _ _ _ _ _ R2)|].
    apply (moments_ext f n _ (expR n (point_of q i) f)); [now rewrite <- dims_ok_np_ep|exact (at_pt_pt b i r _ n _ Hi R2)|].
    destruct (textbook_total b i f q n) as [d K']; [|exact (ap_dims _ _ _ _ _ _ A)|].
    - repeat (split; [assumption|]). exact (H k q I).
    - exact (mom_all f n _ d D K K').
  Qed.
  (** e is the expectation parameters of q up to equality at batch index i *)
  Theorem exp_of_textbook b i q e r : well_formed q = true -> nat_tree q = true -> shaped b q = true -> inb b i = true -> tree_in_domain q i -> not_clipped q i ->
    well_formed e = true -> exp_tree e = true -> shaped b e = true -> tree_in_domain e i -> to_exp L q = Ok r -> same_at b i e r -> converted i q e.
  Proof.
    intros W N S Hi H U We Ne Se He T SA. destruct (to_exp_textbook b i q W N S Hi H U) as (r' & E1 & _ & E2 & E3). assert (r' = r) by congruence. subst r'. clear E1.
    destruct (t_exp solve b q i W N S Hi H U) as (r' & T1 & Wr & Nr & Mr & Hr). assert (r' = r) by congruence. subst r'. destruct (tm_shaped b q r W Wr Mr) as [_ Sr].
    unfold converted in *. unfold same_at in SA. apply (F2_flip_) in SA. eapply F2_join; [exact E3|exact SA|].
    intros [k x] [k' y] [k'' z] I (K1 & f & n & C1 & C2 & D1 & D2 & M) (I' & I'' & K2 & SL). cbn [fst snd] in *. subst. split; [reflexivity|].
    destruct (leaf_wf r [] _ y Wr I') as [Wy _]. destruct (exp_dom_at b i y f Hi C2 Wy (shaped_in b r _ y Sr I') (Hr _ y I')) as (n1 & A1 & K1').
    assert (C3 : dcls z = EP f) by (destruct SL as (C & _); congruence).
    destruct (leaf_wf e [] _ z We I'') as [Wz _]. destruct (exp_dom_at b i z f Hi C3 Wz (shaped_in b e _ z Se I'') (He _ z I'')) as (n2 & A2 & K2').
    assert (n1 = n) by (pose proof (ap_dims _ _ _ _ _ _ A1); congruence). subst n1.
    assert (n2 = n) by (destruct SL as (_ & (_ & _ & _ & _ & Dz & _) & _); pose proof (ap_dims _ _ _ _ _ _ A2); congruence). subst n2.
    exists f, n. repeat (split; [assumption|]). split; [exact (ap_dims _ _ _ _ _ _ A2)|].
    apply (moments_ext f n _ (point_of y i)); [|apply pt_sym; now apply (same_at_ptc b)|exact M].
    destruct (leaf_setup b y f _ Wy C2 eq_refl eq_refl (shaped_in b r _ y Sr I')) as (n' & D' & D'' & _). assert (n' = n) by congruence. now subst.
  Qed.
  (** to_nat of the families with a closed form *)
  Theorem to_nat_textbook b i e : well_formed e = true -> exp_tree e = true -> shaped b e = true -> inb b i = true -> tree_in_domain e i -> families (fun f => closed_form f = true) e ->
    exists q, to_nat L e = Ok q /\ well_formed q = true /\ tree_match b e q /\ converted i q e.
  Proof.
    intros W N S Hi H M. destruct (t_nat solve b e i W N S Hi H M) as (q & Q1 & Q2 & Q3 & Q4 & Q5). destruct (t_exp_nat solve b e i W N S Hi H M) as (q' & r & R1 & R2 & R3 & R4 & R5).
    assert (q' = q) by congruence. subst q'. destruct (tm_shaped b e q W Q2 Q4) as [_ Sq]. exists q. repeat (split; [assumption|]).
    apply (exp_of_textbook b i q e r); try assumption.
    intros k l I Cl. exfalso. destruct (F2_in_r _ _ _ _ Q4 I) as ([k' x] & I' & _ & (_ & _ & _ & _ & _ & f & F1 & F2)). cbn [snd] in *. rewrite Cl in F2. injection F2 as <-. specialize (M k' x Logarithmic I' F1). discriminate M.
  Qed.
  (** to_nat of any family, when the search has found the natural parameters *)
  Theorem to_nat_search_textbook b i e q r : well_formed e = true -> exp_tree e = true -> shaped b e = true -> inb b i = true -> tree_in_domain e i ->
    to_nat L e = Ok q -> tree_in_domain q i -> not_clipped q i -> to_exp L q = Ok r -> same_at b i e r -> converted i q e.
  Proof.
    intros W N S Hi H T Hq U E SA. destruct (g_nat_tree L (fam_good solve) b e W N S) as (q' & E1 & E2 & E3 & _ & E5 & E6). assert (q' = q) by congruence. subst q'.
    destruct (tm_shaped b e q W E2 E5) as [_ Sq]. now apply (exp_of_textbook b i q e r).
  Qed.
End E.
