(** C21, C22 for trees of distributions. *)
From Coquelicot Require Import Coquelicot.
From Coq Require Import String List Bool Arith Reals Lia Lra.
From Verif Require Import Base XReal Tensor TensorFacts TensorFacts2 Support Dist DictFacts Iteration Structure Spec StructFacts AssembleFacts SumSpec DotSpec Tools
  ToolThms Joint StructThms FlattenThms MapFacts SumFacts JointThms JointThms2 SpecFun GammaFn Expr Fam ExprFacts FamTy FamFacts SearchFacts DotFacts DotLaws BatchFacts PointSpec PointFacts Val FamR FamVal ConvFacts LeafVal.
Import ListNotations.
Local Unset Asymmetric Patterns.
Local Open Scope string_scope.
Local Open Scope R_scope.

Lemma closed_form_nat f : closed_nat f = closed_form f. Proof. destruct f; reflexivity. Qed.
Lemma mat_family f : mat f = matrix_family f. Proof. destruct f; reflexivity. Qed.
Lemma F2_in {A B} (P : A -> B -> Prop) l m a : Forall2 P l m -> In a l -> exists b, In b m /\ P a b.
Proof. induction 1 as [|x y l m H _ IH]; intros []; [subst; exists y; cbn; auto|]. destruct IH as (b & I & K); auto. exists b. cbn; auto. Qed.
Lemma F2_in_r {A B} (P : A -> B -> Prop) l m b : Forall2 P l m -> In b m -> exists a, In a l /\ P a b.
Proof. induction 1 as [|x y l m H _ IH]; intros []; [subst; exists x; cbn; auto|]. destruct IH as (a & I & K); auto. exists a. cbn; auto. Qed.
Lemma F2_join {A B C} (P : A -> B -> Prop) (Q : B -> C -> Prop) (R : A -> C -> Prop) l m n : Forall2 P l m -> Forall2 Q m n -> (forall a b c, In a l -> P a b -> Q b c -> R a c) -> Forall2 R l n.
Proof.
  intros H. revert n. induction H as [|x y l m H _ IH]; intros n K T; inversion K; subst; constructor; [eapply T; eauto; now left|]. apply IH; auto. intros; eapply T; eauto. now right.
Qed.
Section T.
  Variable solve : minimizer -> dist -> nat -> xr.
  Notation L := (fam_methods solve).
  Notation G := (fam_good solve).

  Lemma clip_leaf d i p q f : not_clipped d i -> In (p, q) (leaves [] d) -> dcls q = NP f -> unclipped f (point_of q i).
  Proof.
    intros H I E. destruct f; cbn; trivial. specialize (H p q I E). unfold log_probability_floor, log_probability_ceiling. split; [lra|]. replace (- / 10000000) with (-1 / 10000000) by field. lra.
  Qed.
  Theorem t_ln b d i : well_formed d = true -> nat_tree d = true -> shaped b d = true -> inb b i = true -> tree_in_domain d i ->
    exists t, log_normalizer L d = Ok t /\ shp t = b /\ fin_at (Ok t) i.
  Proof.
    intros W N S Hi H. destruct (ln_sum L G b d W N S) as (_ & t & T1 & T2 & T3). exists t. split; [exact T1|]. split; [exact T2|]. cbn [fin_at entry].
    specialize (T3 i Hi). erewrite xsum_ext_Fin in T3; [eexists; exact T3|]. intros [p q] I. cbn [snd]. instantiate (1 := fun pq => toR (entry (log_normalizer L (snd pq)) i)). cbn [snd].
    destruct (nat_leaf d [] p q W N I) as [f Hf]. destruct (leaf_wf d [] p q W I) as [Wq _]. pose proof (shaped_in b d p q S I) as Sq.
    destruct (nat_dom_at b i q f Hi Hf Wq Sq (H p q I)) as (n & A & K). destruct (ln_at solve b i q f n _ Hi A K) as (u & U1 & U2 & U3).
    assert (E : log_normalizer L q = Ok u). { destruct q as [c m ps subs]. cbn [dcls] in Hf. subst c. exact U1. } rewrite E. cbn [entry]. now rewrite U3.
  Qed.
  Theorem t_exp b d i : well_formed d = true -> nat_tree d = true -> shaped b d = true -> inb b i = true -> tree_in_domain d i -> not_clipped d i ->
    exists e, to_exp L d = Ok e /\ well_formed e = true /\ exp_tree e = true /\ tree_match b d e /\ tree_in_domain e i.
  Proof.
    intros W N S Hi H U. destruct (g_exp_tree L G b d W N S) as (e & E1 & E2 & E3 & _ & E5 & E6). exists e. repeat (split; [assumption|]).
    intros p r I. destruct (F2_in_r _ _ _ _ E6 I) as ([p' q] & I' & K1 & K2). cbn [fst snd] in *. subst p'.
    destruct (nat_leaf d [] p q W N I') as [f Hf]. destruct (leaf_wf d [] p q W I') as [Wq _]. pose proof (shaped_in b d p q S I') as Sq.
    destruct (nat_dom_at b i q f Hi Hf Wq Sq (H p q I')) as (n & A & K).
    destruct (exp_at solve b i q f n _ Hi A K (clip_leaf d i p q f U I' Hf)) as (r' & R1 & R2). rewrite K2 in R1. injection R1 as <-.
    apply (at_pt_exp_dom b i r f n _ Hi R2). now apply exp_ok.
  Qed.
  Theorem t_nat b d i : well_formed d = true -> exp_tree d = true -> shaped b d = true -> inb b i = true -> tree_in_domain d i ->
    families (fun f => closed_form f = true) d ->
    exists e, to_nat L d = Ok e /\ well_formed e = true /\ nat_tree e = true /\ tree_match b d e /\ tree_in_domain e i.
  Proof.
    intros W N S Hi H M. destruct (g_nat_tree L G b d W N S) as (e & E1 & E2 & E3 & _ & E5 & E6). exists e. repeat (split; [assumption|]).
    intros p r I. destruct (F2_in_r _ _ _ _ E6 I) as ([p' q] & I' & K1 & K2). cbn [fst snd] in *. subst p'.
    destruct (exp_leaf d [] p q W N I') as [f Hf]. destruct (leaf_wf d [] p q W I') as [Wq _]. pose proof (shaped_in b d p q S I') as Sq.
    destruct (exp_dom_at b i q f Hi Hf Wq Sq (H p q I')) as (n & A & K). assert (Cf : closed_form f = true) by (apply (M p q f I'); now rewrite Hf). rewrite <- closed_form_nat in Cf.
    destruct (nat_at solve b i q f n _ Hi A K Cf) as (r' & R1 & R2). rewrite K2 in R1. injection R1 as <-.
    apply (at_pt_nat_dom b i r f n _ Hi R2). now apply nat_ok.
  Qed.
  Theorem t_nat_exp b d i : well_formed d = true -> nat_tree d = true -> shaped b d = true -> inb b i = true -> tree_in_domain d i ->
    families (fun f => closed_form f = true) d ->
    exists e r, to_exp L d = Ok e /\ to_nat L e = Ok r /\ well_formed r = true /\ nat_tree r = true /\ same_at b i d r.
  Proof.
    intros W N S Hi H M. destruct (g_exp_tree L G b d W N S) as (e & E1 & E2 & E3 & _ & E5 & E6). destruct (tm_shaped b d e W E2 E5) as [_ Se].
    destruct (g_nat_tree L G b e E2 E3 Se) as (r & R1 & R2 & R3 & _ & R5 & R6). exists e, r. repeat (split; [assumption|]).
    eapply F2_join; [exact E6|exact R6|]. intros [p q] [p' q'] [p'' q''] I (-> & K1) (-> & K2). cbn [fst snd] in *. split; [reflexivity|].
    destruct (nat_leaf d [] _ q W N I) as [f Hf]. destruct (leaf_wf d [] _ q W I) as [Wq _]. pose proof (shaped_in b d _ q S I) as Sq.
    destruct (nat_dom_at b i q f Hi Hf Wq Sq (H _ q I)) as (n & A & K). assert (Cf : closed_form f = true) by (apply (M _ q f I); now rewrite Hf). rewrite <- closed_form_nat in Cf.
    destruct (exp_at solve b i q f n _ Hi A K) as (x & X1 & X2). { destruct f; try discriminate Cf; exact Logic.I. } rewrite K1 in X1. injection X1 as <-.
    destruct (nat_at solve b i q' f n _ Hi X2 (exp_ok f n _ K) Cf) as (y & Y1 & Y2). rewrite K2 in Y1. injection Y1 as <-.
    apply (at_pt_same b i q q'' (NP f) f n (point_of q i) eq_refl A). eapply at_pt_eq; [exact Y2|]. apply nat_exp; auto.
    destruct (leaf_setup b q f _ Wq Hf eq_refl eq_refl Sq) as (n' & D' & D'' & _). assert (n' = n) by (pose proof (ap_dims _ _ _ _ _ _ A); congruence). now subst.
  Qed.
  Theorem t_exp_nat b d i : well_formed d = true -> exp_tree d = true -> shaped b d = true -> inb b i = true -> tree_in_domain d i ->
    families (fun f => closed_form f = true) d ->
    exists e r, to_nat L d = Ok e /\ to_exp L e = Ok r /\ well_formed r = true /\ exp_tree r = true /\ same_at b i d r.
  Proof.
    intros W N S Hi H M. destruct (g_nat_tree L G b d W N S) as (e & E1 & E2 & E3 & _ & E5 & E6). destruct (tm_shaped b d e W E2 E5) as [_ Se].
    destruct (g_exp_tree L G b e E2 E3 Se) as (r & R1 & R2 & R3 & _ & R5 & R6). exists e, r. repeat (split; [assumption|]).
    eapply F2_join; [exact E6|exact R6|]. intros [p q] [p' q'] [p'' q''] I (-> & K1) (-> & K2). cbn [fst snd] in *. split; [reflexivity|].
    destruct (exp_leaf d [] _ q W N I) as [f Hf]. destruct (leaf_wf d [] _ q W I) as [Wq _]. pose proof (shaped_in b d _ q S I) as Sq.
    destruct (exp_dom_at b i q f Hi Hf Wq Sq (H _ q I)) as (n & A & K). assert (Cf : closed_form f = true) by (apply (M _ q f I); now rewrite Hf). rewrite <- closed_form_nat in Cf.
    destruct (nat_at solve b i q f n _ Hi A K Cf) as (x & X1 & X2). rewrite K1 in X1. injection X1 as <-.
    destruct (exp_at solve b i q' f n _ Hi X2 (nat_ok f n _ Cf K)) as (y & Y1 & Y2). { destruct f; try discriminate Cf; exact Logic.I. } rewrite K2 in Y1. injection Y1 as <-.
    apply (at_pt_same b i q q'' (EP f) f n (point_of q i) eq_refl A). eapply at_pt_eq; [exact Y2|]. apply exp_nat; auto.
    destruct (leaf_setup b q f _ Wq Hf eq_refl eq_refl Sq) as (n' & D' & D'' & _). assert (n' = n) by (pose proof (ap_dims _ _ _ _ _ _ A); congruence). now subst.
  Qed.
End T.
