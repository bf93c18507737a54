(** The methods of a simple distribution at one batch element, in terms of the real closed forms of FamR.v. *)
From Coquelicot Require Import Coquelicot.
From Coq Require Import String List Bool Arith Reals Lia Lra.
From Verif Require Import Base XReal Tensor TensorFacts TensorFacts2 Support Dist DictFacts Iteration Structure Spec StructFacts AssembleFacts SumSpec DotSpec Tools
  ToolThms Joint StructThms MapFacts SpecFun GammaFn Expr Fam ExprFacts FamTy FamFacts SearchFacts DotFacts DotLaws BatchFacts PointSpec PointFacts Val FamR FamVal ConvFacts.
Import ListNotations.
Local Unset Asymmetric Patterns.
Local Open Scope string_scope.
Local Open Scope R_scope.

(** q is a well formed simple distribution of class c, batch shape b and n dimensions, with parameter values p at batch index i *)
Record at_pt (b i : list nat) (q : dist) (c : cls) (n : nat) (p : point) : Prop := {
  ap_cls : dcls q = c; ap_wf : well_formed q = true; ap_shaped : leaf_shaped b q = true; ap_dims : dims_of q = Ok n;
  ap_vals : vals_eq (ctx_of c n) (vals_of (dparams q) i) (pvals p) }.

Lemma at_pt_self b i q c n : dcls q = c -> well_formed q = true -> leaf_shaped b q = true -> dims_of q = Ok n -> inb b i = true -> finite_at q n i ->
  at_pt b i q c n (point_of q i).
Proof. intros <- W S D Hi F. split; auto. now apply (point_vals b). Qed.
Lemma at_pt_eq b i q c n p p' : at_pt b i q c n p -> pt_eq c n p p' -> at_pt b i q c n p'.
Proof. intros [] E. split; auto. intros m k s j H Hj. rewrite (ap_vals0 m k s j H Hj). now apply (E m k s j). Qed.
Lemma at_pt_fin b i q c n p : at_pt b i q c n p -> finite_at q n i.
Proof. intros []. subst c. now apply (finite_vals b q n i p). Qed.
Lemma at_pt_pt b i q c n p : inb b i = true -> at_pt b i q c n p -> pt_eq c n p (point_of q i).
Proof.
  intros Hi A. pose proof (at_pt_fin _ _ _ _ _ _ A) as F. destruct A as [C W S D V]. subst c. pose proof (point_vals b q n i S D Hi F) as P. intros m k s j H Hj. rewrite <- (V m k s j H Hj). exact (P m k s j H Hj).
Qed.
Lemma at_pt_nat_dom b i q f n p : inb b i = true -> at_pt b i q (NP f) n p -> nat_dom f n p -> in_domain q i.
Proof.
  intros Hi A H. exists n. split; [exact (ap_dims _ _ _ _ _ _ A)|]. split; [exact (at_pt_fin _ _ _ _ _ _ A)|]. rewrite (ap_cls _ _ _ _ _ _ A).
  apply (nat_dom_pt f n p); [exact H|]. exact (at_pt_pt b i q (NP f) n p Hi A).
Qed.
Lemma at_pt_exp_dom b i q f n p : inb b i = true -> at_pt b i q (EP f) n p -> exp_dom f n p -> in_domain q i.
Proof.
  intros Hi A H. exists n. split; [exact (ap_dims _ _ _ _ _ _ A)|]. split; [exact (at_pt_fin _ _ _ _ _ _ A)|]. rewrite (ap_cls _ _ _ _ _ _ A).
  apply (exp_dom_pt f n p); [exact H|]. exact (at_pt_pt b i q (EP f) n p Hi A).
Qed.
Lemma nat_dom_at b i q f : inb b i = true -> dcls q = NP f -> well_formed q = true -> leaf_shaped b q = true -> in_domain q i ->
  exists n, at_pt b i q (NP f) n (point_of q i) /\ nat_dom f n (point_of q i).
Proof. intros Hi C W S (n & D & F & H). exists n. rewrite C in H. split; [|exact H]. now apply at_pt_self. Qed.
Lemma exp_dom_at b i q f : inb b i = true -> dcls q = EP f -> well_formed q = true -> leaf_shaped b q = true -> in_domain q i ->
  exists n, at_pt b i q (EP f) n (point_of q i) /\ exp_dom f n (point_of q i).
Proof. intros Hi C W S (n & D & F & H). exists n. rewrite C in H. split; [|exact H]. now apply at_pt_self. Qed.
Lemma entry_eq b i q c n p f v j : at_pt b i q c n p -> In f (fields c) -> dget (dparams q) (fd_name f) = Some v -> inb (supp_shape (fd_support f) n) j = true ->
  entry_c v (i ++ j)%list = match kind_of (fd_support f) with KR => XC (Fin (p false (fd_name f) j)) (Fin 0) | KC => XC (Fin (p false (fd_name f) j)) (Fin (p true (fd_name f) j)) end.
Proof.
  intros [C W S D V] I E Hj. pose proof (fields_in_ctx c n f I) as X. specialize (V _ _ _ j X Hj). subst c. destruct (leaf_env b q n S D _ _ _ X) as (t & T1 & T2). rewrite E in T1. injection T1 as ->.
  unfold vals_of in V. rewrite E, get_pack in V. unfold pvals in V. destruct (kind_of (fd_support f)); cbn [pack entry_c]; [|exact V]. unfold cofr. f_equal. exact V.
Qed.
Lemma leaf_fields b q n f v : leaf_shaped b q = true -> dims_of q = Ok n -> In f (fields (dcls q)) -> dget (dparams q) (fd_name f) = Some v -> ashape v = (b ++ supp_shape (fd_support f) n)%list.
Proof.
  intros S D I E. destruct (leaf_env b q n S D _ _ _ (fields_in_ctx _ n f I)) as (t & T1 & T2). rewrite E in T1. injection T1 as ->. destruct (kind_of (fd_support f)); exact T2.
Qed.
Lemma at_pt_same b i q r c f n p : family_of c = Some f -> at_pt b i q c n p -> at_pt b i r c n p -> same_leaf_at b i q r.
Proof.
  intros Fc A B. pose proof A as [C W S D V]. pose proof B as [C' W' S' D' V']. split; [congruence|]. split.
  { unfold leaf_match. repeat (split; [assumption|]). split; [congruence|]. exists f. rewrite C, C'. auto. }
  intros g v w j I E1 E2 Hj. rewrite C in I. assert (Hj' : inb (supp_shape (fd_support g) n) j = true).
  { rewrite (leaf_fields b q n g v S D) in Hj by (congruence || assumption). now rewrite skipn_app, skipn_all, Nat.sub_diag in Hj. }
  rewrite (entry_eq b i q c n p g v j A I E1 Hj'), (entry_eq b i r c n p g w j B I E2 Hj'). reflexivity.
Qed.

Section L.
  Variable solve : minimizer -> dist -> nat -> xr.
  Notation L := (fam_methods solve).

  Lemma ln_at_d b i q f n p : inb b i = true -> at_pt b i q (NP f) n p -> ln_dom f n p ->
    exists t, l_log_normalizer L q = Ok t /\ shp t = b /\ tget t i = Fin (lnR n p f).
  Proof.
    intros Hi [C W S D V] H. destruct (leaf_setup b q f _ W C eq_refl eq_refl S) as (n' & D' & K & HE & _). assert (n' = n) by congruence. subst n'.
    pose proof (ln_val_d f n p K H) as T. destruct (eval_at b _ _ i p (ln_e f) [] (fun _ => Fin (lnR n p f)) HE Hi V T) as (t & T1 & T2 & T3).
    exists t. rewrite app_nil_r in T2. split; [|split; [exact T2|]].
    - cbn [l_log_normalizer fam_methods]. unfold fam_log_normalizer. rewrite C. exact T1.
    - specialize (T3 [] eq_refl). now rewrite app_nil_r in T3.
  Qed.
  Lemma ln_at b i q f n p : inb b i = true -> at_pt b i q (NP f) n p -> nat_dom f n p ->
    exists t, l_log_normalizer L q = Ok t /\ shp t = b /\ tget t i = Fin (lnR n p f).
  Proof. intros Hi A H. apply ln_at_d; [exact Hi|exact A|now apply ln_dom_nat]. Qed.
  Lemma exp_at b i q f n p : inb b i = true -> at_pt b i q (NP f) n p -> nat_dom f n p -> unclipped f p ->
    exists e, l_to_exp L q = Ok e /\ at_pt b i e (EP f) n (expR n p f).
  Proof.
    intros Hi [C W S D V] H U. destruct (leaf_setup b q f _ W C eq_refl eq_refl S) as (n' & D' & K & HE & D1). assert (n' = n) by congruence. subst n'.
    pose proof (exp_val f n p K H U) as A. destruct (make_at b _ _ _ (EP f) n i p _ HE Hi V A eq_refl) as (e & E1 & E2 & E3 & E4 & E5 & E6 & E7).
    { intros X. apply D1. now apply dims_np. } { now rewrite <- dims_ok_np_ep. }
    exists e. split; [cbn [l_to_exp fam_methods]; unfold fam_to_exp; rewrite C; exact E1|]. apply (at_pt_eq _ _ _ _ _ (point_of e i)); [now apply at_pt_self|exact E7].
  Qed.
  Lemma nat_at b i q f n p : inb b i = true -> at_pt b i q (EP f) n p -> exp_dom f n p -> closed_nat f = true ->
    exists e, l_to_nat L q = Ok e /\ at_pt b i e (NP f) n (natR n p f).
  Proof.
    intros Hi [C W S D V] H U. destruct (leaf_setup b q f _ W C eq_refl eq_refl S) as (n' & D' & K & HE & D1). assert (n' = n) by congruence. subst n'.
    unfold closed_nat in U. destruct (nat_args f) as [l|] eqn:El; [|discriminate U].
    pose proof (nat_val f n p l K H El) as A. destruct (make_at b _ _ _ (NP f) n i p _ HE Hi V A eq_refl) as (e & E1 & E2 & E3 & E4 & E5 & E6 & E7).
    { intros X. apply D1. now apply dims_np. } { now rewrite dims_ok_np_ep. }
    exists e. split; [cbn [l_to_nat fam_methods]; unfold fam_to_nat; rewrite C, El; exact E1|]. apply (at_pt_eq _ _ _ _ _ (point_of e i)); [now apply at_pt_self|exact E7].
  Qed.
End L.
