(** From the values of the expressions at one batch element to the entries of the arrays the methods return. *)
From Coq Require Import String List Bool Arith Reals Lia Lra.
From Verif Require Import Base XReal Tensor TensorFacts TensorFacts2 Support Dist DictFacts Iteration Structure Spec StructFacts AssembleFacts SumSpec Tools
  ToolThms Joint StructThms MapFacts SpecFun Expr Fam ExprFacts FamTy FamFacts SearchFacts DotFacts DotSpec DotLaws BatchFacts PointSpec.
Import ListNotations.
Local Unset Asymmetric Patterns.
Local Open Scope string_scope.
Local Open Scope list_scope.
Local Open Scope nat_scope.

(** the variables of one batch element with parameter values p *)
Definition pvals (p : point) : vals := fun k => match k with KR => fun n j => Fin (p false n j) | KC => fun n j => XC (Fin (p false n j)) (Fin (p true n j)) end.
Lemma xc_comp z : finite_entry z -> z = XC (Fin (toR (comp false z))) (Fin (toR (comp true z))).
Proof. intros (a & b & ->). reflexivity. Qed.
Lemma fields_in_ctx c n f : In f (fields c) -> dget (ctx_of c n) (fd_name f) = Some (kind_of (fd_support f), supp_shape (fd_support f) n).
Proof.
  intros Hf. pose proof (nodup_fields c) as N. unfold ctx_of. revert Hf N. induction (fields c) as [|g gs IH]; [intros []|]. intros [->|I] N; cbn [map dget fd_ctx].
  - destruct (keq (fd_name f) (fd_name f)) as [_|X]; [reflexivity|now destruct X].
  - inversion N; subst. destruct (keq (fd_name f) (fd_name g)) as [X|_]; [|now apply IH]. destruct H1. rewrite <- X. now apply in_map.
Qed.
Lemma point_vals b q n i : leaf_shaped b q = true -> dims_of q = Ok n -> inb b i = true -> finite_at q n i ->
  vals_eq (ctx_of (dcls q) n) (vals_of (dparams q) i) (pvals (point_of q i)).
Proof.
  intros S D Hi F m k s j E Hj. destruct (ctx_field _ _ _ _ _ E) as (f & I & <- & -> & ->). destruct (leaf_env b q n S D _ _ _ E) as (t & T1 & T2).
  specialize (F f _ j I T1 Hj). unfold vals_of. rewrite T1, get_pack. unfold pvals, point_of. destruct (kind_of (fd_support f)); rewrite T1; cbn [pack entry_c] in *.
  - apply xc_comp in F. unfold cofr in F. injection F as F. exact F.
  - apply xc_comp in F. exact F.
Qed.
Lemma finite_vals b q n i p : leaf_shaped b q = true -> dims_of q = Ok n -> vals_eq (ctx_of (dcls q) n) (vals_of (dparams q) i) (pvals p) -> finite_at q n i.
Proof.
  intros S D H f a j I E Hj. pose proof (fields_in_ctx (dcls q) n f I) as C. destruct (leaf_env b q n S D _ _ _ C) as (t & T1 & T2). rewrite E in T1. injection T1 as ->.
  specialize (H _ _ _ j C Hj). unfold vals_of in H. rewrite E, get_pack in H. unfold pvals in H. destruct (kind_of (fd_support f)); cbn [pack entry_c].
  - eexists _, _. unfold cofr. f_equal. exact H.
  - eexists _, _. exact H.
Qed.
(** ** values of expressions *)
Definition ev_at {k} (G : ctx) (p : point) (e : aexp k) (s : list nat) (v : list nat -> elt k) : Prop :=
  exists d, ty G k e (Ev s) d /\ forall j, inb s j = true -> d (pvals p) j = v j.
Lemma eval_at {k} b G env i p (e : aexp k) s v : env_ok b G env -> inb b i = true -> vals_eq G (vals_of env i) (pvals p) -> ev_at G p e s v ->
  exists t, eval env e = Ok t /\ shp t = b ++ s /\ forall j, inb s j = true -> tget t (i ++ j) = v j.
Proof.
  intros H Hi V (d & T & Hd). destruct (ty_sound b G env H _ _ _ _ T) as (t & T1 & T2 & T3). exists t. split; [exact T1|]. split; [exact T2|].
  intros j Hj. cbn [bat evs] in T3. rewrite (T3 i j Hi Hj), <- (Hd j Hj). exact (ty_ext G _ _ V _ _ _ _ T j Hj).
Qed.
(** the values of constructor arguments are those of the point w *)
Definition arg_at (G : ctx) (p w : point) (a : arg) (o : string * (kind * list nat)) : Prop :=
  fst a = fst o /\ projT1 (snd a) = fst (snd o) /\ ev_at G p (projT2 (snd a)) (snd (snd o)) (pvals w (projT1 (snd a)) (fst o)).
Definition args_at (G : ctx) (p w : point) : list arg -> ctx -> Prop := Forall2 (arg_at G p w).
Lemma args_at_ty G p w l C : args_at G p w l C -> args_ty G l C.
Proof. induction 1 as [|a o l C (E1 & E2 & d & T & _) _ IH]; constructor; [|exact IH]. split; [exact E1|]. split; [exact E2|]. eauto. Qed.
Lemma args_vals b G env i p w l C ps : env_ok b G env -> inb b i = true -> vals_eq G (vals_of env i) (pvals p) -> args_at G p w l C ->
  Forall2 (fun a q => fst a = fst q /\ exists t, eval env (projT2 (snd a)) = Ok t /\ snd q = pack (projT1 (snd a)) t) l ps ->
  vals_eq C (vals_of ps i) (pvals w).
Proof.
  intros H Hi V A. revert ps. induction A as [|[n [k e]] [n' [k' s]] l C (E1 & E2 & Ev) _ IH]; intros ps P m k0 s0 j E Hj; [discriminate E|].
  inversion P as [|? [n2 a2] ? ps' (Q1 & t & Q2 & Q3) P']; subst. cbn [fst snd projT1 projT2] in *. subst n' k' n2 a2. cbn [dget] in E. unfold vals_of. cbn [dget].
  destruct (keq m n) as [->|N].
  - injection E as <- <-. rewrite get_pack. destruct (eval_at b G env i p e s _ H Hi V Ev) as (t' & T1 & _ & T3). rewrite Q2 in T1. injection T1 as <-. exact (T3 j Hj).
  - exact (IH ps' P' m k0 s0 j E Hj).
Qed.
(** making an object: its values at batch index i *)
Lemma make_at b G env l c n i p w : env_ok b G env -> inb b i = true -> vals_eq G (vals_of env i) (pvals p) -> args_at G p w l (ctx_of c n) -> is_joint c = false ->
  (dimensions_field c = None -> n = 1) -> dims_ok c n = true ->
  exists r, make c env l = Ok r /\ dcls r = c /\ well_formed r = true /\ leaf_shaped b r = true /\ dims_of r = Ok n /\ finite_at r n i /\
    vals_eq (ctx_of c n) (pvals (point_of r i)) (pvals w).
Proof.
  intros H Hi V A J D1 D2. destruct (make_ok b G env l c n H (args_at_ty _ _ _ _ _ A) J D1 D2) as (ps & P1 & P2 & P3 & P4 & _ & P6). eexists. split; [exact P1|]. split; [reflexivity|].
  do 3 (split; [assumption|]). pose proof (args_vals b G env i p w l _ ps H Hi V A P6) as W.
  assert (F : finite_at (Dist c DefaultMinimizer ps []) n i) by (apply (finite_vals b _ n i w P3 P4); exact W). split; [exact F|].
  pose proof (point_vals b _ n i P3 P4 Hi F) as W2. cbn [dcls dparams] in W2. intros m k s j E Hj. rewrite <- (W2 m k s j E Hj). exact (W m k s j E Hj).
Qed.
(** two points with the same parameter values *)
Definition pt_eq (c : cls) (n : nat) (p q : point) : Prop := vals_eq (ctx_of c n) (pvals p) (pvals q).
Lemma pt_re c n p q f j : pt_eq c n p q -> In f (fields c) -> inb (supp_shape (fd_support f) n) j = true -> p false (fd_name f) j = q false (fd_name f) j.
Proof.
  intros H I Hj. specialize (H _ _ _ j (fields_in_ctx c n f I) Hj). unfold pvals in H. destruct (kind_of (fd_support f)); cbn [elt] in H; injection H; auto.
Qed.
Lemma pt_im c n p q f j : pt_eq c n p q -> In f (fields c) -> kind_of (fd_support f) = KC -> inb (supp_shape (fd_support f) n) j = true -> p true (fd_name f) j = q true (fd_name f) j.
Proof.
  intros H I K Hj. specialize (H _ _ _ j (fields_in_ctx c n f I) Hj). unfold pvals in H. rewrite K in H. cbn [elt] in H. injection H. auto.
Qed.
Lemma pt_sym c n p q : pt_eq c n p q -> pt_eq c n q p.
Proof. intros H m k s j E Hj. symmetry. now apply (H m k s j). Qed.
Lemma pt_trans c n p q r : pt_eq c n p q -> pt_eq c n q r -> pt_eq c n p r.
Proof. intros H K m k s j E Hj. now rewrite (H m k s j E Hj), (K m k s j E Hj). Qed.
Lemma pt_refl c n p : pt_eq c n p p.
Proof. intros m k s j E Hj. reflexivity. Qed.
