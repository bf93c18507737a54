(** C10: the dot product of parameters; C18: divergence and entropies. *)
From Coq Require Import FinFun String List Bool Arith Lia Reals Lra.
From Verif Require Import Base XReal Tensor TensorFacts TensorFacts2 Support Dist DictFacts Iteration Structure Spec StructFacts AssembleFacts ParamFacts ReplaceFacts
  SumSpec DotSpec Tools ToolThms MappingFacts Joint DotFacts StructThms Laws SumFacts MapFacts JointThms JointThms2.
Import ListNotations.

Lemma var_fields_ok c : filter (fixed_ok (Some false)) (fields c) = var_fields c.
Proof. unfold var_fields. apply filter_ext. intros f. cbn. now destruct (fd_fixed f). Qed.
Definition fv (q : dist) (f : field_desc) : arr := match dget (dparams q) (fd_name f) with Some a => a | None => RA (tscalar NaN) end.
Lemma vars_fv q : well_formed q = true -> vars q = map (fun f => (fv q f, fd_support f)) (var_fields (dcls q)).
Proof. intros W. rewrite leaf_vars by exact W. now rewrite var_fields_ok. Qed.
Lemma leaf_has q f : well_formed q = true -> In f (var_fields (dcls q)) -> dget (dparams q) (fd_name f) = Some (fv q f).
Proof.
  intros W Hi. unfold fv. destruct q as [c m ps subs]. apply wf_inv in W as (H & _). cbn [dcls dparams] in *. apply filter_In in Hi as [Hi _].
  destruct (dget ps (fd_name f)) eqn:E; [reflexivity|]. apply dget_None in E. destruct E. unfold keys. rewrite H. now apply in_map.
Qed.
Lemma combine_map_both {A B C D} (g : A -> C) (h : B -> D) l : forall m, combine (map g l) (map h m) = map (fun ab => (g (fst ab), h (snd ab))) (combine l m).
Proof. induction l as [|a l IH]; intros [|b m]; cbn; trivial. now rewrite IH. Qed.
Lemma in_combine_both {A B} (l : list A) (m : list B) ab : In ab (combine l m) -> In (fst ab) l /\ In (snd ab) m.
Proof. destruct ab. intros H. split; [exact (in_combine_l _ _ _ _ H)|exact (in_combine_r _ _ _ _ H)]. Qed.

(** ** the value *)
Lemma leaf_value b q r : leaf_match b q r -> exists t, parameter_dot_product q r = Ok t /\ shp t = b /\ forall i, inb b i = true -> tget t i = leaf_inner b i q r.
Proof.
  intros M. destruct (dot_leaf b q r (match_pair b q r M)) as (t & T1 & T2 & T3). exists t. split; [exact T1|]. split; [exact T2|]. intros i Hi. rewrite (T3 i Hi). unfold leaf_inner. f_equal.
  destruct M as (W1 & W2 & _). rewrite !vars_fv by assumption. rewrite combine_map_both, map_map. apply map_ext_in. intros [f g] Hfg. apply in_combine_both in Hfg as [Hf Hg]. cbn [fst snd] in *.
  rewrite (leaf_has q f W1 Hf), (leaf_has r g W2 Hg). reflexivity.
Qed.
Lemma dot_value b x y : well_formed x = true -> well_formed y = true -> tree_match b x y ->
  exists t, parameter_dot_product x y = Ok t /\ shp t = b /\
    forall i, inb b i = true -> tget t i = xsum (map (fun pq => leaf_inner b i (snd (fst pq)) (snd (snd pq))) (combine (leaves [] x) (leaves [] y))).
Proof.
  intros Wx Wy T. destruct (dot_sum_match b x y Wx Wy T) as [_ (t & T1 & T2 & T3)]. exists t. split; [exact T1|]. split; [exact T2|]. intros i Hi. rewrite (T3 i Hi). clear T3. f_equal.
  unfold tree_match in T. induction T as [|p q l m [_ M] _ IH]; [reflexivity|]. cbn [combine map fst snd].
  destruct (leaf_value b (snd p) (snd q) M) as (u & U1 & U2 & U3). rewrite U1. cbn [entry]. rewrite (U3 i Hi). f_equal. exact IH.
Qed.
(** ** symmetry *)
Lemma xmul_comm x y : xmul x y = xmul y x.
Proof. destruct x, y; cbn; trivial; try now rewrite Rmult_comm. Qed.
Lemma cmul_re_comm x y : xre (cmul x y) = xre (cmul y x).
Proof. unfold cmul. cbn [xre]. now rewrite (xmul_comm (xre x)), (xmul_comm (xim x)). Qed.
Lemma combine_swap {A B C} (f : A * B -> C) (g : B * A -> C) l : forall m, (forall a b, In (a, b) (combine l m) -> f (a, b) = g (b, a)) -> map f (combine l m) = map g (combine m l).
Proof. induction l as [|a l IH]; intros [|b m] H; cbn; trivial. f_equal; [apply H; now left|]. apply IH. intros; apply H; now right. Qed.
Lemma leaf_inner_sym b i q r : leaf_match b q r -> inb b i = true -> leaf_inner b i q r = leaf_inner b i r q.
Proof.
  intros M Hi. pose proof (match_pair b q r M) as (W1 & W2 & _ & _ & _ & F). unfold leaf_inner. f_equal. apply combine_swap. intros f g Hfg. cbn [fst snd].
  assert (Hp : pair_shaped b (fv q f, fd_support f) (fv r g, fd_support g)).
  { rewrite !vars_fv in F by assumption. clear -F Hfg. revert Hfg F. generalize (var_fields (dcls q)) (var_fields (dcls r)). induction l as [|a l IH]; intros [|c m] Hi F; try destruct Hi.
    - injection H as -> ->. inversion F; subst. assumption.
    - inversion F; subst. now apply (IH m). }
  apply in_combine_both in Hfg as [Hf Hg]. cbn [fst snd] in Hf, Hg. rewrite (leaf_has q f W1 Hf), (leaf_has r g W2 Hg). unfold array_inner.
  destruct Hp as (_ & e & _ & S1 & S2). cbn [fst] in S1, S2. rewrite S1, S2. f_equal. apply map_ext. intros j. apply cmul_re_comm.
Qed.
Lemma dot_sym b x y : well_formed x = true -> well_formed y = true -> tree_match b x y ->
  exists t t', parameter_dot_product x y = Ok t /\ parameter_dot_product y x = Ok t' /\ shp t = b /\ shp t' = b /\ forall i, inb b i = true -> tget t i = tget t' i.
Proof.
  intros Wx Wy T. destruct (dot_value b x y Wx Wy T) as (t & T1 & T2 & T3). destruct (dot_value b y x Wy Wx (tm_sym _ _ _ T)) as (u & U1 & U2 & U3).
  exists t, u. repeat (split; [assumption|]). intros i Hi. rewrite (T3 i Hi), (U3 i Hi). f_equal. apply combine_swap. intros p q Hpq. cbn [fst snd].
  apply leaf_inner_sym; [|exact Hi]. clear -T Hpq. unfold tree_match in T. revert Hpq. induction T as [|a c l m [_ M] _ IH]; intros Hi; [destruct Hi|]. destruct Hi as [E|Hi]; [injection E as <- <-; exact M|auto].
Qed.

(** ** finite entries *)
Definition rv (z : xc) : R := match xre z with Fin a => a | _ => 0%R end.
Definition iv (z : xc) : R := match xim z with Fin a => a | _ => 0%R end.
Lemma fin_rv z : finite_entry z -> z = XC (Fin (rv z)) (Fin (iv z)).
Proof. intros (a & b & ->). reflexivity. Qed.
Definition rterm (b i : list nat) (v w : arr) : R :=
  rsum (map (fun j => (rv (entry_c v (i ++ j)) * rv (entry_c w (i ++ j)) - iv (entry_c v (i ++ j)) * iv (entry_c w (i ++ j)))%R) (indices (skipn (length b) (ashape v)))).
Definition fin_arr (v : arr) : Prop := forall i, inb (ashape v) i = true -> finite_entry (entry_c v i).
Lemma inner_fin b e i v w : ashape v = b ++ e -> ashape w = b ++ e -> fin_arr v -> fin_arr w -> inb b i = true -> array_inner b i v w = Fin (rterm b i v w).
Proof.
  intros S1 S2 F1 F2 Hi. unfold array_inner, rterm. apply xsum_ext_Fin. intros j Hj. rewrite S1, skipn_app, skipn_all, Nat.sub_diag in Hj. cbn [skipn app] in Hj. apply in_indices in Hj.
  assert (Hij : inb (b ++ e) (i ++ j) = true) by (rewrite inb_app by (now apply inb_length); now rewrite Hi, Hj).
  assert (G1 : finite_entry (entry_c v (i ++ j))) by (apply F1; now rewrite S1). assert (G2 : finite_entry (entry_c w (i ++ j))) by (apply F2; now rewrite S2).
  rewrite (fin_rv _ G1), (fin_rv _ G2). reflexivity.
Qed.

(** an operation computing u*x + c*y *)
Definition linear_op (op : list arr -> result arr) (u c : R) : Prop := forall v w, like v w -> fin_arr v -> fin_arr w ->
  exists z, op [v; w] = Ok z /\ like v z /\ fin_arr z /\ forall i, inb (ashape v) i = true ->
    rv (entry_c z i) = (u * rv (entry_c v i) + c * rv (entry_c w i))%R /\ iv (entry_c z i) = (u * iv (entry_c v i) + c * iv (entry_c w i))%R.
Lemma lin_op_linear u c : linear_op (lin_op u c) u c.
Proof.
  intros v w [Hs Hk] Fv Fw. destruct v as [v|v], w as [w|w]; try easy; cbn [ashape] in *; cbn [lin_op]; rewrite tmap2_same by congruence; cbn [rmap bind]; eexists; (split; [reflexivity|]);
    (split; [split; [reflexivity|exact I]|]); (split; [intros i Hi|intros i Hi]); cbn [ashape shp tbuild] in Hi; cbn [entry_c]; rewrite tget_tbuild by exact Hi;
    (assert (G1 := Fv i Hi); assert (G2 := Fw i); cbn [ashape] in G2; rewrite Hs in G2; specialize (G2 Hi); cbn [entry_c] in G1, G2).
  - destruct G1 as (a & ? & E1), G2 as (a' & ? & E2). injection E1 as E1 _. injection E2 as E2 _. rewrite E1, E2. exists (u * a + c * a')%R, 0%R. reflexivity.
  - destruct G1 as (a & ? & E1), G2 as (a' & ? & E2). injection E1 as E1 _. injection E2 as E2 _. rewrite E1, E2. cbn. split; [reflexivity|ring].
  - destruct G1 as (a & b & ->), G2 as (a' & b' & ->). exists (u * a + c * a')%R, (u * b + c * b')%R. reflexivity.
  - destruct G1 as (a & b & ->), G2 as (a' & b' & ->). split; reflexivity.
Qed.
Lemma sub_op_linear : linear_op sub_op 1 (-1).
Proof.
  intros v w [Hs Hk] Fv Fw. destruct v as [v|v], w as [w|w]; try easy; cbn [ashape] in *; cbn [sub_op arr_sub as_complex]; rewrite tmap2_same by congruence; cbn [rmap bind]; eexists; (split; [reflexivity|]);
    (split; [split; [reflexivity|exact I]|]); (split; [intros i Hi|intros i Hi]); cbn [ashape shp tbuild] in Hi; cbn [entry_c]; rewrite tget_tbuild by exact Hi;
    (assert (G1 := Fv i Hi); assert (G2 := Fw i); cbn [ashape] in G2; rewrite Hs in G2; specialize (G2 Hi); cbn [entry_c] in G1, G2).
  - destruct G1 as (a & ? & E1), G2 as (a' & ? & E2). injection E1 as E1 _. injection E2 as E2 _. rewrite E1, E2. exists (a + - a')%R, 0%R. reflexivity.
  - destruct G1 as (a & ? & E1), G2 as (a' & ? & E2). injection E1 as E1 _. injection E2 as E2 _. rewrite E1, E2. cbn. split; ring.
  - destruct G1 as (a & b & ->), G2 as (a' & b' & ->). exists (a + - a')%R, (b + - b')%R. reflexivity.
  - destruct G1 as (a & b & ->), G2 as (a' & b' & ->). cbn. split; ring.
Qed.
Lemma rterm_lin b e i u c v v' z w : ashape v = b ++ e -> ashape z = b ++ e -> ashape v' = b ++ e -> inb b i = true ->
  (forall k, inb (ashape v) k = true -> rv (entry_c z k) = (u * rv (entry_c v k) + c * rv (entry_c v' k))%R /\ iv (entry_c z k) = (u * iv (entry_c v k) + c * iv (entry_c v' k))%R) ->
  rterm b i z w = (u * rterm b i v w + c * rterm b i v' w)%R.
Proof.
  intros S1 S2 S3 Hi H. unfold rterm. rewrite S1, S2, S3, <- !rsum_scale, <- rsum_add. apply rsum_ext. intros j Hj.
  rewrite skipn_app, skipn_all, Nat.sub_diag in Hj. cbn [skipn app] in Hj. apply in_indices in Hj.
  assert (Hij : inb (ashape v) (i ++ j) = true) by (rewrite S1, inb_app by (now apply inb_length); now rewrite Hi, Hj).
  destruct (H _ Hij) as [-> ->]. ring.
Qed.

(** the finite entries of a simple distribution *)
Definition leaf_fin (q : dist) : Prop := forall f, In f (var_fields (dcls q)) -> fin_arr (fv q f).
Lemma field_at_leaf d p q n : dist_at d p = Some q -> field_at d (p ++ [n]) = field_at q [n].
Proof.
  revert d. induction p as [|k p IH]; intros d H; cbn [dist_at] in H; [injection H as <-; reflexivity|].
  destruct (dget (sub_distributions d) k) as [s|] eqn:E; [|discriminate]. rewrite <- (IH s H). cbn [app].
  assert (Hne : exists a l, p ++ [n] = a :: l) by (destruct p; cbn; eauto). destruct Hne as (a & l & Hne). rewrite Hne.
  change (field_at d (k :: a :: l)) with (match dget (sub_distributions d) k with Some s => field_at s (a :: l) | None => None end). now rewrite E.
Qed.
Lemma find_field c f : In f (fields c) -> find (fun g => String.eqb (fd_name g) (fd_name f)) (fields c) = Some f.
Proof.
  intros Hi. pose proof (nodup_fields c) as Hn. induction (fields c) as [|g l IH]; [destruct Hi|]. cbn [find]. cbn [map] in Hn. inversion Hn; subst. destruct Hi as [->|Hi]; [now rewrite String.eqb_refl|].
  destruct (String.eqb (fd_name g) (fd_name f)) eqn:E; [|now apply IH]. apply String.eqb_eq in E. destruct H1. rewrite E. now apply in_map.
Qed.
Lemma finite_leaf d p q : well_formed d = true -> finite_vars d -> In (p, q) (leaves [] d) -> leaf_fin q.
Proof.
  intros W H Hi f Hf i Hb. destruct (leaf_wf d [] p q W Hi) as [Wq _]. apply (leaf_in d p q W) in Hi as [Hd _].
  assert (Hff := Hf). apply filter_In in Hff as [Hff Hx]. apply negb_true_iff in Hx.
  apply (H (p ++ [fd_name f]) f); auto.
  - rewrite (field_at_leaf d p q _ Hd). cbn. now apply find_field.
  - rewrite (param_at_dist d p q _ Hd). now apply leaf_has.
Qed.
Definition rleaf (b i : list nat) (q r : dist) : R := rsum (map (fun fg => rterm b i (fv q (fst fg)) (fv r (snd fg))) (combine (var_fields (dcls q)) (var_fields (dcls r)))).
Lemma pair_fields b q r f g : leaf_match b q r -> In (f, g) (combine (var_fields (dcls q)) (var_fields (dcls r))) ->
  exists e, ashape (fv q f) = b ++ e /\ ashape (fv r g) = b ++ e.
Proof.
  intros M Hfg. pose proof (match_pair b q r M) as (W1 & W2 & _ & _ & _ & F). rewrite !vars_fv in F by assumption.
  assert (Hp : pair_shaped b (fv q f, fd_support f) (fv r g, fd_support g)).
  { clear -F Hfg. revert Hfg F. generalize (var_fields (dcls q)) (var_fields (dcls r)). induction l as [|a l IH]; intros [|c m] Hi F; try destruct Hi.
    - injection H as -> ->. inversion F; subst. assumption.
    - inversion F; subst. now apply (IH m). }
  destruct Hp as (_ & e & _ & S1 & S2). eauto.
Qed.
Lemma leaf_inner_fin b i q r : leaf_match b q r -> leaf_fin q -> leaf_fin r -> inb b i = true -> leaf_inner b i q r = Fin (rleaf b i q r).
Proof.
  intros M Fq Fr Hi. unfold leaf_inner, rleaf. apply xsum_ext_Fin. intros [f g] Hfg. cbn [fst snd].
  destruct (pair_fields b q r f g M Hfg) as (e & S1 & S2). destruct M as (W1 & W2 & _). apply in_combine_both in Hfg as [Hf Hg]. cbn [fst snd] in *.
  rewrite (leaf_has q f W1 Hf), (leaf_has r g W2 Hg). now apply (inner_fin b e); auto.
Qed.
Lemma fv_param d p q f v : dist_at d p = Some q -> param_at d (p ++ [fd_name f]) = Some v -> fv q f = v.
Proof. intros H E. rewrite (param_at_dist d p q _ H) in E. unfold fv. now rewrite E. Qed.

Section Lin.
  Variables (op : list arr -> result arr) (u c : R).
  Hypothesis Hlin : linear_op op u c.
  (** r = op(x, x') elementwise on the variable parameters *)
  Lemma map_lin_full b x x' : well_formed x = true -> well_formed x' = true -> same_skeleton x x' -> tree_match b x x' -> finite_vars x -> finite_vars x' ->
    exists r, parameter_map op x [x'] = Ok r /\ well_formed r = true /\ no_custom_minimizer r = true /\ same_skeleton x r /\ tree_match b x r /\
      (forall p q, In (p, q) (leaves [] x) -> leaf_fin (leafat r p) /\
        forall f, In f (var_fields (dcls q)) -> forall k, inb (ashape (fv q f)) k = true ->
          rv (entry_c (fv (leafat r p) f) k) = (u * rv (entry_c (fv q f) k) + c * rv (entry_c (fv (leafat x' p) f) k))%R /\
          iv (entry_c (fv (leafat r p) f) k) = (u * iv (entry_c (fv q f) k) + c * iv (entry_c (fv (leafat x' p) f) k))%R) /\
      (forall p q, In (p, q) (leaves [] x) -> forall f, In f (fields (dcls q)) -> fd_fixed f = true -> dget (dparams (leafat r p)) (fd_name f) = dget (dparams q) (fd_name f)).
  Proof.
    intros Wx Wx' Sk T Fx Fx'.
    destruct (tm_shaped b x x' Wx Wx' T) as [Sx Sx'].
    assert (Txx : tree_match b x x) by (eapply tm_trans; [exact T|apply tm_sym; exact T]).
    (* a version of op that is total on all arrays of the same shape *)
    destruct (create_shaped b x Wx Sx) as [infos Hc].
    assert (Hys : forall y, In y [x'] -> well_formed y = true /\ same_skeleton x y) by (intros y [<-|[]]; auto).
    assert (Hval : forall p q f, In (p, q) (leaves [] x) -> In f (fields (dcls q)) -> exists v w, dget (dparams q) (fd_name f) = Some v /\ param_at x (p ++ [fd_name f]) = Some v /\
        param_at x' (p ++ [fd_name f]) = Some w /\ like v w /\ field_at x (p ++ [fd_name f]) = Some f /\ dget (dparams (leafat x' p)) (fd_name f) = Some w).
    { intros p q f Hi Hf. destruct (tm_leaf b x x' p q Wx Wx' T Hi) as [M _]. pose proof (proj1 (leaf_in x p q Wx) Hi) as [Hd _].
      destruct (skel_leafat x x' p q Sk Hd) as [Cl D]. destruct (match_like b q _ f M Cl Hf) as (v & w & V1 & V2 & Lk). exists v, w. split; [exact V1|].
      split; [rewrite (param_at_dist x p q _ Hd); exact V1|]. split; [rewrite (param_at_dist x' p _ _ D); exact V2|]. split; [exact Lk|]. split; [|exact V2].
      rewrite (field_at_leaf x p q _ Hd). cbn. now apply find_field. }
    assert (Hfin : forall p q f, In (p, q) (leaves [] x) -> In f (var_fields (dcls q)) -> fin_arr (fv q f) /\ fin_arr (fv (leafat x' p) f)).
    { intros p q f Hi Hf. split; [exact (finite_leaf x p q Wx Fx Hi f Hf)|]. destruct (tm_leaf b x x' p q Wx Wx' T Hi) as [_ Hi']. apply (finite_leaf x' p _ Wx' Fx' Hi').
      pose proof (proj1 (leaf_in x p q Wx) Hi) as [Hd _]. destruct (skel_leafat x x' p q Sk Hd) as [-> _]. exact Hf. }
    destruct (parameter_map_spec op x [x'] infos Wx Hc Hys) as (r & R1 & R2 & R3 & R4 & R5).
    { intros p f v ws Hf Hx Hv Hw. destruct (param_leaf x p v Wx Hv) as (p' & n & q & -> & Hq & Jq). assert (Hi : In (p', q) (leaves [] x)) by (apply leaf_in; auto).
      rewrite (field_at_leaf x p' q n Hq) in Hf. cbn [field_at] in Hf. apply find_some in Hf as [Hf En]. apply String.eqb_eq in En. subst n.
      destruct (Hval p' q f Hi Hf) as (v1 & w1 & V1 & V2 & V3 & Lk & _ & V4). rewrite V2 in Hv. injection Hv as <-.
      inversion Hw as [|? w ? ? Hw1 Hw2]; subst. inversion Hw2; subst. rewrite V3 in Hw1. injection Hw1 as <-.
      destruct (Hfin p' q f Hi) as [G1 G2]; [apply filter_In; now rewrite Hx|]. unfold fv in G1, G2. rewrite V1 in G1. rewrite V4 in G2.
      destruct (Hlin v1 w1 Lk G1 G2) as (z & Z & _). eauto. }
    exists r. split; [exact R1|]. split; [exact R2|]. split; [exact R3|]. split; [exact R4|].
    assert (Hr : forall p q f, In (p, q) (leaves [] x) -> In f (fields (dcls q)) -> exists v z, dget (dparams q) (fd_name f) = Some v /\ dget (dparams (leafat r p)) (fd_name f) = Some z /\ like v z /\
       (fd_fixed f = true -> z = v) /\
       (fd_fixed f = false -> fin_arr z /\ forall k, inb (ashape v) k = true ->
          rv (entry_c z k) = (u * rv (entry_c v k) + c * rv (entry_c (fv (leafat x' p) f) k))%R /\ iv (entry_c z k) = (u * iv (entry_c v k) + c * iv (entry_c (fv (leafat x' p) f) k))%R)).
    { intros p q f Hi Hf. destruct (Hval p q f Hi Hf) as (v & w & V1 & V2 & V3 & Lk & V5 & V4). pose proof (proj1 (leaf_in x p q Wx) Hi) as [Hd _]. destruct (skel_leafat x r p q R4 Hd) as [Cl D].
      specialize (R5 _ f v [w] V5 V2 (Forall2_cons _ _ V3 (Forall2_nil _))). rewrite (param_at_dist r p _ _ D) in R5. exists v. destruct (fd_fixed f) eqn:E.
      - exists v. split; [exact V1|]. split; [exact R5|]. split; [split; [reflexivity|now destruct v]|]. split; [reflexivity|discriminate].
      - destruct R5 as (z & Hz & Hr). destruct (Hfin p q f Hi) as [G1 G2]; [apply filter_In; now rewrite E|]. unfold fv in G1, G2. rewrite V1 in G1. rewrite V4 in G2.
        destruct (Hlin v w Lk G1 G2) as (z' & Z1 & Z2 & Z3 & Z4). rewrite Hz in Z1. injection Z1 as <-. exists z. split; [exact V1|]. split; [exact Hr|]. split; [exact Z2|]. split; [discriminate|].
        intros _. split; [exact Z3|]. unfold fv. rewrite V4. exact Z4. }
    split.
    - apply tm_of; auto; [now apply skel_leaf_paths|]. intros p q Hi. pose proof (proj1 (leaf_in x p q Wx) Hi) as [Hd Hj].
      destruct (skel_leafat x r p q R4 Hd) as [C D]. destruct (leaf_wf x [] p q Wx Hi) as [Wq _].
      destruct (leaf_like b q (leafat r p) C (shaped_in b x p q Sx Hi)) as [L1 L2].
      { intros f Hf. destruct (Hr p q f Hi Hf) as (v & z & V1 & V2 & V3 & _ & _). eauto. }
      unfold leaf_match. repeat (split; [first [assumption|now symmetry|exact (shaped_in b x p q Sx Hi)|exact (dist_at_wf r p _ R2 D)]|]).
      destruct (tm_leaf b x x p q Wx Wx Txx Hi) as [(_ & _ & _ & _ & _ & f & F1 & _) _]. exists f. rewrite C. auto.
    - split; [|intros p q Hi f Hf Hx; destruct (Hr p q f Hi Hf) as (v & z & V1 & V2 & _ & V3 & _); rewrite V1, V2; f_equal; now apply V3].
      intros p q Hi. pose proof (proj1 (leaf_in x p q Wx) Hi) as [Hd _]. destruct (skel_leafat x r p q R4 Hd) as [C D]. split.
      + intros f Hf. rewrite C in Hf. apply filter_In in Hf as [Hf Hx]. apply negb_true_iff in Hx. destruct (Hr p q f Hi Hf) as (v & z & V1 & V2 & _ & _ & V3). unfold fv. rewrite V2. now apply V3.
      + intros f Hf k Hk. apply filter_In in Hf as [Hf Hx]. apply negb_true_iff in Hx. destruct (Hr p q f Hi Hf) as (v & z & V1 & V2 & _ & _ & V3). unfold fv at 1 2 4 5. rewrite V1, V2.
        unfold fv in Hk. rewrite V1 in Hk. now apply V3.
  Qed.
  Lemma map_lin b x x' : well_formed x = true -> well_formed x' = true -> same_skeleton x x' -> tree_match b x x' -> finite_vars x -> finite_vars x' ->
    exists r, parameter_map op x [x'] = Ok r /\ well_formed r = true /\ no_custom_minimizer r = true /\ same_skeleton x r /\ tree_match b x r /\
      (forall p q, In (p, q) (leaves [] x) -> leaf_fin (leafat r p) /\
        forall f, In f (var_fields (dcls q)) -> forall k, inb (ashape (fv q f)) k = true ->
          rv (entry_c (fv (leafat r p) f) k) = (u * rv (entry_c (fv q f) k) + c * rv (entry_c (fv (leafat x' p) f) k))%R /\
          iv (entry_c (fv (leafat r p) f) k) = (u * iv (entry_c (fv q f) k) + c * iv (entry_c (fv (leafat x' p) f) k))%R).
  Proof.
    intros Wx Wx' Sk T Fx Fx'. destruct (map_lin_full b x x' Wx Wx' Sk T Fx Fx') as (r & R1 & R2 & R3 & R4 & R5 & R6 & _). exists r. repeat (split; [assumption|]). exact R6.
  Qed.
  Lemma dot_lin b x x' y : well_formed x = true -> well_formed x' = true -> well_formed y = true -> same_skeleton x x' -> tree_match b x x' -> tree_match b x y ->
    finite_vars x -> finite_vars x' -> finite_vars y ->
    exists r t s1 s2, parameter_map op x [x'] = Ok r /\ parameter_dot_product r y = Ok t /\ parameter_dot_product x y = Ok s1 /\ parameter_dot_product x' y = Ok s2 /\ lin_entries b u c t s1 s2.
  Proof.
    intros Wx Wx' Wy Sk T Ty Fx Fx' Fy. destruct (map_lin b x x' Wx Wx' Sk T Fx Fx') as (r & R1 & R2 & R3 & R4 & R5 & R6).
    assert (Try : tree_match b r y) by (eapply tm_trans; [apply tm_sym; exact R5|exact Ty]). assert (Tx'y : tree_match b x' y) by (eapply tm_trans; [apply tm_sym; exact T|exact Ty]).
    destruct (dot_value b r y R2 Wy Try) as (t & T1 & T2 & T3). destruct (dot_value b x y Wx Wy Ty) as (s1 & A1 & A2 & A3). destruct (dot_value b x' y Wx' Wy Tx'y) as (s2 & B1 & B2 & B3).
    exists r, t, s1, s2. repeat (split; [assumption|]). intros i Hi. rewrite (T3 i Hi), (A3 i Hi), (B3 i Hi).
    pose proof (F2_paths _ _ _ R5) as Pr. pose proof (F2_paths _ _ _ T) as Px'. pose proof (F2_paths _ _ _ Ty) as Py.
    rewrite (leaves_by_path x r R2 Pr), (leaves_by_path x x' Wx' Px'), (leaves_by_path x y Wy Py), !combine_map2, !map_map, combine_map_self, map_map. cbn [fst snd].
    exists (rsum (map (fun pq => rleaf b i (snd pq) (leafat y (fst pq))) (leaves [] x))), (rsum (map (fun pq => rleaf b i (leafat x' (fst pq)) (leafat y (fst pq))) (leaves [] x))).
    assert (Hy : forall p q, In (p, q) (leaves [] x) -> leaf_fin (leafat y p) /\ leaf_match b q (leafat y p)).
    { intros p q Hp. destruct (tm_leaf b x y p q Wx Wy Ty Hp) as [M Hy]. split; [exact (finite_leaf y p _ Wy Fy Hy)|exact M]. }
    split; [|split].
    - apply xsum_ext_Fin. intros [p q] Hp. cbn [fst snd]. destruct (Hy p q Hp). apply leaf_inner_fin; auto. exact (finite_leaf x p q Wx Fx Hp).
    - apply xsum_ext_Fin. intros [p q] Hp. cbn [fst snd]. destruct (Hy p q Hp) as [Y1 Y2]. destruct (tm_leaf b x x' p q Wx Wx' T Hp) as [M Hx']. apply leaf_inner_fin; auto.
      + eapply leaf_match_trans; [apply leaf_match_sym; exact M|exact Y2].
      + exact (finite_leaf x' p _ Wx' Fx' Hx').
    - rewrite <- !rsum_scale, <- rsum_add. apply xsum_ext_Fin. intros [p q] Hp. cbn [fst snd]. destruct (Hy p q Hp) as [Y1 Y2]. destruct (R6 p q Hp) as [Z1 Z2].
      destruct (tm_leaf b x r p q Wx R2 R5 Hp) as [Mr _]. destruct (tm_leaf b x x' p q Wx Wx' T Hp) as [M' _].
      pose proof (leaf_match_trans b _ _ _ (leaf_match_sym _ _ _ Mr) Y2) as Mry. pose proof (leaf_match_trans b _ _ _ (leaf_match_sym _ _ _ M') Y2) as Mxy.
      rewrite (leaf_inner_fin b i _ _ Mry Z1 Y1 Hi). f_equal. unfold rleaf. pose proof (proj1 (leaf_in x p q Wx) Hp) as [Hd _].
      destruct (skel_leafat x r p q R4 Hd) as [C D]. destruct (skel_leafat x x' p q Sk Hd) as [C' D']. rewrite C, C'. rewrite <- !rsum_scale, <- rsum_add. apply rsum_ext. intros [f g] Hfg. cbn [fst snd].
      destruct (pair_fields b q _ f g Y2 Hfg) as (e & E1 & E2).
      assert (Hfg1 := Hfg). rewrite <- C in Hfg1. destruct (pair_fields b _ _ f g Mry Hfg1) as (e1 & E3 & E4).
      assert (Hfg2 := Hfg). rewrite <- C' in Hfg2. destruct (pair_fields b _ _ f g Mxy Hfg2) as (e2 & E5 & E6).
      assert (He1 : e1 = e) by (rewrite E2 in E4; now apply app_inv_head in E4). assert (He2 : e2 = e) by (rewrite E2 in E6; now apply app_inv_head in E6). subst e1 e2.
      apply (rterm_lin b e); auto. apply Z2. now apply in_combine_both in Hfg.
  Qed.
End Lin.
(** the result does not depend on the fixed parameters *)
Lemma dot_fixed x x' y y' : parameters_s x (Some false) = parameters_s x' (Some false) -> parameters_s y (Some false) = parameters_s y' (Some false) -> parameter_dot_product x y = parameter_dot_product x' y'.
Proof. intros H1 H2. unfold parameter_dot_product. now rewrite H1, H2. Qed.
