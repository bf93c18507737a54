(** C16, C17: the quantities of a joint distribution are sums over its leaves. *)
From Coq Require Import FinFun String List Bool Arith Lia Reals.
From Verif Require Import Base XReal Tensor TensorFacts Support Dist DictFacts Iteration Structure Spec StructFacts AssembleFacts ParamFacts ReplaceFacts
  SumSpec Tools ToolThms MappingFacts Joint DotFacts StructThms Laws SumFacts MapFacts.
Import ListNotations.

Lemma bind_assoc {A B C} (x : result A) (f : A -> result B) (g : B -> result C) : bind (bind x f) g = bind x (fun a => bind (f a) g).
Proof. destruct x; reflexivity. Qed.
Lemma bind_ext {A B} (x : result A) (f g : A -> result B) : (forall a, x = Ok a -> f a = g a) -> bind x f = bind x g.
Proof. destruct x; cbn; auto. Qed.
Lemma shaped_in b d p q : shaped b d = true -> In (p, q) (leaves [] d) -> leaf_shaped b q = true.
Proof. intros S Hi. pose proof (shaped_leaves b d [] S) as H. rewrite Forall_forall in H. exact (H _ Hi). Qed.
Lemma leaf_wf d base p q : well_formed d = true -> In (p, q) (leaves base d) -> well_formed q = true /\ is_joint (dcls q) = false.
Proof. intros W Hi. pose proof (leaves_simple d base W) as H. rewrite Forall_forall in H. destruct (H _ Hi). auto. Qed.
Lemma exp_leaf d base p q : well_formed d = true -> exp_tree d = true -> In (p, q) (leaves base d) -> exists f, dcls q = EP f.
Proof.
  intros W H Hi. pose proof (all_nodes_leaves is_exp d base H p q Hi) as Hc. destruct (leaf_wf d base p q W Hi) as [_ Hl].
  destruct q as [c m ps subs]. cbn [dcls] in *. destruct c; try discriminate Hc; [eauto|]. cbn in Hl. intuition discriminate.
Qed.

(** a pointwise image of a tree: the same names, f applied at the leaves *)
Section Conv.
  Variable L : leaf_methods.
  Lemma to_exp_tree d : forall base, well_formed d = true -> nat_tree d = true ->
    (forall p q f, In (p, q) (leaves base d) -> dcls q = NP f -> exists e, l_to_exp L q = Ok e /\ dcls e = EP f /\ well_formed e = true /\ no_custom_minimizer e = true) ->
    exists e, to_exp L d = Ok e /\ well_formed e = true /\ exp_tree e = true /\ no_custom_minimizer e = true /\ is_joint (dcls e) = is_joint (dcls d) /\
      map fst (sub_distributions e) = map fst (sub_distributions d) /\
      Forall2 (fun pq pe => fst pq = fst pe /\ l_to_exp L (snd pq) = Ok (snd pe)) (leaves base d) (leaves base e).
  Proof.
    induction d as [c m ps subs IH] using dist_rect'. intros base Hwf Hn Hl. apply wf_inv in Hwf as (_ & Hj & Hsb & Hsub).
    cbn [nat_tree all_nodes] in Hn. apply andb_prop in Hn as [Hc Hn]. destruct c as [f|f| | | | | | |]; try discriminate Hc.
    - cbn [leaves is_joint to_exp] in *. destruct (Hl base (Dist (NP f) m ps subs) f (or_introl eq_refl) eq_refl) as (e & E1 & E2 & E3 & E4).
      exists e. destruct e as [ce me pse subse]. cbn [dcls] in E2. subst ce. pose proof (wf_inv _ _ _ _ E3) as (_ & _ & Hse & _). rewrite (Hse eq_refl) in *. rewrite (Hsb eq_refl) in *.
      repeat split; auto. cbn [leaves is_joint]. constructor; [|constructor]. split; [reflexivity|exact E1].
    - rewrite to_exp_unfold_joint. destruct (Hj eq_refl) as [Hne Hnd]. cbn [leaves is_joint] in Hl.
      assert (Hm : exists r, mapM (fun ns => let* e := to_exp L (snd ns) in Ok (fst ns, e)) subs = Ok r /\ map fst r = map fst subs /\
        Forall (fun ns => well_formed (snd ns) = true /\ exp_tree (snd ns) = true /\ no_custom_minimizer (snd ns) = true) r /\
        Forall2 (fun pq pe => fst pq = fst pe /\ l_to_exp L (snd pq) = Ok (snd pe)) (flat_map (fun ns => leaves (base ++ [fst ns]) (snd ns)) subs)
                (flat_map (fun ns => leaves (base ++ [fst ns]) (snd ns)) r)).
      { clear Hne Hnd Hj Hsb. induction subs as [|[n s] subs IHs]; [exists []; cbn; auto|].
        inversion IH; subst. inversion Hsub; subst. cbn [forallb fst snd] in *. apply andb_prop in Hn as [Hn1 Hn2].
        destruct (H1 (base ++ [n]) H3 Hn1) as (e & E1 & E2 & E3 & E4 & E5 & E6 & E7).
        { intros p q f Hi. apply (Hl p q f). cbn [flat_map fst snd]. apply in_or_app. now left. }
        destruct (IHs H2 H4 Hn2) as (r & R1 & R2 & R3 & R4).
        { intros p q f Hi. apply (Hl p q f). cbn [flat_map fst snd]. apply in_or_app. now right. }
        exists ((n, e) :: r). cbn [mapM fst snd]. rewrite E1. cbn [bind]. rewrite R1. cbn [bind]. split; [reflexivity|]. split; [cbn; now rewrite R2|].
        split; [constructor; auto|]. cbn [flat_map fst snd]. now apply Forall2_app. }
      destruct Hm as (r & R1 & R2 & R3 & R4). rewrite R1. cbn [bind]. eexists. split; [reflexivity|].
      assert (Hf : forall P, (forall a, well_formed a = true /\ exp_tree a = true /\ no_custom_minimizer a = true -> P a = true) -> forallb (fun ns : string * dist => P (snd ns)) r = true).
      { intros P HP. apply forallb_forall. intros ns Hi. rewrite Forall_forall in R3. apply HP. exact (R3 _ Hi). }
      repeat split.
      + cbn [well_formed fields is_joint map list_eqb fst andb]. rewrite R2. rewrite (Hf well_formed) by intuition.
        assert (N1 : null r = false) by (destruct r; [destruct subs; easy|reflexivity]). rewrite N1. cbn [negb andb]. rewrite andb_true_r. now apply nodupb_NoDup.
      + unfold exp_tree. cbn [all_nodes is_exp andb]. apply (Hf (all_nodes is_exp)). unfold exp_tree. intuition.
      + cbn [no_custom_minimizer is_default andb]. apply (Hf no_custom_minimizer). intuition.
      + cbn [sub_distributions]. exact R2.
      + cbn [leaves is_joint]. exact R4.
  Qed.
  Lemma to_nat_tree d : forall base, well_formed d = true -> exp_tree d = true ->
    (forall p q f, In (p, q) (leaves base d) -> dcls q = EP f -> exists e, l_to_nat L q = Ok e /\ dcls e = NP f /\ well_formed e = true /\ no_custom_minimizer e = true) ->
    exists e, to_nat L d = Ok e /\ well_formed e = true /\ nat_tree e = true /\ no_custom_minimizer e = true /\ is_joint (dcls e) = is_joint (dcls d) /\
      map fst (sub_distributions e) = map fst (sub_distributions d) /\
      Forall2 (fun pq pe => fst pq = fst pe /\ l_to_nat L (snd pq) = Ok (snd pe)) (leaves base d) (leaves base e).
  Proof.
    induction d as [c m ps subs IH] using dist_rect'. intros base Hwf Hn Hl. apply wf_inv in Hwf as (_ & Hj & Hsb & Hsub).
    cbn [exp_tree all_nodes] in Hn. apply andb_prop in Hn as [Hc Hn]. destruct c as [f|f| | | | | | |]; try discriminate Hc.
    - cbn [leaves is_joint to_nat] in *. destruct (Hl base (Dist (EP f) m ps subs) f (or_introl eq_refl) eq_refl) as (e & E1 & E2 & E3 & E4).
      exists e. destruct e as [ce me pse subse]. cbn [dcls] in E2. subst ce. pose proof (wf_inv _ _ _ _ E3) as (_ & _ & Hse & _). rewrite (Hse eq_refl) in *. rewrite (Hsb eq_refl) in *.
      repeat split; auto. cbn [leaves is_joint]. constructor; [|constructor]. split; [reflexivity|exact E1].
    - rewrite to_nat_unfold_joint. destruct (Hj eq_refl) as [Hne Hnd]. cbn [leaves is_joint] in Hl.
      assert (Hm : exists r, mapM (fun ns => let* e := to_nat L (snd ns) in Ok (fst ns, e)) subs = Ok r /\ map fst r = map fst subs /\
        Forall (fun ns => well_formed (snd ns) = true /\ nat_tree (snd ns) = true /\ no_custom_minimizer (snd ns) = true) r /\
        Forall2 (fun pq pe => fst pq = fst pe /\ l_to_nat L (snd pq) = Ok (snd pe)) (flat_map (fun ns => leaves (base ++ [fst ns]) (snd ns)) subs)
                (flat_map (fun ns => leaves (base ++ [fst ns]) (snd ns)) r)).
      { clear Hne Hnd Hj Hsb. induction subs as [|[n s] subs IHs]; [exists []; cbn; auto|].
        inversion IH; subst. inversion Hsub; subst. cbn [forallb fst snd] in *. apply andb_prop in Hn as [Hn1 Hn2].
        destruct (H1 (base ++ [n]) H3 Hn1) as (e & E1 & E2 & E3 & E4 & E5 & E6 & E7).
        { intros p q f Hi. apply (Hl p q f). cbn [flat_map fst snd]. apply in_or_app. now left. }
        destruct (IHs H2 H4 Hn2) as (r & R1 & R2 & R3 & R4).
        { intros p q f Hi. apply (Hl p q f). cbn [flat_map fst snd]. apply in_or_app. now right. }
        exists ((n, e) :: r). cbn [mapM fst snd]. rewrite E1. cbn [bind]. rewrite R1. cbn [bind]. split; [reflexivity|]. split; [cbn; now rewrite R2|].
        split; [constructor; auto|]. cbn [flat_map fst snd]. now apply Forall2_app. }
      destruct Hm as (r & R1 & R2 & R3 & R4). rewrite R1. cbn [bind]. eexists. split; [reflexivity|].
      assert (Hf : forall P, (forall a, well_formed a = true /\ nat_tree a = true /\ no_custom_minimizer a = true -> P a = true) -> forallb (fun ns : string * dist => P (snd ns)) r = true).
      { intros P HP. apply forallb_forall. intros ns Hi. rewrite Forall_forall in R3. apply HP. exact (R3 _ Hi). }
      repeat split.
      + cbn [well_formed fields is_joint map list_eqb fst andb]. rewrite R2. rewrite (Hf well_formed) by intuition.
        assert (N1 : null r = false) by (destruct r; [destruct subs; easy|reflexivity]). rewrite N1. cbn [negb andb]. rewrite andb_true_r. now apply nodupb_NoDup.
      + unfold nat_tree. cbn [all_nodes is_nat andb]. apply (Hf (all_nodes is_nat)). unfold nat_tree. intuition.
      + cbn [no_custom_minimizer is_default andb]. apply (Hf no_custom_minimizer). intuition.
      + cbn [sub_distributions]. exact R2.
      + cbn [leaves is_joint]. exact R4.
  Qed.
End Conv.

Lemma F2_paths {A B} (R : A -> B -> Prop) (l : list (path * A)) (m : list (path * B)) : Forall2 (fun a b => fst a = fst b /\ R (snd a) (snd b)) l m -> map fst l = map fst m.
Proof. induction 1 as [|a b l m [H _] _ IH]; cbn; congruence. Qed.
Lemma F2_leafat {R : dist -> dist -> Prop} x y : well_formed x = true -> well_formed y = true ->
  Forall2 (fun a b => fst a = fst b /\ R (snd a) (snd b)) (leaves [] x) (leaves [] y) ->
  forall p q, In (p, q) (leaves [] x) -> R q (leafat y p) /\ In (p, leafat y p) (leaves [] y).
Proof.
  intros Wx Wy H p q Hi. pose proof (F2_paths _ _ _ H) as E. rewrite (leaves_by_path x y Wy E) in H |- *.
  split; [|apply in_map_iff; exists (p, q); auto].
  revert Hi H. generalize (leaves [] x). induction l as [|a l IH]; [intros []|]. intros [->|Hi] H; inversion H; subst; [now destruct H3|auto].
Qed.

Section Main.
  Variable L : leaf_methods.
  Hypothesis G : good L.

  Lemma g_exp_tree b d : well_formed d = true -> nat_tree d = true -> shaped b d = true ->
    exists e, to_exp L d = Ok e /\ well_formed e = true /\ exp_tree e = true /\ no_custom_minimizer e = true /\ tree_match b d e /\
      Forall2 (fun pq pe => fst pq = fst pe /\ l_to_exp L (snd pq) = Ok (snd pe)) (leaves [] d) (leaves [] e).
  Proof.
    intros W N S. destruct (to_exp_tree L d [] W N) as (e & E1 & E2 & E3 & E4 & _ & _ & E7).
    - intros p q f Hi Hc. destruct (leaf_wf d [] p q W Hi) as [Wq _]. destruct (g_exp L G b q f Hc Wq (shaped_in b d p q S Hi)) as (e & H1 & H2 & H3 & H4 & _).
      exists e. destruct H3 as (_ & H3 & _). auto.
    - exists e. split; [exact E1|]. split; [exact E2|]. split; [exact E3|]. split; [exact E4|]. split; [|exact E7].
      clear E1 E2 E3 E4. unfold tree_match.
      assert (HI : forall pq, In pq (leaves [] d) -> In pq (leaves [] d)) by auto. remember (leaves [] d) as l eqn:El in E7, HI at 1 |- *. clear El.
      induction E7 as [|[p q] [p' q'] l m [H1 H2] _ IH]; constructor; [|apply IH; intros; apply HI; now right].
      split; [exact H1|]. cbn [fst snd] in *. assert (Hi : In (p, q) (leaves [] d)) by (apply HI; now left).
      destruct (nat_leaf d [] p q W N Hi) as [f Hf]. destruct (leaf_wf d [] p q W Hi) as [Wq _].
      destruct (g_exp L G b q f Hf Wq (shaped_in b d p q S Hi)) as (e' & G1 & _ & G3 & _). rewrite H2 in G1. injection G1 as <-. exact G3.
  Qed.
  Lemma g_nat_tree b d : well_formed d = true -> exp_tree d = true -> shaped b d = true ->
    exists e, to_nat L d = Ok e /\ well_formed e = true /\ nat_tree e = true /\ no_custom_minimizer e = true /\ tree_match b d e /\
      Forall2 (fun pq pe => fst pq = fst pe /\ l_to_nat L (snd pq) = Ok (snd pe)) (leaves [] d) (leaves [] e).
  Proof.
    intros W N S. destruct (to_nat_tree L d [] W N) as (e & E1 & E2 & E3 & E4 & _ & _ & E7).
    - intros p q f Hi Hc. destruct (leaf_wf d [] p q W Hi) as [Wq _]. destruct (g_nat L G b q f Hc Wq (shaped_in b d p q S Hi)) as (e & H1 & H2 & H3 & H4 & _).
      exists e. destruct H3 as (_ & H3 & _). auto.
    - exists e. split; [exact E1|]. split; [exact E2|]. split; [exact E3|]. split; [exact E4|]. split; [|exact E7].
      clear E1 E2 E3 E4. unfold tree_match.
      assert (HI : forall pq, In pq (leaves [] d) -> In pq (leaves [] d)) by auto. remember (leaves [] d) as l eqn:El in E7, HI at 1 |- *. clear El.
      induction E7 as [|[p q] [p' q'] l m [H1 H2] _ IH]; constructor; [|apply IH; intros; apply HI; now right].
      split; [exact H1|]. cbn [fst snd] in *. assert (Hi : In (p, q) (leaves [] d)) by (apply HI; now left).
      destruct (exp_leaf d [] p q W N Hi) as [f Hf]. destruct (leaf_wf d [] p q W Hi) as [Wq _].
      destruct (g_nat L G b q f Hf Wq (shaped_in b d p q S Hi)) as (e' & G1 & _ & G3 & _). rewrite H2 in G1. injection G1 as <-. exact G3.
  Qed.

  Lemma ln_sum b d : well_formed d = true -> nat_tree d = true -> shaped b d = true ->
    sums_to (fun pq : path * dist => log_normalizer L (snd pq)) b (leaves [] d) (log_normalizer L d).
  Proof.
    intros W N S. apply (sums_ext (fun pq : path * dist => l_log_normalizer L (snd pq))).
    - intros [p q] Hi. destruct (nat_leaf d [] p q W N Hi) as [f Hf]. destruct q as [c m ps subs]. cbn [dcls] in Hf. subst c. reflexivity.
    - apply log_normalizer_sum; auto. intros p q Hi. destruct (nat_leaf d [] p q W N Hi) as [f Hf]. destruct (leaf_wf d [] p q W Hi) as [Wq _].
      exact (g_ln L G b q f Hf Wq (shaped_in b d p q S Hi)).
  Qed.
  Lemma ecm_sum_tree b d : well_formed d = true -> all_nodes has_entropy_ep d = true -> shaped b d = true ->
    sums_to (fun pq : path * dist => expected_carrier_measure L (snd pq)) b (leaves [] d) (expected_carrier_measure L d).
  Proof.
    intros W N S.
    assert (Nf : forall p q, In (p, q) (leaves [] d) -> exists f, dcls q = EP f /\ has_entropy_ep (EP f) = true).
    { intros p q Hi. pose proof (all_nodes_leaves _ d [] N p q Hi) as Hc. destruct (leaf_wf d [] p q W Hi) as [_ Hj]. destruct (dcls q); try discriminate; eauto. }
    apply (sums_ext (fun pq : path * dist => l_expected_carrier_measure L (snd pq))).
    - intros [p q] Hi. destruct (Nf p q Hi) as (f & Hf & He). destruct q as [c m ps subs]. cbn [dcls] in Hf. subst c. cbn [snd expected_carrier_measure]. now rewrite He.
    - apply ecm_sum; auto. intros p q Hi. destruct (Nf p q Hi) as (f & Hf & He). destruct (leaf_wf d [] p q W Hi) as [Wq _].
      exact (g_ecm L G b q f Hf He Wq (shaped_in b d p q S Hi)).
  Qed.
  (** sums over the leaves of another tree with the same paths *)
  Lemma sums_rebase (g : path * dist -> result (tensor xr)) b x y r : well_formed y = true -> map fst (leaves [] x) = map fst (leaves [] y) ->
    sums_to g b (leaves [] y) r -> sums_to (fun pq => g (fst pq, leafat y (fst pq))) b (leaves [] x) r.
  Proof.
    intros Wy E H. rewrite (leaves_by_path x y Wy E) in H. now apply (sums_map (fun pq => (fst pq, leafat y (fst pq))) g).
  Qed.
  Lemma dot_rebase b x y z : well_formed y = true -> well_formed z = true ->
    map fst (leaves [] x) = map fst (leaves [] y) -> tree_match b y z ->
    sums_to (fun pq : path * dist => parameter_dot_product (leafat y (fst pq)) (leafat z (fst pq))) b (leaves [] x) (parameter_dot_product y z).
  Proof.
    intros Wy Wz E H. pose proof (dot_sum_match b y z Wy Wz H) as S. pose proof (F2_paths _ _ _ H) as E2.
    rewrite (leaves_by_path x z Wz) in S by congruence. rewrite (leaves_by_path x y Wy E) in S. rewrite combine_map2 in S.
    exact (proj2 (sums_map (fun pq : path * dist => ((fst pq, leafat y (fst pq)), (fst pq, leafat z (fst pq)))) (fun pq => parameter_dot_product (snd (fst pq)) (snd (snd pq))) b _ _) S).
  Qed.
End Main.
