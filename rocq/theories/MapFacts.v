(** The leaves of the trees computed by parameter_map, to_exp and to_nat. *)
From Coq Require Import FinFun String List Bool Arith Lia Reals.
From Verif Require Import Base XReal Tensor TensorFacts Support Dist DictFacts Iteration Structure Spec StructFacts AssembleFacts ParamFacts ReplaceFacts
  SumSpec Tools ToolThms Joint DotFacts StructThms Laws SumFacts.
Import ListNotations.

(** ** leaves and paths *)
Lemma nodup_leaves d : forall base, well_formed d = true -> NoDup (map fst (leaves base d)).
Proof.
  induction d as [c m ps subs IH] using dist_rect'. intros base Hwf. apply wf_inv in Hwf as (_ & Hj & Hsb & Hsub). cbn [leaves]. destruct (is_joint c); [|repeat constructor; intros []].
  destruct (Hj eq_refl) as [_ Hnd]. clear Hj Hsb. induction subs as [|[n s] subs IHs]; [constructor|]. cbn [flat_map fst snd map] in *. rewrite map_app.
  inversion IH; subst. inversion Hsub; subst. inversion Hnd; subst. apply NoDup_app_intro; [now apply H1|now apply IHs|].
  intros p Hp Hq. apply in_map_iff in Hp as ([p1 q1] & <- & Hp). apply in_map_iff in Hq as ([p2 q2] & He & Hq). cbn in He. subst p2.
  apply in_flat_map in Hq as ([n2 s2] & Hi & Hq). cbn in Hq.
  pose proof (leaves_prefix s (base ++ [n])) as L1. pose proof (leaves_prefix s2 (base ++ [n2])) as L2. rewrite Forall_forall in L1, L2.
  destruct (L1 _ Hp) as [a Ha]. destruct (L2 _ Hq) as [b Hb]. cbn [fst] in *. rewrite Ha in Hb. rewrite <- !app_assoc in Hb. apply app_inv_head in Hb. cbn in Hb. injection Hb as <- _.
  apply H5. change n with (fst (n, s2)). now apply in_map.
Qed.
Definition leafat (d : dist) (p : path) : dist := match dist_at d p with Some q => q | None => d end.
Lemma leaf_in d p q : well_formed d = true -> In (p, q) (leaves [] d) <-> dist_at d p = Some q /\ is_joint (dcls q) = false.
Proof. intros H. exact (leaves_iff d [] p q H). Qed.
Lemma leaves_by_path x y : well_formed y = true -> map fst (leaves [] x) = map fst (leaves [] y) ->
  leaves [] y = map (fun pq => (fst pq, leafat y (fst pq))) (leaves [] x).
Proof.
  intros Wy E. rewrite <- (map_map fst (fun p => (p, leafat y p))), E, map_map. rewrite <- (map_id (leaves [] y)) at 1. apply map_ext_in.
  intros [p q] Hi. apply (leaf_in y p q Wy) in Hi as [Hd _]. cbn. unfold leafat. now rewrite Hd.
Qed.
Lemma combine_map_self {A B} (g : A -> B) l : combine l (map g l) = map (fun a => (a, g a)) l.
Proof. induction l; cbn; congruence. Qed.
Lemma combine_map2 {A B C} (g : A -> B) (h : A -> C) l : combine (map g l) (map h l) = map (fun a => (g a, h a)) l.
Proof. induction l; cbn; congruence. Qed.
Lemma skel_leaf_paths d : forall e base, well_formed d = true -> well_formed e = true -> same_skeleton d e -> map fst (leaves base d) = map fst (leaves base e).
Proof.
  induction d as [c m ps subs IH] using dist_rect'. intros [c' m' ps' subs'] base Wd We Hs. apply skel_inv in Hs as (<- & Hm & Hsk).
  apply wf_inv in Wd as (_ & Hj & Hsb & Hsub). apply wf_inv in We as (_ & Hj' & _ & Hsub'). cbn [leaves]. destruct (is_joint c); [|reflexivity].
  destruct (Hj eq_refl) as [_ Hnd]. pose proof (skel_subs subs subs' Hnd Hm Hsk) as HF. clear Hj Hj' Hsk Hm Hnd Hsb.
  induction HF as [|[n s] [n' s'] l l' [Hn Hss] _ IHl]; [reflexivity|]. cbn in Hn. subst n'. cbn [flat_map fst snd]. rewrite !map_app.
  inversion IH; subst. inversion Hsub; subst. inversion Hsub'; subst. cbn [fst snd] in *. f_equal; [now apply H1|now apply IHl].
Qed.
Lemma dist_at_wf d : forall p q, well_formed d = true -> dist_at d p = Some q -> well_formed q = true.
Proof.
  induction d as [c m ps subs IH] using dist_rect'. intros p q Wd Hd. destruct p as [|n p]; cbn [dist_at sub_distributions] in Hd; [now injection Hd as <-|].
  destruct (dget subs n) as [s|] eqn:E; [|discriminate]. apply dget_In in E. apply wf_inv in Wd as (_ & _ & _ & Hsub). rewrite Forall_forall in IH, Hsub.
  exact (IH _ E p q (Hsub _ E) Hd).
Qed.
Lemma dist_at_no_custom d : forall p q, no_custom_minimizer d = true -> dist_at d p = Some q -> no_custom_minimizer q = true.
Proof.
  induction d as [c m ps subs IH] using dist_rect'. intros p q Wd Hd. destruct p as [|n p]; cbn [dist_at sub_distributions] in Hd; [now injection Hd as <-|].
  destruct (dget subs n) as [s|] eqn:E; [|discriminate]. apply dget_In in E. cbn in Wd. apply andb_prop in Wd as [_ Wd]. rewrite forallb_forall in Wd. rewrite Forall_forall in IH.
  exact (IH _ E p q (Wd _ E) Hd).
Qed.
Lemma dist_at_shaped b d : forall p q, shaped b d = true -> dist_at d p = Some q -> shaped b q = true.
Proof.
  induction d as [c m ps subs IH] using dist_rect'. intros p q Wd Hd. destruct p as [|n p]; cbn [dist_at sub_distributions] in Hd; [now injection Hd as <-|].
  destruct (dget subs n) as [s|] eqn:E; [|discriminate]. apply dget_In in E. cbn in Wd. apply andb_prop in Wd as [_ Wd]. rewrite forallb_forall in Wd. rewrite Forall_forall in IH.
  exact (IH _ E p q (Wd _ E) Hd).
Qed.
Lemma shaped_leaf b q : is_joint (dcls q) = false -> shaped b q = true -> leaf_shaped b q = true.
Proof. destruct q as [c m ps subs]. cbn [dcls shaped]. intros ->. intros H. now apply andb_prop in H. Qed.
Lemma shaped_of_leaf b q : well_formed q = true -> is_joint (dcls q) = false -> leaf_shaped b q = true -> shaped b q = true.
Proof. destruct q as [c m ps subs]. intros W. apply wf_inv in W as (_ & _ & Hs & _). cbn [dcls shaped]. intros E H. rewrite E. rewrite (Hs E) in *. now rewrite H. Qed.
Lemma leaf_skel x y : well_formed x = true -> well_formed y = true -> is_joint (dcls x) = false -> dcls y = dcls x -> same_skeleton x y.
Proof.
  destruct x as [c m ps subs], y as [c' m' ps' subs']. cbn [dcls]. intros W W' J ->. apply wf_inv in W as (_ & _ & Hs & _). apply wf_inv in W' as (_ & _ & Hs' & _).
  rewrite (Hs J), (Hs' J). intros [|n p]; cbn; auto.
Qed.
Lemma leaf_param x p v : well_formed x = true -> is_joint (dcls x) = false -> param_at x p = Some v -> exists n, p = [n].
Proof.
  destruct x as [c m ps subs]. cbn [dcls]. intros W J H. apply wf_inv in W as (_ & _ & Hs & _). rewrite (Hs J) in H. destruct p as [|n [|n' p]]; cbn in H; try discriminate. eauto.
Qed.

(** ** parameter_map and leaves *)
Lemma map_leaf op b x ys r p xl yls : well_formed x = true -> shaped b x = true ->
  (forall y, In y ys -> well_formed y = true /\ same_skeleton x y) -> parameter_map op x ys = Ok r ->
  dist_at x p = Some xl -> is_joint (dcls xl) = false -> Forall2 (fun y yl => dist_at y p = Some yl) ys yls ->
  exists rl, dist_at r p = Some rl /\ parameter_map op xl yls = Ok rl.
Proof.
  intros Wx Sx Hys Hr Hx Jx Hyl. destruct (create_shaped b x Wx Sx) as [infos Hc].
  destruct (parameter_map_ok op x ys infos Wx Hc Hys) as (r' & R1 & R2 & R3 & R4 & R5).
  { intros q f Hf Hv. destruct (op (pv x q :: map (fun y => pv y q) ys)) as [v|e] eqn:E; [eauto|].
    destruct (parameter_map_fails op x ys infos q f e Wx Hc Hys Hf Hv E) as [e' He]. congruence. }
  rewrite Hr in R1. injection R1 as <-.
  destruct (R4 p) as [C1 C2]. rewrite Hx in C1. destruct (dist_at r p) as [rl|] eqn:Er; [|discriminate]. cbn in C1. injection C1 as C1.
  assert (Wxl : well_formed xl = true) by exact (dist_at_wf x p xl Wx Hx). assert (Wrl : well_formed rl = true) by exact (dist_at_wf r p rl R2 Er).
  assert (Jr : is_joint (dcls rl) = false) by congruence.
  exists rl. split; [reflexivity|].
  destruct (create_shaped b xl Wxl (dist_at_shaped b x p xl Sx Hx)) as [il Hil].
  assert (Hyl' : forall yl, In yl yls -> well_formed yl = true /\ same_skeleton xl yl).
  { intros yl Hi. destruct (Forall2_in_r _ _ _ _ Hyl Hi) as (y & Hy & Hyp). destruct (Hys y Hy) as [Wy Sy].
    assert (Wyl : well_formed yl = true) by exact (dist_at_wf y p yl Wy Hyp). split; [exact Wyl|]. apply leaf_skel; auto. destruct (Sy p) as [Sy1 _].
    rewrite Hx, Hyp in Sy1. cbn in Sy1. congruence. }
  assert (Pv : forall z zl n, dist_at z p = Some zl -> pv zl [n] = pv z (p ++ [n])).
  { intros z zl n Hz. unfold pv. cbn [param_at]. now rewrite (param_at_dist z p zl n Hz). }
  assert (Pm : forall n, map (fun y => pv y [n]) yls = map (fun y => pv y (p ++ [n])) ys).
  { intros n. clear -Hyl Pv. induction Hyl as [|y yl l l' H _ IH]; [reflexivity|]. cbn. now rewrite IH, (Pv y yl n H). }
  assert (Fx : forall n, field_at xl [n] = field_at x (p ++ [n])).
  { intros n. clear -Hx. revert x Hx. induction p as [|k p IH]; intros x Hx; cbn [dist_at] in Hx; [injection Hx as <-; reflexivity|].
    destruct (dget (sub_distributions x) k) as [s|] eqn:E; [|discriminate]. rewrite (IH s Hx). cbn [app].
    assert (Hne : exists a l, p ++ [n] = a :: l) by (destruct p; cbn; eauto). destruct Hne as (a & l & Hne). rewrite Hne.
    change (field_at x (k :: a :: l)) with (match dget (sub_distributions x) k with Some s => field_at s (a :: l) | None => None end). now rewrite E. }
  assert (Fleaf : forall q f, field_at xl q = Some f -> exists n, q = [n]).
  { intros q f Hf. destruct (field_param xl q f Wxl Hf) as [v Hv]. exact (leaf_param xl q v Wxl Jx Hv). }
  destruct (parameter_map_ok op xl yls il Wxl Hil Hyl') as (r0 & Q1 & Q2 & Q3 & Q4 & Q5).
  { intros q f Hf Hv. destruct (Fleaf q f Hf) as [n ->]. rewrite (Pv x xl n Hx), Pm. rewrite Fx in Hf. 
    destruct (op (pv x (p ++ [n]) :: map (fun y => pv y (p ++ [n])) ys)) as [v|e] eqn:E; [eauto|].
    destruct (parameter_map_fails op x ys infos _ f e Wx Hc Hys Hf Hv E) as [e' He]. congruence. }
  rewrite Q1. f_equal. symmetry. apply tree_ext; auto.
  - exact (dist_at_no_custom r p rl R3 Er).
  - eapply skel_trans; [|exact Q4]. apply leaf_skel; auto.
  - intros q. destruct (field_at xl q) as [f|] eqn:Ef.
    + destruct (Fleaf q f Ef) as [n ->]. rewrite (Q5 [n] f Ef). rewrite (Pv x xl n Hx), Pm. rewrite Fx in Ef. specialize (R5 _ f Ef).
      rewrite (param_at_dist r p rl n Er) in R5. cbn [param_at]. rewrite R5. destruct (fd_fixed f); [|reflexivity]. exact (param_at_dist x p xl n Hx).
    + assert (N : forall z, well_formed z = true -> same_skeleton xl z -> param_at z q = None).
      { intros z Wz Sz. destruct (param_at z q) as [v|] eqn:E; [|reflexivity]. destruct (param_field z q v Wz E) as [f Hf]. rewrite <- (skeleton_field xl z q Sz) in Hf. congruence. }
      rewrite (N rl), (N r0); auto. apply leaf_skel; auto.
Qed.
Lemma map_leaves op b x ys r : well_formed x = true -> shaped b x = true ->
  (forall y, In y ys -> well_formed y = true /\ same_skeleton x y) -> parameter_map op x ys = Ok r ->
  forall p q, In (p, q) (leaves [] x) -> parameter_map op q (map (fun y => leafat y p) ys) = Ok (leafat r p).
Proof.
  intros Wx Sx Hys Hr p q Hi. apply (leaf_in x p q Wx) in Hi as [Hd Hj].
  destruct (map_leaf op b x ys r p q (map (fun y => leafat y p) ys) Wx Sx Hys Hr Hd Hj) as (rl & R1 & R2).
  - clear -Hys Hd Hj Wx. induction ys as [|y ys IH]; constructor; [|apply IH; intros; apply Hys; now right]. destruct (Hys y (or_introl eq_refl)) as [Wy Sy].
    destruct (Sy p) as [S1 _]. rewrite Hd in S1. unfold leafat. destruct (dist_at y p); [reflexivity|discriminate].
  - rewrite R2. unfold leafat at 1. now rewrite R1.
Qed.

(** ** conversions *)
(** what the generic code needs of the methods of the simple classes *)
Definition fixed_params (q : dist) : dict string arr := map (fun nv => (fst nv, fst (snd nv))) (own_list (Some true) q).
Record good (L : leaf_methods) : Prop := {
  g_ln : forall b q f, dcls q = NP f -> well_formed q = true -> leaf_shaped b q = true -> exists t, l_log_normalizer L q = Ok t /\ shp t = b;
  g_exp : forall b q f, dcls q = NP f -> well_formed q = true -> leaf_shaped b q = true ->
    exists e, l_to_exp L q = Ok e /\ dcls e = EP f /\ leaf_match b q e /\ no_custom_minimizer e = true /\ fixed_params e = fixed_params q;
  g_nat : forall b e f, dcls e = EP f -> well_formed e = true -> leaf_shaped b e = true ->
    exists q, l_to_nat L e = Ok q /\ dcls q = NP f /\ leaf_match b e q /\ no_custom_minimizer q = true /\ fixed_params q = fixed_params e;
  g_cm : forall b q f x, dcls q = NP f -> well_formed q = true -> leaf_shaped b q = true -> obs_leaf b q x -> exists t, l_carrier_measure L q x = Ok t /\ shp t = b;
  g_ss : forall b q f x, dcls q = NP f -> well_formed q = true -> leaf_shaped b q = true -> obs_leaf b q x ->
    exists e, l_sufficient_statistics L f x (fixed_params q) = Ok e /\ dcls e = EP f /\ leaf_match b q e /\ no_custom_minimizer e = true /\ fixed_params e = fixed_params q;
  g_ecm : forall b e f, dcls e = EP f -> has_entropy_ep (EP f) = true -> well_formed e = true -> leaf_shaped b e = true ->
    exists t, l_expected_carrier_measure L e = Ok t /\ shp t = b }.

Lemma all_nodes_leaves P d : forall base, all_nodes P d = true -> forall p q, In (p, q) (leaves base d) -> P (dcls q) = true.
Proof.
  induction d as [c m ps subs IH] using dist_rect'. intros base H p q Hi. cbn [all_nodes leaves] in *. apply andb_prop in H as [Hc H]. destruct (is_joint c).
  - apply in_flat_map in Hi as (ns & Hn & Hi). rewrite Forall_forall in IH. rewrite forallb_forall in H. exact (IH _ Hn _ (H _ Hn) p q Hi).
  - destruct Hi as [E|[]]. injection E as <- <-. exact Hc.
Qed.
Lemma nat_leaf d base p q : well_formed d = true -> nat_tree d = true -> In (p, q) (leaves base d) -> exists f, dcls q = NP f.
Proof.
  intros W H Hi. pose proof (all_nodes_leaves is_nat d base H p q Hi) as Hc. pose proof (leaves_simple d base W) as Hl. rewrite Forall_forall in Hl. specialize (Hl _ Hi). cbn [snd] in Hl.
  destruct q as [c m ps subs]. cbn [dcls] in *. destruct c; try discriminate Hc; [eauto|]. cbn in Hl. intuition discriminate.
Qed.
