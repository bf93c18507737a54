(** Replacing the parameters of a tree; assemble builds the replaced tree. *)
From Coq Require Import String List Bool Arith Permutation Lia.
From Verif Require Import Base XReal Tensor Support Dist DictFacts Iteration Structure Spec StructFacts AssembleFacts ParamFacts.
Import ListNotations.

(** d with the parameter at path p replaced by g p; default minimizers *)
Fixpoint with_params (g : path -> arr) (base : path) (d : dist) : dist :=
  let '(Dist c _ ps subs) := d in
  Dist c DefaultMinimizer (map (fun nv => (fst nv, g (base ++ [fst nv]))) ps)
       (map (fun ns => (fst ns, with_params g (base ++ [fst ns]) (snd ns))) subs).

Lemma with_params_wf g d : forall base, well_formed d = true -> well_formed (with_params g base d) = true.
Proof.
  induction d as [c m ps subs IH] using dist_rect'. intros base H. cbn in H |- *.
  rewrite !andb_true_iff in *. destruct H as [[H1 H2] H3]. split; [split|].
  - rewrite map_map. exact H1.
  - destruct (is_joint c).
    + rewrite andb_true_iff in *. rewrite map_map. cbn [fst]. change (fun x : string * dist => fst x) with (@fst string dist).
      destruct H2 as [H2 H2']. split; [now destruct subs|exact H2'].
    + now destruct subs.
  - rewrite forallb_forall in *. rewrite Forall_forall in IH. intros ns Hi. apply in_map_iff in Hi as (ns' & <- & Hi). cbn [snd]. auto.
Qed.
Lemma with_params_default g d : forall base, no_custom_minimizer (with_params g base d) = true.
Proof.
  induction d as [c m ps subs IH] using dist_rect'. intros base. cbn. apply forallb_forall. intros ns Hi.
  apply in_map_iff in Hi as (ns' & <- & Hi). rewrite Forall_forall in IH. apply (IH _ Hi).
Qed.

Definition skel_info (q : dist) (p : path) : result info := Ok (Info p (dcls q) 0 (map fst (sub_distributions q))).
Lemma skel_info_ok q p i : skel_info q p = Ok i -> i_path i = p /\ i_type i = dcls q /\ i_subs i = map fst (sub_distributions q).
Proof. intros H. injection H as <-. auto. Qed.
Definition no_dims (i : info) : info := Info (i_path i) (i_type i) 0 (i_subs i).
Lemma assemble_step_no_dims D i : assemble_step D (no_dims i) = assemble_step D i.
Proof. reflexivity. Qed.
Lemma foldM_no_dims infos : forall D, foldM assemble_step D (map no_dims infos) = foldM assemble_step D infos.
Proof. induction infos as [|i infos IH]; intros D; [reflexivity|]. cbn [map foldM]. rewrite assemble_step_no_dims. destruct (assemble_step D i); cbn; auto. Qed.

Lemma walk_skel d : forall base infos, walk make_info d base = Ok infos -> walk skel_info d base = Ok (map no_dims infos).
Proof.
  induction d as [c m ps subs IH] using dist_rect'. intros base infos. rewrite !walk_unfold. intros H.
  apply bind_Ok in H as (rest & Hr & H). apply bind_Ok in H as (i & Hi & H). injection H as <-.
  assert (E : mapM (fun ns => walk skel_info (snd ns) (base ++ [fst ns])) subs = Ok (map (map no_dims) rest)).
  { clear -IH Hr. revert rest Hr. induction subs as [|[n s] subs IHs]; intros rest Hr; cbn [mapM fst snd] in *; [injection Hr as <-; reflexivity|].
    inversion IH; subst. apply bind_Ok in Hr as (r1 & Hr1 & Hr). apply bind_Ok in Hr as (rs & Hrs & Hr). injection Hr as <-. cbn [snd] in *.
    rewrite (H1 _ _ Hr1). cbn [bind]. rewrite (IHs H2 _ Hrs). reflexivity. }
  rewrite E. cbn [bind skel_info]. apply make_info_ok in Hi as (H1 & H2 & H3). rewrite map_app, concat_map. cbn [map]. unfold no_dims at 3.
  rewrite H1, H2, H3. reflexivity.
Qed.
Lemma walk_skel_with g d : forall base, walk skel_info (with_params g base d) base = walk skel_info d base.
Proof.
  induction d as [c m ps subs IH] using dist_rect'. intros base. cbn [with_params]. rewrite !walk_unfold, mapM_map. cbn [fst snd].
  assert (E : mapM (fun a => walk skel_info (with_params g (base ++ [fst a]) (snd a)) (base ++ [fst a])) subs
              = mapM (fun ns => walk skel_info (snd ns) (base ++ [fst ns])) subs).
  { apply mapM_ext. intros ns Hi. rewrite Forall_forall in IH. apply (IH _ Hi). }
  rewrite E. unfold skel_info at 2 4. cbn [dcls sub_distributions]. rewrite map_map. reflexivity.
Qed.

Lemma own_with c m (g : path -> arr) (ps : dict string arr) (base : path) : map fst ps = map fd_name (fields c) ->
  drop_support (own_list None (Dist c m (map (fun nv => (fst nv, g (base ++ [fst nv]))) ps) [])) = map (fun nv => (fst nv, g (base ++ [fst nv]))) ps.
Proof. intros H. apply own_list_None. rewrite map_map. exact H. Qed.

Lemma items_with g d : forall base, well_formed d = true ->
  forall k v, In (k, v) (drop_support (flat_map (leaf_items None) (leaves base (with_params g base d)))) ->
  v = g k /\ In k (keys (flat_map (leaf_items None) (leaves base d))).
Proof.
  induction d as [c m ps subs IH] using dist_rect'. intros base Hwf k v Hi. apply wf_inv in Hwf as (Hps & Hj & Hsb & Hsub).
  cbn [with_params leaves] in *. destruct (is_joint c) eqn:Ej.
  - apply in_drop in Hi as [s Hi]. apply in_flat_map in Hi as (pq & Hl & Hi). apply in_flat_map in Hl as (ns & Hns & Hl).
    apply in_map_iff in Hns as ([n d] & <- & Hns). cbn [fst snd] in *. rewrite Forall_forall in IH, Hsub.
    destruct (IH _ Hns (base ++ [n]) (Hsub _ Hns) k v) as [H1 H2].
    { apply in_drop. exists s. apply in_flat_map. eauto. }
    split; [exact H1|]. cbn [snd] in H2. apply in_map_iff in H2 as (kv & <- & Hk). apply in_map.
    apply in_flat_map in Hk as (pq' & Hl' & Hk). apply in_flat_map. exists pq'. split; [|exact Hk]. apply in_flat_map. exists (n, d). auto.
  - cbn [flat_map] in Hi. rewrite app_nil_r in Hi. cbn [flat_map]. rewrite app_nil_r. unfold leaf_items in *. cbn [fst snd] in *.
    apply in_drop in Hi as [s Hi]. apply in_map_iff in Hi as ([n [v' s']] & He & Hi). cbn in He. injection He as <- <- <-.
    assert (Hi' : In (n, v') (drop_support (own_list None (Dist c DefaultMinimizer (map (fun nv => (fst nv, g (base ++ [fst nv]))) ps) [])))).
    { apply in_drop. exists s'. rewrite (Hsb eq_refl) in Hi. exact Hi. }
    rewrite own_with in Hi' by exact Hps. apply in_map_iff in Hi' as ([n2 v2] & He & Hi2). cbn in He. injection He as -> <-.
    split; [reflexivity|]. unfold keys. rewrite map_map. cbn [fst].
    rewrite <- (own_list_None c m ps subs Hps) in Hi2. apply in_drop in Hi2 as [s2 Hi2].
    apply in_map_iff. exists (n, (v2, s2)). auto.
Qed.

Lemma assemble_with g d infos (P : dict path arr) : well_formed d = true -> create d = Ok infos ->
  (forall k, In k (keys (flat_map (leaf_items None) (leaves [] d))) -> dget P k = Some (g k)) ->
  assemble infos P = Ok (with_params g [] d).
Proof.
  intros Hwf Hc HP. unfold assemble. rewrite <- foldM_no_dims.
  pose proof (walk_skel d [] infos Hc) as Hw. rewrite <- (walk_skel_with g) in Hw.
  destruct (assemble_main_gen skel_info skel_info_ok (with_params g [] d) [] (map (fun kv => (fst kv, VArr (snd kv))) P) (map no_dims infos)
    (with_params_wf g d [] Hwf) Hw) as (D' & HF & HG & _).
  - intros k v Hi. apply items_with in Hi as [-> Hk]; [|exact Hwf]. specialize (HP k Hk).
    clear -HP. induction P as [|[k' v'] P IH]; [discriminate|]. cbn [map dget fst snd] in *. destruct (keq k k'); [congruence|auto].
  - rewrite HF. cbn [bind]. unfold dindex. rewrite HG. cbn. f_equal. apply default_minimizers_id, with_params_default.
Qed.

Lemma dget_map_pair {V W} (h : string -> V -> W) (l : list (string * V)) n : dget (map (fun nv => (fst nv, h (fst nv) (snd nv))) l) n = option_map (h n) (dget l n).
Proof. induction l as [|[k v] l IH]; [reflexivity|]. cbn [map dget fst snd]. destruct (keq n k) as [->|]; [reflexivity|exact IH]. Qed.

Lemma param_at_with g d : forall base p, param_at (with_params g base d) p = option_map (fun _ => g (base ++ p)) (param_at d p).
Proof.
  intros base p. revert base d. induction p as [|n p IH]; intros base [c m ps subs]; [reflexivity|]. destruct p as [|n2 p].
  - cbn [param_at with_params dparams]. rewrite (dget_map_pair (fun n _ => g (base ++ [n]))). reflexivity.
  - change (param_at (with_params g base (Dist c m ps subs)) (n :: n2 :: p)) with
      (match dget (sub_distributions (with_params g base (Dist c m ps subs))) n with Some s => param_at s (n2 :: p) | None => None end).
    change (param_at (Dist c m ps subs) (n :: n2 :: p)) with (match dget subs n with Some s => param_at s (n2 :: p) | None => None end).
    cbn [with_params sub_distributions]. rewrite (dget_map_pair (fun n s => with_params g (base ++ [n]) s)).
    destruct (dget subs n); cbn [option_map]; [|reflexivity]. rewrite IH, <- app_assoc. reflexivity.
Qed.

Lemma skeleton_with g d base : same_skeleton d (with_params g base d).
Proof.
  intros p. revert base d. induction p as [|n p IH]; intros base [c m ps subs].
  - cbn. now rewrite map_map.
  - cbn [dist_at with_params sub_distributions]. rewrite (dget_map_pair (fun n s => with_params g (base ++ [n]) s)).
    destruct (dget subs n); cbn [option_map]; [apply IH|auto].
Qed.
Lemma skeleton_field d e p : same_skeleton d e -> field_at d p = field_at e p.
Proof.
  revert d e. induction p as [|n p IH]; intros d e H; [reflexivity|]. destruct p as [|n2 p].
  - cbn. destruct (H []) as [E _]. cbn in E. injection E as ->. reflexivity.
  - change (match dget (sub_distributions d) n with Some s => field_at s (n2 :: p) | None => None end = match dget (sub_distributions e) n with Some s => field_at s (n2 :: p) | None => None end).
    destruct (H [n]) as [E _]. cbn in E. destruct (dget (sub_distributions d) n) eqn:E1, (dget (sub_distributions e) n) eqn:E2; cbn in E; try discriminate; [|reflexivity].
    apply IH. intros q. specialize (H (n :: q)). cbn in H. rewrite E1, E2 in H. exact H.
Qed.
