(** C01, C02: parameters / create / assemble. *)
From Coq Require Import String List Bool Arith Lia.
From Verif Require Import Base XReal Tensor Support Dist DictFacts Iteration Structure Spec StructFacts.
Import ListNotations.

(** ** the parameters as a function of the leaves *)
Definition own_list (fx : option bool) (d : dist) : list (string * (arr * support)) :=
  flat_map (fun f => match dget (dparams d) (fd_name f) with
                     | Some a => [(fd_name f, (a, fd_support f))] | None => [] end)
           (filter (fixed_ok fx) (fields (dcls d))).
Definition leaf_items (fx : option bool) (pl : path * dist) : list (path * (arr * support)) :=
  map (fun nv => (fst pl ++ [fst nv], snd nv)) (own_list fx (snd pl)).

Lemma own_params_list fx c m ps subs : map fst ps = map fd_name (fields c) ->
  own_params fx c ps = Ok (own_list fx (Dist c m ps subs)).
Proof.
  intros H. unfold own_params, own_list. cbn [dparams dcls].
  assert (Hs : forall f, In f (filter (fixed_ok fx) (fields c)) -> In (fd_name f) (map fst ps)).
  { intros f Hf. rewrite H. apply in_map. now apply filter_In in Hf. }
  revert Hs. generalize (filter (fixed_ok fx) (fields c)) as fs. induction fs as [|f fs IH]; intros Hs; [reflexivity|].
  destruct (dget_combine_ok ps (fd_name f)) as [v Hv]; [apply Hs; now left|].
  cbn [mapM flat_map]. rewrite Hv. cbn. rewrite IH; [reflexivity|]. intros; apply Hs; now right.
Qed.
Lemma own_list_names fx c m ps subs : map fst ps = map fd_name (fields c) ->
  map fst (own_list fx (Dist c m ps subs)) = map fd_name (filter (fixed_ok fx) (fields c)).
Proof.
  intros H. destruct (own_params_ok fx c ps H) as (own & H1 & H2 & _).
  rewrite (own_params_list fx c m ps subs H) in H1. injection H1 as ->. exact H2.
Qed.
Lemma own_list_joint fx c m ps subs : is_joint c = true -> own_list fx (Dist c m ps subs) = [].
Proof. intros H. unfold own_list. cbn [dcls]. now rewrite (joint_no_fields c H). Qed.

Lemma param_items_leaves fx d : forall base, well_formed d = true ->
  param_items fx base d = Ok (flat_map (leaf_items fx) (leaves base d)).
Proof.
  induction d as [c m ps subs IH] using dist_rect'. intros base Hwf.
  pose proof (wf_inv _ _ _ _ Hwf) as (Hps & Hj & Hs & Hsub). rewrite param_items_unfold.
  rewrite (own_params_list fx c m ps subs Hps). cbn [bind leaves].
  destruct (is_joint c) eqn:Ej.
  - rewrite own_list_joint by exact Ej. cbn [map app].
    rewrite (mapM_Ok _ (fun ns => flat_map (leaf_items fx) (leaves (base ++ [fst ns]) (snd ns)))).
    + cbn [bind]. f_equal. clear. induction subs as [|ns subs IHs]; cbn; [reflexivity|].
      rewrite flat_map_app. now rewrite IHs.
    + intros ns Hi. rewrite Forall_forall in IH, Hsub. apply IH; [exact Hi|]. now apply Hsub.
  - rewrite (Hs eq_refl). cbn. unfold leaf_items. cbn. now rewrite !app_nil_r.
Qed.

Lemma parameters_s_ok d fx : well_formed d = true ->
  parameters_s d fx = Ok (flat_map (leaf_items fx) (leaves [] d)).
Proof.
  intros H. unfold parameters_s. destruct (param_items_ok fx d [] H) as (it & H1 & H2 & _).
  rewrite H1. cbn. rewrite dict_of_nodup by exact H2.
  rewrite param_items_leaves in H1 by exact H. injection H1 as H1. rewrite H1. first [reflexivity|exact H2].
Qed.
Lemma nodup_leaf_items fx base d : well_formed d = true -> NoDup (keys (flat_map (leaf_items fx) (leaves base d))).
Proof.
  intros H. destruct (param_items_ok fx d base H) as (it & H1 & H2 & _).
  rewrite param_items_leaves in H1 by exact H. injection H1 as H1. rewrite H1. first [reflexivity|exact H2].
Qed.
Definition drop_support {K} (l : list (K * (arr * support))) : list (K * arr) := map (fun kv => (fst kv, fst (snd kv))) l.
Lemma keys_drop {K} (l : list (K * (arr * support))) : keys (drop_support l) = keys l.
Proof. unfold keys, drop_support. rewrite map_map. reflexivity. Qed.
Lemma parameters_ok d fx : well_formed d = true ->
  parameters d fx = Ok (drop_support (flat_map (leaf_items fx) (leaves [] d))).
Proof.
  intros H. unfold parameters. destruct (param_items_ok fx d [] H) as (it & H1 & H2 & _).
  rewrite H1. cbn. fold (drop_support it). rewrite dict_of_nodup by now rewrite keys_drop.
  rewrite param_items_leaves in H1 by exact H. injection H1 as H1. rewrite H1. first [reflexivity|exact H2].
Qed.

(** ** leaves *)
Lemma leaves_prefix d : forall base, Forall (fun pl => is_prefix base (fst pl)) (leaves base d).
Proof.
  induction d as [c m ps subs IH] using dist_rect'. intros base. cbn [leaves].
  destruct (is_joint c); [|constructor; [apply prefix_refl|constructor]].
  apply Forall_forall. intros pl Hpl. apply in_flat_map in Hpl as (ns & Hi & Hpl).
  rewrite Forall_forall in IH. specialize (IH _ Hi (base ++ [fst ns])). rewrite Forall_forall in IH.
  eapply prefix_snoc. now apply IH.
Qed.
Lemma leaves_simple d : forall base, well_formed d = true ->
  Forall (fun pl => is_joint (dcls (snd pl)) = false /\ well_formed (snd pl) = true) (leaves base d).
Proof.
  induction d as [c m ps subs IH] using dist_rect'. intros base Hwf. cbn [leaves].
  destruct (is_joint c) eqn:E; [|constructor; [cbn; auto|constructor]].
  apply wf_inv in Hwf as (_ & _ & _ & Hsub).
  apply Forall_forall. intros pl Hpl. apply in_flat_map in Hpl as (ns & Hi & Hpl).
  rewrite Forall_forall in IH, Hsub. specialize (IH _ Hi (base ++ [fst ns]) (Hsub _ Hi)). rewrite Forall_forall in IH.
  now apply IH.
Qed.

(** ** create *)
Lemma create_ok_of d : forall base, well_formed d = true ->
  Forall (fun pl => exists n, dims_of (snd pl) = Ok n) (leaves base d) ->
  exists infos, walk make_info d base = Ok infos.
Proof.
  induction d as [c m ps subs IH] using dist_rect'. intros base Hwf Hd.
  apply wf_inv in Hwf as (Hps & Hj & Hs & Hsub). rewrite walk_unfold. cbn [leaves] in Hd.
  destruct (is_joint c) eqn:E.
  - destruct (mapM_exists (fun ns => walk make_info (snd ns) (base ++ [fst ns])) subs) as [r Hr].
    + intros ns Hi. rewrite Forall_forall in IH, Hsub. apply IH; [exact Hi|now apply Hsub|].
      rewrite Forall_forall in *. intros pl Hpl. apply Hd. apply in_flat_map. eauto.
    + rewrite Hr. cbn [bind]. unfold make_info, dims_of. cbn [dcls]. destruct c; try discriminate; cbn; eauto.
  - rewrite (Hs eq_refl) in *. cbn [mapM bind]. inversion Hd as [|? ? [n Hn] _]; subst. cbn [snd] in Hn.
    unfold make_info. rewrite Hn. cbn. eauto.
Qed.

Lemma make_info_ok q p i : make_info q p = Ok i ->
  i_path i = p /\ i_type i = dcls q /\ i_subs i = map fst (sub_distributions q).
Proof. unfold make_info. destruct (dims_of q); cbn; [|discriminate]. intros H; injection H as <-. auto. Qed.

(** ** assemble *)
Lemma filter_all {A} (f : A -> bool) l : (forall a, f a = true) -> filter f l = l.
Proof. intros H. induction l as [|a l IH]; cbn; [reflexivity|]. now rewrite H, IH. Qed.
Lemma class_support_names c : keys (class_support c None) = map fd_name (fields c).
Proof. unfold keys, class_support. rewrite map_map. cbn. rewrite filter_all; auto. Qed.
Lemma class_support_names_fx c fx : keys (class_support c fx) = map fd_name (filter (fixed_ok fx) (fields c)).
Proof. unfold keys, class_support. rewrite map_map. reflexivity. Qed.

Lemma dget_self_list (ps : dict string arr) n v : NoDup (keys ps) -> In (n, v) ps -> dget ps n = Some v.
Proof. apply In_dget. Qed.

Lemma construct_leaf c ps : is_joint c = false -> map fst ps = map fd_name (fields c) ->
  construct c ps None = Ok (Dist c DefaultMinimizer ps []).
Proof.
  intros Hj H. unfold construct. rewrite Hj.
  assert (Hall : forallb (fun k => if in_dec string_dec k (map fd_name (fields c)) then true else false) (keys ps) = true).
  { apply forallb_forall. intros k Hk. unfold keys in Hk. rewrite H in Hk. destruct (in_dec _ _ _); [reflexivity|contradiction]. }
  rewrite Hall. cbn [negb].
  assert (Hm : mapM (fun n => let* v := opt_err TypeError (dget ps n) in Ok (n, v)) (map fd_name (fields c)) = Ok ps).
  { rewrite <- H. pose proof (nodup_fields c) as Hn. rewrite <- H in Hn. clear -Hn.
    assert (Hg : forall l, incl l ps -> mapM (fun n => let* v := opt_err TypeError (dget ps n) in Ok (n, v)) (map fst l) = Ok l).
    { induction l as [|[n v] l IH]; intros Hi; [reflexivity|]. cbn [map mapM fst].
      rewrite (In_dget ps n v Hn) by (apply Hi; now left). cbn [opt_err bind].
      rewrite IH; [reflexivity|]. intros x Hx; apply Hi; now right. }
    apply Hg. apply incl_refl. }
  rewrite Hm. reflexivity.
Qed.
Lemma construct_joint c s : is_joint c = true -> construct c [] (Some s) = Ok (Dist c DefaultMinimizer [] s).
Proof. intros Hj. unfold construct. rewrite Hj, (joint_no_fields c Hj). reflexivity. Qed.

Lemma own_list_None c m ps subs : map fst ps = map fd_name (fields c) ->
  drop_support (own_list None (Dist c m ps subs)) = ps.
Proof.
  intros H. pose proof (nodup_fields c) as Hn. rewrite <- H in Hn.
  unfold own_list. cbn [dparams dcls]. rewrite filter_all by auto.
  assert (Hg : forall l fs, incl l ps -> map fst l = map fd_name fs ->
     drop_support (flat_map (fun f => match dget ps (fd_name f) with
                     | Some a => [(fd_name f, (a, fd_support f))] | None => [] end) fs) = l).
  { induction l as [|[n v] l IH]; intros [|f fs] Hi Hm; cbn in Hm; try discriminate; [reflexivity|].
    injection Hm as Hnf Hm. cbn [flat_map]. rewrite <- Hnf. rewrite (In_dget ps n v Hn) by (apply Hi; now left).
    cbn. f_equal. apply IH; [|exact Hm]. intros x Hx; apply Hi; now right. }
  apply Hg; [apply incl_refl|exact H].
Qed.

Lemma leaf_kwargs (D : dict path cval) base (ps : dict string arr) :
  (forall n v, In (n, v) ps -> dget D (base ++ [n]) = Some (VArr v)) ->
  mapM (fun n => let* v := dindex D (base ++ [n]) in let* a := as_arr v in Ok (n, a)) (map fst ps) = Ok ps.
Proof.
  induction ps as [|[n v] ps IH]; intros H; [reflexivity|]. cbn [map mapM fst]. unfold dindex at 1.
  rewrite (H n v) by now left. cbn [opt_err bind as_arr]. rewrite IH; [reflexivity|]. intros; apply H; now right.
Qed.

Lemma joint_subs (D : dict path cval) base (l : list (string * dist)) :
  (forall n v, In (n, v) l -> dget D (base ++ [n]) = Some (VDist v)) ->
  mapM (fun n => let* v := dindex D (base ++ [n]) in let* d := as_dist v in Ok (n, d)) (map fst l) = Ok l.
Proof.
  induction l as [|[n v] ps IH]; intros H; [reflexivity|]. cbn [map mapM fst]. unfold dindex at 1.
  rewrite (H n v) by now left. cbn [opt_err bind as_dist]. rewrite IH; [reflexivity|]. intros; apply H; now right.
Qed.

Lemma assemble_main_gen mk (Hmk : forall q p i, mk q p = Ok i -> i_path i = p /\ i_type i = dcls q /\ i_subs i = map fst (sub_distributions q)) d :
  forall base D infos, well_formed d = true ->
  walk mk d base = Ok infos ->
  (forall k v, In (k, v) (drop_support (flat_map (leaf_items None) (leaves base d))) -> dget D k = Some (VArr v)) ->
  exists D', foldM assemble_step D infos = Ok D' /\
    dget D' base = Some (VDist (default_minimizers d)) /\
    (forall k, ~ is_prefix base k -> dget D' k = dget D k).
Proof.
  induction d as [c m ps subs IH] using dist_rect'. intros base D infos Hwf Hw HD.
  apply wf_inv in Hwf as (Hps & Hj & Hs & Hsub). rewrite walk_unfold in Hw.
  apply bind_Ok in Hw as (rest & Hrest & Hw). apply bind_Ok in Hw as (i & Hi & Hw). injection Hw as <-.
  apply Hmk in Hi as (Hpath & Htype & Hisubs). cbn [dcls sub_distributions] in *.
  rewrite foldM_app. cbn [leaves] in HD.
  destruct (is_joint c) eqn:Ej.
  - destruct (Hj eq_refl) as [Hne Hnd].
    assert (Hmain : exists D', foldM assemble_step D (concat rest) = Ok D' /\
      (forall n s, In (n, s) subs -> dget D' (base ++ [n]) = Some (VDist (default_minimizers s))) /\
      (forall k, (forall n, In n (map fst subs) -> ~ is_prefix (base ++ [n]) k) -> dget D' k = dget D k)).
    { clear Hisubs Hpath Htype Hne Hs Hps Hj. revert D rest Hrest HD. induction subs as [|[n s] subs IHs]; intros D rest Hrest HD.
      - cbn in Hrest. injection Hrest as <-. exists D. cbn. repeat split; auto. intros n s [].
      - inversion IH as [|? ? Hn IH']; subst. inversion Hsub as [|? ? Hws Hsub']; subst.
        inversion Hnd as [|? ? Hnn Hnd']; subst. cbn [snd fst] in *.
        cbn [mapM fst snd] in Hrest. apply bind_Ok in Hrest as (r1 & Hr1 & Hrest). apply bind_Ok in Hrest as (rs & Hrs & Hrest).
        injection Hrest as <-. cbn [concat]. rewrite foldM_app.
        cbn [flat_map fst snd] in HD. rewrite flat_map_app in HD. unfold drop_support in HD. rewrite map_app in HD.
        destruct (Hn (base ++ [n]) D r1 Hws Hr1) as (D1 & HF1 & HG1 & HO1).
        { intros k v Hk. apply HD. apply in_or_app. now left. }
        rewrite HF1. cbn [bind].
        destruct (IHs IH' Hsub' Hnd' D1 rs Hrs) as (D2 & HF2 & HG2 & HO2).
        { intros k v Hk. rewrite HO1; [apply HD, in_or_app; now right|].
          unfold drop_support in Hk. apply in_map_iff in Hk as ([k' av] & He & Hk). cbn in He. injection He as -> <-.
          apply in_flat_map in Hk as (pl & Hpl & Hk). apply in_flat_map in Hpl as ([n2 s2] & Hi2 & Hpl). cbn [fst snd] in *.
          pose proof (leaves_prefix s2 (base ++ [n2])) as Hp. rewrite Forall_forall in Hp. specialize (Hp _ Hpl).
          unfold leaf_items in Hk. apply in_map_iff in Hk as ([n3 v3] & He & _). cbn in He. injection He as <- _.
          intros Hp1. destruct Hp as [r Hr]. rewrite Hr in Hp1.
          assert (Hp2 : is_prefix (base ++ [n2]) (((base ++ [n2]) ++ r) ++ [n3])) by (exists (r ++ [n3]); now rewrite app_assoc).
          pose proof (prefix_sib _ _ _ _ Hp1 Hp2). subst n2. apply Hnn. change n with (fst (n, s2)). now apply in_map. }
        exists D2. split; [exact HF2|]. split.
        + intros n2 s2 [He|Hi2].
          * injection He as <- <-. rewrite HO2; [exact HG1|]. intros n2 Hn2 Hp.
            pose proof (prefix_sib _ _ _ _ Hp (prefix_refl _)). subst. contradiction.
          * now apply HG2.
        + intros k Hk. rewrite HO2 by (intros; apply Hk; now right). apply HO1. apply Hk. now left. }
    destruct Hmain as (D1 & HF1 & HG1 & HO1). rewrite HF1. cbn [bind foldM].
    unfold assemble_step. rewrite Hpath, Htype, Hisubs. rewrite class_support_names, (joint_no_fields c Ej).
    cbn [map mapM bind].
    pose proof (joint_subs D1 base (map (fun ns => (fst ns, default_minimizers (snd ns))) subs)) as Hjs.
    rewrite map_map in Hjs. cbn [fst] in Hjs. change (fun x : string * dist => fst x) with (@fst string dist) in Hjs. rewrite Hjs.
    2:{ intros n v Hi. apply in_map_iff in Hi as ([n2 s2] & He & Hi). cbn in He. injection He as <- <-. now apply HG1. }
    cbn [bind]. rewrite (dict_of_nodup []) by constructor.
    rewrite dict_of_nodup.
    2:{ unfold keys. rewrite map_map. exact Hnd. }
    destruct subs as [|ns0 subs0] eqn:Esub; [congruence|]. rewrite <- Esub in *.
    assert (Hmatch : forall A (x y : A), match map (fun ns => (fst ns, default_minimizers (snd ns))) subs with [] => x | _ => y end = y)
      by (rewrite Esub; reflexivity).
    rewrite Hmatch.
    rewrite construct_joint by exact Ej. cbn [bind].
    eexists. split; [reflexivity|]. split.
    + rewrite dget_dset_eq. cbn [default_minimizers]. rewrite (joint_no_fields c Ej) in Hps.
      destruct ps; [reflexivity|discriminate Hps].
    + intros k Hk. rewrite dget_dset_ne by (intros ->; apply Hk, prefix_refl). apply HO1.
      intros n _ Hp. apply Hk. now apply prefix_snoc in Hp.
  - rewrite (Hs eq_refl) in *. cbn in Hrest. injection Hrest as <-. cbn [concat foldM bind].
    unfold assemble_step. rewrite Hpath, Htype, Hisubs. cbn [map mapM].
    rewrite class_support_names, <- Hps. rewrite leaf_kwargs.
    2:{ intros n v Hi. apply HD. cbn. rewrite app_nil_r. unfold leaf_items, drop_support. rewrite map_map. cbn [fst snd].
        rewrite <- (own_list_None c m ps [] Hps) in Hi. unfold drop_support in Hi.
        apply in_map_iff in Hi as ([n2 v2] & He & Hi). cbn in He. injection He as <- <-.
        apply in_map_iff. exists (n2, v2). auto. }
    cbn [bind]. rewrite dict_of_nodup.
    2:{ unfold keys. rewrite Hps. apply nodup_fields. }
    rewrite construct_leaf by assumption. cbn [bind]. eexists. split; [reflexivity|]. split.
    + rewrite dget_dset_eq. reflexivity.
    + intros k Hk. rewrite dget_dset_ne; [reflexivity|]. intros ->. apply Hk, prefix_refl.
Qed.

Lemma assemble_main d : forall base D infos, well_formed d = true ->
  walk make_info d base = Ok infos ->
  (forall k v, In (k, v) (drop_support (flat_map (leaf_items None) (leaves base d))) -> dget D k = Some (VArr v)) ->
  exists D', foldM assemble_step D infos = Ok D' /\
    dget D' base = Some (VDist (default_minimizers d)) /\
    (forall k, ~ is_prefix base k -> dget D' k = dget D k).
Proof. exact (assemble_main_gen make_info make_info_ok d). Qed.

Lemma default_minimizers_id d : no_custom_minimizer d = true -> default_minimizers d = d.
Proof.
  induction d as [c m ps subs IH] using dist_rect'. cbn. rewrite andb_true_iff. intros [Hm Hs].
  destruct m; [|discriminate]. f_equal. rewrite forallb_forall in Hs. rewrite Forall_forall in IH.
  transitivity (map (fun x => x) subs); [|apply map_id]. apply map_ext_in. intros [n s] Hi. cbn. f_equal.
  apply (IH _ Hi). apply (Hs _ Hi).
Qed.

Lemma assemble_general d infos (P : dict path arr) : well_formed d = true -> create d = Ok infos ->
  NoDup (keys P) ->
  (forall k v, In (k, v) (drop_support (flat_map (leaf_items None) (leaves [] d))) -> In (k, v) P) ->
  assemble infos P = Ok (default_minimizers d).
Proof.
  intros Hwf Hc Hn HP. unfold assemble.
  destruct (assemble_main d [] (map (fun kv => (fst kv, VArr (snd kv))) P) infos Hwf Hc) as (D' & HF & HG & _).
  - intros k v Hi. apply In_dget.
    + unfold keys. rewrite map_map. exact Hn.
    + apply HP in Hi. apply in_map_iff. exists (k, v). auto.
  - rewrite HF. cbn [bind]. unfold dindex. rewrite HG. reflexivity.
Qed.
Lemma assemble_parameters d infos : well_formed d = true -> create d = Ok infos ->
  exists P, parameters d None = Ok P /\ assemble infos P = Ok (default_minimizers d).
Proof.
  intros Hwf Hc. eexists. split; [now apply parameters_ok|].
  apply assemble_general; [exact Hwf|exact Hc| |auto].
  rewrite keys_drop. now apply nodup_leaf_items.
Qed.

(** well shaped objects always have a structure *)
Lemma shaped_leaves b d : forall base, shaped b d = true -> Forall (fun pl => leaf_shaped b (snd pl) = true) (leaves base d).
Proof.
  induction d as [c m ps subs IH] using dist_rect'. intros base H. cbn [shaped] in H.
  apply andb_true_iff in H as [H1 H2]. cbn [leaves]. destruct (is_joint c) eqn:E.
  - rewrite forallb_forall in H2. rewrite Forall_forall in *. intros pl Hpl. apply in_flat_map in Hpl as (ns & Hi & Hpl).
    specialize (IH _ Hi (base ++ [fst ns]) (H2 _ Hi)). rewrite Forall_forall in IH. auto.
  - constructor; [exact H1|constructor].
Qed.
Lemma create_shaped b d : well_formed d = true -> shaped b d = true -> exists infos, create d = Ok infos.
Proof.
  intros Hw Hs. apply create_ok_of; [exact Hw|]. apply (shaped_leaves b d []) in Hs.
  eapply Forall_impl; [|exact Hs]. intros pl H. unfold leaf_shaped in H. destruct (dims_of (snd pl)); [eauto|discriminate].
Qed.
