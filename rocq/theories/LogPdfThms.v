(** C16: the log-density of a joint distribution. *)
From Coq Require Import FinFun String List Bool Arith Lia Reals.
From Verif Require Import Base XReal Tensor TensorFacts TensorFacts2 Support Dist DictFacts Iteration Structure Spec StructFacts AssembleFacts ParamFacts ReplaceFacts
  SumSpec Tools ToolThms MappingFacts Joint DotFacts StructThms Laws SumFacts MapFacts JointThms JointThms2.
Import ListNotations.

Lemma obs_joint c m ps subs x : is_joint c = true -> obs_matches (Dist c m ps subs) x ->
  exists kvs, x = Node kvs /\ NoDup (map fst kvs) /\ (forall n, In n (map fst kvs) <-> In n (map fst subs)) /\
    Forall (fun ns : string * dist => exists y, dget kvs (fst ns) = Some y /\ obs_matches (snd ns) y) subs.
Proof.
  intros J H. cbn [obs_matches] in H. rewrite J in H. destruct x as [|kvs]; [destruct H|]. exists kvs. destruct H as (H1 & H2 & H3). split; [reflexivity|]. split; [exact H1|]. split; [exact H2|].
  clear H1 H2. induction subs as [|[n s] subs IH]; constructor; [|apply IH; tauto]. destruct H3 as [H3 _]. cbn [fst snd]. destruct (dget kvs n) as [y|]; [eauto|destruct H3].
Qed.
Lemma obs_leaf_inv c m ps subs x : is_joint c = false -> obs_matches (Dist c m ps subs) x -> exists a, x = Leaf a.
Proof. intros J H. cbn [obs_matches] in H. rewrite J in H. destruct x; [eauto|destruct H]. Qed.
Lemma obs_nested_ok d : forall x, well_formed d = true -> obs_matches d x -> nested_ok x = true.
Proof.
  induction d as [c m ps subs IH] using dist_rect'. intros x W H. pose proof (wf_inv _ _ _ _ W) as (_ & _ & _ & Hsub). destruct (is_joint c) eqn:J.
  - destruct (obs_joint c m ps subs x J H) as (kvs & -> & H1 & H2 & H3). cbn [nested_ok]. apply andb_true_intro. split; [now apply nodupb_NoDup|].
    apply forallb_forall. intros [n y] Hi. cbn [snd]. assert (Hn : In n (map fst subs)) by (apply H2; now apply (in_map fst) in Hi).
    apply in_map_iff in Hn as ([n' s] & E & Hs). cbn in E. subst n'. rewrite Forall_forall in IH, Hsub, H3. destruct (H3 _ Hs) as (y' & Hg & Ho). cbn [fst snd] in *.
    rewrite (In_dget kvs n y H1 Hi) in Hg. injection Hg as <-. exact (IH _ Hs y (Hsub _ Hs) Ho).
  - destruct (obs_leaf_inv c m ps subs x J H) as [a ->]. reflexivity.
Qed.
(** the observation of every leaf *)
Lemma obs_get d : forall x base p q, well_formed d = true -> obs_matches d x -> In (p, q) (leaves base d) -> exists r a, p = base ++ r /\ nested_get x r = Some a.
Proof.
  induction d as [c m ps subs IH] using dist_rect'. intros x base p q W H Hi. pose proof (wf_inv _ _ _ _ W) as (_ & _ & _ & Hsub). cbn [leaves] in Hi. destruct (is_joint c) eqn:J.
  - destruct (obs_joint c m ps subs x J H) as (kvs & -> & H1 & H2 & H3). apply in_flat_map in Hi as ([n s] & Hs & Hi). rewrite Forall_forall in IH, Hsub, H3. destruct (H3 _ Hs) as (y & Hg & Ho). cbn [fst snd] in *.
    destruct (IH _ Hs y (base ++ [n]) p q (Hsub _ Hs) Ho Hi) as (r & a & -> & Ha). exists (n :: r), a. split; [now rewrite <- app_assoc|]. rewrite nested_get_node, Hg. exact Ha.
  - destruct Hi as [E|[]]. injection E as <- <-. destruct (obs_leaf_inv c m ps subs x J H) as [a ->]. exists [], a. split; [now rewrite app_nil_r|reflexivity].
Qed.

(** ** carrier measures *)
Lemma firsts_sub {K} `{EqDec K} (l m : list K) : NoDup l -> incl m l -> firsts (l ++ m) = l.
Proof.
  intros Hn Hi. assert (Hk : forall l, incl (firsts l) l).
  { clear. induction l as [|k l IH]; [now intros a|]. cbn [firsts]. intros a [->|Ha]; [now left|]. right. apply filter_In in Ha as [Ha _]. auto. }
  assert (Hgen : forall l, NoDup l -> firsts (l ++ m) = l ++ filter (fun j => if in_dec keq j l then false else true) (firsts m)).
  { clear Hn Hi l. induction l as [|k l IH]; intros Hn.
    - cbn [app]. induction (firsts m) as [|a k IHk]; [reflexivity|]. cbn [filter]. destruct (in_dec keq a []) as [[]|]. cbn [app] in *. now rewrite <- IHk.
    - inversion Hn; subst. cbn [app firsts]. rewrite IH by assumption. f_equal. rewrite filter_app. f_equal.
      + clear -H2. induction l as [|a l IH]; [reflexivity|]. cbn [filter]. destruct (keq k a) as [->|]; [destruct H2; now left|]. f_equal. apply IH. intros Hx. apply H2. now right.
      + clear IH. induction (firsts m) as [|a q IHq]; [reflexivity|]. cbn [filter]. destruct (in_dec keq a l) as [Ha|Ha], (in_dec keq a (k :: l)) as [Hb|Hb]; cbn [filter].
        * exact IHq.
        * destruct Hb. now right.
        * destruct Hb as [->|Hb]; [|contradiction]. destruct (keq a a); [exact IHq|congruence].
        * destruct (keq k a) as [->|]; [destruct Hb; now left|]. f_equal. exact IHq. }
  rewrite Hgen by exact Hn. rewrite <- (app_nil_r l) at 2. f_equal. specialize (Hk m). clear Hgen. induction (firsts m) as [|a k IHk]; [reflexivity|]. cbn [filter].
  destruct (in_dec keq a l) as [|Hx]; [apply IHk; intros x Hx; apply Hk; now right|]. destruct Hx. apply Hi, Hk. now left.
Qed.
Lemma joined_values subs kvs : NoDup (map fst subs) -> NoDup (map fst kvs) -> (forall n, In n (map fst kvs) <-> In n (map fst subs)) ->
  exists vs, values (joined subs kvs) = map snd vs /\ map fst vs = subs /\
    Forall (fun v : (string * dist) * dict string sub_or_obs => exists y, dget kvs (fst (fst v)) = Some y /\ joined_pair (snd v) = Ok (snd (fst v), y)) vs.
Proof.
  intros Hs Hx Hin. unfold joined.
  set (fm := [("sub"%string, map (fun kv : string * dist => (fst kv, JSub (snd kv))) subs); ("x"%string, map (fun kv : string * nested arr => (fst kv, JObs (snd kv))) kvs)]).
  assert (Ks : keys (map (fun kv : string * dist => (fst kv, JSub (snd kv))) subs) = map fst subs) by (unfold keys; now rewrite map_map).
  assert (Kx : keys (map (fun kv : string * nested arr => (fst kv, JObs (snd kv))) kvs) = map fst kvs) by (unfold keys; now rewrite map_map).
  assert (Hk : keys (join_mappings fm) = map fst subs).
  { rewrite keys_join_firsts. unfold fm. cbn [flat_map snd]. rewrite Ks, Kx, app_nil_r. apply firsts_sub; [exact Hs|]. intros a Ha. now apply Hin. }
  assert (Hg : forall k, dget (join_mappings fm) k = match inner_of fm k with [] => None | d => Some d end).
  { apply join_spec; [repeat constructor; cbn; intuition discriminate|]. repeat constructor; cbn [snd]; [now rewrite Ks|now rewrite Kx]. }
  assert (Gs : forall k, dget (map (fun kv : string * dist => (fst kv, JSub (snd kv))) subs) k = option_map JSub (dget subs k)).
  { intros k. clear. induction subs as [|[n s] subs IH]; [reflexivity|]. cbn [map dget fst snd]. destruct (keq k n); [reflexivity|exact IH]. }
  assert (Gx : forall k, dget (map (fun kv : string * nested arr => (fst kv, JObs (snd kv))) kvs) k = option_map JObs (dget kvs k)).
  { intros k. clear. induction kvs as [|[n s] kvs IH]; [reflexivity|]. cbn [map dget fst snd]. destruct (keq k n); [reflexivity|exact IH]. }
  exists (map (fun ns => (ns, inner_of fm (fst ns))) subs). split; [|split].
  - transitivity (values (map (fun ns : string * dist => (fst ns, inner_of fm (fst ns))) subs)); [|unfold values; now rewrite !map_map]. f_equal.
    apply dict_ext; [unfold keys at 2; now rewrite map_map|now rewrite Hk|]. intros k. rewrite Hg.
    assert (E : dget (map (fun ns : string * dist => (fst ns, inner_of fm (fst ns))) subs) k = if in_dec keq k (map fst subs) then Some (inner_of fm k) else None).
    { clear. generalize fm. intros fm'. induction subs as [|[n s] subs IH]; [reflexivity|]. cbn [map dget fst snd]. destruct (keq k n) as [->|Hne].
      - destruct (in_dec keq n (n :: map fst subs)) as [|Hx]; [reflexivity|]. destruct Hx. now left.
      - rewrite IH. destruct (in_dec keq k (map fst subs)) as [Ha|Ha], (in_dec keq k (n :: map fst subs)) as [Hb|Hb]; try reflexivity; [destruct Hb; now right|]. destruct Hb; [congruence|contradiction]. }
    rewrite E. unfold inner_of, fm. cbn [flat_map fst snd]. rewrite Gs, Gx. destruct (in_dec keq k (map fst subs)) as [Ha|Ha].
    + destruct (dget subs k) eqn:Ed; [reflexivity|]. apply dget_None in Ed. contradiction.
    + assert (D1 : dget subs k = None) by now apply dget_None. assert (D2 : dget kvs k = None) by (apply dget_None; intros H; apply Ha; now apply Hin). rewrite D1, D2. reflexivity.
  - rewrite map_map. apply map_id.
  - apply Forall_forall. intros v Hv. apply in_map_iff in Hv as ([n s] & <- & Hi). cbn [fst snd].
    assert (Ds : dget subs n = Some s) by now apply In_dget. assert (Hn : In n (map fst kvs)) by (apply Hin; now apply (in_map fst) in Hi).
    destruct (dget kvs n) as [y|] eqn:Dy; [|apply dget_None in Dy; contradiction]. exists y. split; [reflexivity|].
    unfold inner_of, fm. cbn [flat_map fst snd]. rewrite Gs, Gx, Ds, Dy. reflexivity.
Qed.

Lemma depth_sub c m ps subs n s : In (n, s) subs -> depth s < depth (Dist c m ps subs).
Proof.
  intros Hi. cbn [depth]. apply Nat.lt_succ_r. induction subs as [|[n' s'] subs IH]; [destruct Hi|]. destruct Hi as [E|Hi]; [injection E as <- <-; apply Nat.le_max_l|].
  etransitivity; [exact (IH Hi)|apply Nat.le_max_r].
Qed.

Section Main.
  Variable L : leaf_methods.
  Hypothesis G : good L.
  (** a method of a leaf at its own observation *)
  Definition obs_at {T} (x : nested arr) (k : dist -> arr -> result T) (pq : path * dist) : result T :=
    match nested_get x (fst pq) with Some a => k (snd pq) a | None => Err KeyError end.
  Lemma carrier_sum_gen b fuel : forall d base y (get : path -> option arr), depth d <= fuel -> well_formed d = true -> nat_tree d = true -> shaped b d = true -> obs_matches d y ->
    (forall r, get (base ++ r) = nested_get y r) ->
    (forall p q a, In (p, q) (leaves base d) -> get p = Some a -> obs_leaf b q a) ->
    sums_to (fun pq => match get (fst pq) with Some a => l_carrier_measure L (snd pq) a | None => Err KeyError end) b (leaves base d) (carrier_fuel L fuel d y).
  Proof.
    induction fuel as [|fuel IH]; intros d base y get Hd W N S H Hg Ho; [destruct d; cbn in Hd; lia|]. destruct d as [c m ps subs]. cbn [carrier_fuel].
    pose proof (wf_inv _ _ _ _ W) as (_ & Hj & Hs & Hsub). pose proof N as N'. cbn [nat_tree all_nodes] in N'. apply andb_prop in N' as [Nc Nsub].
    destruct c as [f|f| | | | | | |]; try discriminate Nc.
    - destruct (obs_leaf_inv (NP f) m ps _ _ eq_refl H) as [a ->]. cbn [leaves is_joint] in *.
      assert (Ga : get base = Some a) by (rewrite <- (app_nil_r base), Hg; reflexivity).
      assert (E : l_carrier_measure L (Dist (NP f) m ps subs) a = (fun pq : path * dist => match get (fst pq) with Some a => l_carrier_measure L (snd pq) a | None => Err KeyError end) (base, Dist (NP f) m ps subs)).
      { cbn [fst snd]. now rewrite Ga. }
      rewrite E. destruct (g_cm L G b (Dist (NP f) m ps subs) f a eq_refl W) as (t & T1 & T2).
      { apply (shaped_leaf b); [reflexivity|exact S]. }
      { apply (Ho base); [now left|exact Ga]. }
      apply (sums_one (fun pq : path * dist => match get (fst pq) with Some a => l_carrier_measure L (snd pq) a | None => Err KeyError end) b (base, Dist (NP f) m ps subs) t); [cbn [fst snd]; now rewrite Ga|exact T2].
    - destruct (obs_joint JointDistributionN m ps subs _ eq_refl H) as (kvs & -> & H1 & H2 & H3). destruct (Hj eq_refl) as [Hne Hnd].
      destruct (joined_values subs kvs Hnd H1 H2) as (vs & V1 & V2 & V3). rewrite V1, mapM_map. cbn [leaves is_joint] in *. rewrite <- V2. rewrite flat_map_concat_map, map_map, <- flat_map_concat_map.
      apply sums_concat.
      + intros ->. cbn in V2. congruence.
      + intros [[n s] v] Hi. cbn [fst snd]. rewrite Forall_forall in V3. destruct (V3 _ Hi) as (y & Y1 & Y2). cbn [fst snd] in *. rewrite Y2. cbn [bind].
        assert (Hi' : In (n, s) subs) by (rewrite <- V2; exact (in_map fst _ _ Hi)).
        rewrite Forall_forall in Hsub, H3. rewrite forallb_forall in Nsub. destruct (H3 _ Hi') as (y' & Z1 & Z2). cbn [fst snd] in *. rewrite Y1 in Z1. injection Z1 as <-.
        apply IH; auto.
        * pose proof (depth_sub JointDistributionN m ps subs n s Hi'). lia.
        * exact (Hsub _ Hi').
        * exact (Nsub _ Hi').
        * cbn [shaped is_joint andb] in S. rewrite forallb_forall in S. exact (S _ Hi').
        * intros r. rewrite <- app_assoc. rewrite Hg. cbn [app]. rewrite nested_get_node, Y1. reflexivity.
        * intros p q a Hp. apply (Ho p). apply in_flat_map. exists (n, s). auto.
  Qed.
  Lemma carrier_sum b q x : well_formed q = true -> nat_tree q = true -> shaped b q = true -> obs_matches q x -> obs_shaped b q x ->
    sums_to (obs_at x (l_carrier_measure L)) b (leaves [] q) (carrier_measure L q x).
  Proof. intros W N S H Ho. unfold carrier_measure. apply carrier_sum_gen; auto. Qed.

  (** ** sufficient statistics *)
  Fixpoint subst_leaves (F : path -> dist) (base : path) (d : dist) : dist :=
    let '(Dist c _ _ subs) := d in
    if is_joint c then Dist (exp_cls c) DefaultMinimizer [] (map (fun ns => (fst ns, subst_leaves F (base ++ [fst ns]) (snd ns))) subs) else F base.
  Definition info_to_exp (i : info) : info := Info (i_path i) (exp_cls (i_type i)) (i_dims i) (i_subs i).
  Lemma struct_to_exp_map d : forall base infos, nat_tree d = true -> walk make_info d base = Ok infos -> struct_to_exp infos = Ok (map info_to_exp infos).
  Proof.
    induction d as [c m ps subs IH] using dist_rect'. intros base infos N Hw. cbn [nat_tree all_nodes] in N. apply andb_prop in N as [Nc N]. rewrite walk_unfold in Hw.
    apply bind_Ok in Hw as (rest & Hr & Hw). apply bind_Ok in Hw as (i & Hi & Hw). injection Hw as <-.
    apply make_info_ok in Hi as (_ & Ht & _). unfold struct_to_exp. rewrite mapM_app. cbn [mapM]. rewrite Ht. cbn [dcls]. rewrite Nc. cbn [bind].
    assert (E : struct_to_exp (concat rest) = Ok (map info_to_exp (concat rest))).
    { clear -IH N Hr. revert rest Hr. induction subs as [|[n s] subs IHs]; intros rest Hr; cbn [mapM fst snd] in Hr; [injection Hr as <-; reflexivity|].
      apply bind_Ok in Hr as (r1 & Hr1 & Hr). apply bind_Ok in Hr as (r2 & Hr2 & Hr). injection Hr as <-. cbn [concat]. inversion IH; subst. cbn [forallb fst snd] in *. apply andb_prop in N as [N1 N2].
      rewrite struct_exp_app, (H1 _ _ N1 Hr1), (IHs H2 N2 _ Hr2). cbn [bind]. now rewrite map_app. }
    unfold struct_to_exp in E. rewrite E. cbn [bind]. rewrite map_app. cbn [map]. unfold info_to_exp. now rewrite Ht.
  Qed.
  Lemma fixed_lookup (F : dict path arr) p l : well_formed l = true -> (forall n v, In (n, v) (fixed_params l) -> dget F (p ++ [n]) = Some v) ->
    mapM (fun n => let* v := dindex F (p ++ [n]) in Ok (n, v)) (keys (class_support (dcls l) (Some true))) = Ok (fixed_params l).
  Proof.
    intros W H. assert (E : keys (class_support (dcls l) (Some true)) = map fst (fixed_params l)).
    { rewrite class_support_names_fx. unfold fixed_params. rewrite map_map. cbn [fst]. unfold own_list. destruct l as [c m ps subs]. apply wf_inv in W as (Hp & _). cbn [dcls dparams].
      assert (Hf : forall f, In f (filter (fixed_ok (Some true)) (fields c)) -> In (fd_name f) (map fst ps)).
      { intros f Hf. rewrite Hp. apply filter_In in Hf as [Hf _]. now apply in_map. }
      induction (filter (fixed_ok (Some true)) (fields c)) as [|f l IH]; [reflexivity|]. cbn [map flat_map]. specialize (Hf f (or_introl eq_refl)) as Hf1.
      destruct (dget ps (fd_name f)) as [a|] eqn:Ed; [|apply dget_None in Ed; contradiction]. cbn [app map fst]. f_equal. apply IH. intros; apply Hf; now right. }
    rewrite E. revert H. generalize (fixed_params l). induction d as [|[n v] d IH]; intros H; [reflexivity|]. cbn [map mapM fst]. unfold dindex at 1. rewrite (H n v (or_introl eq_refl)). cbn [opt_err bind].
    rewrite IH; [reflexivity|]. intros; apply H; now right.
  Qed.

  Lemma mle_main est d : forall base D infos y (get : path -> option arr) (F : path -> dist), well_formed d = true -> nat_tree d = true -> walk make_info d base = Ok infos -> obs_matches d y ->
    (forall r, get (base ++ r) = nested_get y r) ->
    (forall p q f a, In (p, q) (leaves base d) -> dcls q = NP f -> get p = Some a ->
       (forall n v, In (n, v) (fixed_params q) -> dget (e_fixed est) (p ++ [n]) = Some v) /\
       l_sufficient_statistics L f a (fixed_params q) = Ok (F p) /\ dcls (F p) = EP f) ->
    exists D', foldM (fun c i => match get (i_path i) with Some a => mle_leaf L est c i a | None => mle_joint c i end) D (map info_to_exp infos) = Ok D' /\
      dget D' base = Some (subst_leaves F base d) /\ (forall k, ~ is_prefix base k -> dget D' k = dget D k).
  Proof.
    induction d as [c m ps subs IH] using dist_rect'. intros base D infos y get F Hwf N Hw H Hg HF.
    apply wf_inv in Hwf as W. destruct W as (Hps & Hj & Hs & Hsub). rewrite walk_unfold in Hw.
    apply bind_Ok in Hw as (rest & Hrest & Hw). apply bind_Ok in Hw as (i & Hi & Hw). injection Hw as <-.
    apply make_info_ok in Hi as (Hpath & Htype & Hisubs). cbn [dcls sub_distributions] in *.
    cbn [nat_tree all_nodes] in N. apply andb_prop in N as [Nc N]. rewrite map_app, foldM_app. cbn [leaves map] in *. destruct c as [f|f| | | | | | |]; try discriminate Nc.
    - rewrite (Hs eq_refl) in *. cbn in Hrest. injection Hrest as <-. cbn [concat map foldM bind is_joint].
      unfold info_to_exp. cbn [i_path]. rewrite Hpath. destruct (obs_leaf_inv (NP f) m ps _ _ eq_refl H) as [a ->].
      assert (Ga : get base = Some a) by (rewrite <- (app_nil_r base), Hg; reflexivity). rewrite Ga.
      destruct (HF base _ f a (or_introl eq_refl) eq_refl Ga) as (F1 & F2 & F3).
      unfold mle_leaf. cbn [i_subs i_type i_path]. rewrite Hisubs, Htype. cbn [exp_cls map].
      pose proof (fixed_lookup (e_fixed est) base _ Hwf F1) as FL. cbn [dcls] in FL. rewrite FL. cbn [bind]. rewrite F2. cbn [bind]. rewrite F3. cbn [is_exp].
      eexists. split; [reflexivity|]. split; [rewrite dget_dset_eq; reflexivity|]. intros k Hk. rewrite dget_dset_ne; [reflexivity|]. intros ->. apply Hk, prefix_refl.
    - destruct (Hj eq_refl) as [Hne Hnd]. destruct (obs_joint JointDistributionN m ps subs _ eq_refl H) as (kvs & -> & H1 & H2 & H3). cbn [is_joint] in *.
      assert (Hmain : exists D', foldM (fun c i => match get (i_path i) with Some a => mle_leaf L est c i a | None => mle_joint c i end) D (map info_to_exp (concat rest)) = Ok D' /\
        (forall n s, In (n, s) subs -> dget D' (base ++ [n]) = Some (subst_leaves F (base ++ [n]) s)) /\
        (forall k, (forall n, In n (map fst subs) -> ~ is_prefix (base ++ [n]) k) -> dget D' k = dget D k)).
      { clear Hisubs Hpath Htype Hne Hs Hps Hj H2 H Hwf Nc. revert D rest Hrest HF. induction subs as [|[n s] subs IHs]; intros D rest Hrest HF.
        - cbn in Hrest. injection Hrest as <-. exists D. cbn. repeat split; auto. intros n s [].
        - inversion IH as [|? ? Hn IH']; subst. inversion Hsub as [|? ? Hws Hsub']; subst. inversion H3 as [|? ? Hobs H3']; subst.
          inversion Hnd as [|? ? Hnn Hnd']; subst. cbn [forallb snd fst] in *. apply andb_prop in N as [N1 N2].
          cbn [mapM fst snd] in Hrest. apply bind_Ok in Hrest as (r1 & Hr1 & Hrest). apply bind_Ok in Hrest as (rs & Hrs & Hrest).
          injection Hrest as <-. cbn [concat]. rewrite map_app, foldM_app. cbn [flat_map fst snd] in HF. destruct Hobs as (y & Y1 & Y2).
          destruct (Hn (base ++ [n]) D r1 y get F Hws N1 Hr1 Y2) as (D1 & HF1 & HG1 & HO1).
          { intros r. rewrite <- app_assoc, Hg. cbn [app]. now rewrite nested_get_node, Y1. }
          { intros p q f a Hp. apply (HF p q f a). apply in_or_app. now left. }
          rewrite HF1. cbn [bind].
          destruct (IHs IH' N2 Hsub' Hnd' H3' D1 rs Hrs) as (D2 & HF2 & HG2 & HO2).
          { intros p q f a Hp. apply (HF p q f a). apply in_or_app. now right. }
          exists D2. split; [exact HF2|]. split.
          + intros n2 s2 [He|Hi2].
            * injection He as <- <-. rewrite HO2; [exact HG1|]. intros n2 Hn2 Hp.
              pose proof (prefix_sib _ _ _ _ Hp (prefix_refl _)). subst. contradiction.
            * now apply HG2.
          + intros k Hk. rewrite HO2 by (intros; apply Hk; now right). apply HO1. apply Hk. now left. }
      destruct Hmain as (D1 & HF1 & HG1 & HO1). rewrite HF1. cbn [bind foldM].
      unfold info_to_exp. cbn [i_path]. rewrite Hpath. assert (Ga : get base = None) by (rewrite <- (app_nil_r base), Hg; reflexivity). rewrite Ga.
      unfold mle_joint. cbn [i_type i_path i_subs]. rewrite Htype, Hisubs. cbn [exp_cls].
      assert (Hm : mapM (fun n => let* d := dindex D1 (base ++ [n]) in Ok (n, d)) (map fst subs) = Ok (map (fun ns => (fst ns, subst_leaves F (base ++ [fst ns]) (snd ns))) subs)).
      { rewrite mapM_map. apply mapM_Ok. intros [n s] Hi. cbn [fst snd]. unfold dindex. now rewrite (HG1 n s Hi). }
      rewrite Hm. cbn [bind]. rewrite dict_of_nodup by (unfold keys; rewrite map_map; exact Hnd).
      eexists. split; [reflexivity|]. split; [rewrite dget_dset_eq; reflexivity|].
      intros k Hk. rewrite dget_dset_ne by (intros ->; apply Hk, prefix_refl). apply HO1. intros n _ Hp. apply Hk. now apply prefix_snoc in Hp.
  Qed.
  Lemma subst_tree F d : forall base, well_formed d = true -> nat_tree d = true ->
    (forall p q f, In (p, q) (leaves base d) -> dcls q = NP f -> dcls (F p) = EP f /\ well_formed (F p) = true) ->
    well_formed (subst_leaves F base d) = true /\ exp_tree (subst_leaves F base d) = true /\ leaves base (subst_leaves F base d) = map (fun pq => (fst pq, F (fst pq))) (leaves base d).
  Proof.
    induction d as [c m ps subs IH] using dist_rect'. intros base W N HF. apply wf_inv in W as (Hps & Hj & Hs & Hsub). cbn [nat_tree all_nodes] in N. apply andb_prop in N as [Nc N].
    cbn [subst_leaves leaves] in *. destruct c as [f|f| | | | | | |]; try discriminate Nc; cbn [is_joint exp_cls] in *.
    - destruct (HF base _ f (or_introl eq_refl) eq_refl) as [F1 F2]. split; [exact F2|]. split.
      + destruct (F base) as [c' m' ps' subs'] eqn:EF. cbn [dcls] in F1. subst c'. apply wf_inv in F2 as (_ & _ & E & _). rewrite (E eq_refl). reflexivity.
      + rewrite leaf_leaves by (rewrite F1; reflexivity). reflexivity.
    - destruct (Hj eq_refl) as [Hne Hnd].
      assert (K : Forall (fun ns : string * dist => well_formed (snd ns) = true /\ exp_tree (snd ns) = true) (map (fun ns => (fst ns, subst_leaves F (base ++ [fst ns]) (snd ns))) subs) /\
        flat_map (fun ns => leaves (base ++ [fst ns]) (snd ns)) (map (fun ns => (fst ns, subst_leaves F (base ++ [fst ns]) (snd ns))) subs) =
        map (fun pq => (fst pq, F (fst pq))) (flat_map (fun ns => leaves (base ++ [fst ns]) (snd ns)) subs)).
      { clear -IH Hsub N HF. induction subs as [|[n s] subs IHs]; [split; [constructor|reflexivity]|]. inversion IH; subst. inversion Hsub; subst. cbn [forallb flat_map map fst snd] in *. apply andb_prop in N as [N1 N2].
        destruct (H1 (base ++ [n]) H3 N1) as (A1 & A2 & A3). { intros p q f Hi. apply (HF p q f). apply in_or_app. now left. }
        destruct (IHs H2 H4 N2) as [B1 B2]. { intros p q f Hi. apply (HF p q f). apply in_or_app. now right. }
        split; [constructor; auto|]. rewrite A3, B2, map_app. reflexivity. }
      destruct K as [K1 K2]. rewrite Forall_forall in K1. split; [|split].
      + cbn [well_formed fields is_joint map list_eqb fst andb]. rewrite map_map. cbn [fst]. apply andb_true_intro. split.
        * apply andb_true_intro. split; [destruct subs; [easy|reflexivity]|now apply nodupb_NoDup].
        * apply forallb_forall. intros ns Hi. now apply K1.
      + unfold exp_tree. cbn [all_nodes is_exp andb]. apply forallb_forall. intros ns Hi. now apply K1.
      + exact K2.
  Qed.

  Lemma mle_tree b q x : well_formed q = true -> nat_tree q = true -> shaped b q = true -> obs_matches q x -> obs_shaped b q x ->
    exists est tx, create_estimator_from_natural q = Ok est /\ mle_sufficient_statistics L est x = Ok tx /\ well_formed tx = true /\ exp_tree tx = true /\ tree_match b q tx /\
      forall p l f a, In (p, l) (leaves [] q) -> dcls l = NP f -> nested_get x p = Some a -> l_sufficient_statistics L f a (fixed_params l) = Ok (leafat tx p).
  Proof.
    intros W N S H Ho. destruct (create_shaped b q W S) as [infos Hc]. unfold create_estimator_from_natural. rewrite Hc. cbn [bind].
    rewrite (struct_to_exp_map q [] infos N Hc). cbn [bind]. rewrite parameters_ok by exact W. cbn [bind].
    set (est := Estimator (map info_to_exp infos) (drop_support (flat_map (leaf_items (Some true)) (leaves [] q)))).
    exists est.
    set (F := fun p => match dist_at q p, nested_get x p with
                       | Some l, Some a => match dcls l with NP f => match l_sufficient_statistics L f a (fixed_params l) with Ok e => e | Err _ => l end | _ => l end
                       | _, _ => q end).
    assert (HF : forall p l f a, In (p, l) (leaves [] q) -> dcls l = NP f -> nested_get x p = Some a ->
      l_sufficient_statistics L f a (fixed_params l) = Ok (F p) /\ dcls (F p) = EP f /\ leaf_match b l (F p)).
    { intros p l f a Hi Hf Ha. destruct (leaf_wf q [] p l W Hi) as [Wl _]. destruct (g_ss L G b l f a Hf Wl (shaped_in b q p l S Hi) (Ho p l a Hi Ha)) as (e & E1 & E2 & E3 & _).
      assert (EF : F p = e). { unfold F. apply (leaf_in q p l W) in Hi as [Hd _]. rewrite Hd, Ha, Hf, E1. reflexivity. } rewrite EF. auto. }
    assert (HW : forall p l f, In (p, l) (leaves [] q) -> dcls l = NP f -> exists a, nested_get x p = Some a /\ l_sufficient_statistics L f a (fixed_params l) = Ok (F p) /\ dcls (F p) = EP f /\ leaf_match b l (F p)).
    { intros p l f Hi Hf. destruct (obs_get q x [] p l W H Hi) as (r & a & E & Ha). cbn [app] in E. subst r. exists a. split; [exact Ha|]. now apply HF. }
    destruct (subst_tree F q [] W N) as (T1 & T2 & T3).
    { intros p l f Hi Hf. destruct (HW p l f Hi Hf) as (a & _ & _ & A3 & (_ & A4 & _)). auto. }
    exists (subst_leaves F [] q). split; [reflexivity|].
    assert (Hfix : forall p l n v, In (p, l) (leaves [] q) -> In (n, v) (fixed_params l) -> dget (e_fixed est) (p ++ [n]) = Some v).
    { intros p l n v Hi Hn. cbn [e_fixed est]. apply In_dget; [rewrite keys_drop; now apply nodup_leaf_items|]. unfold drop_support, fixed_params in *.
      apply in_map_iff in Hn as ([n' [v' s]] & E & Hn). cbn in E. injection E as <- <-. apply in_map_iff. exists (p ++ [n'], (v', s)). split; [reflexivity|].
      apply in_flat_map. exists (p, l). split; [exact Hi|]. unfold leaf_items. cbn [fst snd]. apply in_map_iff. exists (n', (v', s)). auto. }
    assert (Hm : mle_sufficient_statistics L est x = Ok (subst_leaves F [] q)).
    { destruct (mle_main est q [] [] infos x (fun p => nested_get x p) F W N Hc H) as (D' & D1 & D2 & _).
      - intros r. reflexivity.
      - intros p l f a Hi Hf Ha. split; [intros n v; now apply Hfix|]. destruct (HF p l f a Hi Hf Ha) as (A1 & A2 & _). auto.
      - unfold mle_sufficient_statistics. destruct x as [a|kvs].
        + destruct q as [c m ps subs]. destruct (is_joint c) eqn:J; [destruct (obs_joint c m ps subs _ J H) as (? & ? & _); discriminate|].
          pose proof (wf_inv _ _ _ _ W) as (_ & _ & Hs & _). specialize (Hs J). subst subs. unfold create in Hc. rewrite walk_unfold in Hc. cbn [mapM bind] in Hc.
          apply bind_Ok in Hc as (i & Hi & Hc). cbn in Hc. injection Hc as <-. apply make_info_ok in Hi as (Hp & _). cbn [e_infos est map].
          cbn [map foldM] in D1. unfold info_to_exp in D1 at 1. cbn [i_path] in D1. rewrite Hp in D1. cbn [nested_get] in D1. apply bind_Ok in D1 as (D0 & D1 & D3). injection D3 as <-.
          rewrite D1. cbn [bind]. unfold dindex. rewrite D2. reflexivity.
        + assert (E : forall A (l : list A) S0 (f g : S0 -> A -> result S0) s, (forall s a, f s a = g s a) -> foldM f s l = foldM g s l).
          { clear. intros A l S0 f g. induction l as [|a l IH]; intros s Hfg; [reflexivity|]. cbn [foldM]. rewrite Hfg. destruct (g s a); cbn; auto. }
          cbn [e_infos est].
          rewrite (E _ _ _ _ (fun c i => match nested_get (Node kvs) (i_path i) with Some a => mle_leaf L est c i a | None => mle_joint c i end)).
          * rewrite D1. cbn [bind]. unfold dindex. rewrite D2. reflexivity.
          * intros s i. now rewrite flatten_mapping_get by exact (obs_nested_ok q _ W H). }
    split; [exact Hm|]. split; [exact T1|]. split; [exact T2|].
    assert (HL : forall p l, In (p, l) (leaves [] q) -> leafat (subst_leaves F [] q) p = F p).
    { intros p l Hi. assert (Hin : In (p, F p) (leaves [] (subst_leaves F [] q))) by (rewrite T3; apply in_map_iff; exists (p, l); auto).
      apply (leaf_in _ _ _ T1) in Hin as [Hin _]. unfold leafat. now rewrite Hin. }
    split.
    - apply tm_of; auto; [rewrite T3, map_map; reflexivity|]. intros p l Hi. rewrite (HL p l Hi). destruct (nat_leaf q [] p l W N Hi) as [f Hf]. destruct (HW p l f Hi Hf) as (a & _ & _ & _ & A). exact A.
    - intros p l f a Hi Hf Ha. rewrite (HL p l Hi). now apply (HF p l f a).
  Qed.

  Lemma lp_bind (A B C : result (tensor xr)) :
    (let* dp := A in let* ln := B in let* a := tmap2 xsub dp ln in let* cm := C in tmap2 xadd a cm) =
    (let* a := (let* dp := A in let* ln := B in tmap2 xsub dp ln) in let* cm := C in tmap2 xadd a cm).
  Proof. exact (bind3 A B C xsub xadd). Qed.
  (** the log-density of a simple distribution *)
  Lemma log_pdf_leaf b l f a : well_formed l = true -> dcls l = NP f -> leaf_shaped b l = true -> obs_leaf b l a ->
    log_pdf L l (Leaf a) = (let* t := l_sufficient_statistics L f a (fixed_params l) in
      let* x := (let* dp := parameter_dot_product l t in let* ln := log_normalizer L l in tmap2 xsub dp ln) in let* cm := l_carrier_measure L l a in tmap2 xadd x cm).
  Proof.
    intros W Hf S Ho. assert (J : is_joint (dcls l) = false) by now rewrite Hf.
    assert (N : nat_tree l = true). { destruct l as [c m ps subs]. cbn [dcls] in *. subst c. pose proof (wf_inv _ _ _ _ W) as (_ & _ & Hs & _). rewrite (Hs eq_refl). reflexivity. }
    assert (Sl : shaped b l = true) by now apply shaped_of_leaf.
    destruct (mle_tree b l (Leaf a) W N Sl) as (est & tx & E1 & E2 & E3 & E4 & E5 & E6).
    { destruct l as [c m ps subs]. cbn [dcls obs_matches] in *. rewrite J. exact I. }
    { intros p q a' Hi Ha. rewrite leaf_leaves in Hi by exact J. destruct Hi as [E|[]]. injection E as <- <-. cbn in Ha. injection Ha as <-. exact Ho. }
    unfold log_pdf. rewrite E1. cbn [bind]. rewrite E2. cbn [bind]. assert (Hi : In ([], l) (leaves [] l)) by (rewrite leaf_leaves by exact J; now left).
    rewrite (E6 [] l f a Hi Hf eq_refl). assert (El : leafat tx [] = tx) by reflexivity. rewrite El. cbn [bind]. rewrite lp_bind. 
    assert (Ec : carrier_measure L l (Leaf a) = l_carrier_measure L l a) by (destruct l as [c m ps subs]; cbn [dcls] in Hf; subst c; reflexivity). now rewrite Ec.
  Qed.
  Lemma log_pdf_sum b q x : well_formed q = true -> nat_tree q = true -> shaped b q = true -> obs_matches q x -> obs_shaped b q x ->
    sums_to (obs_at x (fun l a => log_pdf L l (Leaf a))) b (leaves [] q) (log_pdf L q x).
  Proof.
    intros W N S H Ho. destruct (mle_tree b q x W N S H Ho) as (est & tx & E1 & E2 & E3 & E4 & E5 & E6).
    assert (Et : log_pdf L q x = (let* a := (let* dp := parameter_dot_product q tx in let* ln := log_normalizer L q in tmap2 xsub dp ln) in let* cm := carrier_measure L q x in tmap2 xadd a cm)).
    { unfold log_pdf. rewrite E1. cbn [bind]. rewrite E2. cbn [bind]. apply lp_bind. }
    rewrite Et. apply (sums_ext (fun pq : path * dist => let* a := (let* dp := parameter_dot_product (leafat q (fst pq)) (leafat tx (fst pq)) in let* ln := log_normalizer L (snd pq) in tmap2 xsub dp ln) in
      let* cm := obs_at x (l_carrier_measure L) pq in tmap2 xadd a cm)).
    - intros [p l] Hi. destruct (obs_get q x [] p l W H Hi) as (r & a & E & Ha). cbn [app] in E. subst r. destruct (nat_leaf q [] p l W N Hi) as [f Hf]. destruct (leaf_wf q [] p l W Hi) as [Wl _].
      unfold obs_at. cbn [fst snd]. rewrite Ha. rewrite (log_pdf_leaf b l f a Wl Hf (shaped_in b q p l S Hi) (Ho p l a Hi Ha)). rewrite (E6 p l f a Hi Hf Ha). cbn [bind].
      assert (El : leafat q p = l) by (apply (leaf_in q p l W) in Hi as [Hd _]; unfold leafat; now rewrite Hd). now rewrite El.
    - apply sums_op2; [intros; apply xsum_add| |now apply carrier_sum].
      apply sums_op2; [intros; apply xsum_sub| |now apply ln_sum].
      apply dot_rebase; auto.
  Qed.
End Main.
