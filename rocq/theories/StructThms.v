(** C12 structure conversions, C13 reinterpret, C14 joint sampling, C15 as_dict, C39 indexing. *)
From Coq Require Import FinFun String List Bool Arith Lia.
From Verif Require Import Base XReal Tensor TensorFacts TensorFacts2 Support Dist DictFacts Iteration Structure Spec StructFacts AssembleFacts
  ParamFacts ReplaceFacts Tools ToolThms MappingFacts Joint.
Import ListNotations.

(** ** reinterpret *)
Definition info_paths (infos : list info) : list path :=
  flat_map (fun i => map (fun n => i_path i ++ [n]) (keys (class_support (i_type i) None))) infos.
Lemma flat_map_concat {A B} (f : A -> list B) l : flat_map f (concat l) = concat (map (flat_map f) l).
Proof. induction l as [|a l IH]; [reflexivity|]. cbn [concat map]. now rewrite flat_map_app, IH. Qed.
Lemma info_paths_keys d : forall base infos, well_formed d = true -> walk make_info d base = Ok infos ->
  info_paths infos = keys (flat_map (leaf_items None) (leaves base d)).
Proof.
  induction d as [c m ps subs IH] using dist_rect'. intros base infos Hwf Hw. apply wf_inv in Hwf as (Hps & Hj & Hsb & Hsub).
  rewrite walk_unfold in Hw. apply bind_Ok in Hw as (rest & Hr & Hw). apply bind_Ok in Hw as (i & Hi & Hw). injection Hw as <-.
  apply make_info_ok in Hi as (Hp & Ht & Hsn). unfold info_paths. rewrite flat_map_app. cbn [flat_map]. rewrite app_nil_r, Ht, Hp.
  cbn [dcls]. rewrite class_support_names. cbn [leaves]. destruct (is_joint c) eqn:Ej.
  - rewrite (joint_no_fields c Ej). cbn [map]. rewrite app_nil_r, flat_map_concat. apply mapM_Forall2 in Hr.
    clear Hj Hsb Hps Hsn Hp Ht. induction Hr as [|[n s] r l l' H _ IHl]; [reflexivity|].
    inversion IH; subst. inversion Hsub; subst. cbn [map concat flat_map fst snd] in *. rewrite flat_map_app. unfold keys in *. rewrite map_app.
    f_equal; [now apply H2|now apply IHl].
  - rewrite (Hsb eq_refl) in Hr. cbn in Hr. injection Hr as <-. cbn [concat flat_map app]. rewrite app_nil_r.
    unfold leaf_items, keys. cbn [fst snd]. rewrite map_map. cbn [fst].
    transitivity (map (fun n => base ++ [n]) (map fst (own_list None (Dist c m ps subs)))); [|now rewrite !map_map].
    rewrite own_list_names by exact Hps. rewrite filter_all by reflexivity. now rewrite map_map.
Qed.

Lemma reinterpret_ok p q infos P Q : well_formed p = true -> create p = Ok infos ->
  parameters p None = Ok P -> parameters q None = Ok Q -> length P = length Q ->
  exists r R, reinterpret infos q = Ok r /\ well_formed r = true /\ no_custom_minimizer r = true /\ same_skeleton p r /\
    parameters r None = Ok R /\ keys R = keys P /\ values R = values Q.
Proof.
  intros Hwf Hc HP HQ Hl. destruct (params_listed p None P Hwf HP) as [Hn L].
  assert (Hpp : flat_map (fun i => map (fun n => i_path i ++ [n]) (keys (class_support (i_type i) None))) infos = keys P).
  { rewrite parameters_ok in HP by exact Hwf. injection HP as <-. rewrite keys_drop. exact (info_paths_keys p [] infos Hwf Hc). }
  assert (Hk : length (keys P) = length (values Q)) by (unfold keys, values; now rewrite !map_length).
  assert (HkC : keys (combine (keys P) (values Q)) = keys P) by now apply keys_combine.
  assert (HnC : NoDup (keys (combine (keys P) (values Q)))) by now rewrite HkC.
  assert (HE : reinterpret infos q = assemble infos (combine (keys P) (values Q))).
  { unfold reinterpret. rewrite HQ. cbn [bind]. rewrite Hpp. rewrite zip_strict_Ok by exact Hk. cbn [bind].
    now rewrite dict_of_nodup. }
  assert (Hin : forall x, In x (keys P) -> exists v, dget (combine (keys P) (values Q)) x = Some v).
  { intros x Hx. destruct (dget (combine (keys P) (values Q)) x) eqn:E; [eauto|]. apply dget_None in E. rewrite HkC in E. contradiction. }
  destruct (assemble_dict p infos (combine (keys P) (values Q)) Hwf Hc) as (r & R1 & R2 & R3 & R4 & R5).
  { intros x f Hf. apply Hin. destruct (field_param p x f Hwf Hf) as [v Hv].
    apply (in_map fst) with (x := (x, v)). apply L. split; [exact Hv|exists f; auto]. }
  destruct (params_total r None R2) as [R HR].
  assert (HkR : keys R = keys P) by (symmetry; exact (skel_params_keys p r None P R Hwf R2 R4 HP HR)).
  exists r, R. split; [now rewrite HE|]. split; [exact R2|]. split; [exact R3|]. split; [exact R4|]. split; [exact HR|]. split; [exact HkR|].
  rewrite (values_pv r None R R2 HR), HkR.
  transitivity (values (combine (keys P) (values Q))).
  - rewrite <- (map_dget_keys (combine (keys P) (values Q)) (RA (tscalar NaN)) HnC).
    change (map (fun k => match dget (combine (keys P) (values Q)) k with Some v => v | None => RA (tscalar NaN) end) (keys (combine (keys P) (values Q))))
      with (map (fun k => match dget (combine (keys P) (values Q)) k with Some v => v | None => RA (tscalar NaN) end) (keys (combine (keys P) (values Q)))).
    rewrite HkC. apply map_ext_in. intros x Hx. unfold pv. rewrite R5.
    apply in_map_iff in Hx as ([x' v] & Hx' & Hi). cbn in Hx'. subst x'. apply L in Hi as [Hv _]. now rewrite Hv.
  - clear -Hk. revert Hk. generalize (values Q). induction (keys P) as [|a l IH]; intros [|v m] H; cbn in *; try discriminate; [reflexivity|].
    f_equal. apply IH. lia.
Qed.
Lemma reinterpret_self p infos : well_formed p = true -> no_custom_minimizer p = true -> create p = Ok infos -> reinterpret infos p = Ok p.
Proof.
  intros Hwf Hd Hc. destruct (params_total p None Hwf) as [P HP]. destruct (reinterpret_ok p p infos P P Hwf Hc HP HP eq_refl) as (r & R & R1 & R2 & R3 & R4 & R5 & R6 & R7).
  rewrite R1. f_equal. symmetry. apply tree_ext; auto. intros x.
  assert (E : R = P) by (rewrite <- (combine_keys_values R), <- (combine_keys_values P); congruence). subst R.
  destruct (params_listed p None P Hwf HP) as [Hn L]. destruct (params_listed r None P R2 R5) as [_ L'].
  destruct (param_at p x) as [v|] eqn:E1.
  - destruct (param_field p x v Hwf E1) as [f Hf]. assert (Hi : In (x, v) P) by (apply L; split; [exact E1|exists f; auto]).
    apply L' in Hi as [-> _]. reflexivity.
  - destruct (param_at r x) as [v|] eqn:E2; [|reflexivity].
    destruct (param_field r x v R2 E2) as [f Hf]. assert (Hi : In (x, v) P) by (apply L'; split; [exact E2|exists f; auto]).
    apply L in Hi as [Hi _]. congruence.
Qed.
Lemma reinterpret_count p q infos P Q : well_formed p = true -> create p = Ok infos ->
  parameters p None = Ok P -> parameters q None = Ok Q -> length P <> length Q -> reinterpret infos q = Err ValueError.
Proof.
  intros Hwf Hc HP HQ Hl. unfold reinterpret. rewrite HQ. cbn [bind].
  assert (Hpp : flat_map (fun i => map (fun n => i_path i ++ [n]) (keys (class_support (i_type i) None))) infos = keys P).
  { rewrite parameters_ok in HP by exact Hwf. injection HP as <-. rewrite keys_drop. exact (info_paths_keys p [] infos Hwf Hc). }
  rewrite Hpp, zip_strict_Err; [reflexivity|]. unfold keys, values. now rewrite !map_length.
Qed.

(** ** indexing *)
Lemma skipn_skipn {A} n : forall m (l : list A), skipn n (skipn m l) = skipn (n + m) l.
Proof.
  intros m. induction m as [|m IH]; intros l; [now rewrite Nat.add_0_r|]. rewrite Nat.add_succ_r. destruct l; cbn; [now rewrite skipn_nil|apply IH].
Qed.
Lemma tsub_tsub {A} {DA : Dflt A} (t : tensor A) i j s : shp t = s -> length i <= length s -> inb (firstn (length i) s) i = true ->
  inb (firstn (length j) (skipn (length i) s)) j = true ->
  tsub (tsub t i) j = tsub t (i ++ j).
Proof.
  intros <- Hl Hi Hj. apply tensor_ext.
  - cbn [tsub shp tbuild]. rewrite app_length, skipn_skipn. f_equal. lia.
  - cbn [tsub shp tbuild]. intros k Hk. unfold tsub. rewrite !tget_tbuild; trivial.
    + now rewrite app_assoc.
    + rewrite app_length, Nat.add_comm, <- skipn_skipn. exact Hk.
    + cbn [shp tbuild]. rewrite <- (firstn_skipn (length j) (skipn (length i) (shp t))). rewrite inb_app by now apply inb_length.
      rewrite Hj. exact Hk.
Qed.
Lemma inb_firstn_le i s : inb (firstn (length i) s) i = true -> length i <= length s.
Proof. intros H. apply inb_length in H. rewrite firstn_length in H. lia. Qed.
Lemma arr_getitem_app i j a : (exists b, arr_getitem i a = Ok b /\ exists c, arr_getitem j b = Ok c) ->
  exists b c, arr_getitem i a = Ok b /\ arr_getitem j b = Ok c /\ arr_getitem (i ++ j) a = Ok c.
Proof.
  intros (b & Hb & c & Hc). exists b, c. split; [exact Hb|]. split; [exact Hc|]. unfold arr_getitem in *.
  destruct (inb (firstn (length i) (ashape a)) i) eqn:Ei; [|discriminate]. injection Hb as <-.
  pose proof (inb_firstn_le _ _ Ei) as Hl.
  assert (Hs : ashape (match a with RA t => RA (tsub t i) | CA t => CA (tsub t i) end) = skipn (length i) (ashape a)) by now destruct a.
  rewrite Hs in Hc. destruct (inb (firstn (length j) (skipn (length i) (ashape a))) j) eqn:Ej; [|discriminate]. injection Hc as <-.
  assert (E : inb (firstn (length (i ++ j)) (ashape a)) (i ++ j) = true).
  { rewrite <- (firstn_skipn (length i) (ashape a)), app_length, firstn_app, firstn_firstn, firstn_length.
    replace (Nat.min (length i + length j) (length i)) with (length i) by lia.
    replace (length i + length j - Nat.min (length i) (length (ashape a))) with (length j) by lia.
    rewrite inb_app by now apply inb_length. now rewrite Ei, Ej. }
  rewrite E. f_equal. destruct a as [t|t]; f_equal; symmetry; now apply (tsub_tsub t i j (ashape (RA t))) || now apply (tsub_tsub t i j (shp t)).
Qed.
Lemma walk_create_of d e infos : same_skeleton d e -> well_formed d = true -> well_formed e = true ->
  create d = Ok infos -> (forall p q, In (p, q) (leaves [] e) -> exists n, dims_of q = Ok n) -> exists infos', create e = Ok infos'.
Proof. intros _ _ He _ Hd. apply create_ok_of; [exact He|]. apply Forall_forall. intros [p q] Hi. eauto. Qed.

(** d[i][j] = d[i + j] *)
Lemma getitem_getitem d i j infos r infos' : well_formed d = true -> create d = Ok infos ->
  getitem d i = Ok r -> create r = Ok infos' ->
  (forall p v, param_at d p = Some v -> exists w, arr_getitem i v = Ok w /\ exists u, arr_getitem j w = Ok u) ->
  exists r', getitem r j = Ok r' /\ getitem d (i ++ j) = Ok r'.
Proof.
  intros Hwf Hc Hr Hc' H.
  destruct (getitem_ok d i infos Hwf Hc) as (r1 & A1 & A2 & A3 & A4 & A5); [intros p v Hv; destruct (H p v Hv) as (w & Hw & _); eauto|].
  rewrite Hr in A1. injection A1 as <-.
  destruct (getitem_ok r j infos' A2 Hc') as (r2 & B1 & B2 & B3 & B4 & B5).
  { intros p w Hw. rewrite A5 in Hw. destruct (param_at d p) as [v|] eqn:E; [|discriminate]. destruct (H p v E) as (w' & Hw' & u & Hu).
    rewrite Hw' in Hw. injection Hw as <-. eauto. }
  destruct (getitem_ok d (i ++ j) infos Hwf Hc) as (r3 & C1 & C2 & C3 & C4 & C5).
  { intros p v Hv. destruct (arr_getitem_app i j v) as (b & c & _ & _ & G); [destruct (H p v Hv) as (w & Hw & u & Hu); eauto|eauto]. }
  exists r2. split; [exact B1|]. rewrite C1. f_equal. apply tree_ext; auto.
  - eapply skel_trans; [apply skel_sym; exact C4|]. eapply skel_trans; [exact A4|exact B4].
  - intros p. rewrite C5, B5, A5. destruct (param_at d p) as [v|] eqn:E; [|reflexivity].
    destruct (arr_getitem_app i j v) as (b & c & -> & G2 & G3); [destruct (H p v E) as (w & Hw & u & Hu); eauto|]. now rewrite G2, G3.
Qed.

(** the shape property of a shaped object is its batch shape *)
Definition not_gamma_vp (d : dist) : Prop := forall p q, In (p, q) (leaves [] d) -> dcls q <> GammaVP.
Lemma leaf_dshape b c m ps : well_formed (Dist c m ps []) = true -> is_joint c = false -> c <> GammaVP -> leaf_shaped b (Dist c m ps []) = true ->
  dshape (Dist c m ps []) = Ok b.
Proof.
  intros Hwf Hj Hg Hs. unfold leaf_shaped in Hs. destruct (dims_of _) as [n|]; [|discriminate]. cbn [dcls dparams] in Hs.
  apply andb_prop in Hs as [_ Hs]. rewrite forallb_forall in Hs.
  assert (Hf : forall f, In f (fields c) -> exists a, dget ps (fd_name f) = Some a /\ ashape a = b ++ supp_shape (fd_support f) n).
  { intros f Hi. specialize (Hs f Hi). destruct (dget ps (fd_name f)) as [a|]; [|discriminate]. apply andb_prop in Hs as [Hs _].
    apply shape_eqb_eq in Hs. eauto. }
  assert (Hk : exists f k, In f (fields c) /\ shape_field c = Some (fd_name f, k) /\ length (supp_shape (fd_support f) n) = k).
  { clear -Hj Hg. destruct c as [[]|[]| | | | | | |]; try discriminate Hj; try (now destruct Hg); cbn;
    first [ eexists _, _; split; [left; reflexivity|split; reflexivity]
          | eexists _, _; split; [right; left; reflexivity|split; reflexivity] ]. }
  destruct Hk as (f & k & Hi & Hsf & Hlen). cbn [dshape]. rewrite Hsf. destruct (Hf f Hi) as (a & -> & Ha). cbn [opt_err bind].
  rewrite Ha, app_length, Hlen. replace (length b + k - k) with (length b) by lia. rewrite firstn_app, firstn_all, Nat.sub_diag. cbn. now rewrite app_nil_r.
Qed.
Lemma shaped_dshape b d : well_formed d = true -> shaped b d = true -> not_gamma_vp d -> dshape d = Ok b.
Proof.
  unfold not_gamma_vp. generalize (@nil string) as base. induction d as [c m ps subs IH] using dist_rect'. intros base Hwf Hs Hg. pose proof Hwf as Hwf0.
  apply wf_inv in Hwf as (Hps & Hj & Hsb & Hsub). cbn [shaped] in Hs. apply andb_prop in Hs as [Hl Hs].
  destruct (is_joint c) eqn:Ej.
  - destruct (Hj eq_refl) as [Hne _]. destruct subs as [|[n s] subs]; [easy|]. cbn [dshape].
    assert (Hsf : shape_field c = None) by (destruct c; cbn in *; congruence). rewrite Hsf.
    inversion IH; subst. inversion Hsub; subst. cbn [forallb snd] in *. apply andb_prop in Hs as [Hs _].
    apply (H1 (base ++ [n])); auto. intros p q Hi. apply (Hg p). cbn [leaves]. rewrite Ej. cbn [flat_map fst snd]. apply in_or_app. now left.
  - rewrite (Hsb eq_refl) in *. apply leaf_dshape; auto. apply (Hg base (Dist c m ps [])). cbn [leaves]. rewrite Ej. now left.
Qed.

(** ** structure conversions *)
Lemma to_exp_to_nat infos es : struct_to_exp infos = Ok es -> struct_to_nat es = Ok infos.
Proof.
  unfold struct_to_exp, struct_to_nat. revert es. induction infos as [|[p c d s] infos IH]; intros es H; cbn [mapM] in H.
  - injection H as <-. reflexivity.
  - cbn [i_type i_path i_dims i_subs] in H. destruct (is_nat c) eqn:E; [|discriminate]. cbn [bind] in H.
    apply bind_Ok in H as (r & Hr & H). injection H as <-. cbn [mapM i_type i_path i_dims i_subs].
    assert (He : is_exp (exp_cls c) = true) by (destruct c; cbn in *; congruence). rewrite He. cbn [bind]. rewrite (IH r Hr). cbn [bind].
    do 3 f_equal. destruct c; cbn in *; congruence.
Qed.
Lemma to_nat_to_exp infos es : struct_to_nat infos = Ok es -> struct_to_exp es = Ok infos.
Proof.
  unfold struct_to_exp, struct_to_nat. revert es. induction infos as [|[p c d s] infos IH]; intros es H; cbn [mapM] in H.
  - injection H as <-. reflexivity.
  - cbn [i_type i_path i_dims i_subs] in H. destruct (is_exp c) eqn:E; [|discriminate]. cbn [bind] in H.
    apply bind_Ok in H as (r & Hr & H). injection H as <-. cbn [mapM i_type i_path i_dims i_subs].
    assert (He : is_nat (nat_cls c) = true) by (destruct c; cbn in *; congruence). rewrite He. cbn [bind]. rewrite (IH r Hr). cbn [bind].
    do 3 f_equal. destruct c; cbn in *; congruence.
Qed.

Section Conversions.
  Variable L : leaf_methods.
  Definition leaf_conv (f : dist -> result dist) (from to : family -> cls) : Prop :=
    forall fam q e, dcls q = from fam -> f q = Ok e -> dcls e = to fam /\ sub_distributions e = [] /\ dims_of e = dims_of q.
  Lemma to_exp_unfold_joint m ps subs : to_exp L (Dist JointDistributionN m ps subs) =
    let* r := mapM (fun ns => let* e := to_exp L (snd ns) in Ok (fst ns, e)) subs in Ok (Dist JointDistributionE DefaultMinimizer [] r).
  Proof.
    cbn [to_exp]. f_equal. induction subs as [|[n s] subs IH]; [reflexivity|]. cbn [mapM fst snd]. rewrite IH.
    destruct (to_exp L s); cbn [bind]; [|reflexivity]. destruct (mapM _ subs); reflexivity.
  Qed.
  Lemma to_nat_unfold_joint m ps subs : to_nat L (Dist JointDistributionE m ps subs) =
    let* r := mapM (fun ns => let* e := to_nat L (snd ns) in Ok (fst ns, e)) subs in Ok (Dist JointDistributionN DefaultMinimizer [] r).
  Proof.
    cbn [to_nat]. f_equal. induction subs as [|[n s] subs IH]; [reflexivity|]. cbn [mapM fst snd]. rewrite IH.
    destruct (to_nat L s); cbn [bind]; [|reflexivity]. destruct (mapM _ subs); reflexivity.
  Qed.
  Lemma struct_exp_app a b : struct_to_exp (a ++ b) = let* x := struct_to_exp a in let* y := struct_to_exp b in Ok (x ++ y).
  Proof. apply mapM_app. Qed.
  Lemma struct_nat_app a b : struct_to_nat (a ++ b) = let* x := struct_to_nat a in let* y := struct_to_nat b in Ok (x ++ y).
  Proof. apply mapM_app. Qed.
  Lemma to_exp_create d : leaf_conv (l_to_exp L) NP EP -> forall base infos e, well_formed d = true -> walk make_info d base = Ok infos -> to_exp L d = Ok e ->
    exists es, struct_to_exp infos = Ok es /\ walk make_info e base = Ok es.
  Proof.
    intros HL. induction d as [c m ps subs IH] using dist_rect'. intros base infos e Hwf Hw He. apply wf_inv in Hwf as (Hps & Hj & Hsb & Hsub).
    rewrite walk_unfold in Hw. apply bind_Ok in Hw as (rest & Hr & Hw). apply bind_Ok in Hw as (i & Hi & Hw). injection Hw as <-.
    destruct c as [f|f| | | | | | |]; try discriminate He.
    - cbn [to_exp] in He. rewrite (Hsb eq_refl) in *. cbn in Hr. injection Hr as <-. cbn [concat app].
      destruct (HL f (Dist (NP f) m ps []) e eq_refl He) as (H1 & H2 & H3). unfold make_info in Hi. apply bind_Ok in Hi as (n & Hn & Hi). injection Hi as <-.
      cbn [struct_to_exp mapM i_type i_path i_dims i_subs dcls is_nat bind exp_cls sub_distributions map].
      eexists. split; [reflexivity|]. destruct e as [c' m' ps' subs']. cbn [dcls sub_distributions] in H1, H2. subst c' subs'.
      rewrite walk_unfold. cbn [mapM bind concat app]. unfold make_info. rewrite H3, Hn. reflexivity.
    - rewrite to_exp_unfold_joint in He. apply bind_Ok in He as (r & Hr' & He). injection He as <-.
      assert (Hm : exists ess, mapM struct_to_exp rest = Ok ess /\ mapM (fun ns => walk make_info (snd ns) (base ++ [fst ns])) r = Ok ess /\ map fst r = map fst subs).
      { apply mapM_Forall2 in Hr. apply mapM_Forall2 in Hr'. clear Hj Hsb Hi Hps. revert r Hr'.
        induction Hr as [|[n s] x l l' Hx _ IHl]; intros r Hr'; inversion Hr' as [|? [n' e'] ? ? Hx' Hl']; subst; [exists []; auto|].
        inversion IH; subst. inversion Hsub; subst. cbn [fst snd] in *. apply bind_Ok in Hx' as (e1 & He1 & Hx'). injection Hx' as <- <-.
        destruct (H1 _ _ _ H3 Hx He1) as (es & E1 & E2). destruct (IHl H2 H4 _ Hl') as (ess & F1 & F2 & F3).
        exists (es :: ess). cbn [mapM map fst snd]. rewrite E1, E2, F3. cbn [bind]. rewrite F1, F2. auto. }
      destruct Hm as (ess & M1 & M2 & M3). unfold make_info in Hi. cbn in Hi. injection Hi as <-.
      assert (Hcat : struct_to_exp (concat rest) = Ok (concat ess)).
      { clear -M1. revert ess M1. induction rest as [|a rest IH]; intros ess M1; cbn [mapM] in M1; [injection M1 as <-; reflexivity|].
        apply bind_Ok in M1 as (x & Hx & M1). apply bind_Ok in M1 as (y & Hy & M1). injection M1 as <-. cbn [concat]. rewrite struct_exp_app, Hx. cbn [bind].
        now rewrite (IH y Hy). }
      rewrite struct_exp_app, Hcat. cbn [bind]. eexists. split; [reflexivity|]. rewrite walk_unfold, M2. cbn [bind]. unfold make_info. cbn [dims_of dcls dimensions_field bind sub_distributions].
      now rewrite M3.
  Qed.
  Lemma to_nat_create d : leaf_conv (l_to_nat L) EP NP -> forall base infos e, well_formed d = true -> walk make_info d base = Ok infos -> to_nat L d = Ok e ->
    exists es, struct_to_nat infos = Ok es /\ walk make_info e base = Ok es.
  Proof.
    intros HL. induction d as [c m ps subs IH] using dist_rect'. intros base infos e Hwf Hw He. apply wf_inv in Hwf as (Hps & Hj & Hsb & Hsub).
    rewrite walk_unfold in Hw. apply bind_Ok in Hw as (rest & Hr & Hw). apply bind_Ok in Hw as (i & Hi & Hw). injection Hw as <-.
    destruct c as [f|f| | | | | | |]; try discriminate He.
    - cbn [to_nat] in He. rewrite (Hsb eq_refl) in *. cbn in Hr. injection Hr as <-. cbn [concat app].
      destruct (HL f (Dist (EP f) m ps []) e eq_refl He) as (H1 & H2 & H3). unfold make_info in Hi. apply bind_Ok in Hi as (n & Hn & Hi). injection Hi as <-.
      cbn [struct_to_nat mapM i_type i_path i_dims i_subs dcls is_exp bind nat_cls sub_distributions map].
      eexists. split; [reflexivity|]. destruct e as [c' m' ps' subs']. cbn [dcls sub_distributions] in H1, H2. subst c' subs'.
      rewrite walk_unfold. cbn [mapM bind concat app]. unfold make_info. rewrite H3, Hn. reflexivity.
    - rewrite to_nat_unfold_joint in He. apply bind_Ok in He as (r & Hr' & He). injection He as <-.
      assert (Hm : exists ess, mapM struct_to_nat rest = Ok ess /\ mapM (fun ns => walk make_info (snd ns) (base ++ [fst ns])) r = Ok ess /\ map fst r = map fst subs).
      { apply mapM_Forall2 in Hr. apply mapM_Forall2 in Hr'. clear Hj Hsb Hi Hps. revert r Hr'.
        induction Hr as [|[n s] x l l' Hx _ IHl]; intros r Hr'; inversion Hr' as [|? [n' e'] ? ? Hx' Hl']; subst; [exists []; auto|].
        inversion IH; subst. inversion Hsub; subst. cbn [fst snd] in *. apply bind_Ok in Hx' as (e1 & He1 & Hx'). injection Hx' as <- <-.
        destruct (H1 _ _ _ H3 Hx He1) as (es & E1 & E2). destruct (IHl H2 H4 _ Hl') as (ess & F1 & F2 & F3).
        exists (es :: ess). cbn [mapM map fst snd]. rewrite E1, E2, F3. cbn [bind]. rewrite F1, F2. auto. }
      destruct Hm as (ess & M1 & M2 & M3). unfold make_info in Hi. cbn in Hi. injection Hi as <-.
      assert (Hcat : struct_to_nat (concat rest) = Ok (concat ess)).
      { clear -M1. revert ess M1. induction rest as [|a rest IH]; intros ess M1; cbn [mapM] in M1; [injection M1 as <-; reflexivity|].
        apply bind_Ok in M1 as (x & Hx & M1). apply bind_Ok in M1 as (y & Hy & M1). injection M1 as <-. cbn [concat]. rewrite struct_nat_app, Hx. cbn [bind].
        now rewrite (IH y Hy). }
      rewrite struct_nat_app, Hcat. cbn [bind]. eexists. split; [reflexivity|]. rewrite walk_unfold, M2. cbn [bind]. unfold make_info. cbn [dims_of dcls dimensions_field bind sub_distributions].
      now rewrite M3.
  Qed.
End Conversions.

(** ** general_method *)
Section GM.
  Context {St B : Type} (f : St -> dist -> result (St * B)) (t : cls -> bool).
  (** run f over a list of leaves in order, threading the state *)
  Fixpoint run (st : St) (l : list (path * dist)) : result (St * list (path * B)) :=
    match l with
    | [] => Ok (st, [])
    | (p, q) :: l' =>
        if t (dcls q) then let* (st1, v) := f st q in let* (st2, r) := run st1 l' in Ok (st2, (p, v) :: r)
        else run st l'
    end.
  Lemma run_app l1 : forall st l2, run st (l1 ++ l2) = let* (st1, a) := run st l1 in let* (st2, b) := run st1 l2 in Ok (st2, a ++ b).
  Proof.
    induction l1 as [|[p q] l1 IH]; intros st l2; cbn [app run bind]; [destruct (run st l2) as [[]|]; reflexivity|].
    destruct (t (dcls q)); [|apply IH]. destruct (f st q) as [[st1 v]|]; cbn [bind]; [|reflexivity]. rewrite IH.
    destruct (run st1 l1) as [[st2 a]|]; cbn [bind]; [|reflexivity]. destruct (run st2 l2) as [[st3 b]|]; reflexivity.
  Qed.
  Definition gm_list := fix go (st : St) (l : list (string * dist)) : result (St * list (string * nested B)) :=
     match l with
     | [] => Ok (st, [])
     | (n, s) :: l' =>
         if is_joint (dcls s) then
           let* (st1, v) := general_method f t st s in
           let* (st2, r) := go st1 l' in Ok (st2, (n, Node v) :: r)
         else if t (dcls s) then
           let* (st1, v) := f st s in
           let* (st2, r) := go st1 l' in Ok (st2, (n, Leaf v) :: r)
         else go st l'
     end.
  Lemma gm_unfold st c m ps subs : general_method f t st (Dist c m ps subs) = gm_list st subs.
  Proof. reflexivity. Qed.
  Lemma general_method_ok d : forall st base, well_formed d = true -> is_joint (dcls d) = true ->
    match run st (leaves base d) with
    | Ok (st', vs) => exists r, general_method f t st d = Ok (st', r) /\ nested_ok (Node r) = true /\
                        (forall k, In k (map fst r) -> In k (map fst (sub_distributions d))) /\ flat_items base (Node r) = vs
    | Err e => general_method f t st d = Err e
    end.
  Proof.
    induction d as [c m ps subs IH] using dist_rect'. intros st base Hwf Hjd. apply wf_inv in Hwf as (_ & Hj & _ & Hsub).
    cbn [dcls] in Hjd. destruct (Hj Hjd) as [_ Hnd]. rewrite gm_unfold. cbn [leaves sub_distributions]. rewrite Hjd. clear Hj Hjd. revert st.
    induction subs as [|[n s] subs IHs]; intros st; cbn [flat_map fst snd].
    - cbn. exists []. auto.
    - inversion IH as [|? ? IH1 IH2]; subst. inversion Hsub as [|? ? Hw1 Hw2]; subst. cbn [map fst] in Hnd. inversion Hnd as [|? ? Hn1 Hn2]; subst. cbn [fst snd] in *.
      specialize (IHs IH2 Hw2 Hn2). rewrite run_app. cbn [gm_list]. destruct (is_joint (dcls s)) eqn:Ejs.
      + specialize (IH1 st (base ++ [n]) Hw1 eq_refl). destruct (run st (leaves (base ++ [n]) s)) as [[st1 a]|e]; cbn [bind].
        * destruct IH1 as (r1 & -> & Ok1 & In1 & F1). cbn [bind]. specialize (IHs st1). destruct (run st1 _) as [[st2 b]|e]; cbn [bind].
          -- destruct IHs as (r2 & R2 & Ok2 & In2 & F2). fold gm_list. rewrite R2. cbn [bind]. exists ((n, Node r1) :: r2). split; [reflexivity|].
             cbn [nested_ok map fst snd forallb] in *. apply andb_prop in Ok2 as [Ok2a Ok2b]. split; [|split].
             ++ rewrite Ok2b. rewrite Ok1. cbn [andb]. rewrite andb_true_r.
                apply nodupb_NoDup. constructor; [intros Hi; now apply In2 in Hi|now apply nodupb_NoDup].
             ++ intros k [<-|Hk]; [now left|right; auto].
             ++ cbn [flat_items flat_map fst snd] in *. rewrite F2. f_equal. exact F1.
          -- fold gm_list. now rewrite IHs.
        * now rewrite IH1.
      + assert (Hl : leaves (base ++ [n]) s = [(base ++ [n], s)]) by (destruct s; cbn in *; now rewrite Ejs). rewrite Hl. cbn [run].
        destruct (t (dcls s)).
        * destruct (f st s) as [[st1 v]|e]; cbn [bind]; [|reflexivity]. specialize (IHs st1). destruct (run st1 _) as [[st2 b]|e]; cbn [bind].
          -- destruct IHs as (r2 & R2 & Ok2 & In2 & F2). fold gm_list. rewrite R2. cbn [bind]. exists ((n, Leaf v) :: r2). split; [reflexivity|].
             cbn [nested_ok map fst snd forallb] in *. apply andb_prop in Ok2 as [Ok2a Ok2b]. split; [|split].
             ++ rewrite Ok2b, andb_true_r. apply nodupb_NoDup. constructor; [intros Hi; now apply In2 in Hi|now apply nodupb_NoDup].
             ++ intros k [<-|Hk]; [now left|right; auto].
             ++ cbn [flat_items flat_map fst snd] in *. rewrite F2. reflexivity.
          -- fold gm_list. now rewrite IHs.
        * cbn [bind]. specialize (IHs st). destruct (run st _) as [[st2 b]|e]; cbn [bind].
          -- destruct IHs as (r2 & R2 & Ok2 & In2 & F2). fold gm_list. rewrite R2. exists r2. split; [reflexivity|]. split; [exact Ok2|]. split; [|exact F2].
             intros k Hk. right. auto.
          -- fold gm_list. now rewrite IHs.
  Qed.
End GM.

(** C15 *)
Lemma run_as_dict l : run (fun (u : unit) x => Ok (u, x)) (fun _ => true) tt l = Ok (tt, l).
Proof. induction l as [|[p q] l IH]; cbn [run bind]; [reflexivity|]. now rewrite IH. Qed.
Lemma flat_dict_leaves d : well_formed d = true -> flat_dict_of_parameters d = Ok (leaves [] d).
Proof.
  intros Hwf. unfold flat_dict_of_parameters. destruct (is_joint (dcls d)) eqn:E.
  - unfold as_dict. pose proof (general_method_ok (fun (u : unit) x => Ok (u, x)) (fun _ => true) d tt [] Hwf E) as H. rewrite run_as_dict in H.
    destruct H as (r & -> & Hok & _ & Hf). cbn [bind rmap]. rewrite flatten_mapping_items by exact Hok. now rewrite Hf.
  - destruct d as [c m ps subs]. cbn in *. now rewrite E.
Qed.
Lemma leaves_iff d : forall base p q, well_formed d = true ->
  In (base ++ p, q) (leaves base d) <-> dist_at d p = Some q /\ is_joint (dcls q) = false.
Proof.
  induction d as [c m ps subs IH] using dist_rect'. intros base p q Hwf. apply wf_inv in Hwf as (_ & Hj & Hsb & Hsub).
  cbn [leaves]. destruct (is_joint c) eqn:Ej.
  - destruct (Hj eq_refl) as [_ Hnd]. rewrite in_flat_map. split.
    + intros ([n s] & Hi & Hl). cbn [fst snd] in Hl. pose proof (leaves_prefix s (base ++ [n])) as Hp. rewrite Forall_forall in Hp.
      pose proof (Hp _ Hl) as [p' Hp']. cbn [fst] in Hp'. rewrite <- app_assoc in Hp'. apply app_inv_head in Hp'. subst p. cbn [app].
      rewrite Forall_forall in IH, Hsub. specialize (IH _ Hi (base ++ [n]) p' q (Hsub _ Hi)). rewrite <- app_assoc in IH. apply IH in Hl.
      cbn [dist_at sub_distributions]. rewrite (In_dget subs n s); [exact Hl|exact Hnd|exact Hi].
    + intros [Hd Hq]. destruct p as [|n p']; cbn [dist_at sub_distributions] in Hd; [injection Hd as <-; cbn in Hq; congruence|].
      destruct (dget subs n) as [s|] eqn:Es; [|discriminate]. apply dget_In in Es. exists (n, s). split; [exact Es|]. cbn [fst snd].
      rewrite Forall_forall in IH, Hsub. change (n :: p') with ([n] ++ p'). rewrite app_assoc. apply (IH _ Es); [exact (Hsub _ Es)|auto].
  - rewrite (Hsb eq_refl). split.
    + intros [H|[]]. injection H as H <-. rewrite <- (app_nil_r base) in H at 1. apply app_inv_head in H. subst p. auto.
    + intros [Hd Hq]. destruct p as [|n p']; cbn [dist_at sub_distributions] in Hd; [|discriminate]. injection Hd as <-. rewrite app_nil_r. now left.
Qed.

(** C14 *)
Section Samp.
  Context {K : Type} (split : K -> nat -> list K) (sample : dist -> K -> option (list nat) -> result arr).
  Definition samplable_leaves (d : dist) : list (path * dist) := filter (fun pq => is_samplable (dcls (snd pq))) (leaves [] d).
  Lemma run_count l : forall c, run (fun c (_ : dist) => Ok (S c, tt)) is_samplable c l
    = Ok (c + length (filter (fun pq => is_samplable (dcls (snd pq))) l), map (fun pq => (fst pq, tt)) (filter (fun pq => is_samplable (dcls (snd pq))) l)).
  Proof.
    induction l as [|[p q] l IH]; intros c; cbn [run filter snd]; [now rewrite Nat.add_0_r|].
    destruct (is_samplable (dcls q)); [|apply IH]. cbn [bind]. rewrite IH. cbn [bind length map fst]. now rewrite Nat.add_succ_r.
  Qed.
  Lemma run_sample sh ks l : forall c vs, length ks = c + length (filter (fun pq => is_samplable (dcls (snd pq))) l) ->
    Forall2 (fun pk v => fst (fst pk) = fst v /\ sample (snd (fst pk)) (snd pk) sh = Ok (snd v))
            (combine (filter (fun pq => is_samplable (dcls (snd pq))) l) (skipn c ks)) vs ->
    run (fun c x => let* k := opt_err IndexErr (nth_error ks c) in let* v := sample x k sh in Ok (S c, v)) is_samplable c l = Ok (length ks, vs).
  Proof.
    induction l as [|[p q] l IH]; intros c vs Hlen H; cbn [run filter snd] in *.
    - cbn in H. inversion H. cbn in Hlen. now rewrite Hlen, Nat.add_0_r.
    - destruct (is_samplable (dcls q)); [|now apply IH]. cbn [length] in Hlen.
      destruct (skipn c ks) as [|k ks'] eqn:Ek.
      { apply (f_equal (@length _)) in Ek. rewrite skipn_length in Ek. cbn in Ek. lia. }
      cbn [combine] in H. inversion H as [|? [p' v] ? vs' [E1 E2] H']; subst. cbn [fst snd] in *. subst p'.
      assert (Hnth : nth_error ks c = Some k).
      { rewrite <- (firstn_skipn c ks), Ek, nth_error_app2; rewrite firstn_length, Nat.min_l by lia; [|lia]. now rewrite Nat.sub_diag. }
      assert (Hsk : skipn (S c) ks = ks').
      { change (S c) with (1 + c). rewrite <- skipn_skipn, Ek. reflexivity. }
      rewrite Hnth. cbn [opt_err bind]. rewrite E2. cbn [bind]. rewrite (IH (S c) vs'); [reflexivity|lia|now rewrite Hsk].
  Qed.
  Lemma general_sample_ok d key sh vs : well_formed d = true -> is_joint (dcls d) = true ->
    let n := length (samplable_leaves d) in
    length (split key n) = n ->
    Forall2 (fun pk v => fst (fst pk) = fst v /\ sample (snd (fst pk)) (snd pk) sh = Ok (snd v))
            (combine (samplable_leaves d) (split key n)) vs ->
    exists r, general_sample split sample d key sh = Ok r /\ nested_ok (Node r) = true /\ flatten_mapping r = vs.
  Proof.
    intros Hwf Hj n Hn Hv. unfold general_sample.
    pose proof (general_method_ok (fun c (_ : dist) => Ok (S c, tt)) is_samplable d 0 [] Hwf Hj) as H1. rewrite run_count in H1.
    destruct H1 as (r1 & -> & _). cbn [bind]. rewrite Nat.add_0_l. fold (samplable_leaves d). fold n.
    pose proof (general_method_ok (fun c x => let* k := opt_err IndexErr (nth_error (split key n) c) in let* v := sample x k sh in Ok (S c, v)) is_samplable d 0 [] Hwf Hj) as H2.
    rewrite (run_sample sh (split key n) (leaves [] d) 0 vs) in H2; [|exact Hn|exact Hv].
    destruct H2 as (r & -> & Hok & _ & Hf). cbn [bind]. exists r. split; [reflexivity|]. split; [exact Hok|].
    now rewrite flatten_mapping_items, Hf.
  Qed.
End Samp.
