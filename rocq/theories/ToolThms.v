(** C09, C13, C39: parameter_map, reinterpret, indexing. *)
From Coq Require Import String List Bool Arith Permutation Lia.
From Verif Require Import Base XReal Tensor Support Dist DictFacts Iteration Structure Spec StructFacts AssembleFacts ParamFacts ReplaceFacts Tools.
Import ListNotations.

(** ** same_skeleton *)
Lemma skel_inv c m ps subs c' m' ps' subs' : same_skeleton (Dist c m ps subs) (Dist c' m' ps' subs') ->
  c = c' /\ map fst subs = map fst subs' /\
  forall n s s', dget subs n = Some s -> dget subs' n = Some s' -> same_skeleton s s'.
Proof.
  intros H. destruct (H []) as [E1 E2]. cbn in E1, E2. injection E1 as ->. injection E2 as E2. split; [reflexivity|]. split; [exact E2|].
  intros n s s' Hs Hs' p. specialize (H (n :: p)). cbn in H. rewrite Hs, Hs' in H. exact H.
Qed.
Lemma skel_refl d : same_skeleton d d. Proof. intros p; auto. Qed.
Lemma skel_sym d e : same_skeleton d e -> same_skeleton e d. Proof. intros H p. destruct (H p). auto. Qed.
Lemma skel_trans d e f : same_skeleton d e -> same_skeleton e f -> same_skeleton d f.
Proof. intros H G p. destruct (H p), (G p). split; congruence. Qed.
Lemma skel_subs (subs subs' : list (string * dist)) : NoDup (map fst subs) -> map fst subs = map fst subs' ->
  (forall n s s', dget subs n = Some s -> dget subs' n = Some s' -> same_skeleton s s') ->
  Forall2 (fun a b => fst a = fst b /\ same_skeleton (snd a) (snd b)) subs subs'.
Proof.
  revert subs'. induction subs as [|[n s] subs IH]; intros [|[n' s'] subs'] Hn Hm H; cbn in Hm; try discriminate; constructor.
  - cbn. injection Hm as <- _. split; [reflexivity|]. apply (H n); cbn; destruct (keq n n); congruence.
  - injection Hm as <- Hm. inversion Hn; subst. apply IH; auto. intros n2 t t' Ht Ht'. apply (H n2); cbn; destruct (keq n2 n) as [->|]; auto.
    + exfalso. apply dget_In in Ht. apply (in_map fst) in Ht. contradiction.
    + exfalso. apply dget_In in Ht. apply (in_map fst) in Ht. contradiction.
Qed.

Lemma skel_keys fx d : forall e base, well_formed d = true -> well_formed e = true -> same_skeleton d e ->
  keys (flat_map (leaf_items fx) (leaves base d)) = keys (flat_map (leaf_items fx) (leaves base e)).
Proof.
  induction d as [c m ps subs IH] using dist_rect'. intros [c' m' ps' subs'] base Hd He Hs.
  apply skel_inv in Hs as (<- & Hm & Hsk). apply wf_inv in Hd as (Hps & Hj & Hsb & Hsub). apply wf_inv in He as (Hps' & Hj' & Hsb' & Hsub').
  cbn [leaves]. destruct (is_joint c) eqn:Ej.
  - destruct (Hj eq_refl) as [_ Hnd]. pose proof (skel_subs subs subs' Hnd Hm Hsk) as H2. clear Hsk Hm Hj Hj' Hsb Hsb' Hps Hps' Hnd.
    induction H2 as [|[n s] [n' s'] l l' [E1 E2] _ IHl]; [reflexivity|]. inversion IH; subst. inversion Hsub; subst. inversion Hsub'; subst. cbn [fst snd flat_map] in *. subst n'.
    rewrite !flat_map_app. unfold keys in *. rewrite !map_app. f_equal; [now apply H1|now apply IHl].
  - cbn [flat_map]. rewrite !app_nil_r. unfold leaf_items, keys. cbn [fst snd]. rewrite !map_map. cbn [fst].
    transitivity (map (fun n => base ++ [n]) (map fst (own_list fx (Dist c m ps subs)))); [now rewrite map_map|].
    rewrite own_list_names by exact Hps. rewrite <- (own_list_names fx c m' ps' subs' Hps'). now rewrite map_map.
Qed.
Lemma skel_params_keys d e fx P Q : well_formed d = true -> well_formed e = true -> same_skeleton d e ->
  parameters d fx = Ok P -> parameters e fx = Ok Q -> keys P = keys Q.
Proof.
  intros H1 H2 H3. rewrite !parameters_ok by assumption. intros E1 E2. injection E1 as <-. injection E2 as <-. rewrite !keys_drop. now apply skel_keys.
Qed.

(** two trees with the same skeleton and the same parameters are equal *)
Lemma tree_ext d : forall e, well_formed d = true -> well_formed e = true -> no_custom_minimizer d = true -> no_custom_minimizer e = true ->
  same_skeleton d e -> (forall p, param_at d p = param_at e p) -> d = e.
Proof.
  induction d as [c m ps subs IH] using dist_rect'. intros [c' m' ps' subs'] Hd He Md Me Hs Hp.
  apply skel_inv in Hs as (<- & Hm & Hsk). apply wf_inv in Hd as (Hps & Hj & Hsb & Hsub). apply wf_inv in He as (Hps' & Hj' & Hsb' & Hsub').
  cbn in Md, Me. apply andb_true_iff in Md as [Md Md']. apply andb_true_iff in Me as [Me Me'].
  destruct m, m'; try discriminate. f_equal.
  - apply dict_ext; [unfold keys; congruence|unfold keys; rewrite Hps; apply nodup_fields|]. intros k. exact (Hp [k]).
  - destruct (is_joint c) eqn:Ej; [|now rewrite (Hsb eq_refl), (Hsb' eq_refl)].
    destruct (Hj eq_refl) as [_ Hnd]. destruct (Hj' eq_refl) as [_ Hnd']. apply dict_ext; [exact Hm|exact Hnd|]. intros n.
    destruct (dget subs n) as [s|] eqn:E1.
    + destruct (dget subs' n) as [s'|] eqn:E2.
      * f_equal. apply dget_In in E1 as I1. apply dget_In in E2 as I2. rewrite Forall_forall in IH, Hsub, Hsub'. rewrite forallb_forall in Md', Me'.
        apply (IH _ I1); [exact (Hsub _ I1)|exact (Hsub' _ I2)|exact (Md' _ I1)|exact (Me' _ I2)|exact (Hsk n s s' E1 E2)|].
        intros [|n2 p]; [reflexivity|]. specialize (Hp (n :: n2 :: p)). cbn in Hp. rewrite E1, E2 in Hp. exact Hp.
      * apply dget_None in E2. apply dget_In in E1. apply (in_map fst) in E1. unfold keys in E2. rewrite <- Hm in E2. contradiction.
    + destruct (dget subs' n) as [s'|] eqn:E2; [|reflexivity].
      apply dget_None in E1. apply dget_In in E2. apply (in_map fst) in E2. unfold keys in E1. rewrite Hm in E1. contradiction.
Qed.
Lemma default_wf d : well_formed (default_minimizers d) = well_formed d.
Proof.
  induction d as [c m ps subs IH] using dist_rect'. cbn [default_minimizers well_formed]. rewrite map_map. cbn [fst].
  change (fun x : string * dist => fst x) with (@fst string dist).
  assert (E : forallb (fun ns => well_formed (snd ns)) (map (fun ns => (fst ns, default_minimizers (snd ns))) subs) = forallb (fun ns => well_formed (snd ns)) subs).
  { clear -IH. induction subs as [|ns subs IHs]; [reflexivity|]. inversion IH; subst. cbn. rewrite H1. now rewrite IHs. }
  rewrite E. destruct subs; reflexivity.
Qed.
Lemma default_default d : no_custom_minimizer (default_minimizers d) = true.
Proof.
  induction d as [c m ps subs IH] using dist_rect'. cbn. apply forallb_forall. intros ns Hi. apply in_map_iff in Hi as (x & <- & Hi).
  rewrite Forall_forall in IH. apply (IH _ Hi).
Qed.
Lemma default_skel d : same_skeleton d (default_minimizers d).
Proof.
  intros p. revert d. induction p as [|n p IH]; intros [c m ps subs].
  - cbn. now rewrite map_map.
  - cbn [dist_at default_minimizers sub_distributions]. rewrite (dget_map_pair (fun _ s => default_minimizers s)).
    destruct (dget subs n); cbn [option_map]; [apply IH|auto].
Qed.
Lemma default_param d : forall p, param_at (default_minimizers d) p = param_at d p.
Proof.
  intros p. revert d. induction p as [|n p IH]; intros [c m ps subs]; [reflexivity|]. destruct p as [|n2 p]; [reflexivity|].
  change (match dget (sub_distributions (default_minimizers (Dist c m ps subs))) n with Some s => param_at s (n2 :: p) | None => None end
    = match dget subs n with Some s => param_at s (n2 :: p) | None => None end).
  cbn [default_minimizers sub_distributions]. rewrite (dget_map_pair (fun _ s => default_minimizers s)).
  destruct (dget subs n); cbn [option_map]; [apply IH|reflexivity].
Qed.

(** every parameter path *)
Lemma all_path d p : well_formed d = true ->
  (In p (keys (flat_map (leaf_items None) (leaves [] d))) <-> exists v f, param_at d p = Some v /\ field_at d p = Some f).
Proof.
  intros Hwf. destruct (params_listed d None _ Hwf (parameters_ok d None Hwf)) as [_ L]. rewrite <- keys_drop. split.
  - intros Hi. apply in_map_iff in Hi as ([k v] & <- & Hi). apply L in Hi as (H1 & f & H2 & _). eauto.
  - intros (v & f & H1 & H2). apply (in_map fst _ (p, v)). apply L. split; [exact H1|]. exists f. auto.
Qed.
Lemma param_field d p v : well_formed d = true -> param_at d p = Some v -> exists f, field_at d p = Some f.
Proof.
  revert d. induction p as [|n p IH]; intros [c m ps subs] Hwf H; [discriminate|]. apply wf_inv in Hwf as (Hps & _ & _ & Hsub). destruct p as [|n2 p].
  - cbn in *. apply dget_In in H. apply (in_map fst) in H. cbn in H. rewrite Hps in H. apply in_map_iff in H as (f & <- & Hf).
    exists f. now apply find_field.
  - change (match dget subs n with Some s => param_at s (n2 :: p) | None => None end = Some v) in H.
    change (exists f, match dget subs n with Some s => field_at s (n2 :: p) | None => None end = Some f).
    destruct (dget subs n) as [s|] eqn:E; [|discriminate]. apply dget_In in E. rewrite Forall_forall in Hsub. apply IH; [exact (Hsub _ E)|exact H].
Qed.
Lemma field_param d p f : well_formed d = true -> field_at d p = Some f -> exists v, param_at d p = Some v.
Proof.
  revert d. induction p as [|n p IH]; intros [c m ps subs] Hwf H; [discriminate|]. apply wf_inv in Hwf as (Hps & _ & _ & Hsub). destruct p as [|n2 p].
  - cbn in *. apply find_field_inv in H as [H <-]. apply dget_combine_ok. rewrite Hps. now apply in_map.
  - change (match dget subs n with Some s => field_at s (n2 :: p) | None => None end = Some f) in H.
    change (exists v, match dget subs n with Some s => param_at s (n2 :: p) | None => None end = Some v).
    destruct (dget subs n) as [s|] eqn:E; [|discriminate]. apply dget_In in E. rewrite Forall_forall in Hsub. apply IH; [exact (Hsub _ E)|exact H].
Qed.

(** assemble with any complete dictionary *)
Lemma assemble_dict d infos P : well_formed d = true -> create d = Ok infos ->
  (forall p f, field_at d p = Some f -> exists v, dget P p = Some v) ->
  exists r, assemble infos P = Ok r /\ well_formed r = true /\ no_custom_minimizer r = true /\ same_skeleton d r /\
    forall p, param_at r p = match param_at d p with Some _ => dget P p | None => None end.
Proof.
  intros Hwf Hc HP. set (g := fun p => match dget P p with Some v => v | None => RA (tscalar NaN) end).
  exists (with_params g [] d). split; [|split; [|split; [|split]]].
  - apply assemble_with; [exact Hwf|exact Hc|]. intros k Hk. apply all_path in Hk as (v & f & _ & Hf); [|exact Hwf].
    destruct (HP k f Hf) as [w Hw]. unfold g. now rewrite Hw.
  - now apply with_params_wf.
  - apply with_params_default.
  - apply skeleton_with.
  - intros p. rewrite param_at_with. destruct (param_at d p) as [v|] eqn:E; [|reflexivity]. cbn [option_map app].
    destruct (param_field d p v Hwf E) as [f Hf]. destruct (HP p f Hf) as [w Hw]. unfold g. now rewrite Hw.
Qed.

(** ** C39 indexing *)
Lemma getitem_ok d key infos : well_formed d = true -> create d = Ok infos ->
  (forall p v, param_at d p = Some v -> exists w, arr_getitem key v = Ok w) ->
  exists r, getitem d key = Ok r /\ well_formed r = true /\ no_custom_minimizer r = true /\ same_skeleton d r /\
    forall p, param_at r p = match param_at d p with Some v => match arr_getitem key v with Ok w => Some w | Err _ => None end | None => None end.
Proof.
  intros Hwf Hc Hk. unfold getitem. destruct (params_total d None Hwf) as [P HP]. destruct (params_listed d None P Hwf HP) as [Hn L].
  rewrite HP. cbn [bind].
  assert (Hq : exists Q, mapM (fun kv : path * arr => let* v := arr_getitem key (snd kv) in Ok (fst kv, v)) P = Ok Q).
  { apply mapM_exists. intros [p v] Hi. apply L in Hi as [Hv _]. destruct (Hk p v Hv) as [w Hw]. exists (p, w). cbn. now rewrite Hw. }
  destruct Hq as [Q HQ]. rewrite HQ. cbn [bind]. rewrite Hc. cbn [bind].
  apply mapM_Forall2 in HQ.
  assert (HQk : keys Q = keys P).
  { clear -HQ. induction HQ as [|[p v] [p' w] P Q H _ IH]; [reflexivity|]. cbn in H. destruct (arr_getitem key v); cbn in H; [|discriminate].
    injection H as <- <-. change (p :: keys Q = p :: keys P). now rewrite IH. }
  assert (HnQ : NoDup (keys Q)) by (change (NoDup (map fst Q)); change (map fst Q = keys P) in HQk; rewrite HQk; exact Hn). rewrite (dict_of_nodup Q HnQ).
  assert (HQg : forall p v, param_at d p = Some v -> exists w, arr_getitem key v = Ok w /\ dget Q p = Some w).
  { intros p v Hv. destruct (param_field d p v Hwf Hv) as [f Hf].
    assert (Hi : In (p, v) P) by (apply L; split; [exact Hv|exists f; auto]).
    destruct (Forall2_in_l _ _ _ _ HQ Hi) as ([p' w] & HiQ & HE). cbn in HE. destruct (arr_getitem key v) as [w'|] eqn:E; cbn in HE; [|discriminate].
    injection HE as <- <-. exists w'. split; [reflexivity|]. apply In_dget; [exact HnQ|exact HiQ]. }
  destruct (assemble_dict d infos Q Hwf Hc) as (r & R1 & R2 & R3 & R4 & R5).
  { intros p f Hf. destruct (field_param d p f Hwf Hf) as [v Hv]. destruct (HQg p v Hv) as (w & _ & Hw). eauto. }
  exists r. split; [exact R1|]. split; [exact R2|]. split; [exact R3|]. split; [exact R4|].
  intros p. rewrite R5. destruct (param_at d p) as [v|] eqn:E; [|reflexivity]. destruct (HQg p v E) as (w & Hw & ->). now rewrite Hw.
Qed.

(** ** C09 *)
Lemma list_as_map {A} (dft : A) l : l = map (fun i => nth i l dft) (seq 0 (length l)).
Proof.
  induction l as [|a l IH]; [reflexivity|]. cbn [length seq map nth]. f_equal. rewrite <- seq_shift, map_map. exact IH.
Qed.
Lemma zipn_ok {A} (dft : A) (ls : list (list A)) : forall l, (forall l', In l' ls -> length l' = length l) ->
  zipn l ls = Ok (map (fun i => nth i l dft :: map (fun l' => nth i l' dft) ls) (seq 0 (length l))).
Proof.
  induction ls as [|l1 ls IH]; intros l H.
  - cbn. f_equal. rewrite (list_as_map dft l) at 1. now rewrite map_map.
  - cbn [zipn]. rewrite IH.
    2:{ intros l' Hl'. rewrite (H l' (or_intror Hl')), (H l1 (or_introl eq_refl)). reflexivity. }
    cbn [bind]. rewrite (H l1 (or_introl eq_refl)). rewrite zip_strict_Ok by now rewrite map_length, seq_length.
    cbn [bind]. f_equal.
    set (f := fun i => nth i l1 dft :: map (fun l' => nth i l' dft) ls).
    change (map (fun p => fst p :: snd p) (combine l (map f (seq 0 (length l)))) = map (fun i => nth i l dft :: f i) (seq 0 (length l))).
    clear. generalize f; clear f. intros f.
    assert (Hg : forall l k, map (fun p => fst p :: snd p) (combine l (map f (seq k (length l)))) = map (fun i => nth (i - k) l dft :: f i) (seq k (length l))).
    { clear l. induction l as [|a l IH]; intros k; [reflexivity|]. cbn [length seq map combine fst snd]. rewrite IH. f_equal; [now rewrite Nat.sub_diag|].
      apply map_ext_in. intros i Hi. apply in_seq in Hi. replace (i - k) with (S (i - S k)) by lia. reflexivity. }
    rewrite Hg. apply map_ext. intros i. now rewrite Nat.sub_0_r.
Qed.
Lemma zipn_err {A} (ls : list (list A)) : forall l, (exists l', In l' ls /\ length l' <> length l) -> zipn l ls = Err ValueError.
Proof.
  induction ls as [|l1 ls IH]; intros l (l' & Hi & Hl); [destruct Hi|]. cbn [zipn].
  destruct (Forall_Exists_dec (fun l' => length l' = length l1) (fun l' => Nat.eq_dec _ _) ls) as [Hf|He].
  - destruct (zipn l1 ls) as [z|e] eqn:E.
    + cbn [bind]. destruct l1 as [|a0 l1'] eqn:El1.
      * rewrite Forall_forall in Hf. assert (Hz : z = []). { destruct ls as [|l2 ls2]; [cbn in E; congruence|].
          pose proof (Hf l2 (or_introl eq_refl)) as H2. cbn [zipn] in E. apply bind_Ok in E as (z' & _ & E). apply bind_Ok in E as (w & Hw & E). destruct z'; cbn in Hw; [injection Hw as <-; cbn in E; congruence|discriminate]. }
        subst z. rewrite zip_strict_Err; [reflexivity|]. cbn. destruct Hi as [<-|Hi]; [cbn in Hl; lia|]. rewrite (Hf _ Hi) in Hl. cbn in Hl. lia.
      * rewrite <- El1 in *. assert (Ez : z = map (fun i => nth i l1 a0 :: map (fun l' => nth i l' a0) ls) (seq 0 (length l1))).
        { rewrite Forall_forall in Hf. rewrite (zipn_ok a0 ls l1 Hf) in E. congruence. }
        rewrite zip_strict_Err; [reflexivity|]. rewrite Ez, map_length, seq_length. rewrite Forall_forall in Hf.
        destruct Hi as [<-|Hi]; [lia|]. rewrite (Hf _ Hi) in Hl. lia.
    + rewrite Forall_forall in Hf. destruct l1 as [|a0 l1'].
      * exfalso. clear -E Hf. assert (Hz : zipn (@nil A) ls = Ok []).
        { clear E. induction ls as [|l2 ls IH]; [reflexivity|]. cbn [zipn]. pose proof (Hf l2 (or_introl eq_refl)) as H2. apply length_zero_iff_nil in H2. subst l2.
          rewrite IH by (intros; apply Hf; now right). reflexivity. }
        congruence.
      * rewrite (zipn_ok a0 ls _ Hf) in E. discriminate.
  - rewrite IH; [reflexivity|]. apply Exists_exists in He as (x & H1 & H2). eauto.
Qed.

Lemma map_dget_keys {K} `{EqDec K} (P : dict K arr) dft : NoDup (keys P) -> map (fun k => match dget P k with Some v => v | None => dft end) (keys P) = values P.
Proof.
  intros Hn. unfold keys, values. rewrite map_map. apply map_ext_in. intros [k v] Hi. cbn. now rewrite (In_dget P k v Hn Hi).
Qed.

Definition pv (d : dist) (p : path) : arr := match param_at d p with Some v => v | None => RA (tscalar NaN) end.
Lemma values_pv d fx P : well_formed d = true -> parameters d fx = Ok P -> values P = map (pv d) (keys P).
Proof.
  intros Hwf HP. destruct (params_listed d fx P Hwf HP) as [_ L]. unfold values, keys. rewrite map_map. apply map_ext_in.
  intros [p v] Hi. apply L in Hi as [Hv _]. unfold pv. cbn. now rewrite Hv.
Qed.

Lemma zipn_map {A K} (ks : list K) (fs : list (K -> A)) (f : K -> A) :
  zipn (map f ks) (map (fun g => map g ks) fs) = Ok (map (fun k => f k :: map (fun g => g k) fs) ks).
Proof.
  revert f. induction fs as [|g fs IH]; intros f; cbn [map zipn].
  - now rewrite map_map.
  - rewrite IH. cbn [bind]. rewrite zip_strict_Ok by now rewrite !map_length. cbn [bind]. f_equal.
    clear IH. induction ks as [|k ks IHk]; [reflexivity|]. cbn. f_equal. apply IHk.
Qed.

Lemma parameter_map_ok op x ys infos : well_formed x = true -> create x = Ok infos ->
  (forall y, In y ys -> well_formed y = true /\ same_skeleton x y) ->
  (forall p f, field_at x p = Some f -> fd_fixed f = false -> exists v, op (pv x p :: map (fun y => pv y p) ys) = Ok v) ->
  exists r, parameter_map op x ys = Ok r /\ well_formed r = true /\ no_custom_minimizer r = true /\ same_skeleton x r /\
    forall p f, field_at x p = Some f ->
      param_at r p = if fd_fixed f then param_at x p else match op (pv x p :: map (fun y => pv y p) ys) with Ok v => Some v | Err _ => None end.
Proof.
  intros Hwf Hc Hys Hop. unfold parameter_map.
  destruct (params_total x (Some false) Hwf) as [P HP]. destruct (params_listed x _ P Hwf HP) as [Hn L]. rewrite HP. cbn [bind].
  assert (Hm : exists PY, mapM (fun y => parameters y (Some false)) ys = Ok PY /\ map values PY = map (fun y => map (pv y) (keys P)) ys).
  { clear Hop. induction ys as [|y ys IH]; [exists []; auto|]. destruct IH as (PY & E & EV); [intros; apply Hys; now right|].
    destruct (Hys y (or_introl eq_refl)) as [Wy Sy]. destruct (params_total y (Some false) Wy) as [Q HQ].
    exists (Q :: PY). cbn [mapM]. rewrite HQ. cbn [bind]. rewrite E. cbn [bind]. split; [reflexivity|]. cbn [map]. rewrite EV. f_equal.
    rewrite (skel_params_keys x y _ P Q Hwf Wy Sy HP HQ). now apply (values_pv y (Some false)). }
  destruct Hm as (PY & HPY & EPY). rewrite HPY. cbn [bind]. rewrite EPY, (values_pv x _ P Hwf HP).
  rewrite <- (map_map pv (fun g => map g (keys P)) ys). rewrite zipn_map. cbn [bind]. rewrite mapM_map.
  assert (Hv : forall k, In k (keys P) -> exists v, op (pv x k :: map (fun g => g k) (map pv ys)) = Ok v).
  { intros k Hk. apply in_map_iff in Hk as ([k' v] & <- & Hi). apply L in Hi as (Hv & f & Hf & Hx). cbn [fst].
    rewrite map_map. apply (Hop k' f Hf). cbn in Hx. now destruct (fd_fixed f). }
  destruct (mapM_exists _ _ Hv) as [vals Hvals]. rewrite Hvals. cbn [bind]. pose proof (mapM_length _ _ _ Hvals) as Hlen.
  rewrite zip_strict_Ok by lia. cbn [bind].
  destruct (params_total x (Some true) Hwf) as [FX HFX]. rewrite HFX. cbn [bind]. rewrite Hc. cbn [bind].
  destruct (params_total x None Hwf) as [AL HAL].
  destruct (params_partition x AL FX P Hwf HAL HFX HP) as [_ Hdis]. destruct (params_listed x _ FX Hwf HFX) as [NFX LFX].
  assert (Hkc : keys (combine (keys P) vals) = keys P) by (apply keys_combine; lia).
  rewrite dict_of_nodup by now rewrite Hkc. rewrite dupdate_disjoint.
  2:{ rewrite Hkc. apply NoDup_app_intro; auto. }
  apply mapM_Forall2 in Hvals.
  assert (Hc2 : forall k, In k (keys P) -> exists v, op (pv x k :: map (fun g => g k) (map pv ys)) = Ok v /\ In (k, v) (combine (keys P) vals)).
  { clear -Hvals. intros k Hk. induction Hvals as [|a v l l' H _ IH]; [destruct Hk|]. destruct Hk as [->|Hk]; [exists v; cbn; auto|].
    destruct (IH Hk) as (w & ? & ?). exists w. cbn. auto. }
  assert (Hget : forall p f, field_at x p = Some f -> dget (FX ++ combine (keys P) vals) p =
    if fd_fixed f then param_at x p else match op (pv x p :: map (fun y => pv y p) ys) with Ok v => Some v | Err _ => None end).
  { intros p f Hf. destruct (field_param x p f Hwf Hf) as [v Hv']. rewrite dget_app. destruct (fd_fixed f) eqn:Ef.
    - assert (Hi : In (p, v) FX) by (apply LFX; split; [exact Hv'|exists f; split; [exact Hf|cbn; now rewrite Ef]]).
      rewrite (In_dget FX p v NFX Hi). now rewrite Hv'.
    - assert (Hi : In (p, v) P) by (apply L; split; [exact Hv'|exists f; split; [exact Hf|cbn; now rewrite Ef]]).
      apply (in_map fst) in Hi. cbn in Hi. fold (keys P) in Hi.
      assert (Hno : dget FX p = None) by (apply dget_None; intros Hf'; exact (Hdis p Hf' Hi)). rewrite Hno.
      destruct (Hc2 p Hi) as (w & Ew & Hw). rewrite map_map in Ew. rewrite Ew. apply In_dget; [now rewrite Hkc|exact Hw]. }
  destruct (assemble_dict x infos (FX ++ combine (keys P) vals) Hwf Hc) as (r & R1 & R2 & R3 & R4 & R5).
  { intros p f Hf. rewrite (Hget p f Hf). destruct (field_param x p f Hwf Hf) as [v Hv']. destruct (fd_fixed f) eqn:Ef; [eauto|].
    destruct (Hop p f Hf Ef) as [w ->]. eauto. }
  exists r. split; [exact R1|]. split; [exact R2|]. split; [exact R3|]. split; [exact R4|].
  intros p f Hf. rewrite R5. destruct (field_param x p f Hwf Hf) as [v Hv']. rewrite Hv'. rewrite (Hget p f Hf). rewrite Hv'. reflexivity.
Qed.

(** failure of the operation at any parameter fails the map *)
Lemma parameter_map_fails op x ys infos p f e : well_formed x = true -> create x = Ok infos ->
  (forall y, In y ys -> well_formed y = true /\ same_skeleton x y) ->
  field_at x p = Some f -> fd_fixed f = false -> op (pv x p :: map (fun y => pv y p) ys) = Err e -> exists e', parameter_map op x ys = Err e'.
Proof.
  intros Hwf Hc Hys Hf Hx He. unfold parameter_map.
  destruct (params_total x (Some false) Hwf) as [P HP]. destruct (params_listed x _ P Hwf HP) as [Hn L]. rewrite HP. cbn [bind].
  assert (Hm : exists PY, mapM (fun y => parameters y (Some false)) ys = Ok PY /\ map values PY = map (fun y => map (pv y) (keys P)) ys).
  { clear He. induction ys as [|y ys IH]; [exists []; auto|]. destruct IH as (PY & E & EV); [intros; apply Hys; now right|].
    destruct (Hys y (or_introl eq_refl)) as [Wy Sy]. destruct (params_total y (Some false) Wy) as [Q HQ].
    exists (Q :: PY). cbn [mapM]. rewrite HQ. cbn [bind]. rewrite E. cbn [bind]. split; [reflexivity|]. cbn [map]. rewrite EV. f_equal.
    rewrite (skel_params_keys x y _ P Q Hwf Wy Sy HP HQ). now apply (values_pv y (Some false)). }
  destruct Hm as (PY & HPY & EPY). rewrite HPY. cbn [bind]. rewrite EPY, (values_pv x _ P Hwf HP).
  rewrite <- (map_map pv (fun g => map g (keys P)) ys). rewrite zipn_map. cbn [bind]. rewrite mapM_map.
  destruct (mapM _ (keys P)) as [vals|e'] eqn:E; [|eexists; reflexivity]. exfalso.
  destruct (field_param x p f Hwf Hf) as [v Hv]. assert (Hi : In (p, v) P) by (apply L; split; [exact Hv|exists f; split; [exact Hf|cbn; now rewrite Hx]]).
  apply (in_map fst) in Hi. apply mapM_Forall2 in E. destruct (Forall2_in_l _ _ _ _ E Hi) as (w & _ & Hw). cbn [fst] in Hw. rewrite map_map in Hw. congruence.
Qed.
Lemma parameter_map_count op x ys P Q y : well_formed x = true -> (forall y, In y ys -> well_formed y = true) -> In y ys ->
  parameters x (Some false) = Ok P -> parameters y (Some false) = Ok Q -> length P <> length Q -> parameter_map op x ys = Err ValueError.
Proof.
  intros Hwf Hys Hy HP HQ Hl. unfold parameter_map. rewrite HP. cbn [bind].
  assert (Hm : exists PY, mapM (fun y => parameters y (Some false)) ys = Ok PY).
  { apply mapM_exists. intros y' Hy'. apply params_total. auto. }
  destruct Hm as [PY HPY]. rewrite HPY. cbn [bind]. rewrite zipn_err; [reflexivity|].
  apply mapM_Forall2 in HPY. destruct (Forall2_in_l _ _ _ _ HPY Hy) as (Q' & Hi & HQ'). rewrite HQ in HQ'. injection HQ' as <-.
  exists (values Q). split; [now apply in_map|]. unfold values. rewrite !map_length. congruence.
Qed.
