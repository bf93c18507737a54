(** C05, C06: unflattening an arbitrary flat array. *)
From Coq Require Import String List Bool Arith Reals Lia Lra.
From Verif Require Import Base XReal Tensor TensorFacts TensorFacts2 Support SupportSpec PlaneFacts SupportFacts SupportRt
  Dist DictFacts Iteration Structure Spec FlattenSpec StructFacts AssembleFacts FlattenFacts.
Import ListNotations.

Definition mk_own (fv : field_desc * arr) : string * (arr * support) := (fd_name (fst fv), (snd fv, fd_support (fst fv))).
(** the new value of a variable field *)
Definition new_ok (fl m : bool) (b : list nat) (n : nat) (s : support) (v : arr) : Prop :=
  ashape v = b ++ supp_shape s n /\ kind_ok s v = true /\ (fl = true -> supp_vals s m b n v).

Lemma field_new fl m b n s t : (forall r, s <> SimplexS r) -> shp t = b ++ [supp_num_elements s n] -> bounds_ok s b ->
  (fl = true -> supp_plane s m b n t) ->
  exists v, supp_unflattened s t n m = Ok v /\ new_ok fl m b n s v /\ (fl = true -> supp_flattened s m v = Ok t /\ (m = true -> fin_tensor t)).
Proof.
  intros Hsx Hs Hb Hp. destruct fl.
  - destruct (supp_rt_plane s m b n t (Hp eq_refl)) as (v & H1 & H2 & H3). exists v. split; [exact H1|]. split.
    2:{ intros _. split; [exact H3|]. intros ->. exact (supp_flat_fin _ _ _ _ _ H2 H3). }
    split; [apply H2|]. split; [now apply (supp_vals_kind s m b n)|auto].
  - destruct (supp_un_ok s m b n t Hsx Hs Hb) as (v & H1 & H2 & H3). exists v. split; [exact H1|]. split; [|discriminate].
    split; [exact H2|]. split; [exact H3|discriminate].
Qed.

Lemma gen_values fl m b n c t0 N : c <> NP ComplexNormal -> shp t0 = b ++ [N] -> forall fs kw off, incl fs (variable_fields c) ->
  off + fields_size (map (fun f => (fd_support f, n)) fs) <= N ->
  (fl = true -> plane_list m b t0 off (map (fun f => (fd_support f, n)) fs)) ->
  exists vs ts, Forall2 (fun f v => new_ok fl m b n (fd_support f) v) fs vs /\
    own_rt fl m b n c kw (map mk_own (combine fs vs)) ts /\ holds_at b t0 off ts.
Proof.
  intros Hc Hs. induction fs as [|f fs IH]; intros kw off Hi HN Hp.
  - exists [], []. cbn. auto.
  - cbn [map] in HN, Hp. rewrite fields_size_cons in HN. set (k := supp_num_elements (fd_support f) n) in *.
    assert (Hf : In f (fields c)) by (apply variable_in, Hi; now left).
    assert (Hsl : shp (tslice off (off + k) t0) = b ++ [k]).
    { rewrite (shp_tslice b N) by (auto; lia). do 2 f_equal. lia. }
    destruct (field_new fl m b n (fd_support f) (tslice off (off + k) t0)) as (v & U & Hv & Fl).
    + now apply field_no_simplex with (c := c).
    + exact Hsl.
    + now apply field_bounds with (c := c).
    + intros E. now apply Hp.
    + destruct (IH (dset kw (fd_name f) v) (off + k)) as (vs & ts & H1 & H2 & H3).
      * intros x Hx. apply Hi. now right.
      * lia.
      * intros E. destruct (Hp E) as [_ Hp']. exact Hp'.
      * exists (v :: vs), ((tslice off (off + k) t0, k) :: ts). split; [now constructor|]. split.
        -- cbn. split; [|exact H2]. exists (fd_support f). rewrite adjust_default by assumption. auto 10.
        -- cbn. auto.
Qed.

Lemma Rabs_neg_pos v : (v < 0)%R -> (0 < Rabs v)%R.
Proof. intros H. apply Rabs_pos_lt. lra. Qed.
Lemma adj_max0 : (adj_max 0 < 0)%R.
Proof.
  unfold adj_max. assert (0 < feps)%R by (unfold feps; apply Rinv_0_lt_compat; apply pow_lt; lra).
  eapply Rle_lt_trans; [apply Rmin_l|]. lra.
Qed.
Lemma cn_plane m b t np (Hnp : shp np = b) :
  (m = true -> forall i, inb b i = true -> exists v, tget np i = Fin v /\ (v < 0)%R) ->
  ring_plane complex_field m b 1 t ->
  ring_plane (ComplexF (BFloat 0) (Some (BArr (tmap (fun v => xabs (xneg v)) np)))) m b 1 t.
Proof.
  intros Hneg [Hs H]. split; [exact Hs|]. intros Hm. destruct (H Hm) as (H1 & H2 & H3). split; [exact H1|]. split.
  - intros M HM. injection HM as <-. exists []. cbn. now rewrite app_nil_r.
  - intros j l Hj Hl. destruct (H3 j l Hj Hl) as (lo & hi & re & im & E1 & E2 & L & _ & T1 & T2 & Hne).
    destruct (Hneg Hm j Hj) as (v & Ev & Hv).
    exists lo, (Some (Rabs (- v))), re, im. split; [exact E1|]. split.
    + unfold mx_val. cbn [option_map]. f_equal. unfold bval. cbn [bound_tensor]. unfold rank. rewrite shp_tmap, Hnp, <- (inb_length _ _ Hj), firstn_all.
      rewrite tget_tmap by now rewrite Hnp. now rewrite Ev.
    + split; [exact L|]. split; [apply Rabs_pos_lt; lra|]. auto.
Qed.

(** a leaf of the same class and fixed parameters whose variable parameters are read from the flat array *)
Lemma refill_leaf fl m b q n t0 N off : well_formed q = true -> is_joint (dcls q) = false -> dims_of q = Ok n ->
  shp t0 = b ++ [N] -> off + fields_size (leaf_fields q) <= N -> (fl = true -> plane_list m b t0 off (leaf_fields q)) ->
  exists vs ts,
    let fs := variable_fields (dcls q) in
    Forall2 (fun f v => new_ok fl m b n (fd_support f) v) fs vs /\
    own_rt fl m b n (dcls q) [] (map mk_own (combine fs vs)) ts /\ holds_at b t0 off ts /\
    (fl = true -> Forall2 (fun f v => exists s, adjust_support (dcls q) (fd_name f) (combine (map fd_name fs) vs) = Ok s /\ supp_vals s m b n v) fs vs).
Proof.
  intros Hwf Hj Hn Hs HN Hp. unfold leaf_fields in *. rewrite Hn in *. destruct q as [c mm ps subs]. cbn [dcls] in *.
  destruct (cls_eq_dec c (NP ComplexNormal)) as [->|Hc].
  - cbn in HN, Hp.
    assert (S1 : shp (tslice off (off + 2) t0) = b ++ [2]) by (rewrite (shp_tslice b N) by (auto; lia); do 2 f_equal; lia).
    assert (S2 : shp (tslice (off + 2) (off + 2 + 1) t0) = b ++ [1]) by (rewrite (shp_tslice b N) by (auto; lia); do 2 f_equal; lia).
    assert (S3 : shp (tslice (off + 2 + 1) (off + 2 + 1 + 2) t0) = b ++ [2]) by (rewrite (shp_tslice b N) by (auto; lia); do 2 f_equal; lia).
    assert (B0 : bound_pre (BFloat 0) b) by now exists b.
    destruct (field_new fl m b n (ScalarS complex_field) (tslice off (off + 2) t0)) as (v1 & U1 & V1 & F1);
      [discriminate|exact S1|split; [exact B0|discriminate]|intros E; apply (Hp E)|].
    destruct (field_new fl m b n (ScalarS negative_support) (tslice (off + 2) (off + 2 + 1) t0)) as (v2 & U2 & V2 & F2);
      [discriminate|exact S2|exact I|intros E; apply (Hp E)|].
    destruct v2 as [np|]; [|destruct V2 as (_ & K & _); discriminate K].
    assert (Hnp : shp np = b) by (destruct V2 as (E & _); cbn in E; now rewrite app_nil_r in E).
    set (s3 := ScalarS (ComplexF (BFloat 0) (Some (BArr (tmap (fun v => xabs (xneg v)) np))))).
    destruct (field_new fl m b n s3 (tslice (off + 2 + 1) (off + 2 + 1 + 2) t0)) as (v3 & U3 & V3 & F3).
    { discriminate. }
    { exact S3. }
    { split; [exact B0|]. intros M HM. injection HM as <-. exists []. cbn. now rewrite app_nil_r. }
    { intros E. apply cn_plane; [exact Hnp| |apply (Hp E)]. intros Em i Hi.
      destruct V2 as (_ & _ & V2). destruct (V2 E) as [_ V2']. cbn in V2'. rewrite <- Hnp in Hi. destruct (V2' Em i Hi) as (v & Ev & Hin).
      exists v. split; [exact Ev|]. destruct Hin as [_ Hin]. cbn in Hin. pose proof adj_max0. lra. }
    exists [v1; RA np; v3], [(tslice off (off + 2) t0, 2); (tslice (off + 2) (off + 2 + 1) t0, 1); (tslice (off + 2 + 1) (off + 2 + 1 + 2) t0, 2)].
    cbn zeta. split; [|split; [|split]].
    + constructor; [exact V1|]. constructor; [exact V2|]. constructor; [|constructor].
      destruct V3 as (A1 & A2 & A3). split; [exact A1|]. split; [exact A2|]. intros E. destruct (A3 E) as [A4 A5]. split; [exact A4|].
      cbn in A5 |- *. destruct v3 as [|z]; [contradiction|]. intros Em. destruct (A5 Em) as (_ & _ & A6). split; [exact B0|]. split; [discriminate|].
      intros i Hi. destruct (A6 i Hi) as (lo & hi & re & im & E1 & E2 & E3 & L & [M1 _]). exists lo, None, re, im. repeat split; auto.
    + cbn. split; [exists (ScalarS complex_field); auto 10|]. split; [exists (ScalarS negative_support); auto 10|]. split; [|exact I].
      exists s3. auto 10.
    + cbn. auto 10.
    + intros E. destruct V1 as (_ & _ & V1). destruct V2 as (_ & _ & V2). destruct V3 as (_ & _ & V3).
      constructor; [eexists; split; [reflexivity|exact (V1 E)]|]. constructor; [eexists; split; [reflexivity|exact (V2 E)]|].
      constructor; [|constructor]. eexists. split; [reflexivity|exact (V3 E)].
  - destruct (gen_values fl m b n c t0 N Hc Hs (variable_fields c) [] off (incl_refl _) HN Hp) as (vs & ts & H1 & H2 & H3).
    exists vs, ts. cbn zeta. split; [exact H1|]. split; [exact H2|]. split; [exact H3|]. intros E.
    assert (Hg : forall fs vs, incl fs (variable_fields c) -> Forall2 (fun f v => new_ok fl m b n (fd_support f) v) fs vs ->
      forall kw, Forall2 (fun f v => exists s, adjust_support c (fd_name f) kw = Ok s /\ supp_vals s m b n v) fs vs).
    { induction 2 as [|f v fs' vs' Hv _ IH]; [constructor|]. intros kw. constructor.
      - exists (fd_support f). rewrite adjust_default; [|exact Hc|apply variable_in, H; now left]. split; [reflexivity|]. now apply Hv.
      - apply IH. intros x Hx. apply H. now right. }
    apply Hg; [apply incl_refl|exact H1].
Qed.

(** the new parameter dictionary: variable parameters from [new], fixed ones from [ps] *)
Definition merged (c : cls) (new ps : dict string arr) (f : field_desc) : arr :=
  match dget new (fd_name f) with
  | Some v => v
  | None => match dget ps (fd_name f) with Some v => v | None => RA (tscalar NaN) end
  end.
Definition merge (c : cls) (new ps : dict string arr) : dict string arr := map (fun f => (fd_name f, merged c new ps f)) (fields c).
Lemma map_fst_merge c new ps : map fst (merge c new ps) = map fd_name (fields c).
Proof. unfold merge. now rewrite map_map. Qed.
Lemma own_list_merge fx c m new ps : own_list fx (Dist c m (merge c new ps) []) =
  map (fun f => (fd_name f, (merged c new ps f, fd_support f))) (filter (fixed_ok fx) (fields c)).
Proof.
  unfold own_list. cbn [dcls dparams].
  assert (H : forall f, In f (fields c) -> dget (merge c new ps) (fd_name f) = Some (merged c new ps f)).
  { intros f Hf. apply In_dget; [unfold keys; rewrite map_fst_merge; apply nodup_fields|].
    unfold merge. apply in_map_iff. eauto. }
  assert (Hg : forall l, incl l (fields c) ->
    flat_map (fun f => match dget (merge c new ps) (fd_name f) with Some a => [(fd_name f, (a, fd_support f))] | None => [] end) (filter (fixed_ok fx) l)
    = map (fun f => (fd_name f, (merged c new ps f, fd_support f))) (filter (fixed_ok fx) l)).
  { induction l as [|f l IH]; intros Hi; [reflexivity|]. cbn [filter]. specialize (IH (fun x Hx => Hi x (or_intror Hx))).
    destruct (fixed_ok fx f); [|exact IH]. cbn [flat_map map]. rewrite H by (apply Hi; now left). cbn [app]. now rewrite IH. }
  apply Hg, incl_refl.
Qed.
Lemma variable_nodup c : NoDup (map fd_name (variable_fields c)).
Proof.
  pose proof (nodup_fields c) as Hn. unfold variable_fields. clear -Hn.
  induction (fields c) as [|f l IH]; cbn in *; [constructor|]. inversion Hn; subst. destruct (negb (fd_fixed f)); cbn; auto.
  constructor; auto. intros Hi. apply H1. apply in_map_iff in Hi as (g & <- & Hg). apply in_map. now apply filter_In in Hg.
Qed.
Lemma name_inj c f g : In f (fields c) -> In g (fields c) -> fd_name f = fd_name g -> f = g.
Proof.
  pose proof (nodup_fields c) as Hn. clear -Hn. induction (fields c) as [|h l IH]; intros Hf Hg He; [destruct Hf|]. inversion Hn; subst.
  destruct Hf as [->|Hf], Hg as [->|Hg]; auto.
  - exfalso. apply H1. rewrite He. now apply in_map.
  - exfalso. apply H1. rewrite <- He. now apply in_map.
Qed.
Lemma merged_fixed c new ps f : keys new = map fd_name (variable_fields c) -> In f (fields c) -> fd_fixed f = true ->
  merged c new ps f = match dget ps (fd_name f) with Some v => v | None => RA (tscalar NaN) end.
Proof.
  intros Hk Hf Hx. unfold merged. destruct (dget new (fd_name f)) eqn:E; [|reflexivity]. exfalso.
  apply dget_In in E. apply (in_map fst) in E. cbn in E. fold (keys new) in E. rewrite Hk in E.
  apply in_map_iff in E as (g & He & Hg). pose proof (variable_in c g Hg). unfold variable_fields in Hg. apply filter_In in Hg as [_ Hg].
  rewrite (name_inj c g f) in Hg by assumption. rewrite Hx in Hg. discriminate.
Qed.
Lemma merged_variable c ps fs vs f v : NoDup (map fd_name fs) -> length fs = length vs -> In (f, v) (combine fs vs) ->
  merged c (combine (map fd_name fs) vs) ps f = v.
Proof.
  intros Hn Hl Hi. unfold merged. rewrite (In_dget _ (fd_name f) v); [reflexivity| |].
  - rewrite keys_combine by now rewrite map_length. exact Hn.
  - clear Hn Hl. revert vs Hi. induction fs as [|g fs IH]; intros [|w vs] Hi; try (now destruct Hi). destruct Hi as [He|Hi].
    + injection He as -> ->. now left.
    + right. now apply IH.
Qed.
Lemma own_variable_merge c m ps fs vs : fs = variable_fields c -> length fs = length vs ->
  own_list (Some false) (Dist c m (merge c (combine (map fd_name fs) vs) ps) []) = map mk_own (combine fs vs).
Proof.
  intros -> Hl. rewrite own_list_merge, variable_fields_eq. pose proof (variable_nodup c) as Hn.
  assert (Hg : forall fs' vs', length fs' = length vs' -> (forall p, In p (combine fs' vs') -> In p (combine (variable_fields c) vs)) ->
    map (fun f => (fd_name f, (merged c (combine (map fd_name (variable_fields c)) vs) ps f, fd_support f))) fs' = map mk_own (combine fs' vs')).
  { induction fs' as [|f fs' IH]; intros [|v vs'] Hl' Hi; cbn in Hl'; try discriminate; [reflexivity|]. cbn [map combine].
    rewrite (merged_variable c ps (variable_fields c) vs f v Hn Hl) by (apply Hi; now left). rewrite (IH vs'); [reflexivity|lia|].
    intros p Hp. apply Hi. now right. }
  apply Hg; auto.
Qed.
Lemma own_fixed_merge c m mm ps subs new : map fst ps = map fd_name (fields c) -> keys new = map fd_name (variable_fields c) ->
  own_list (Some true) (Dist c m (merge c new ps) []) = own_list (Some true) (Dist c mm ps subs).
Proof.
  intros Hps Hk. rewrite own_list_merge. unfold own_list. cbn [dcls dparams].
  assert (Hg : forall l, incl l (fields c) -> map (fun f => (fd_name f, (merged c new ps f, fd_support f))) (filter (fixed_ok (Some true)) l) =
    flat_map (fun f => match dget ps (fd_name f) with Some a => [(fd_name f, (a, fd_support f))] | None => [] end) (filter (fixed_ok (Some true)) l)).
  { induction l as [|f l IH]; intros Hi; [reflexivity|]. cbn [filter]. specialize (IH (fun x Hx => Hi x (or_intror Hx))).
    destruct (fixed_ok (Some true) f) eqn:E; [|exact IH]. cbn [map flat_map].
    assert (Hf : In f (fields c)) by (apply Hi; now left).
    assert (Hx : fd_fixed f = true) by (cbn in E; destruct (fd_fixed f); [reflexivity|discriminate]).
    rewrite (merged_fixed c new ps f Hk Hf Hx). destruct (dget_combine_ok ps (fd_name f)) as [v Hv]; [rewrite Hps; now apply in_map|].
    rewrite Hv. cbn [app]. now rewrite IH. }
  apply Hg, incl_refl.
Qed.

(** the dimensions of a leaf are read off a variable parameter's last axis *)
Lemma dims_field_ok c nm : dimensions_field c = Some nm -> exists f, In f (variable_fields c) /\ fd_name f = nm /\
  forall n, exists s', supp_shape (fd_support f) n = s' ++ [n].
Proof.
  destruct c as [[]|[]| | | | | | |]; cbn; intros H; try discriminate; injection H as <-;
  first [eexists; split; [left; reflexivity|split; [reflexivity|intros n; first [exists []; reflexivity|exists [n]; reflexivity]]]].
Qed.
Lemma Forall2_combine_in {A B} (R : A -> B -> Prop) l m a : Forall2 R l m -> In a l -> exists b, In (a, b) (combine l m) /\ R a b.
Proof. induction 1 as [|x y l m Hxy H IH]; [intros []|]. intros [->|Hi]; [exists y; cbn; auto|]. destruct (IH Hi) as (b & ? & ?). exists b; cbn; auto. Qed.
Lemma Forall2_len {A B} (R : A -> B -> Prop) l m : Forall2 R l m -> length l = length m.
Proof. induction 1; cbn; congruence. Qed.

Lemma refill_leaf' fl m b q n t0 N off : well_formed q = true -> is_joint (dcls q) = false -> dims_of q = Ok n ->
  shp t0 = b ++ [N] -> off + fields_size (leaf_fields q) <= N -> (fl = true -> plane_list m b t0 off (leaf_fields q)) ->
  exists q' ts, dcls q' = dcls q /\ well_formed q' = true /\ dmin q' = DefaultMinimizer /\ sub_distributions q' = [] /\ dims_of q' = Ok n /\
    own_list (Some true) q' = own_list (Some true) q /\
    own_rt fl m b n (dcls q) [] (own_list (Some false) q') ts /\ holds_at b t0 off ts /\ total ts = fields_size (leaf_fields q) /\
    (forall f, In f (variable_fields (dcls q)) -> exists v, dget (dparams q') (fd_name f) = Some v /\ ashape v = b ++ supp_shape (fd_support f) n /\ kind_ok (fd_support f) v = true) /\
    (fl = true -> leaf_vals m b q').
Proof.
  intros Hwf Hj Hn Hs HN Hp. destruct (refill_leaf fl m b q n t0 N off Hwf Hj Hn Hs HN Hp) as (vs & ts & H1 & H2 & H3 & H4).
  destruct q as [c mm ps subs]. cbn [dcls] in *. set (fs := variable_fields c) in *.
  pose proof (wf_inv _ _ _ _ Hwf) as (Hps & _).
  pose proof (Forall2_len _ _ _ H1) as Hl. set (new := combine (map fd_name fs) vs) in *.
  assert (Hk : keys new = map fd_name fs) by (apply keys_combine; now rewrite map_length).
  assert (Hget : forall f v, In (f, v) (combine fs vs) -> dget (merge c new ps) (fd_name f) = Some v).
  { intros f v Hi. apply In_dget; [unfold keys; rewrite map_fst_merge; apply nodup_fields|].
    unfold merge. apply in_map_iff. exists f. split; [|apply variable_in; fold fs; now apply in_combine_l in Hi].
    f_equal. apply merged_variable; [apply variable_nodup|exact Hl|exact Hi]. }
  assert (Hdims : dims_of (Dist c DefaultMinimizer (merge c new ps) []) = Ok n).
  { unfold dims_of in *. cbn [dcls attr dparams] in *. destruct (dimensions_field c) as [nm|] eqn:E; [|exact Hn].
    destruct (dims_field_ok c nm E) as (f & Hf & <- & Hsh). destruct (Forall2_combine_in _ _ _ f H1 Hf) as (v & Hi & Hv).
    unfold attr. cbn [dparams]. rewrite (Hget f v Hi). cbn [opt_err bind]. destruct Hv as [-> _]. destruct (Hsh n) as [s' ->].
    rewrite app_assoc, last_dim_snoc. reflexivity. }
  exists (Dist c DefaultMinimizer (merge c new ps) []), ts. cbn [dcls dmin sub_distributions dparams].
  split; [reflexivity|]. split.
  { cbn. rewrite Hj. cbn. rewrite !andb_true_r. apply (list_eqb_eq String.eqb String.eqb_eq). apply map_fst_merge. }
  split; [reflexivity|]. split; [reflexivity|]. split; [exact Hdims|]. split; [now apply own_fixed_merge|].
  assert (Hown : own_list (Some false) (Dist c DefaultMinimizer (merge c new ps) []) = map mk_own (combine fs vs)) by now apply own_variable_merge.
  rewrite Hown. split; [exact H2|]. split; [exact H3|]. split; [|split].
  - rewrite (own_rt_total _ _ _ _ _ _ _ _ H2). unfold leaf_fields. rewrite Hn. cbn [dcls]. fold fs. f_equal. clear -Hl.
    revert vs Hl. induction fs as [|f fs IH]; intros [|v vs] Hl; cbn in *; try discriminate; [reflexivity|]. now rewrite IH by lia.
  - intros f Hf. destruct (Forall2_combine_in _ _ _ f H1 Hf) as (v & Hi & Hv). exists v. split; [now apply Hget|]. destruct Hv as (? & ? & _). auto.
  - intros E. exists n. split; [exact Hdims|]. cbn [dcls dparams]. intros f Hf.
    destruct (Forall2_combine_in _ _ _ f (H4 E) Hf) as (v & Hi & s & Ha & Hv). exists v, s. split; [now apply Hget|]. split; [|exact Hv].
    destruct (cls_eq_dec c (NP ComplexNormal)) as [->|Hc].
    + rewrite <- Ha. subst fs new. cbn in Hl. destruct vs as [|v1 [|v2 [|v3 [|]]]]; cbn in Hl; try discriminate. reflexivity.
    + rewrite <- Ha. rewrite !adjust_default; auto using variable_in.
Qed.

Definition leaves_size (d : dist) : nat := fields_size (flat_map (fun pq => leaf_fields (snd pq)) (leaves [] d)).
Lemma leaves_fields d : forall base base', flat_map (fun pq => leaf_fields (snd pq)) (leaves base d) = flat_map (fun pq => leaf_fields (snd pq)) (leaves base' d).
Proof.
  induction d as [c m ps subs IH] using dist_rect'. intros base base'. cbn [leaves]. destruct (is_joint c); [|reflexivity].
  induction subs as [|[n s] subs IHs]; [reflexivity|]. inversion IH; subst. cbn [flat_map fst snd]. rewrite !flat_map_app. cbn [snd] in *.
  rewrite (H1 (base ++ [n]) (base' ++ [n])). rewrite IHs by assumption. reflexivity.
Qed.

(** a whole tree *)
Lemma refill fl m b t0 N d : forall base off infos, well_formed d = true -> walk make_info d base = Ok infos -> shp t0 = b ++ [N] ->
  off + flat_size d <= N -> (fl = true -> plane_list m b t0 off (flat_fields d)) ->
  exists d' tss, well_formed d' = true /\ no_custom_minimizer d' = true /\ dcls d' = dcls d /\ map fst (sub_distributions d') = map fst (sub_distributions d) /\
    walk make_info d' base = Ok infos /\
    flat_map (leaf_items (Some true)) (leaves base d') = flat_map (leaf_items (Some true)) (leaves base d) /\
    Forall2 (tree_rt fl m b) (leaves base d') tss /\ holds_at b t0 off (concat tss) /\ total (concat tss) = flat_size d /\
    Forall2 (fun pq' pq => fst pq' = fst pq /\ dcls (snd pq') = dcls (snd pq) /\ dims_of (snd pq') = dims_of (snd pq) /\
       forall f, In f (variable_fields (dcls (snd pq'))) -> exists v n, dims_of (snd pq') = Ok n /\ dget (dparams (snd pq')) (fd_name f) = Some v /\
          ashape v = b ++ supp_shape (fd_support f) n /\ kind_ok (fd_support f) v = true)
       (leaves base d') (leaves base d) /\
    (fl = true -> Forall (fun pq => leaf_vals m b (snd pq)) (leaves base d')).
Proof.
  induction d as [c mm ps subs IH] using dist_rect'. intros base off infos Hwf Hw Hs HN Hp. pose proof Hwf as Hwf0.
  apply wf_inv in Hwf as (Hps & Hj & Hsb & Hsub). rewrite walk_unfold in Hw.
  apply bind_Ok in Hw as (rest & Hrest & Hw). apply bind_Ok in Hw as (i & Hi & Hw). injection Hw as <-.
  unfold flat_size, flat_fields in *. cbn [leaves] in *. destruct (is_joint c) eqn:Ej.
  - destruct (Hj eq_refl) as [Hne Hnd].
    assert (Hmain : exists subs' tss, Forall (fun ns => well_formed (snd ns) = true) subs' /\ forallb (fun ns => no_custom_minimizer (snd ns)) subs' = true /\
      map fst subs' = map fst subs /\
      mapM (fun ns => walk make_info (snd ns) (base ++ [fst ns])) subs' = Ok rest /\
      flat_map (leaf_items (Some true)) (flat_map (fun ns => leaves (base ++ [fst ns]) (snd ns)) subs')
      = flat_map (leaf_items (Some true)) (flat_map (fun ns => leaves (base ++ [fst ns]) (snd ns)) subs) /\
      Forall2 (tree_rt fl m b) (flat_map (fun ns => leaves (base ++ [fst ns]) (snd ns)) subs') tss /\
      holds_at b t0 off (concat tss) /\
      total (concat tss) = fields_size (flat_map (fun pq => leaf_fields (snd pq)) (flat_map (fun ns => leaves ([] ++ [fst ns]) (snd ns)) subs)) /\
      Forall2 (fun pq' pq => fst pq' = fst pq /\ dcls (snd pq') = dcls (snd pq) /\ dims_of (snd pq') = dims_of (snd pq) /\
         forall f, In f (variable_fields (dcls (snd pq'))) -> exists v n, dims_of (snd pq') = Ok n /\ dget (dparams (snd pq')) (fd_name f) = Some v /\
            ashape v = b ++ supp_shape (fd_support f) n /\ kind_ok (fd_support f) v = true)
         (flat_map (fun ns => leaves (base ++ [fst ns]) (snd ns)) subs') (flat_map (fun ns => leaves (base ++ [fst ns]) (snd ns)) subs) /\
      (fl = true -> Forall (fun pq => leaf_vals m b (snd pq)) (flat_map (fun ns => leaves (base ++ [fst ns]) (snd ns)) subs'))).
    { clear Hi Hne Hnd Hj Hsb Hps Hwf0. revert rest off Hrest HN Hp. induction subs as [|[n s] subs IHs]; intros rest off Hrest HN Hp.
      - cbn in Hrest. injection Hrest as <-. exists [], []. cbn. repeat split; auto; constructor.
      - inversion IH as [|? ? Hn IH']; subst. inversion Hsub as [|? ? Hws Hsub']; subst. cbn [snd fst] in *.
        cbn [mapM fst snd] in Hrest. apply bind_Ok in Hrest as (r1 & Hr1 & Hrest). apply bind_Ok in Hrest as (rs & Hrs & Hrest).
        injection Hrest as <-. cbn [flat_map fst snd] in HN, Hp. rewrite flat_map_app in HN, Hp.
        rewrite (leaves_fields s ([] ++ [n]) []) in HN, Hp. rewrite fields_size_app in HN.
        assert (Hpl : forall l1 l2 off, plane_list m b t0 off (l1 ++ l2) -> plane_list m b t0 off l1 /\ plane_list m b t0 (off + fields_size l1) l2).
        { clear. induction l1 as [|[s n] l1 IHl]; intros l2 off H.
          - split; [exact I|]. change (fields_size []) with 0. now rewrite Nat.add_0_r.
          - cbn in H. destruct H as [H1 H2]. destruct (IHl _ _ H2) as [H3 H4]. rewrite fields_size_cons, Nat.add_assoc. cbn. auto. }
        destruct (Hn (base ++ [n]) off r1 Hws Hr1 Hs) as (s' & t1 & A1 & A2 & A3 & A4 & A5 & A6 & A7 & A8 & A9 & A10 & A11).
        { lia. }
        { intros E. exact (proj1 (Hpl _ _ _ (Hp E))). }
        destruct (IHs IH' Hsub' rs (off + fields_size (flat_map (fun pq => leaf_fields (snd pq)) (leaves [] s))) Hrs) as
          (subs' & t2 & B1 & B2 & B3 & B4 & B5 & B6 & B7 & B8 & B9 & B10).
        { lia. }
        { intros E. exact (proj2 (Hpl _ _ _ (Hp E))). }
        exists ((n, s') :: subs'), (t1 ++ t2). cbn [flat_map fst snd map mapM forallb]. rewrite !flat_map_app, concat_app.
        split; [constructor; assumption|]. split; [cbn [snd]; now rewrite A2, B2|]. split; [now rewrite B3|].
        split; [rewrite A5; cbn [bind]; rewrite B4; reflexivity|]. split; [now rewrite A6, B5|].
        split; [now apply Forall2_app|].
        split; [apply holds_at_app; split; [exact A8|]; rewrite A9; exact B7|].
        split; [unfold total in *; rewrite map_app, list_sum_app, A9, B8; rewrite fields_size_app; f_equal; f_equal; apply leaves_fields|].
        split; [now apply Forall2_app|]. intros E. apply Forall_app. auto. }
    destruct Hmain as (subs' & tss & B1 & B2 & B3 & B4 & B5 & B6 & B7 & B8 & B9 & B10).
    exists (Dist c DefaultMinimizer ps subs'), tss. cbn [leaves dcls sub_distributions]. rewrite Ej.
    split.
    { cbn. rewrite Ej. apply andb_true_iff. split; [apply andb_true_iff; split|].
      - apply (list_eqb_eq String.eqb String.eqb_eq). exact Hps.
      - rewrite B3. apply andb_true_iff. split; [|now apply nodupb_NoDup]. destruct subs', subs; cbn in *; try discriminate; congruence.
      - apply forallb_forall. rewrite Forall_forall in B1. exact B1. }
    split; [cbn; exact B2|]. split; [reflexivity|]. split; [exact B3|]. split.
    { rewrite walk_unfold, B4. cbn [bind]. unfold make_info, dims_of in *. cbn [dcls sub_distributions] in *.
      assert (Hdf : dimensions_field c = None) by (destruct c; try discriminate Ej; reflexivity). rewrite Hdf in *.
      cbn [bind] in *. rewrite B3. injection Hi as <-. reflexivity. }
    auto 10.
  - rewrite (Hsb eq_refl) in *. cbn in Hrest. injection Hrest as <-. cbn [flat_map snd] in *. rewrite app_nil_r in *.
    unfold make_info in Hi. apply bind_Ok in Hi as (n & Hn & Hi). injection Hi as <-.
    destruct (refill_leaf' fl m b (Dist c mm ps []) n t0 N off Hwf0 Ej Hn Hs HN Hp) as (q' & ts & A1 & A2 & A3 & A4 & A5 & A6 & A7 & A8 & A9 & A10 & A11).
    destruct q' as [c' m' ps' subs']. cbn [dcls dmin sub_distributions dparams] in *. subst c' m' subs'.
    exists (Dist c DefaultMinimizer ps' []), [ts]. cbn [leaves dcls sub_distributions]. rewrite Ej. cbn [flat_map concat]. rewrite !app_nil_r.
    split; [exact A2|]. split; [reflexivity|]. split; [reflexivity|]. split; [reflexivity|]. split.
    { rewrite walk_unfold. cbn [mapM bind]. unfold make_info. rewrite A5. reflexivity. }
    split; [unfold leaf_items; cbn [fst snd]; now rewrite A6|].
    split; [constructor; [|constructor]; exists n; cbn [snd dcls]; auto|]. split; [exact A8|]. split; [exact A9|].
    split; [constructor; [|constructor]; cbn [fst snd dcls dparams]; split; [reflexivity|]; split; [reflexivity|]; split; [congruence|]|].
    + intros f Hf. destruct (A10 f Hf) as (v & V1 & V2 & V3). exists v, n. auto.
    + intros E. constructor; [exact (A11 E)|constructor].
Qed.
