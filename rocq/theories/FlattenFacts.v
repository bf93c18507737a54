(** C03-C06, C40: flatten and unflatten. *)
From Coq Require Import String List Bool Arith Reals Lia Lra.
From Verif Require Import Base XReal Tensor TensorFacts TensorFacts2 Support SupportSpec PlaneFacts SupportFacts SupportRt
  Dist DictFacts Iteration Structure Spec FlattenSpec StructFacts AssembleFacts.
Import ListNotations.

(** ** supports of fields *)
Lemma field_no_simplex c f : In f (fields c) -> forall r, fd_support f <> SimplexS r.
Proof. destruct c as [[]|[]| | | | | | |]; cbn; intros H r; repeat destruct H as [<-|H]; try discriminate; contradiction. Qed.
Lemma adjust_default c f kw : c <> NP ComplexNormal -> In f (fields c) -> adjust_support c (fd_name f) kw = Ok (fd_support f).
Proof.
  intros Hc. destruct c as [[]|[]| | | | | | |]; try congruence; cbn; intros H; repeat destruct H as [<-|H]; try reflexivity; contradiction.
Qed.

(** the bounds of a complex ring are constant on the batch *)
Definition bounds_ok (s : support) (b : list nat) : Prop :=
  match supp_ring s with ComplexF mn mx => bound_pre mn b /\ mx_pre mx b | _ => True end.
Lemma field_bounds c f b : In f (fields c) -> bounds_ok (fd_support f) b.
Proof.
  assert (H0 : bound_pre (BFloat 0) b /\ mx_pre None b) by (split; [now exists b|intros M HM; discriminate]).
  destruct c as [[]|[]| | | | | | |]; cbn; intros H; repeat destruct H as [<-|H]; try exact I; try exact H0; contradiction.
Qed.

Lemma ring_un_ok r m b k t : shp t = b ++ [ring_num_elements r k] ->
  match r with ComplexF mn mx => bound_pre mn b /\ mx_pre mx b | _ => True end ->
  exists x, ring_unflattened r m t = Ok x /\ ashape x = b ++ [k] /\ kind_ok (VectorS r) x = true.
Proof.
  intros Hs Hb. destruct r as [mn mx sc|mn mx| |mn mx]; cbn [ring_num_elements] in Hs.
  - eexists. split; [reflexivity|]. split; [destruct m; exact Hs|reflexivity].
  - cbn [ring_unflattened]. destruct (complex_join b k t Hs) as (c & H1 & H2 & _).
    rewrite Hs, last_dim_snoc. cbn [opt_err bind]. rewrite Nat.mod_mul, Nat.div_mul by lia. cbn [Nat.eqb negb]. rewrite H1. cbn [bind].
    destruct m.
    + destruct Hb as [Hmn Hmx]. rewrite complex_from_plane_elem.
      * cbn [rmap]. eexists. split; [reflexivity|]. split; [exact H2|reflexivity].
      * rewrite H2. now apply bound_pre_app.
      * rewrite H2. now apply mx_pre_app.
    + eexists. split; [reflexivity|]. split; [exact H2|reflexivity].
  - eexists. split; [reflexivity|]. split; [exact Hs|reflexivity].
  - eexists. split; [reflexivity|]. split; [exact Hs|reflexivity].
Qed.
Lemma supp_un_ok s m b n t : (forall r, s <> SimplexS r) -> shp t = b ++ [supp_num_elements s n] -> bounds_ok s b ->
  exists x, supp_unflattened s t n m = Ok x /\ ashape x = b ++ supp_shape s n /\ kind_ok s x = true.
Proof.
  intros Hsx Hs Hb. destruct s as [r|r|r|r h psd nsd|r|radius]; cbn [supp_num_elements supp_shape supp_unflattened] in *.
  - destruct (ring_un_ok r m b 1 t Hs Hb) as (x & H1 & H2 & H3). rewrite H1. cbn [bind]. rewrite H2, last_dim_snoc. cbn [opt_err bind Nat.eqb].
    eexists. split; [reflexivity|]. split; [rewrite app_nil_r; now apply ashape_last|]. destruct r, x; try discriminate H3; reflexivity.
  - destruct (ring_un_ok r m b n t Hs Hb) as (x & H1 & H2 & H3). rewrite H1. cbn [bind]. rewrite H2, last_dim_snoc. cbn [opt_err bind].
    rewrite Nat.eqb_refl. exists x. auto.
  - exfalso. now apply (Hsx r).
  - destruct (ring_un_ok r m b (comb2 n) t Hs Hb) as (x & H1 & H2 & H3). rewrite H1. cbn [bind].
    assert (E : exists y, arr_sym_unflatten h x = Ok y).
    { destruct x as [u|u]; cbn [arr_sym_unflatten ashape] in *.
      - destruct (sym_unflatten_ok (Fin 0) (fun v => v) b n u H2) as (v & -> & _). eexists; reflexivity.
      - destruct (sym_unflatten_ok (XC (Fin 0) (Fin 0)) (if h then cconj else fun v => v) b n u H2) as (v & -> & _). eexists; reflexivity. }
    destruct E as [y Hy]. exists y. split; [exact Hy|]. destruct (from_sym h b n x y H2 Hy) as (_ & F2 & _). split; [exact F2|].
    destruct x; cbn in Hy; apply rmap_Ok in Hy as (u & _ & ->); exact H3.
  - destruct (ring_un_ok r m b (n * n) t Hs Hb) as (x & H1 & H2 & H3). rewrite H1. cbn [bind]. rewrite H2, removelast_snoc.
    destruct (reshape_ok (b ++ [n; n]) x) as (y & Hy & Hsy); [rewrite H2, !prods_app; cbn; lia|]. exists y. split; [exact Hy|]. split; [exact Hsy|].
    destruct x; cbn in Hy; apply rmap_Ok in Hy as (u & _ & ->); exact H3.
  - destruct m.
    + rewrite Hs, last_dim_snoc. cbn [opt_err bind]. rewrite Nat.eqb_refl.
      change (circ_from_plane radius t) with (let magnitude := norm_last t in let cm := tmap (circ_k radius) magnitude in
        let* p := tmap2 xmul t cm in tmap2 xdiv p magnitude).
      rewrite (scale_last b n _ t Hs). cbn [rmap]. eexists. split; [reflexivity|]. split; reflexivity.
    + eexists. split; [reflexivity|]. split; [exact Hs|reflexivity].
Qed.
Lemma supp_vals_kind s m b n x : supp_vals s m b n x -> kind_ok s x = true.
Proof.
  intros [_ H]. destruct s as [r|r|r|r h psd nsd|r|radius]; unfold kind_ok; cbn [supp_ring];
    try destruct H as [H _]; try (destruct r, x; cbn in H; try contradiction; reflexivity).
  destruct x; [reflexivity|contradiction].
Qed.

(** ** one leaf *)
Section Leaf.
  Variables (fl m : bool) (b : list nat) (n : nat) (c : cls).
  (** the values [own] and the flat pieces [ts] correspond, the supports being adjusted by the values before *)
  Fixpoint own_rt (kw : dict string arr) (own : list (string * (arr * support))) (ts : list (tensor xr * nat)) : Prop :=
    match own, ts with
    | [], [] => True
    | (nm, (v, s0)) :: own', (t, k) :: ts' =>
        (exists s, adjust_support c nm kw = Ok s /\ k = supp_num_elements s n /\ k = supp_num_elements s0 n /\ shp t = b ++ [k] /\
           supp_unflattened s t n m = Ok v /\ (fl = true -> supp_flattened s m v = Ok t /\ (m = true -> fin_tensor t))) /\
        own_rt (dset kw nm v) own' ts'
    | _, _ => False
    end.
  Lemma own_rt_flat (Hfl : fl = true) own : forall kw ts r0, own_rt kw own ts ->
    exists kw', foldM (fun (st : dict string arr * list (tensor xr)) nv =>
                     let '(kwargs, retval) := st in
                     let name := fst nv in let value := fst (snd nv) in
                     let* s := adjust_support c name kwargs in
                     let kwargs := dset kwargs name value in
                     let* fl := supp_flattened s m value in
                     Ok (kwargs, retval ++ [fl]))
                  (kw, r0) own = Ok (kw', r0 ++ map fst ts).
  Proof.
    induction own as [|[nm [v s0]] own IH]; intros kw [|[t k] ts] r0 H; try contradiction.
    - exists kw. cbn. now rewrite app_nil_r.
    - destruct H as [(s & H1 & H2 & H2' & H3 & H4 & H5) H]. destruct (IH (dset kw nm v) ts (r0 ++ [t]) H) as [kw' E].
      exists kw'. cbn [foldM fst snd] in *. rewrite H1. cbn [bind]. rewrite (proj1 (H5 Hfl)). cbn [bind]. rewrite E. cbn [map fst]. now rewrite <- app_assoc.
  Qed.
  Lemma own_rt_unflat (t0 : tensor xr) N i (Hi : i_type i = c) (Hd : i_dims i = n) own : forall kw ts off, own_rt kw own ts ->
    holds_at b t0 off ts -> off + total ts <= N ->
    foldM (fun (st : nat * dict string arr) name =>
           let '(consumed, kwargs) := st in
           let* s := adjust_support (i_type i) name kwargs in
           let k := supp_num_elements s (i_dims i) in
           if N <? consumed + k then Err ValueError else
           let* v := supp_unflattened s (tslice consumed (consumed + k) t0) (i_dims i) m in
           Ok (consumed + k, dset kwargs name v))
        (off, kw) (map fst own)
    = Ok (off + total ts, fold_left (fun d kv => dset d (fst kv) (snd kv)) (drop_support own) kw).
  Proof.
    induction own as [|[nm [v s0]] own IH]; intros kw [|[t k] ts] off H Hh Hn; try contradiction.
    - cbn. now rewrite Nat.add_0_r.
    - destruct H as [(s & H1 & H2 & H2' & H3 & H4 & _) H]. cbn [holds_at] in Hh. destruct Hh as (_ & Hh2 & Hh3).
      rewrite total_cons in *. cbn [map fst foldM]. rewrite Hi, Hd, H1. cbn [bind]. rewrite <- H2.
      destruct (Nat.ltb_spec N (off + k)); [lia|]. rewrite Hh2, H4. cbn [bind].
      rewrite Hi, Hd in IH. rewrite (IH _ ts) by (auto; lia). cbn. do 2 f_equal. lia.
  Qed.
  Lemma own_rt_params (t0 : tensor xr) N i own ts off : i_type i = c -> i_dims i = n ->
    map fst own = keys (class_support (i_type i) (Some false)) -> own_rt [] own ts -> holds_at b t0 off ts -> off + total ts <= N ->
    unflatten_params m t0 N i off = Ok (off + total ts, fold_left (fun d kv => dset d (fst kv) (snd kv)) (drop_support own) []).
  Proof.
    intros Hi Hd Hk H Hh HN. unfold unflatten_params. rewrite <- Hk. exact (own_rt_unflat t0 N i Hi Hd own [] ts off H Hh HN).
  Qed.
  Lemma own_rt_shapes own : forall kw ts, own_rt kw own ts -> Forall (fun tn => shp (fst tn) = b ++ [snd tn]) ts.
  Proof.
    induction own as [|[nm [v s0]] own IH]; intros kw [|[t k] ts] H; try contradiction; constructor.
    - destruct H as [(s & H1 & H2 & H2' & H3 & _) _]. exact H3.
    - destruct H as [_ H]. eauto.
  Qed.
  Lemma own_rt_total own : forall kw ts, own_rt kw own ts ->
    total ts = fields_size (map (fun nv => (snd (snd nv), n)) own).
  Proof.
    induction own as [|[nm [v s0]] own IH]; intros kw [|[t k] ts] H; try contradiction; [reflexivity|].
    destruct H as [(s & H1 & H2 & H2' & _) H]. rewrite total_cons, (IH _ _ H), H2'. reflexivity.
  Qed.
End Leaf.

Lemma fields_size_cons s n l : fields_size ((s, n) :: l) = supp_num_elements s n + fields_size l.
Proof. reflexivity. Qed.
Lemma fields_size_app l1 l2 : fields_size (l1 ++ l2) = fields_size l1 + fields_size l2.
Proof. unfold fields_size. now rewrite map_app, list_sum_app. Qed.
Lemma variable_fields_eq c : filter (fixed_ok (Some false)) (fields c) = variable_fields c.
Proof. unfold variable_fields. apply filter_ext. intros f. cbn. now destruct (fd_fixed f). Qed.
Lemma variable_in c f : In f (variable_fields c) -> In f (fields c).
Proof. unfold variable_fields. intros H. now apply filter_In in H. Qed.
Lemma total_nil {A} : @total A [] = 0. Proof. reflexivity. Qed.

(** variable parameters in their supports: the leaf flattens and unflattens *)
Lemma leaf_rt m b q n : well_formed q = true -> is_joint (dcls q) = false -> dims_of q = Ok n -> leaf_vals m b q ->
  exists ts, own_rt true m b n (dcls q) [] (own_list (Some false) q) ts.
Proof.
  intros Hwf Hj Hn (n' & Hn' & Hv). rewrite Hn in Hn'. injection Hn' as <-.
  destruct q as [c mm ps subs]. cbn [dcls dparams] in *. apply wf_inv in Hwf as (Hps & _).
  unfold own_list. cbn [dcls dparams]. rewrite variable_fields_eq.
  destruct (cls_eq_dec c (NP ComplexNormal)) as [->|Hc].
  - (* the pseudo precision is bounded by the precision *)
    cbn in Hps. destruct ps as [|[n1 v1] [|[n2 v2] [|[n3 v3] [|]]]]; cbn in Hps; try discriminate. injection Hps as -> -> ->.
    cbn [variable_fields fields filter fd_fixed negb flat_map fd_name var app fd_support].
    pose proof (Hv _ (or_introl eq_refl)) as (w1 & s1 & G1 & A1 & V1). cbn in G1, A1. injection G1 as <-. injection A1 as <-.
    pose proof (Hv _ (or_intror (or_introl eq_refl))) as (w2 & s2 & G2 & A2 & V2). cbn in G2, A2. injection G2 as <-. injection A2 as <-.
    pose proof (Hv _ (or_intror (or_intror (or_introl eq_refl)))) as (w3 & s3 & G3 & A3 & V3). cbn in G3, A3. injection G3 as <-.
    destruct (as_real v2) as [t2|] eqn:E2; [|discriminate]. cbn [bind] in A3. injection A3 as <-.
    destruct (supp_rt _ m b n v1 V1) as (f1 & F1 & S1 & U1); [intros; discriminate|].
    destruct (supp_rt _ m b n v2 V2) as (f2 & F2 & S2 & U2); [intros; discriminate|].
    destruct (supp_rt _ m b n v3 V3) as (f3 & F3 & S3 & U3); [intros; discriminate|].
    exists [(f1, supp_num_elements (ScalarS complex_field) n); (f2, supp_num_elements (ScalarS negative_support) n); (f3, supp_num_elements (ScalarS complex_field) n)].
    assert (N1 : m = true -> fin_tensor f1) by (intros ->; exact (supp_flat_fin _ _ _ _ _ V1 F1)).
    assert (N2 : m = true -> fin_tensor f2) by (intros ->; exact (supp_flat_fin _ _ _ _ _ V2 F2)).
    assert (N3 : m = true -> fin_tensor f3) by (intros ->; exact (supp_flat_fin _ _ _ _ _ V3 F3)).
    cbn. split; [|split; [|split; [|exact I]]].
    + exists (ScalarS complex_field). repeat split; auto.
    + exists (ScalarS negative_support). repeat split; auto.
    + eexists. rewrite E2. cbn. split; [reflexivity|]. repeat split; auto.
  - assert (Hg : forall fs kw, incl fs (variable_fields c) -> exists ts, own_rt true m b n c kw
      (flat_map (fun f => match dget ps (fd_name f) with Some a => [(fd_name f, (a, fd_support f))] | None => [] end) fs) ts).
    { induction fs as [|f fs IH]; intros kw Hi; [exists []; exact I|]. cbn [flat_map].
      destruct (Hv f) as (v & s & G & A & V); [apply Hi; now left|]. rewrite G. cbn [app].
      rewrite (adjust_default c f ps Hc) in A by (apply variable_in, Hi; now left). injection A as <-.
      destruct (supp_rt _ m b n v V) as (t & F & S & U); [apply (field_no_simplex c), variable_in, Hi; now left|].
      assert (N1 : m = true -> fin_tensor t) by (intros ->; exact (supp_flat_fin _ _ _ _ _ V F)).
      destruct (IH (dset kw (fd_name f) v)) as [ts Hts]; [intros x Hx; apply Hi; now right|].
      exists ((t, supp_num_elements (fd_support f) n) :: ts). cbn. split; [|exact Hts].
      exists (fd_support f). rewrite (adjust_default c f kw Hc) by (apply variable_in, Hi; now left). auto 10. }
    apply Hg. apply incl_refl.
Qed.

(** ** trees *)
Definition tree_rt (fl m : bool) (b : list nat) (pl : path * dist) (ts : list (tensor xr * nat)) : Prop :=
  exists n, dims_of (snd pl) = Ok n /\ own_rt fl m b n (dcls (snd pl)) [] (own_list (Some false) (snd pl)) ts.

Lemma own_list_joint_walk c m ps subs mp base : map fst ps = map fd_name (fields c) -> is_joint c = true ->
  make_flat mp (Dist c m ps subs) base = Ok [].
Proof.
  intros Hps Hj. unfold make_flat. cbn [dcls dparams]. rewrite (own_params_list (Some false) c m ps subs Hps), own_list_joint by exact Hj. reflexivity.
Qed.
Lemma make_flat_leaf m b base q ts : well_formed q = true -> tree_rt true m b (base, q) ts -> make_flat m q base = Ok (map fst ts).
Proof.
  intros Hwf (n & Hn & H). destruct q as [c mm ps subs]. cbn [snd dcls dparams] in *. apply wf_inv in Hwf as (Hps & _).
  unfold make_flat. cbn [dcls dparams]. rewrite (own_params_list (Some false) c mm ps subs Hps). cbn [bind].
  pose proof (own_rt_flat true m b n c eq_refl _ [] ts [] H) as E. cbv zeta in E. destruct E as [kw' E].
  match goal with |- bind ?x _ = _ => replace x with (@Ok (dict string arr * list (tensor xr)) (kw', [] ++ map fst ts)) by (symmetry; exact E) end.
  reflexivity.
Qed.
Lemma walk_flat m b d : forall base tss, well_formed d = true -> Forall2 (tree_rt true m b) (leaves base d) tss ->
  exists xss, walk (make_flat m) d base = Ok xss /\ concat xss = map fst (concat tss).
Proof.
  induction d as [c mm ps subs IH] using dist_rect'. intros base tss Hwf H. pose proof Hwf as Hwf0.
  apply wf_inv in Hwf as (Hps & Hj & Hs & Hsub). rewrite walk_unfold. cbn [leaves] in H. destruct (is_joint c) eqn:Ej.
  - assert (Hm : exists xss, mapM (fun ns => walk (make_flat m) (snd ns) (base ++ [fst ns])) subs = Ok xss /\ concat (concat xss) = map fst (concat tss)).
    { clear Hj Hs Hwf0. revert tss H. induction subs as [|[nm s] subs IHs]; intros tss H.
      - inversion H; subst. exists []. auto.
      - inversion IH; subst. inversion Hsub; subst. cbn [flat_map fst snd] in H. apply Forall2_app_inv_l in H as (t1 & t2 & F1 & F2 & ->).
        cbn [fst snd] in *. destruct (H2 (base ++ [nm]) t1 H4 F1) as (x1 & E1 & C1). destruct (IHs H3 H5 t2 F2) as (x2 & E2 & C2).
        exists (x1 :: x2). cbn [mapM fst snd]. rewrite E1. cbn [bind]. rewrite E2. cbn [bind]. split; [reflexivity|].
        cbn [concat]. rewrite !concat_app, map_app, C1, C2. reflexivity. }
    destruct Hm as (xss & E & C). rewrite E. cbn [bind]. rewrite own_list_joint_walk by assumption. cbn [bind]. eexists. split; [reflexivity|].
    rewrite concat_app. cbn. now rewrite app_nil_r.
  - rewrite (Hs eq_refl) in *. cbn [mapM bind concat app]. inversion H as [|? ts ? ? Ht Hr]; subst. inversion Hr; subst.
    rewrite (make_flat_leaf m b base _ ts Hwf0 Ht). cbn [bind]. eexists. split; [reflexivity|]. cbn. now rewrite !app_nil_r.
Qed.

Lemma filter_neg_keys fs : map fd_name (filter (fixed_ok (Some true)) fs) = map fd_name (filter fd_fixed fs).
Proof. f_equal. apply filter_ext. intros f. cbn. now destruct (fd_fixed f). Qed.

(** constructing a leaf from any dict with the right entries *)
Lemma construct_leaf_dict c ps kw : is_joint c = false -> map fst ps = map fd_name (fields c) ->
  (forall k, In k (keys kw) -> In k (map fst ps)) -> (forall k v, In (k, v) ps -> dget kw k = Some v) ->
  construct c kw None = Ok (Dist c DefaultMinimizer ps []).
Proof.
  intros Hj H Hk Hg. unfold construct. rewrite Hj.
  assert (Hall : forallb (fun k => if in_dec string_dec k (map fd_name (fields c)) then true else false) (keys kw) = true).
  { apply forallb_forall. intros k Hi. apply Hk in Hi. rewrite H in Hi. destruct (in_dec _ _ _); [reflexivity|contradiction]. }
  rewrite Hall. cbn [negb]. rewrite <- H.
  assert (Hm : forall l, incl l ps -> mapM (fun n => let* v := opt_err TypeError (dget kw n) in Ok (n, v)) (map fst l) = Ok l).
  { induction l as [|[n v] l IH]; intros Hi; [reflexivity|]. cbn [map mapM fst]. rewrite (Hg n v) by (apply Hi; now left).
    cbn [opt_err bind]. rewrite IH; [reflexivity|]. intros x Hx; apply Hi; now right. }
  rewrite Hm by apply incl_refl. reflexivity.
Qed.

Lemma fixed_fold (F : dict path arr) base names : forall kw, (forall nm, In nm names -> exists v, dget F (base ++ [nm]) = Some v) ->
  exists kw', foldM (fun kw name => let* v := dindex F (base ++ [name]) in Ok (dset kw name v)) kw names = Ok kw' /\
    (forall k, In k (keys kw') <-> In k (keys kw) \/ In k names) /\
    (forall k, ~ In k names -> dget kw' k = dget kw k) /\
    (forall k, In k names -> dget kw' k = dget F (base ++ [k])).
Proof.
  induction names as [|nm names IH]; intros kw H.
  - exists kw. cbn. repeat split; intros; auto; tauto.
  - destruct (H nm (or_introl eq_refl)) as [v Hv]. cbn [foldM]. unfold dindex at 1. rewrite Hv. cbn [opt_err bind].
    destruct (IH (dset kw nm v)) as (kw' & E & K & G1 & G2); [intros; apply H; now right|].
    exists kw'. split; [exact E|]. split; [|split].
    + intros k. rewrite K, In_keys_dset. cbn. split; intros [H1|H1]; try tauto; destruct H1; subst; tauto.
    + intros k Hk. rewrite G1 by (intros Hi; apply Hk; now right). apply dget_dset_ne. intros ->. apply Hk. now left.
    + intros k [->|Hk]; [|now apply G2]. destruct (in_dec string_dec k names) as [Hi|Hi]; [now apply G2|].
      rewrite G1 by exact Hi. now rewrite dget_dset_eq.
Qed.

Lemma fold_left_dset_keys (l : list (string * arr)) : forall d k,
  In k (keys (fold_left (fun d kv => dset d (fst kv) (snd kv)) l d)) <-> In k (keys d) \/ In k (keys l).
Proof.
  induction l as [|[k1 v1] l IH]; intros d k; cbn [fold_left fst snd]; [cbn; tauto|].
  rewrite IH, In_keys_dset. cbn [keys map fst In]. fold (keys l). split; intros [H|H]; auto; destruct H; auto; subst; cbn; auto.
Qed.
Lemma fold_left_dset_get (l : list (string * arr)) : forall d k v, NoDup (keys l) -> In (k, v) l ->
  dget (fold_left (fun d kv => dset d (fst kv) (snd kv)) l d) k = Some v.
Proof.
  induction l as [|[k1 v1] l IH]; intros d k v Hn Hi; [destruct Hi|]. inversion Hn; subst. cbn [fold_left fst snd].
  destruct Hi as [He|Hi]; [|now apply IH]. injection He as -> ->.
  assert (Hno : forall (l : list (string * arr)) (d : dict string arr), ~ In k (keys l) -> dget (fold_left (fun d kv => dset d (fst kv) (snd kv)) l d) k = dget d k).
  { clear. induction l as [|[k1 v1] l IH]; intros d H; [reflexivity|]. cbn [fold_left fst snd]. rewrite IH by (intros Hi; apply H; now right).
    apply dget_dset_ne. intros ->. apply H. now left. }
  rewrite Hno by assumption. apply dget_dset_eq.
Qed.
Lemma own_list_nodup fx c m ps subs : map fst ps = map fd_name (fields c) -> NoDup (map fst (own_list fx (Dist c m ps subs))).
Proof.
  intros H. rewrite own_list_names by exact H. pose proof (nodup_fields c) as Hn. clear -Hn.
  induction (fields c) as [|f l IH]; cbn in *; [constructor|]. inversion Hn; subst. destruct (fixed_ok fx f); cbn; auto.
  constructor; auto. intros Hi. apply H1. apply in_map_iff in Hi as (g & <- & Hg). apply in_map. now apply filter_In in Hg.
Qed.
Lemma own_list_in fx c m ps subs n v : map fst ps = map fd_name (fields c) ->
  (exists s, In (n, (v, s)) (own_list fx (Dist c m ps subs))) <-> In (n, v) ps /\ In n (map fd_name (filter (fixed_ok fx) (fields c))).
Proof.
  intros H. pose proof (nodup_fields c) as Hn. rewrite <- H in Hn. unfold own_list. cbn [dparams dcls]. split.
  - intros [s Hi]. apply in_flat_map in Hi as (f & Hf & Hi). destruct (dget ps (fd_name f)) eqn:E; [|destruct Hi].
    destruct Hi as [He|[]]. injection He as <- <- <-. split; [now apply dget_In|]. now apply in_map.
  - intros [Hi Hf]. apply in_map_iff in Hf as (f & <- & Hf). exists (fd_support f). apply in_flat_map. exists f. split; [exact Hf|].
    rewrite (In_dget ps _ v Hn Hi). now left.
Qed.

Section Main.
  Variables (fl : bool) (b : list nat) (N : nat) (t0 : tensor xr) (F : flattener).
  Local Notation m := (f_mapped F).

  Lemma leaf_step c mm ps base D i ts off :
    let q := Dist c mm ps [] in
    well_formed q = true -> is_joint c = false -> make_info q base = Ok i -> tree_rt fl m b (base, q) ts ->
    (forall nm v s, In (nm, (v, s)) (own_list (Some true) q) -> dget (f_fixed F) (base ++ [nm]) = Some v) ->
    holds_at b t0 off ts -> off + total ts <= N ->
    unflatten_step F t0 N (off, D) i = Ok (off + total ts, dset D base (Dist c DefaultMinimizer ps [])).
  Proof.
    intros q Hwf Hj Hi (n & Hn & Hrt) HF Hh HN. pose proof Hwf as Hwf'. apply wf_inv in Hwf' as (Hps & _).
    unfold make_info in Hi. fold q in Hi. cbn [snd] in Hn. rewrite Hn in Hi. cbn in Hi. injection Hi as <-.
    unfold unflatten_step. cbn [snd] in Hrt. change (dcls q) with c in *.
    rewrite (own_rt_params fl m b n c t0 N _ (own_list (Some false) q) ts off); [| reflexivity | reflexivity | | exact Hrt | exact Hh | exact HN].
    2:{ cbn [i_type]. rewrite class_support_names_fx. apply own_list_names. exact Hps. }
    cbn [bind i_type i_dims i_path i_subs map mapM sub_distributions].
    set (kw := fold_left _ _ _).
    destruct (fixed_fold (f_fixed F) base (keys (class_support c (Some true))) kw) as (kw' & E' & K & G1 & G2).
    { intros nm Hnm. rewrite class_support_names_fx in Hnm. rewrite <- (own_list_names (Some true) c mm ps [] Hps) in Hnm.
      apply in_map_iff in Hnm as ([nm' [v s]] & <- & Hi). exists v. exact (HF _ _ _ Hi). }
    rewrite E'. cbn [bind].
    assert (HK : forall k, In k (keys kw) <-> In k (map fd_name (filter (fixed_ok (Some false)) (fields c)))).
    { intros k. unfold kw. rewrite fold_left_dset_keys, keys_drop. rewrite <- (own_list_names (Some false) c mm ps [] Hps). cbn. tauto. }
    rewrite (construct_leaf_dict c ps kw' Hj Hps).
    - reflexivity.
    - intros k Hk. apply K in Hk. rewrite HK, class_support_names_fx in Hk. rewrite Hps. destruct Hk as [Hk|Hk].
      + apply in_map_iff in Hk as (f & <- & Hf). apply in_map. now apply filter_In in Hf.
      + apply in_map_iff in Hk as (f & <- & Hf). apply in_map. now apply filter_In in Hf.
    - intros k v Hi. destruct (in_dec string_dec k (keys (class_support c (Some true)))) as [Hk|Hk].
      + rewrite G2 by exact Hk. rewrite class_support_names_fx in Hk.
        destruct (proj2 (own_list_in (Some true) c mm ps [] k v Hps) (conj Hi Hk)) as [s Hs]. exact (HF _ _ _ Hs).
      + rewrite G1 by exact Hk. unfold kw. apply fold_left_dset_get.
        * rewrite keys_drop. unfold keys. apply own_list_nodup. exact Hps.
        * assert (Hf : In k (map fd_name (filter (fixed_ok (Some false)) (fields c)))).
          { pose proof (in_map fst _ _ Hi) as Hkf. cbn [fst] in Hkf. rewrite Hps in Hkf. apply in_map_iff in Hkf as (f & <- & Hf).
            rewrite class_support_names_fx in Hk. apply in_map. apply filter_In. split; [exact Hf|].
            destruct (fixed_ok (Some false) f) eqn:Ef; [reflexivity|]. exfalso. apply Hk. apply in_map. apply filter_In. split; [exact Hf|].
            cbn in *. now destruct (fd_fixed f). }
          destruct (proj2 (own_list_in (Some false) c mm ps [] k v Hps) (conj Hi Hf)) as [s Hs].
          unfold drop_support. apply in_map_iff. exists (k, (v, s)). auto.
  Qed.

  Lemma unflatten_main d : forall base D infos tss off, well_formed d = true -> walk make_info d base = Ok infos ->
    Forall2 (tree_rt fl m b) (leaves base d) tss ->
    (forall k v, In (k, v) (drop_support (flat_map (leaf_items (Some true)) (leaves base d))) -> dget (f_fixed F) k = Some v) ->
    holds_at b t0 off (concat tss) -> off + total (concat tss) <= N ->
    exists D', foldM (unflatten_step F t0 N) (off, D) infos = Ok (off + total (concat tss), D') /\
      dget D' base = Some (default_minimizers d) /\ (forall k, ~ is_prefix base k -> dget D' k = dget D k).
  Proof.
    induction d as [c mm ps subs IH] using dist_rect'. intros base D infos tss off Hwf Hw Hrt HF Hh HN. pose proof Hwf as Hwf0.
    apply wf_inv in Hwf as (Hps & Hj & Hs & Hsub). rewrite walk_unfold in Hw.
    apply bind_Ok in Hw as (rest & Hrest & Hw). apply bind_Ok in Hw as (i & Hi & Hw). injection Hw as <-.
    rewrite foldM_app. cbn [leaves] in Hrt, HF. destruct (is_joint c) eqn:Ej.
    - destruct (Hj eq_refl) as [Hne Hnd].
      assert (Hmain : exists D', foldM (unflatten_step F t0 N) (off, D) (concat rest) = Ok (off + total (concat tss), D') /\
        (forall n s, In (n, s) subs -> dget D' (base ++ [n]) = Some (default_minimizers s)) /\
        (forall k, (forall n, In n (map fst subs) -> ~ is_prefix (base ++ [n]) k) -> dget D' k = dget D k)).
      { clear Hi Hne Hs Hps Hj Hwf0. revert D rest off tss Hrest HF Hrt Hh HN. induction subs as [|[n s] subs IHs]; intros D rest off tss Hrest HF Hrt Hh HN.
        - cbn in Hrest. injection Hrest as <-. inversion Hrt; subst. exists D. cbn. rewrite Nat.add_0_r. repeat split; auto. intros n s [].
        - inversion IH as [|? ? Hn IH']; subst. inversion Hsub as [|? ? Hws Hsub']; subst.
          inversion Hnd as [|? ? Hnn Hnd']; subst. cbn [snd fst] in *.
          cbn [mapM fst snd] in Hrest. apply bind_Ok in Hrest as (r1 & Hr1 & Hrest). apply bind_Ok in Hrest as (rs & Hrs & Hrest).
          injection Hrest as <-. cbn [concat]. rewrite foldM_app.
          cbn [flat_map fst snd] in HF, Hrt. rewrite flat_map_app in HF. unfold drop_support in HF. rewrite map_app in HF.
          apply Forall2_app_inv_l in Hrt as (t1 & t2 & F1 & F2 & ->). rewrite concat_app in *. apply holds_at_app in Hh as [Hh1 Hh2].
          assert (Htot : total (concat t1 ++ concat t2) = total (concat t1) + total (concat t2)) by (unfold total; now rewrite map_app, list_sum_app).
          rewrite Htot in *.
          destruct (Hn (base ++ [n]) D r1 t1 off Hws Hr1 F1) as (D1 & HF1 & HG1 & HO1).
          { intros k v Hk. apply HF. apply in_or_app. now left. }
          { exact Hh1. }
          { lia. }
          rewrite HF1. cbn [bind].
          destruct (IHs IH' Hsub' Hnd' D1 rs (off + total (concat t1)) t2 Hrs) as (D2 & HF2 & HG2 & HO2).
          { intros k v Hk. apply HF, in_or_app. now right. }
          { exact F2. }
          { exact Hh2. }
          { lia. }
          exists D2. split; [rewrite HF2; do 2 f_equal; lia|]. split.
          + intros n2 s2 [He|Hi2].
            * injection He as <- <-. rewrite HO2; [exact HG1|]. intros n2 Hn2 Hp.
              pose proof (prefix_sib _ _ _ _ Hp (prefix_refl _)). subst. contradiction.
            * now apply HG2.
          + intros k Hk. rewrite HO2 by (intros; apply Hk; now right). apply HO1. apply Hk. now left. }
      destruct Hmain as (D1 & HF1 & HG1 & HO1). rewrite HF1. cbn [bind foldM].
      apply make_info_ok in Hi as (Hpath & Htype & Hisubs). cbn [dcls sub_distributions] in *.
      unfold unflatten_step, unflatten_params. rewrite Hpath, Htype, Hisubs. rewrite !class_support_names_fx, (joint_no_fields c Ej).
      cbn [filter map foldM bind].
      assert (Hjs : mapM (fun n => let* d := dindex D1 (base ++ [n]) in Ok (n, d)) (map fst subs)
                    = Ok (map (fun ns => (fst ns, default_minimizers (snd ns))) subs)).
      { clear -HG1. induction subs as [|[n s] subs IHs]; [reflexivity|]. cbn [map mapM fst snd]. unfold dindex at 1.
        rewrite (HG1 n s) by now left. cbn [opt_err bind]. rewrite IHs; [reflexivity|]. intros; apply HG1; now right. }
      rewrite Hjs. cbn [bind].
      rewrite dict_of_nodup.
      2:{ unfold keys. rewrite map_map. exact Hnd. }
      destruct subs as [|ns0 subs0] eqn:Esub; [congruence|]. rewrite <- Esub in *.
      assert (Hmatch : forall A (x y : A), match map (fun ns => (fst ns, default_minimizers (snd ns))) subs with [] => x | _ => y end = y)
        by (rewrite Esub; reflexivity).
      rewrite Hmatch. rewrite construct_joint by exact Ej. cbn [bind].
      eexists. split; [reflexivity|]. split.
      + rewrite dget_dset_eq. cbn [default_minimizers]. rewrite (joint_no_fields c Ej) in Hps.
        destruct ps; [reflexivity|discriminate Hps].
      + intros k Hk. rewrite dget_dset_ne by (intros ->; apply Hk, prefix_refl). apply HO1.
        intros n _ Hp. apply Hk. now apply prefix_snoc in Hp.
    - rewrite (Hs eq_refl) in *. cbn in Hrest. injection Hrest as <-. cbn [concat foldM bind].
      inversion Hrt as [|? ts ? ? Ht Hr]; subst. inversion Hr; subst. cbn [concat] in *. rewrite app_nil_r in *.
      rewrite (leaf_step c mm ps base D i ts off Hwf0 Ej Hi Ht).
      + cbn [bind]. eexists. split; [reflexivity|]. split; [now rewrite dget_dset_eq|].
        intros k Hk. rewrite dget_dset_ne; [reflexivity|]. intros ->. apply Hk, prefix_refl.
      + intros nm v s Hi2. apply HF. cbn [flat_map]. rewrite app_nil_r. unfold leaf_items, drop_support. rewrite map_map. cbn [fst snd].
        apply in_map_iff. exists (nm, (v, s)). auto.
      + exact Hh.
      + exact HN.
  Qed.
End Main.
