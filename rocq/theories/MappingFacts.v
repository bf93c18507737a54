(** C07: flatten_mapping / unflatten_mapping.  C08: join_mappings. *)
From Coq Require Import FinFun String List Bool Arith Lia.
From Verif Require Import Base XReal Tensor Support Dist DictFacts Iteration Structure Spec StructFacts Tools.
Import ListNotations.

Lemma nested_rect' {V} (P : nested V -> Prop)
  (HL : forall v, P (Leaf v)) (HN : forall kvs, Forall (fun kv => P (snd kv)) kvs -> P (Node kvs)) :
  forall m, P m.
Proof.
  fix IH 1. intros [v|kvs]; [apply HL|]. apply HN.
  induction kvs as [|[n s] kvs IHs]; constructor; [apply IH|exact IHs].
Qed.

Section M.
  Context {V : Type}.
  Implicit Types m : nested V.
  Implicit Types kvs : list (string * nested V).

  Lemma flat_items_prefix m : forall pre p,
    flat_items (pre ++ p) m = map (fun kv => (pre ++ fst kv, snd kv)) (flat_items p m).
  Proof.
    induction m as [v|kvs IH] using nested_rect'; intros pre p; [reflexivity|].
    cbn [flat_items]. induction kvs as [|[k s] kvs IHk]; [reflexivity|].
    inversion IH as [|? ? Hs IH']; subst. cbn [flat_map fst snd] in *. rewrite map_app, <- IHk by assumption.
    f_equal. rewrite <- app_assoc. apply Hs.
  Qed.
  Definition cons_path k (kv : path * V) : path * V := (k :: fst kv, snd kv).
  Lemma flat_items_cons k m : flat_items [k] m = map (cons_path k) (flat_items [] m).
  Proof. exact (flat_items_prefix m [k] []). Qed.
  Lemma flat_items_node kvs : flat_items [] (Node kvs) =
    flat_map (fun kv => map (cons_path (fst kv)) (flat_items [] (snd kv))) kvs.
  Proof.
    change (flat_items [] (Node kvs)) with (flat_map (fun kv : string * nested V => flat_items [fst kv] (snd kv)) kvs).
    induction kvs as [|[k s] kvs IH]; [reflexivity|]. cbn [flat_map fst snd].
    now rewrite flat_items_cons, IH.
  Qed.
  Lemma nested_ok_inv kvs : nested_ok (Node kvs) = true ->
    NoDup (map fst kvs) /\ Forall (fun kv : string * nested V => nested_ok (snd kv) = true) kvs.
  Proof.
    cbn. rewrite andb_true_iff, nodupb_NoDup, forallb_forall. intros [H1 H2]. split; [exact H1|].
    now apply Forall_forall.
  Qed.

  Lemma nodup_flat_items m : nested_ok m = true -> NoDup (map fst (flat_items [] m)).
  Proof.
    induction m as [v|kvs IH] using nested_rect'; intros H.
    - cbn. constructor; [intros []|constructor].
    - apply nested_ok_inv in H as [Hn Hs]. rewrite flat_items_node.
      induction kvs as [|[k s] kvs IHk]; [constructor|].
      inversion IH as [|? ? Hi IH']; subst. inversion Hs as [|? ? Hos Hs']; subst. inversion Hn as [|? ? Hnk Hn']; subst.
      cbn [flat_map fst snd] in *. rewrite map_app. apply NoDup_app_intro.
      + rewrite map_map. cbn [cons_path fst]. rewrite <- (map_map fst (cons k)).
        apply FinFun.Injective_map_NoDup; [|auto]. intros a b Hab. congruence.
      + now apply IHk.
      + intros p H1 H2. apply in_map_iff in H1 as ([p1 v1] & <- & H1). apply in_map_iff in H1 as ([q1 w1] & He & _).
        cbn in He. injection He as <- <-. apply in_map_iff in H2 as ([p2 v2] & He & H2). cbn in He. subst p2.
        apply in_flat_map in H2 as ([k2 s2] & Hk2 & H2). apply in_map_iff in H2 as ([q2 w2] & He & _). cbn in He.
        injection He as -> _ _. apply Hnk. change k with (fst (k, s2)). now apply in_map.
  Qed.
  Lemma flatten_mapping_items kvs : nested_ok (Node kvs) = true -> flatten_mapping kvs = flat_items [] (Node kvs).
  Proof. intros H. unfold flatten_mapping. apply dict_of_nodup. now apply nodup_flat_items. Qed.

  Lemma nested_get_node kvs k p : nested_get (Node kvs) (k :: p) =
    match dget kvs k with Some s => nested_get s p | None => None end.
  Proof.
    cbn. induction kvs as [|[k' s] kvs IH]; [reflexivity|]. cbn [dget]. change (keq k k') with (string_dec k k').
    destruct (string_dec k k'); [reflexivity|exact IH].
  Qed.
  Lemma dget_map_cons k (l : list (path * V)) k' p :
    dget (map (cons_path k) l) (k' :: p) = if string_dec k' k then dget l p else None.
  Proof.
    induction l as [|[q v] l IH]; cbn [map dget cons_path fst snd]; [now destruct (string_dec k' k)|].
    destruct (keq (k' :: p) (k :: q)) as [He|Hn].
    - injection He as -> ->. destruct (string_dec k k); [|congruence]. destruct (keq q q); congruence.
    - rewrite IH. destruct (string_dec k' k) as [->|]; [|reflexivity].
      destruct (keq p q); [congruence|reflexivity].
  Qed.
  Lemma dget_flat_items m : nested_ok m = true -> forall p, dget (flat_items [] m) p = nested_get m p.
  Proof.
    induction m as [v|kvs IH] using nested_rect'; intros H p.
    - cbn. destruct p; reflexivity.
    - apply nested_ok_inv in H as [Hn Hs]. rewrite flat_items_node.
      destruct p as [|k p].
      + cbn. assert (Hnil : forall l : list (path * V), (forall x, In x l -> fst x <> []) -> dget l [] = None).
        { intros l Hl. apply dget_None. intros Hi. apply in_map_iff in Hi as (x & Hx & Hi). now apply Hl in Hi. }
        apply Hnil. intros x Hx. apply in_flat_map in Hx as (kv & _ & Hx). apply in_map_iff in Hx as (y & <- & _). discriminate.
      + rewrite nested_get_node. induction kvs as [|[k1 s] kvs IHk]; [reflexivity|].
        inversion IH as [|? ? Hi IH']; subst. inversion Hs as [|? ? Hos Hs']; subst. inversion Hn as [|? ? Hnk Hn']; subst.
        cbn [flat_map fst snd dget] in *. rewrite dget_app, dget_map_cons. change (keq k k1) with (string_dec k k1).
        destruct (string_dec k k1) as [->|Hk].
        * rewrite Hi by assumption. destruct (nested_get s p); [reflexivity|].
          rewrite IHk by assumption. assert (Hno : dget kvs k1 = None) by now apply dget_None. now rewrite Hno.
        * now apply IHk.
  Qed.
  Lemma flatten_mapping_get kvs p : nested_ok (Node kvs) = true ->
    dget (flatten_mapping kvs) p = nested_get (Node kvs) p.
  Proof. intros H. rewrite flatten_mapping_items by exact H. now apply dget_flat_items. Qed.

  (** *** unflatten (flatten m) = m *)
  Lemma dset_last (acc : list (string * nested V)) k x y : ~ In k (map fst acc) ->
    dset (acc ++ [(k, x)]) k y = acc ++ [(k, y)].
  Proof.
    induction acc as [|[k' v'] acc IH]; intros H; cbn; [destruct (keq k k); congruence|].
    cbn in H. destruct (keq k k') as [e|n]; [subst; tauto|]. rewrite IH; [reflexivity|tauto].
  Qed.
  Lemma dget_last (acc : list (string * nested V)) k x : ~ In k (map fst acc) -> dget (acc ++ [(k, x)]) k = Some x.
  Proof.
    intros H. rewrite dget_app. assert (Hn : dget acc k = None) by now apply dget_None. rewrite Hn.
    cbn. destruct (keq k k); congruence.
  Qed.
  Lemma insert_group (acc s : list (string * nested V)) k items : ~ In k (map fst acc) ->
    Forall (fun kv => fst kv <> []) items ->
    foldM (fun r pv => unflat_insert r (fst pv) (snd pv)) (acc ++ [(k, Node s)]) (map (cons_path k) items)
    = let* s' := foldM (fun r pv => unflat_insert r (fst pv) (snd pv)) s items in Ok (acc ++ [(k, Node s')]).
  Proof.
    intros Hk. revert s. induction items as [|[p v] items IH]; intros s Hf; [reflexivity|].
    inversion Hf as [|? ? Hp Hf']; subst. cbn [map foldM cons_path fst snd] in *.
    destruct p as [|k2 p]; [congruence|]. cbn [unflat_insert]. rewrite dget_last by exact Hk.
    change (match p with [] => _ | _ :: _ => _ end) with (unflat_insert s (k2 :: p) v).
    destruct (unflat_insert s (k2 :: p) v); cbn [bind]; [|reflexivity].
    rewrite dset_last by exact Hk. apply IH. exact Hf'.
  Qed.
  Lemma insert_group_new (acc : list (string * nested V)) k items : ~ In k (map fst acc) -> items <> [] ->
    Forall (fun kv => fst kv <> []) items ->
    foldM (fun r pv => unflat_insert r (fst pv) (snd pv)) acc (map (cons_path k) items)
    = let* s' := foldM (fun r pv => unflat_insert r (fst pv) (snd pv)) [] items in Ok (acc ++ [(k, Node s')]).
  Proof.
    intros Hk Hne Hf. rewrite <- insert_group by assumption.
    destruct items as [|[p v] items]; [congruence|]. cbn [map foldM cons_path fst snd].
    inversion Hf as [|? ? Hp Hf']; subst. cbn [fst] in Hp. destruct p as [|k2 p]; [congruence|]. cbn [unflat_insert].
    rewrite dget_last by exact Hk. assert (Hn : dget acc k = None) by now apply dget_None. rewrite Hn.
    change (match p with [] => _ | _ :: _ => _ end) with (unflat_insert (@nil (string * nested V)) (k2 :: p) v).
    destruct (unflat_insert [] (k2 :: p) v); cbn [bind]; [|reflexivity].
    rewrite dset_last by exact Hk. rewrite dset_notin by exact Hk. reflexivity.
  Qed.
  Lemma flat_items_nonempty m : no_empty m = true -> flat_items [] m <> [].
  Proof.
    induction m as [v|kvs IH] using nested_rect'; intros H; [discriminate|].
    rewrite flat_items_node. cbn in H. destruct kvs as [|[k s] kvs]; [discriminate|].
    inversion IH as [|? ? Hi _]; subst. cbn in H. apply andb_true_iff in H as [H _]. cbn [flat_map fst snd] in *.
    specialize (Hi H). destruct (flat_items [] s); [congruence|discriminate].
  Qed.
  Lemma node_items_paths kvs : Forall (fun kv : path * V => fst kv <> []) (flat_items [] (Node kvs)).
  Proof.
    rewrite flat_items_node. apply Forall_forall. intros x Hx. apply in_flat_map in Hx as (kv & _ & Hx).
    apply in_map_iff in Hx as (y & <- & _). discriminate.
  Qed.
  Lemma unflatten_items kvs : forall acc : list (string * nested V),
    Forall (fun kv : string * nested V => nested_ok (snd kv) = true /\ no_empty (snd kv) = true) kvs ->
    NoDup (map fst acc ++ map fst kvs) ->
    foldM (fun r pv => unflat_insert r (fst pv) (snd pv)) acc (flat_items [] (Node kvs)) = Ok (acc ++ kvs).
  Proof.
    enough (H : forall m, match m with
                          | Leaf _ => True
                          | Node kvs => forall acc : list (string * nested V),
    Forall (fun kv : string * nested V => nested_ok (snd kv) = true /\ no_empty (snd kv) = true) kvs ->
    NoDup (map fst acc ++ map fst kvs) ->
    foldM (fun r pv => unflat_insert r (fst pv) (snd pv)) acc (flat_items [] (Node kvs)) = Ok (acc ++ kvs) end)
      by exact (H (Node kvs)).
    clear kvs. induction m as [v|kvs IH] using nested_rect'; [exact I|].
    induction kvs as [|[k s] kvs IHk]; intros acc Hf Hn.
    - cbn. now rewrite app_nil_r.
    - inversion IH as [|? ? Hi IH']; subst. inversion Hf as [|? ? [Hok Hne] Hf']; subst.
      rewrite flat_items_node. cbn [flat_map fst snd] in *. rewrite foldM_app.
      assert (Hk : ~ In k (map fst acc)).
      { cbn in Hn. apply NoDup_remove_2 in Hn. rewrite in_app_iff in Hn. tauto. }
      assert (Hstep : foldM (fun r pv => unflat_insert r (fst pv) (snd pv)) acc (map (cons_path k) (flat_items [] s))
                      = Ok (acc ++ [(k, s)])).
      { destruct s as [v|sub].
        - cbn. now rewrite dset_notin.
        - rewrite insert_group_new; [|exact Hk|now apply flat_items_nonempty|apply node_items_paths].
          rewrite (Hi []).
          + reflexivity.
          + apply nested_ok_inv in Hok as [_ Hok]. cbn in Hne. apply andb_true_iff in Hne as [_ Hne].
            rewrite forallb_forall in Hne. rewrite Forall_forall in *. auto.
          + apply nested_ok_inv in Hok as [Hok _]. exact Hok. }
      rewrite Hstep. cbn [bind]. rewrite <- flat_items_node. rewrite IHk.
      + now rewrite <- app_assoc.
      + exact IH'.
      + exact Hf'.
      + rewrite map_app, <- app_assoc. exact Hn.
  Qed.
  Lemma unflatten_flatten kvs : nested_ok (Node kvs) = true ->
    forallb (fun kv : string * nested V => no_empty (snd kv)) kvs = true ->
    unflatten_mapping (flatten_mapping kvs) = Ok kvs.
  Proof.
    intros H Hne. rewrite flatten_mapping_items by exact H. apply nested_ok_inv in H as [Hn Hs].
    unfold unflatten_mapping. rewrite unflatten_items; [reflexivity| |exact Hn].
    rewrite forallb_forall in Hne. rewrite Forall_forall in *. auto.
  Qed.

  (** *** flatten (unflatten d) has the contents of d *)
  Lemma unflat_insert_spec p : forall (kvs : list (string * nested V)) v, p <> [] ->
    nested_ok (Node kvs) = true ->
    (forall q, nested_get (Node kvs) q <> None -> prefixb q p = false) ->
    (forall q, nested_get (Node kvs) q <> None -> prefixb p q = false) ->
    (forall kv, In kv kvs -> no_empty (snd kv) = true) ->
    exists kvs', unflat_insert kvs p v = Ok kvs' /\ nested_ok (Node kvs') = true /\
      (forall kv, In kv kvs' -> no_empty (snd kv) = true) /\
      (forall q, nested_get (Node kvs') q = if list_eq_dec string_dec q p then Some v else nested_get (Node kvs) q).
  Proof.
    assert (Hdset : forall (kvs : list (string * nested V)) k (s : nested V), nested_ok (Node kvs) = true -> nested_ok s = true ->
              nested_ok (Node (dset kvs k s)) = true).
    { intros kvs k s H Hs. apply nested_ok_inv in H as [Hn Ho]. cbn. rewrite andb_true_iff, nodupb_NoDup, forallb_forall.
      split; [now apply (NoDup_keys_dset (V := nested V))|]. clear Hn. induction kvs as [|[k1 s1] kvs IH]; cbn.
      - intros x [<-|[]]. exact Hs.
      - inversion Ho; subst. destruct (keq k k1); cbn; intros x [<-|Hx]; auto.
        rewrite Forall_forall in *. auto. }
    assert (Hdset2 : forall (kvs : list (string * nested V)) k (s : nested V), (forall kv, In kv kvs -> no_empty (snd kv) = true) ->
              no_empty s = true -> (forall kv, In kv (dset kvs k s) -> no_empty (snd kv) = true)).
    { intros kvs k s H Hs. induction kvs as [|[k1 s1] kvs IH]; cbn.
      - intros x [<-|[]]. exact Hs.
      - destruct (keq k k1); cbn; intros x [<-|Hx]; auto; try (apply H; cbn; auto; fail).
        apply IH; auto. intros; apply H; now right. }
    assert (Hne_in : forall (kvs : list (string * nested V)) k (s : nested V), dget kvs k = Some s -> In (k, s) kvs) by (intros; now apply dget_In).
    assert (Hnei : forall kvs : list (string * nested V), kvs <> [] -> (forall kv, In kv kvs -> no_empty (snd kv) = true) -> no_empty (Node kvs) = true).
    { intros kvs Hk Hx. cbn. destruct kvs; [congruence|]. cbn [null negb andb]. now apply forallb_forall. }
    assert (Hdne : forall (kvs : list (string * nested V)) k (s : nested V), dset kvs k s <> []).
    { intros [|[k1 s1] kvs] k s; cbn; [discriminate|]. destruct (keq k k1); discriminate. }
    assert (Hget : forall m : nested V, nested_ok m = true -> no_empty m = true -> exists q, nested_get m q <> None).
    { intros m Ho Hm. pose proof (flat_items_nonempty m Hm) as Hf. destruct (flat_items [] m) as [|[q w] l] eqn:E; [congruence|].
      exists q. rewrite <- dget_flat_items by exact Ho. rewrite E. cbn. destruct (keq q q); congruence. }
    induction p as [|k p IH]; intros kvs v Hp Ho Hpre Hpre2 Hnem; [congruence|].
    assert (Hcase : forall s, nested_get (Node (dset kvs k s)) = fun q => match q with
                       | [] => None
                       | k' :: q' => if string_dec k' k then nested_get s q' else nested_get (Node kvs) (k' :: q') end).
    { intros s. apply FunctionalExtensionality.functional_extensionality. intros [|k' q]; [reflexivity|].
      rewrite !nested_get_node. destruct (string_dec k' k) as [->|Hk].
      - now rewrite dget_dset_eq.
      - now rewrite dget_dset_ne. }
    destruct p as [|k2 p].
    - cbn [unflat_insert]. eexists. split; [reflexivity|]. split; [now apply Hdset|]. split; [now apply Hdset2|].
      intros q. rewrite Hcase. destruct (list_eq_dec string_dec q [k]) as [->|Hq].
      + destruct (string_dec k k); [reflexivity|congruence].
      + destruct q as [|k' q]; [reflexivity|]. destruct (string_dec k' k) as [->|Hk]; [|reflexivity].
        destruct q as [|k2 q]; [congruence|]. change (nested_get (Leaf v) (k2 :: q)) with (@None V).
        destruct (nested_get (Node kvs) (k :: k2 :: q)) eqn:E; [|reflexivity].
        specialize (Hpre2 (k :: k2 :: q)). rewrite E in Hpre2. cbn in Hpre2. rewrite String.eqb_refl in Hpre2.
        discriminate Hpre2. discriminate.
    - cbn [unflat_insert].
      change (match p with [] => Ok (dset ?a k2 (Leaf v)) | _ :: _ => _ end) with (unflat_insert (@nil (string * nested V)) (k2 :: p) v).
      destruct (dget kvs k) as [[w|sub]|] eqn:E.
      + exfalso. specialize (Hpre [k]). rewrite nested_get_node, E in Hpre. cbn in Hpre. rewrite String.eqb_refl in Hpre.
        discriminate Hpre. discriminate.
      + change (match p with [] => _ | _ :: _ => _ end) with (unflat_insert sub (k2 :: p) v).
        assert (Hso : nested_ok (Node sub) = true).
        { apply nested_ok_inv in Ho as [_ Ho]. rewrite Forall_forall in Ho. apply (Ho (k, Node sub)). now apply dget_In. }
        assert (Hsn : no_empty (Node sub) = true) by apply (Hnem (k, Node sub)), dget_In, E.
        destruct (IH sub v) as (s' & H1 & H2 & H3 & H4); [discriminate|exact Hso| | | |].
        * intros q Hq. specialize (Hpre (k :: q)). rewrite nested_get_node, E in Hpre. specialize (Hpre Hq).
          cbn in Hpre |- *. now rewrite String.eqb_refl in Hpre.
        * intros q Hq. specialize (Hpre2 (k :: q)). rewrite nested_get_node, E in Hpre2. specialize (Hpre2 Hq).
          cbn in Hpre2 |- *. now rewrite String.eqb_refl in Hpre2.
        * cbn in Hsn. apply andb_true_iff in Hsn as [_ Hsn]. now rewrite forallb_forall in Hsn.
        * rewrite H1. cbn [bind]. eexists. split; [reflexivity|]. split; [now apply Hdset|]. split.
          { apply Hdset2; [exact Hnem|]. apply Hnei; [|exact H3]. intros ->.
            specialize (H4 (k2 :: p)). destruct (list_eq_dec _ _ _); [discriminate H4|congruence]. }
          intros q. rewrite Hcase. destruct q as [|k' q].
          { destruct (list_eq_dec _ _ _); [discriminate|reflexivity]. }
          destruct (string_dec k' k) as [->|Hk].
          { rewrite H4. rewrite nested_get_node, E. destruct (list_eq_dec string_dec q (k2 :: p)) as [->|Hq];
              destruct (list_eq_dec string_dec _ _); congruence. }
          { destruct (list_eq_dec _ _ _); [congruence|reflexivity]. }
      + change (match p with [] => _ | _ :: _ => _ end) with (unflat_insert (@nil (string * nested V)) (k2 :: p) v).
        destruct (IH [] v) as (s' & H1 & H2 & H3 & H4); [discriminate|reflexivity| | | |].
        * intros [|q0 q]; cbn; congruence.
        * intros [|q0 q]; cbn; congruence.
        * intros kv [].
        * rewrite H1. cbn [bind]. eexists. split; [reflexivity|]. split; [now apply Hdset|]. split.
          { apply Hdset2; [exact Hnem|]. apply Hnei; [|exact H3]. intros ->.
            specialize (H4 (k2 :: p)). destruct (list_eq_dec _ _ _); [discriminate H4|congruence]. }
          intros q. rewrite Hcase. destruct q as [|k' q].
          { destruct (list_eq_dec _ _ _); [discriminate|reflexivity]. }
          destruct (string_dec k' k) as [->|Hk].
          { rewrite H4. rewrite nested_get_node, E. destruct (list_eq_dec string_dec q (k2 :: p)) as [->|Hq];
              destruct (list_eq_dec string_dec _ _); try congruence. destruct q; reflexivity. }
          { destruct (list_eq_dec _ _ _); [congruence|reflexivity]. }
  Qed.

  Lemma prefix_free_cons p (l : list path) : prefix_free (p :: l) = true ->
    p <> [] /\ (forall q, In q l -> prefixb p q = false /\ prefixb q p = false) /\ prefix_free l = true.
  Proof.
    cbn. rewrite !andb_true_iff, forallb_forall. intros [[H1 H2] H3]. split; [destruct p; [discriminate H1|discriminate]|].
    split; [|exact H3]. intros q Hq. specialize (H2 q Hq). apply andb_true_iff in H2 as [A B].
    split; now apply negb_true_iff.
  Qed.
  Lemma prefixb_refl p : prefixb p p = true.
  Proof. induction p; cbn; [reflexivity|]. now rewrite String.eqb_refl. Qed.
  Lemma prefix_free_nodup (l : list path) : prefix_free l = true -> NoDup l.
  Proof.
    induction l as [|p l IH]; intros H; [constructor|]. apply prefix_free_cons in H as (_ & H1 & H2).
    constructor; [|auto]. intros Hi. apply H1 in Hi as [Hi _]. now rewrite prefixb_refl in Hi.
  Qed.
  Lemma unflatten_steps (d : dict path V) : forall kvs,
    prefix_free (keys d) = true -> nested_ok (Node kvs) = true ->
    (forall kv, In kv kvs -> no_empty (snd kv) = true) ->
    (forall q p, nested_get (Node kvs) q <> None -> In p (keys d) -> prefixb q p = false /\ prefixb p q = false) ->
    exists kvs', foldM (fun r pv => unflat_insert r (fst pv) (snd pv)) kvs d = Ok kvs' /\
      nested_ok (Node kvs') = true /\ (forall kv, In kv kvs' -> no_empty (snd kv) = true) /\
      forall q, nested_get (Node kvs') q = match dget d q with Some v => Some v | None => nested_get (Node kvs) q end.
  Proof.
    induction d as [|[p v] d IH]; intros kvs Hf Ho Hne Hsep.
    - exists kvs. cbn. auto.
    - cbn [keys map fst] in Hf. apply prefix_free_cons in Hf as (Hp & Hpd & Hf).
      destruct (unflat_insert_spec p kvs v Hp Ho) as (k1 & H1 & H2 & H3 & H4); auto.
      { intros q Hq. apply (Hsep q p Hq). now left. }
      { intros q Hq. apply (Hsep q p Hq). now left. }
      destruct (IH k1 Hf H2 H3) as (k2 & H5 & H6 & H7 & H8).
      { intros q p' Hq Hp'. rewrite H4 in Hq. destruct (list_eq_dec string_dec q p) as [->|Hqp].
        - now apply Hpd.
        - apply Hsep; [exact Hq|now right]. }
      exists k2. cbn [foldM fst snd]. rewrite H1. cbn [bind]. split; [exact H5|]. split; [exact H6|]. split; [exact H7|].
      intros q. rewrite H8, H4. cbn [dget]. change (keq q p) with (list_eq_dec string_dec q p).
      destruct (list_eq_dec string_dec q p) as [->|Hqp]; [|reflexivity].
      assert (Hno : dget d p = None).
      { apply dget_None. intros Hi. apply Hpd in Hi as [Hi _]. now rewrite prefixb_refl in Hi. }
      now rewrite Hno.
  Qed.
  Lemma flatten_unflatten (d : dict path V) : prefix_free (keys d) = true ->
    exists kvs, unflatten_mapping d = Ok kvs /\ nested_ok (Node kvs) = true /\
      (forall q, nested_get (Node kvs) q = dget d q) /\
      (forall q, dget (flatten_mapping kvs) q = dget d q).
  Proof.
    intros H. destruct (unflatten_steps d [] H) as (kvs & H1 & H2 & _ & H4).
    - reflexivity.
    - intros kv [].
    - intros [|q0 q] p; cbn; congruence.
    - exists kvs. split; [exact H1|]. split; [exact H2|].
      assert (Hq : forall q, nested_get (Node kvs) q = dget d q).
      { intros q. rewrite H4. destruct (dget d q); [reflexivity|]. destruct q; reflexivity. }
      split; [exact Hq|]. intros q. rewrite flatten_mapping_get by exact H2. apply Hq.
  Qed.
End M.

(** ** join_mappings *)
Section Join.
  Context {K V : Type} {E : EqDec K}.
  Lemma join_inner_spec n (l : dict K V) : NoDup (keys l) -> forall r k,
    dget (fold_left (fun r kv => join_step r n kv) l r) k =
    match dget l k with
    | Some v => Some (dset (match dget r k with Some d => d | None => [] end) n v)
    | None => dget r k
    end.
  Proof.
    induction l as [|[k1 v1] l IH]; intros Hn r k; [reflexivity|]. inversion Hn as [|? ? Hk Hn']; subst.
    cbn [fold_left]. rewrite IH by exact Hn'. unfold join_step at 2. cbn [fst snd dget].
    unfold join_step. cbn [fst snd].
    destruct (keq k k1) as [->|Hkk].
    - assert (Hno : dget l k1 = None) by now apply dget_None. rewrite Hno. now rewrite dget_dset_eq.
    - rewrite dget_dset_ne by exact Hkk. reflexivity.
  Qed.
  Definition inner_of (fm : dict string (dict K V)) (k : K) : dict string V :=
    flat_map (fun nm => match dget (snd nm) k with Some v => [(fst nm, v)] | None => [] end) fm.
  Lemma keys_inner fm k n : In n (keys (inner_of fm k)) -> In n (keys fm).
  Proof.
    intros H. apply in_map_iff in H as ([n' v] & <- & H). apply in_flat_map in H as ([n2 m] & Hi & H). cbn in *.
    destruct (dget m k); [|destruct H]. destruct H as [H|[]]. injection H as <- <-. change n2 with (fst (n2, m)). now apply in_map.
  Qed.
  Lemma join_fold fm2 : forall fm1 r, NoDup (keys fm1 ++ keys fm2) ->
    Forall (fun nm => NoDup (keys (snd nm))) fm2 ->
    (forall k, dget r k = match inner_of fm1 k with [] => None | d => Some d end) ->
    forall k, dget (fold_left (fun r nm => fold_left (fun r kv => join_step r (fst nm) kv) (snd nm) r) fm2 r) k
    = match inner_of (fm1 ++ fm2) k with [] => None | d => Some d end.
  Proof.
    induction fm2 as [|[n m] fm2 IH]; intros fm1 r Hn Hf Hr k; [rewrite app_nil_r; apply Hr|].
    inversion Hf as [|? ? Hm Hf']; subst. cbn [snd] in Hm. cbn [fold_left fst snd].
    rewrite (IH (fm1 ++ [(n, m)])).
    { now rewrite <- app_assoc. }
    { unfold keys. rewrite map_app, <- app_assoc. exact Hn. }
    { exact Hf'. }
    { intros k'. rewrite join_inner_spec by exact Hm. rewrite Hr.
      assert (Hnn : ~ In n (keys fm1)). { cbn in Hn. apply NoDup_remove_2 in Hn. rewrite in_app_iff in Hn. tauto. }
      assert (Happ : inner_of (fm1 ++ [(n, m)]) k' = inner_of fm1 k' ++ match dget m k' with Some v => [(n, v)] | None => [] end).
      { unfold inner_of. rewrite flat_map_app. cbn. now rewrite app_nil_r. }
      rewrite Happ. destruct (dget m k') as [v|].
      + assert (Hd : dset (inner_of fm1 k') n v = inner_of fm1 k' ++ [(n, v)]).
        { apply dset_notin. intros Hi. apply keys_inner in Hi. contradiction. }
        destruct (inner_of fm1 k') as [|x l] eqn:Ei; [reflexivity|]. rewrite Hd. reflexivity.
      + rewrite app_nil_r. reflexivity. }
  Qed.
  Lemma join_spec (fm : dict string (dict K V)) : NoDup (keys fm) -> Forall (fun nm => NoDup (keys (snd nm))) fm ->
    forall k, dget (join_mappings fm) k = match inner_of fm k with [] => None | d => Some d end.
  Proof. intros Hn Hf k. apply (join_fold fm [] []); auto. Qed.

  (** the order of the keys: first occurrence *)
  Lemma keys_join_inner n (l : dict K V) : forall r,
    keys (fold_left (fun r kv => join_step r n kv) l r)
    = fold_left (fun ks k => if in_dec keq k ks then ks else ks ++ [k]) (keys l) (keys r).
  Proof.
    induction l as [|[k v] l IH]; intros r; [reflexivity|].
    change (keys ((k, v) :: l)) with (k :: keys l). cbn [fold_left]. rewrite IH. f_equal.
    unfold join_step. cbn [fst snd]. destruct (in_dec keq k (keys r)) as [i|i].
    - now rewrite keys_dset_in.
    - now rewrite keys_dset_notin.
  Qed.
  Lemma keys_join (fm : dict string (dict K V)) :
    keys (join_mappings fm)
    = fold_left (fun ks k => if in_dec keq k ks then ks else ks ++ [k]) (flat_map (fun nm => keys (snd nm)) fm) [].
  Proof.
    enough (H : forall r, keys (fold_left (fun r nm => fold_left (fun r kv => join_step r (fst nm) kv) (snd nm) r) fm r)
      = fold_left (fun ks k => if in_dec keq k ks then ks else ks ++ [k]) (flat_map (fun nm => keys (snd nm)) fm) (keys r))
      by exact (H []).
    induction fm as [|[n m] fm IH]; intros r; [reflexivity|]. cbn [fold_left flat_map fst snd].
    rewrite IH, fold_left_app, keys_join_inner. reflexivity.
  Qed.
End Join.
