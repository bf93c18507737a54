(** Structural lemmas: parameters, create, assemble. *)
From Coq Require Import String List Bool Arith Lia.
From Verif Require Import Base XReal Tensor Support Dist DictFacts Iteration Structure Spec.
Import ListNotations.

(** ** Induction over distribution trees *)
Lemma dist_rect' (P : dist -> Prop)
  (H : forall c m ps subs, Forall (fun ns => P (snd ns)) subs -> P (Dist c m ps subs)) :
  forall d, P d.
Proof.
  fix IH 1. intros [c m ps subs]. apply H.
  induction subs as [|[n s] subs IHs]; constructor; [apply IH|exact IHs].
Qed.

Lemma list_eqb_eq {A} (eqb : A -> A -> bool) (He : forall a b, eqb a b = true <-> a = b) l :
  forall m, list_eqb eqb l m = true <-> l = m.
Proof.
  induction l as [|a l IH]; intros [|b m]; cbn; try (split; congruence).
  rewrite andb_true_iff, He, IH. split; [intros [-> ->]; reflexivity|intros H; injection H; auto].
Qed.
Lemma shape_eqb_eq s t : shape_eqb s t = true <-> s = t.
Proof. apply list_eqb_eq. intros; apply Nat.eqb_eq. Qed.
Lemma nodupb_NoDup l : nodupb l = true <-> NoDup l.
Proof.
  induction l as [|a l IH]; cbn; [split; [constructor|reflexivity]|].
  rewrite andb_true_iff, negb_true_iff, IH. split.
  - intros [H1 H2]. constructor; [|exact H2]. intros Hi.
    assert (existsb (String.eqb a) l = true) by (apply existsb_exists; exists a; split; [exact Hi|apply String.eqb_refl]). congruence.
  - intros H. inversion H as [|x y Ha Hl]; subst. split; [|exact Hl].
    destruct (existsb _ l) eqn:E; [|reflexivity]. apply existsb_exists in E as (x & Hx & He).
    apply String.eqb_eq in He; subst; contradiction.
Qed.

Lemma wf_inv c m ps subs : well_formed (Dist c m ps subs) = true ->
  map fst ps = map fd_name (fields c) /\
  (is_joint c = true -> subs <> [] /\ NoDup (map fst subs)) /\
  (is_joint c = false -> subs = []) /\
  Forall (fun ns => well_formed (snd ns) = true) subs.
Proof.
  cbn. rewrite !andb_true_iff. intros [[H1 H2] H3].
  apply (list_eqb_eq String.eqb String.eqb_eq) in H1. split; [exact H1|].
  rewrite Forall_forall. rewrite forallb_forall in H3.
  destruct (is_joint c).
  - apply andb_true_iff in H2 as [H2 H4]. apply nodupb_NoDup in H4. repeat split; auto; try discriminate.
    destruct subs; [discriminate H2|discriminate].
  - repeat split; auto; try discriminate. intros _. destruct subs; [reflexivity|discriminate H2].
Qed.

Lemma nodup_fields c : NoDup (map fd_name (fields c)).
Proof.
  apply nodupb_NoDup. destruct c as [[]|[]| | | | | | |]; reflexivity.
Qed.
Lemma joint_no_fields c : is_joint c = true -> fields c = [].
Proof. destruct c; cbn; congruence. Qed.
Lemma simple_fields c : is_joint c = false -> fields c <> [].
Proof. destruct c as [[]|[]| | | | | | |]; cbn; congruence. Qed.

(** ** Unfolding the nested recursions *)
Lemma param_items_unfold fx base c m ps subs :
  param_items fx base (Dist c m ps subs) =
  let* own := own_params fx c ps in
  let* rest := mapM (fun ns => param_items fx (base ++ [fst ns]) (snd ns)) subs in
  Ok (map (fun nv => (base ++ [fst nv], snd nv)) own ++ concat rest).
Proof.
  cbn [param_items]. destruct (own_params fx c ps) as [own|e]; [|reflexivity]. cbn [bind].
  match goal with |- bind (?g subs) _ = _ =>
    assert (H : forall l, g l = rmap (@concat _) (mapM (fun ns => param_items fx (base ++ [fst ns]) (snd ns)) l))
  end.
  { induction l as [|[n s] l IH]; [reflexivity|]. rewrite IH. cbn [mapM fst snd].
    destruct (param_items fx (base ++ [n]) s); cbn [bind rmap]; [|reflexivity].
    destruct (mapM _ l); reflexivity. }
  rewrite H. destruct (mapM _ subs); reflexivity.
Qed.
Lemma walk_unfold {T} (f : dist -> path -> result T) c m ps subs base :
  walk f (Dist c m ps subs) base =
  let* rest := mapM (fun ns => walk f (snd ns) (base ++ [fst ns])) subs in
  let* x := f (Dist c m ps subs) base in
  Ok (concat rest ++ [x]).
Proof.
  cbn [walk].
  match goal with |- bind (?g subs) _ = _ =>
    assert (H : forall l, g l = rmap (@concat _) (mapM (fun ns => walk f (snd ns) (base ++ [fst ns])) l))
  end.
  { induction l as [|[n s] l IH]; [reflexivity|]. rewrite IH. cbn [mapM fst snd].
    destruct (walk f s (base ++ [n])); cbn [bind rmap]; [|reflexivity].
    destruct (mapM _ l); reflexivity. }
  rewrite H. destruct (mapM _ subs); reflexivity.
Qed.

(** ** parameters *)
Definition own_spec (fx : option bool) (c : cls) (ps : dict string arr) (dflt : arr)
  : list (string * (arr * support)) :=
  map (fun f => (fd_name f, (match dget ps (fd_name f) with Some a => a | None => dflt end, fd_support f)))
      (filter (fixed_ok fx) (fields c)).

Lemma dget_combine_ok (ps : dict string arr) n : In n (map fst ps) -> exists v, dget ps n = Some v.
Proof.
  intros H. destruct (dget ps n) eqn:E; [eauto|]. apply dget_None in E. contradiction.
Qed.
Lemma own_params_ok fx c ps : map fst ps = map fd_name (fields c) ->
  exists own, own_params fx c ps = Ok own /\
    map fst own = map fd_name (filter (fixed_ok fx) (fields c)) /\
    Forall2 (fun f nv => fd_name f = fst nv /\ dget ps (fd_name f) = Some (fst (snd nv)) /\ snd (snd nv) = fd_support f)
            (filter (fixed_ok fx) (fields c)) own.
Proof.
  intros H. unfold own_params.
  assert (Hs : forall f, In f (filter (fixed_ok fx) (fields c)) -> In (fd_name f) (map fst ps)).
  { intros f Hf. rewrite H. apply in_map. now apply filter_In in Hf. }
  revert Hs. generalize (filter (fixed_ok fx) (fields c)) as fs. induction fs as [|f fs IH]; intros Hs.
  - exists []. repeat split; constructor.
  - destruct (dget_combine_ok ps (fd_name f)) as [v Hv]; [apply Hs; now left|].
    destruct IH as (own & H1 & H2 & H3); [intros; apply Hs; now right|].
    exists ((fd_name f, (v, fd_support f)) :: own). cbn [mapM]. rewrite Hv. cbn [opt_err bind].
    rewrite H1. cbn [bind]. split; [reflexivity|]. split; [cbn; now rewrite H2|].
    constructor; [|exact H3]. cbn. auto.
Qed.

Lemma NoDup_app_intro {A} (l m : list A) : NoDup l -> NoDup m -> (forall a, In a l -> In a m -> False) -> NoDup (l ++ m).
Proof.
  induction l as [|a l IH]; intros Hl Hm H; [exact Hm|]. inversion Hl; subst. cbn. constructor.
  - rewrite in_app_iff. intros [Hi|Hi]; [contradiction|]. apply (H a); cbn; auto.
  - apply IH; auto. intros b Hb Hb'. apply (H b); cbn; auto.
Qed.

(** prefix order on paths *)
Definition is_prefix (b k : path) : Prop := exists r, k = b ++ r.
Lemma prefix_refl b : is_prefix b b.
Proof. exists []. now rewrite app_nil_r. Qed.
Lemma prefix_snoc b n k : is_prefix (b ++ [n]) k -> is_prefix b k.
Proof. intros [r ->]. exists ([n] ++ r). now rewrite app_assoc. Qed.
Lemma prefix_sib b n1 n2 k : is_prefix (b ++ [n1]) k -> is_prefix (b ++ [n2]) k -> n1 = n2.
Proof.
  intros [r1 ->] [r2 H]. rewrite <- !app_assoc in H. apply app_inv_head in H. cbn in H. congruence.
Qed.
Lemma prefix_child_ne b n : ~ is_prefix (b ++ [n]) b.
Proof. intros [r H]. apply (f_equal (@length _)) in H. rewrite !app_length in H. cbn in H. lia. Qed.

Lemma mapM_exists {A B} (f : A -> result B) l : (forall a, In a l -> exists b, f a = Ok b) -> exists r, mapM f l = Ok r.
Proof.
  induction l as [|a l IH]; intros H; [now exists []|].
  destruct (H a (or_introl eq_refl)) as [b Hb]. destruct IH as [r Hr]; [intros; apply H; now right|].
  exists (b :: r). cbn. rewrite Hb. cbn. rewrite Hr. reflexivity.
Qed.

Lemma Forall2_in_l {A B} (R : A -> B -> Prop) l m a : Forall2 R l m -> In a l -> exists b, In b m /\ R a b.
Proof. induction 1 as [|x y l m Hxy H IH]; [intros []|]. intros [->|Hi]; [exists y; cbn; auto|]. destruct (IH Hi) as (b & ? & ?). exists b; cbn; auto. Qed.
Lemma Forall2_in_r {A B} (R : A -> B -> Prop) l m b : Forall2 R l m -> In b m -> exists a, In a l /\ R a b.
Proof. induction 1 as [|x y l m Hxy H IH]; [intros []|]. intros [->|Hi]; [exists x; cbn; auto|]. destruct (IH Hi) as (a & ? & ?). exists a; cbn; auto. Qed.

Lemma param_items_ok fx d : forall base, well_formed d = true ->
  exists items, param_items fx base d = Ok items /\ NoDup (keys items) /\
    Forall (fun kv => is_prefix base (fst kv) /\ base <> fst kv) items.
Proof.
  induction d as [c m ps subs IH] using dist_rect'. intros base Hwf.
  apply wf_inv in Hwf as (Hps & Hj & Hs & Hsub). rewrite param_items_unfold.
  destruct (own_params_ok fx c ps Hps) as (own & Ho & Hnames & Hf2). rewrite Ho. cbn [bind].
  destruct (is_joint c) eqn:Ej.
  - unfold own_params in Ho. rewrite (joint_no_fields c Ej) in *. cbn in Ho. injection Ho as <-. cbn [map app].
    destruct (Hj eq_refl) as [_ Hnd]. clear Hj Hs Hps Hnames Hf2.
    induction subs as [|[n s] subs IHs].
    + exists []. repeat split; constructor.
    + inversion IH as [|? ? Hn IH']; subst. inversion Hsub as [|? ? Hw Hsub']; subst.
      inversion Hnd as [|? ? Hnn Hnd']; subst. cbn [snd] in *.
      destruct (Hn (base ++ [n]) Hw) as (it & H1 & H2 & H3).
      destruct (IHs IH' Hsub' Hnd') as (its & H4 & H5 & H6).
      cbn [mapM fst snd]. rewrite H1. cbn [bind].
      destruct (mapM _ subs) as [rest|] eqn:Em; [|discriminate]. cbn [bind] in *. injection H4 as <-.
      exists (it ++ concat rest). split; [reflexivity|]. split.
      * unfold keys. rewrite map_app. apply NoDup_app_intro; [exact H2|exact H5|].
        intros k Hk1 Hk2. apply in_map_iff in Hk1 as ([k1 v1] & <- & Hk1). apply in_map_iff in Hk2 as ([k2 v2] & He & Hk2).
        cbn [fst] in *. subst k2.
        rewrite Forall_forall in H3. pose proof (H3 _ Hk1) as [Hp _]. cbn in Hp.
        apply in_concat in Hk2 as (l2 & Hl2 & Hk2).
        apply mapM_Forall2 in Em. destruct (Forall2_in_r _ _ _ _ Em Hl2) as ([n2 s2] & Hi2 & He2). cbn [fst snd] in He2.
        assert (Hw2 : well_formed s2 = true) by (rewrite Forall_forall in Hsub'; apply (Hsub' _ Hi2)).
        assert (Hs2 := IH'). rewrite Forall_forall in Hs2. specialize (Hs2 _ Hi2 (base ++ [n2]) Hw2). cbn [snd] in Hs2.
        destruct Hs2 as (it2 & Hi2' & _ & Hf). rewrite He2 in Hi2'. injection Hi2' as <-.
        rewrite Forall_forall in Hf. specialize (Hf _ Hk2) as [Hp2 _]. cbn in Hp2.
        pose proof (prefix_sib _ _ _ _ Hp Hp2). subst n2. apply Hnn. change n with (fst (n, s2)). now apply in_map.
      * apply Forall_app. split; [|exact H6]. eapply Forall_impl; [|exact H3]. cbn. intros [k v]. cbn.
        intros [Hp Hn']. split; [now apply prefix_snoc in Hp|]. intros <-. now apply prefix_child_ne in Hp.
  - rewrite (Hs eq_refl). cbn [mapM bind concat]. rewrite app_nil_r.
    eexists. split; [reflexivity|]. split.
    + unfold keys. rewrite map_map. cbn [fst].
      assert (Hnd : NoDup (map fst own)).
      { rewrite Hnames. pose proof (nodup_fields c) as Hn. clear -Hn. induction (fields c) as [|f l IHl]; cbn in *; [constructor|].
        inversion Hn; subst. destruct (fixed_ok fx f); cbn; [constructor|]; auto.
        intros Hi. apply H1. apply in_map_iff in Hi as (g & <- & Hg). apply in_map. now apply filter_In in Hg. }
      revert Hnd. clear. induction own as [|[n v] own IHo]; cbn; intros H; [constructor|]. inversion H; subst.
      constructor; [|auto]. intros Hi. apply in_map_iff in Hi as ([n2 v2] & He & Hi). cbn in He.
      apply app_inv_head in He. injection He as ->. apply H2. change n with (fst (n, v2)). now apply in_map.
    + apply Forall_map. apply Forall_forall. intros [n v] _. cbn. split; [now exists [n]|].
      intros H. apply (f_equal (@length _)) in H. rewrite app_length in H. cbn in H. lia.
Qed.
