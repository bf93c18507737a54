(** Facts about dictionaries, [mapM] and [foldM]. *)
From Coq Require Import String List Bool Arith Lia.
From Verif Require Import Base.
Import ListNotations.

Section DictFacts.
  Context {K V : Type} {E : EqDec K}.
  Implicit Types d l a b : dict K V.

  Lemma dget_dset_eq d k v : dget (dset d k v) k = Some v.
  Proof.
    induction d as [|[k' v'] d IH]; cbn [dset dget].
    - destruct (keq k k); congruence.
    - destruct (keq k k') as [<-|n]; cbn [dget].
      + destruct (keq k k); congruence.
      + destruct (keq k k'); [congruence|exact IH].
  Qed.
  Lemma dget_dset_ne d k k' v : k' <> k -> dget (dset d k v) k' = dget d k'.
  Proof.
    intros H. induction d as [|[k1 v1] d IH]; cbn [dset dget].
    - destruct (keq k' k); congruence.
    - destruct (keq k k1) as [<-|n]; cbn [dget].
      + destruct (keq k' k); congruence.
      + destruct (keq k' k1); [reflexivity|exact IH].
  Qed.
  Lemma dget_In d k v : dget d k = Some v -> In (k, v) d.
  Proof.
    induction d as [|[k1 v1] d IH]; cbn [dget]; [discriminate|].
    destruct (keq k k1) as [<-|n]; intros H; [injection H as <-; now left|right; auto].
  Qed.
  Lemma dget_None d k : dget d k = None <-> ~ In k (keys d).
  Proof.
    induction d as [|[k1 v1] d IH]; cbn; [tauto|].
    destruct (keq k k1) as [<-|n]; [split; [discriminate|intros H; exfalso; auto]|].
    rewrite IH. intuition congruence.
  Qed.
  Lemma In_dget d k v : NoDup (keys d) -> In (k, v) d -> dget d k = Some v.
  Proof.
    induction d as [|[k1 v1] d IH]; cbn; [tauto|]. intros Hn [H|H].
    - injection H as <- <-. destruct (keq k1 k1); congruence.
    - inversion Hn; subst. destruct (keq k k1) as [->|n]; [|auto].
      exfalso. apply H2. change k1 with (fst (k1, v)). now apply in_map.
  Qed.
  Lemma dset_notin d k v : ~ In k (keys d) -> dset d k v = d ++ [(k, v)].
  Proof.
    induction d as [|[k1 v1] d IH]; cbn; [reflexivity|]. intros H.
    destruct (keq k k1) as [<-|n]; [exfalso; auto|]. rewrite IH; [reflexivity|tauto].
  Qed.
  Lemma keys_dset_in d k v : In k (keys d) -> keys (dset d k v) = keys d.
  Proof.
    induction d as [|[k1 v1] d IH]; intros H; [destruct H|]. cbn [dset].
    destruct (keq k k1) as [e|n]; [reflexivity|]. cbn. f_equal. apply IH. destruct H; [cbn in *; congruence|assumption].
  Qed.
  Lemma keys_dset_notin d k v : ~ In k (keys d) -> keys (dset d k v) = keys d ++ [k].
  Proof. intros H. rewrite dset_notin by assumption. unfold keys. now rewrite map_app. Qed.
  Lemma In_keys_dset d k v k' : In k' (keys (dset d k v)) <-> k' = k \/ In k' (keys d).
  Proof.
    destruct (in_dec keq k (keys d)) as [i|i].
    - rewrite keys_dset_in by assumption. intuition congruence.
    - rewrite keys_dset_notin by assumption. rewrite in_app_iff; cbn. intuition congruence.
  Qed.
  Lemma NoDup_keys_dset d k v : NoDup (keys d) -> NoDup (keys (dset d k v)).
  Proof.
    intros H. destruct (in_dec keq k (keys d)) as [i|i]; [now rewrite keys_dset_in|].
    rewrite keys_dset_notin by assumption.
    apply NoDup_rev in H. rewrite <- (rev_involutive (keys d ++ [k])). apply NoDup_rev.
    rewrite rev_app_distr. cbn. constructor; [|exact H]. now rewrite <- in_rev.
  Qed.

  Lemma fold_dset_app l : forall d, NoDup (keys d ++ keys l) ->
    fold_left (fun d kv => dset d (fst kv) (snd kv)) l d = d ++ l.
  Proof.
    induction l as [|[k v] l IH]; intros d H; cbn [fold_left]; [now rewrite app_nil_r|].
    cbn [fst snd]. rewrite dset_notin.
    - rewrite IH.
      + now rewrite <- app_assoc.
      + unfold keys in *. rewrite map_app, <- app_assoc. exact H.
    - cbn in H. apply NoDup_remove_2 in H. rewrite in_app_iff in H. tauto.
  Qed.
  Lemma dict_of_nodup l : NoDup (keys l) -> dict_of l = l.
  Proof. intros H. unfold dict_of. now rewrite fold_dset_app. Qed.
  Lemma dupdate_disjoint a b : NoDup (keys a ++ keys b) -> dupdate a b = a ++ b.
  Proof. apply fold_dset_app. Qed.

  (** last assignment wins *)
  Lemma dget_fold_dset l : forall d k,
    dget (fold_left (fun d kv => dset d (fst kv) (snd kv)) l d) k
    = match dget (rev l) k with Some v => Some v | None => dget d k end.
  Proof.
    induction l as [|[k1 v1] l IH]; intros d k; cbn [fold_left]; [reflexivity|].
    rewrite IH. cbn [fst snd rev].
    assert (H : forall a b, dget (a ++ b) k = match dget a k with Some v => Some v | None => dget b k end).
    { induction a as [|[ka va] a IHa]; intros b; cbn; [reflexivity|]. destruct (keq k ka); auto. }
    rewrite H. destruct (dget (rev l) k); [reflexivity|]. cbn [dget].
    destruct (keq k k1) as [<-|n]; [apply dget_dset_eq|now apply dget_dset_ne].
  Qed.
  Lemma NoDup_keys_fold_dset l : forall d, NoDup (keys d) ->
    NoDup (keys (fold_left (fun d kv => dset d (fst kv) (snd kv)) l d)).
  Proof. induction l as [|x l IH]; intros d H; cbn; [exact H|]. apply IH. now apply NoDup_keys_dset. Qed.
  Lemma NoDup_keys_dict_of l : NoDup (keys (dict_of l)).
  Proof. apply NoDup_keys_fold_dset. constructor. Qed.
  Lemma dget_app a b k :
    dget (a ++ b) k = match dget a k with Some v => Some v | None => dget b k end.
  Proof. induction a as [|[ka va] a IHa]; cbn; [reflexivity|]. destruct (keq k ka); auto. Qed.

  (** two dicts with the same duplicate-free keys and the same contents are equal *)
  Lemma dict_ext a : forall b, keys a = keys b -> NoDup (keys a) ->
    (forall k, dget a k = dget b k) -> a = b.
  Proof.
    induction a as [|[k v] a IH]; intros [|[k' v'] b] Hk Hn He; cbn in *; try discriminate; [reflexivity|].
    injection Hk as <- Hk. inversion Hn; subst.
    pose proof (He k) as H. destruct (keq k k) as [_|n]; [|congruence]. injection H as <-. f_equal.
    apply IH; [exact Hk|assumption|]. intros k'. pose proof (He k') as H'.
    destruct (keq k' k) as [->|n]; [|exact H'].
    transitivity (@None V); [|symmetry]; apply dget_None; [assumption|unfold keys; rewrite <- Hk; assumption].
  Qed.
End DictFacts.

Section MapM.
  Context {A B : Type}.
  Lemma mapM_Ok (f : A -> result B) (g : A -> B) l :
    (forall a, In a l -> f a = Ok (g a)) -> mapM f l = Ok (map g l).
  Proof.
    induction l as [|a l IH]; intros H; cbn; [reflexivity|].
    rewrite (H a (or_introl eq_refl)). cbn. rewrite IH; [reflexivity|]. intros; apply H; now right.
  Qed.
  Lemma mapM_Forall2 (f : A -> result B) l r : mapM f l = Ok r <-> Forall2 (fun a b => f a = Ok b) l r.
  Proof.
    revert r. induction l as [|a l IH]; intros r; cbn; split; intros H.
    - injection H as <-. constructor.
    - now inversion H.
    - destruct (f a) as [b|e] eqn:Ha; cbn in H; [|discriminate].
      destruct (mapM f l) as [bs|e] eqn:Hl; cbn in H; [|discriminate].
      injection H as <-. constructor; [assumption|]. now apply IH.
    - inversion H; subst. rewrite H2. cbn. apply IH in H4. rewrite H4. reflexivity.
  Qed.
  Lemma mapM_length (f : A -> result B) l r : mapM f l = Ok r -> length r = length l.
  Proof. intros H. apply mapM_Forall2 in H. induction H; cbn; lia. Qed.
  Lemma mapM_ext (f g : A -> result B) l : (forall a, In a l -> f a = g a) -> mapM f l = mapM g l.
  Proof.
    induction l as [|a l IH]; intros H; cbn; [reflexivity|].
    rewrite (H a (or_introl eq_refl)), IH; [reflexivity|]. intros; apply H; now right.
  Qed.
  Lemma mapM_app (f : A -> result B) l1 l2 :
    mapM f (l1 ++ l2) = let* a := mapM f l1 in let* b := mapM f l2 in Ok (a ++ b).
  Proof.
    induction l1 as [|a l IH]; cbn; [destruct (mapM f l2); reflexivity|].
    destruct (f a); cbn; [|reflexivity]. rewrite IH. destruct (mapM f l); cbn; [|reflexivity].
    destruct (mapM f l2); reflexivity.
  Qed.
End MapM.
Lemma mapM_map {A B C} (f : B -> result C) (g : A -> B) l : mapM f (map g l) = mapM (fun a => f (g a)) l.
Proof. induction l as [|a l IH]; cbn; [reflexivity|]. now rewrite IH. Qed.
Lemma rmap_mapM {A B C} (f : A -> result B) (g : B -> C) l :
  rmap (map g) (mapM f l) = mapM (fun a => rmap g (f a)) l.
Proof.
  induction l as [|a l IH]; cbn; [reflexivity|]. rewrite <- IH.
  destruct (f a); cbn; [|reflexivity]. destruct (mapM f l); reflexivity.
Qed.
Lemma foldM_app {A S} (f : S -> A -> result S) s l1 l2 :
  foldM f s (l1 ++ l2) = let* s' := foldM f s l1 in foldM f s' l2.
Proof.
  revert s. induction l1 as [|a l IH]; intros s; cbn; [reflexivity|].
  destruct (f s a); cbn; auto.
Qed.
Lemma zip_strict_Ok {A B} (l : list A) : forall (m : list B), length l = length m -> zip_strict l m = Ok (combine l m).
Proof.
  induction l as [|a l IH]; intros [|b m] H; cbn in *; try discriminate; [reflexivity|].
  rewrite IH by lia. reflexivity.
Qed.
Lemma zip_strict_Err {A B} (l : list A) : forall (m : list B), length l <> length m -> zip_strict l m = Err ValueError.
Proof.
  induction l as [|a l IH]; intros [|b m] H; cbn in *; try reflexivity; [lia|].
  rewrite IH by lia. reflexivity.
Qed.
Lemma bind_Ok {A B} (x : result A) (f : A -> result B) b :
  bind x f = Ok b -> exists a, x = Ok a /\ f a = Ok b.
Proof. destruct x as [a|e]; cbn; [eauto|discriminate]. Qed.
Lemma rmap_Ok {A B} (f : A -> B) (x : result A) b : rmap f x = Ok b -> exists a, x = Ok a /\ b = f a.
Proof. destruct x as [a|e]; cbn; [intros H; injection H as <-; eauto|discriminate]. Qed.
Lemma bind_rmap {A B C} (f : A -> B) (x : result A) (g : B -> result C) :
  bind (rmap f x) g = bind x (fun a => g (f a)).
Proof. now destruct x. Qed.
Lemma keys_combine {K V} (l : list K) : forall (m : list V), length l = length m -> keys (combine l m) = l.
Proof. induction l as [|a l IH]; intros [|b m] H; cbn in *; try discriminate; [reflexivity|]. f_equal. apply IH. lia. Qed.
Lemma combine_keys_values {K V} (d : dict K V) : combine (keys d) (values d) = d.
Proof. induction d as [|[k v] d IH]; [reflexivity|]. cbn. f_equal. exact IH. Qed.
