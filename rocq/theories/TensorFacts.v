(** Basic facts about arrays (proofs only). *)
From Coq Require Import List Arith Bool Lia Eqdep_dec.
From Verif Require Import Base Tensor.
Import ListNotations.

Lemma tensor_eq A (t u : tensor A) : shp t = shp u -> dat t = dat u -> t = u.
Proof.
  destruct t as [s d w], u as [s' d' w']; simpl; intros -> ->.
  f_equal. apply (UIP_dec bool_dec).
Qed.

Lemma in_indices s : forall i, In i (indices s) <-> inb s i = true.
Proof.
  induction s as [|n s IH]; intros i; simpl.
  - destruct i; simpl; split; intros H; auto; try discriminate.
    destruct H as [H|[]]; discriminate.
  - rewrite in_flat_map. split.
    + intros [k [Hk Hi]]. apply in_map_iff in Hi as [j [<- Hj]].
      apply in_seq in Hk. apply IH in Hj. rewrite Hj, andb_true_r.
      apply Nat.ltb_lt. lia.
    + destruct i as [|k j]; [discriminate|]. intros H.
      apply andb_prop in H as [Hk Hj]. apply Nat.ltb_lt in Hk.
      exists k. split; [apply in_seq; lia|]. apply in_map. apply IH. exact Hj.
Qed.

Lemma map_seq_shift a b n : map (fun x => b + x) (seq a n) = seq (b + a) n.
Proof.
  revert a; induction n as [|n IH]; intros a; simpl; [reflexivity|].
  rewrite IH. f_equal. f_equal. lia.
Qed.

Lemma ravel_indices s : map (ravel s) (indices s) = seq 0 (prods s).
Proof.
  induction s as [|n s IH]; simpl; [reflexivity|].
  assert (H : forall a, map (ravel (n :: s)) (flat_map (fun k => map (cons k) (indices s)) (seq a n))
               = seq (a * prods s) (n * prods s)).
  { clear -IH. generalize n at 1 as m. intros m.
    induction n as [|n IHn]; intros a; simpl; [reflexivity|].
    rewrite map_app, map_map. cbn [ravel].
    rewrite <- (map_map (ravel s) (fun x => a * prods s + x)), IH, map_seq_shift.
    rewrite IHn. rewrite Nat.add_0_r.
    rewrite seq_app. f_equal. f_equal. lia. }
  apply H.
Qed.

Lemma ravel_lt s : forall i, inb s i = true -> ravel s i < prods s.
Proof.
  intros i Hi. apply in_indices in Hi.
  apply (in_map (ravel s)) in Hi. rewrite ravel_indices in Hi. apply in_seq in Hi. lia.
Qed.

Lemma nth_indices s : forall i d, inb s i = true -> nth (ravel s i) (indices s) d = i.
Proof.
  induction s as [|n s IH]; intros i d Hi; simpl in *.
  - destruct i; [reflexivity|discriminate].
  - destruct i as [|k j]; [discriminate|].
    apply andb_prop in Hi as [Hk Hj]. apply Nat.ltb_lt in Hk.
    assert (H : forall m a, k < m ->
      nth (k * prods s + ravel s j) (flat_map (fun x => map (cons x) (indices s)) (seq a m)) d
      = (a + k) :: j).
    { clear Hk. revert d IH Hj. generalize k as k'. induction k' as [|k' IHk]; intros d IH Hj m a Hm.
      - destruct m as [|m]; [lia|]. simpl.
        rewrite app_nth1.
        + rewrite (nth_indep _ d (a :: [])).
          * rewrite (map_nth (cons a)), (IH _ [] Hj). f_equal. lia.
          * rewrite map_length, length_indices. apply ravel_lt; exact Hj.
        + rewrite map_length, length_indices. apply ravel_lt; exact Hj.
      - destruct m as [|m]; [lia|]. cbn [seq flat_map].
        rewrite app_nth2; rewrite map_length, length_indices; [|simpl; lia].
        replace (S k' * prods s + ravel s j - prods s) with (k' * prods s + ravel s j) by (simpl; lia).
        rewrite IHk; auto; [|lia]. f_equal. lia. }
    rewrite H; auto.
Qed.

Section Facts.
  Context {A : Type} {DA : Dflt A}.
  Implicit Types (t u : tensor A).

  Lemma shp_tbuild s (f : index -> A) : shp (tbuild s f) = s.
  Proof. reflexivity. Qed.

  Lemma tget_tbuild s (f : index -> A) i : inb s i = true -> tget (tbuild s f) i = f i.
  Proof.
    intros H. unfold tget. simpl.
    rewrite (nth_indep _ dflt (f [])).
    - rewrite map_nth. rewrite nth_indices; auto.
    - rewrite map_length, length_indices. apply ravel_lt; exact H.
  Qed.

  Lemma tbuild_eta t : tbuild (shp t) (tget t) = t.
  Proof.
    apply tensor_eq; [reflexivity|]. simpl. unfold tget.
    rewrite <- (map_map (ravel (shp t)) (fun n => nth n (dat t) dflt)).
    rewrite ravel_indices.
    pose proof (twf t) as W. apply Nat.eqb_eq in W. rewrite <- W.
    generalize (dat t) as l. intros l. induction l as [|a l IH]; simpl; [reflexivity|].
    f_equal. rewrite <- seq_shift, map_map. exact IH.
  Qed.

  Lemma tensor_ext t u : shp t = shp u ->
    (forall i, inb (shp t) i = true -> tget t i = tget u i) -> t = u.
  Proof.
    intros Hs H. rewrite <- (tbuild_eta t), <- (tbuild_eta u), <- Hs.
    apply tensor_eq; [reflexivity|]. simpl. apply map_ext_in.
    intros i Hi. apply H. apply in_indices. exact Hi.
  Qed.

  Lemma tbuild_ext s (f g : index -> A) :
    (forall i, inb s i = true -> f i = g i) -> tbuild s f = tbuild s g.
  Proof.
    intros H. apply tensor_eq; [reflexivity|]. simpl. apply map_ext_in.
    intros i Hi. apply H. apply in_indices. exact Hi.
  Qed.
End Facts.

Lemma inb_length s : forall i, inb s i = true -> length i = length s.
Proof.
  induction s as [|n s IH]; intros [|k i]; simpl; try discriminate; auto.
  intros H; apply andb_prop in H as [_ H]. f_equal; auto.
Qed.

Lemma inb_app s1 : forall s2 i1 i2, length i1 = length s1 ->
  inb (s1 ++ s2) (i1 ++ i2) = inb s1 i1 && inb s2 i2.
Proof.
  induction s1 as [|n s1 IH]; intros s2 [|k i1] i2 Hl; simpl in *; try discriminate; auto.
  rewrite IH by lia. rewrite andb_assoc. reflexivity.
Qed.

Lemma inb_split s1 s2 i : inb (s1 ++ s2) i = true ->
  exists i1 i2, i = i1 ++ i2 /\ inb s1 i1 = true /\ inb s2 i2 = true.
Proof.
  revert i; induction s1 as [|n s1 IH]; intros i Hi; simpl in *.
  - exists [], i. auto.
  - destruct i as [|k i]; [discriminate|]. apply andb_prop in Hi as [Hk Hi].
    destruct (IH _ Hi) as (i1 & i2 & -> & H1 & H2).
    exists (k :: i1), i2. simpl. rewrite Hk, H1. auto.
Qed.

Lemma inb_snoc s n i : inb (s ++ [n]) i = true ->
  exists j k, i = j ++ [k] /\ inb s j = true /\ k < n.
Proof.
  intros H. destruct (inb_split _ _ _ H) as (j & k & -> & Hj & Hk).
  destruct k as [|k [|? ?]]; simpl in Hk; try discriminate.
  - apply andb_prop in Hk as [Hk _]. apply Nat.ltb_lt in Hk. exists j, k. auto.
  - rewrite andb_false_r in Hk. discriminate.
Qed.

Lemma inb_snoc_intro s n j k : inb s j = true -> k < n -> inb (s ++ [n]) (j ++ [k]) = true.
Proof.
  intros Hj Hk. rewrite inb_app by (apply inb_length; exact Hj). rewrite Hj. simpl.
  apply Nat.ltb_lt in Hk. rewrite Hk. reflexivity.
Qed.

Lemma last_snoc A (l : list A) a d : last (l ++ [a]) d = a.
Proof. apply last_last. Qed.
Lemma removelast_snoc A (l : list A) a : removelast (l ++ [a]) = l.
Proof. apply removelast_last. Qed.

Lemma bidx_id s : forall i, inb s i = true -> bidx s i = i.
Proof.
  intros i Hi. unfold bidx. rewrite (inb_length _ _ Hi), Nat.sub_diag. simpl.
  revert i Hi. induction s as [|n s IH]; intros [|k i]; simpl; try discriminate; auto.
  intros H; apply andb_prop in H as [Hk H]. rewrite IH; auto. f_equal.
  apply Nat.ltb_lt in Hk. destruct (Nat.eqb_spec n 1); lia.
Qed.

Lemma brev_same s : brev s s = Some s.
Proof. induction s as [|n s IH]; simpl; [reflexivity|]. rewrite IH, Nat.eqb_refl. reflexivity. Qed.
Lemma bshape_same s : bshape s s = Some s.
Proof. unfold bshape. rewrite brev_same. simpl. rewrite rev_involutive. reflexivity. Qed.
Lemma bshape_nil_l s : bshape [] s = Some s.
Proof. unfold bshape. simpl. rewrite rev_involutive. reflexivity. Qed.
Lemma bshape_nil_r s : bshape s [] = Some s.
Proof. unfold bshape. simpl. destruct (rev s) eqn:E; simpl; rewrite <- (rev_involutive s), E; reflexivity. Qed.
Lemma brev_comm a : forall b, brev a b = brev b a.
Proof.
  induction a as [|m a IH]; intros [|n b]; simpl; auto.
  rewrite IH. destruct (brev b a); auto.
  destruct (Nat.eqb_spec m n), (Nat.eqb_spec n m); subst; try lia; auto.
  destruct (Nat.eqb_spec m 1), (Nat.eqb_spec n 1); subst; try lia; auto.
Qed.
Lemma bshape_comm a b : bshape a b = bshape b a.
Proof. unfold bshape. rewrite brev_comm. reflexivity. Qed.
Lemma bidx_nil i : bidx [] i = [].
Proof. reflexivity. Qed.

Lemma tmap2_same A B C (DA : Dflt A) (DB : Dflt B) (f : A -> B -> C) t u : shp t = shp u ->
  tmap2 f t u = Ok (tbuild (shp t) (fun i => f (tget t i) (tget u i))).
Proof.
  intros H. unfold tmap2. rewrite <- H, bshape_same. f_equal.
  apply tensor_eq; [reflexivity|]. simpl. apply map_ext_in.
  intros i Hi. apply in_indices in Hi. rewrite bidx_id; auto.
Qed.
