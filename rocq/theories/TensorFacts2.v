(** Facts about slicing, appending, new axes, reshaping. *)
From Coq Require Import List Arith Bool Lia.
From Verif Require Import Base Tensor TensorFacts.
Import ListNotations.

Section F.
  Context {A : Type} {DA : Dflt A}.
  Implicit Types t u c : tensor A.

  Lemma shp_tmap {B} (f : A -> B) t : shp (tmap f t) = shp t.
  Proof. reflexivity. Qed.
  Lemma tget_tmap {B} {DB : Dflt B} (f : A -> B) t i : inb (shp t) i = true -> tget (tmap f t) i = f (tget t i).
  Proof. intros H. unfold tmap. now rewrite tget_tbuild. Qed.
  Lemma tmap_id (f : A -> A) t : (forall i, inb (shp t) i = true -> f (tget t i) = tget t i) -> tmap f t = t.
  Proof. intros H. unfold tmap. transitivity (tbuild (shp t) (tget t)); [now apply tbuild_ext|apply tbuild_eta]. Qed.
  Lemma tmap_tmap {B C} {DB : Dflt B} (f : A -> B) (g : B -> C) t : tmap g (tmap f t) = tmap (fun a => g (f a)) t.
  Proof. unfold tmap at 1. cbn [shp tmap tbuild]. apply tbuild_ext. intros i Hi. now rewrite tget_tmap. Qed.
  Lemma tmap_ext {B} (f g : A -> B) t : (forall i, inb (shp t) i = true -> f (tget t i) = g (tget t i)) -> tmap f t = tmap g t.
  Proof. intros H. now apply tbuild_ext. Qed.

  Lemma tbuild_is t s f : shp t = s -> (forall i, inb s i = true -> f i = tget t i) -> tbuild s f = t.
  Proof. intros <- H. transitivity (tbuild (shp t) (tget t)); [now apply tbuild_ext|apply tbuild_eta]. Qed.

  Lemma last_dim_snoc b n : last_dim (b ++ [n]) = Some n.
  Proof. unfold last_dim. now rewrite rev_app_distr. Qed.
  Lemma last_dim_inv s n : last_dim s = Some n -> exists b, s = b ++ [n].
  Proof.
    unfold last_dim. intros H. destruct (rev s) as [|m r] eqn:E; [discriminate|]. injection H as ->.
    exists (rev r). rewrite <- (rev_involutive s), E. reflexivity.
  Qed.

  Lemma tslice_spec b n a e c : shp c = b ++ [n] -> a <= e <= n ->
    tslice a e c = tbuild (b ++ [e - a]) (fun i => tget c (removelast i ++ [a + last i 0])).
  Proof.
    intros Hs H. unfold tslice. rewrite Hs, last_snoc, removelast_snoc.
    rewrite !Nat.min_l by lia. reflexivity.
  Qed.
  Lemma shp_tslice b n a e c : shp c = b ++ [n] -> a <= e <= n -> shp (tslice a e c) = b ++ [e - a].
  Proof. intros Hs H. now rewrite (tslice_spec b n). Qed.
  Lemma tget_tslice b n a e c i k : shp c = b ++ [n] -> a <= e <= n -> inb b i = true -> k < e - a ->
    tget (tslice a e c) (i ++ [k]) = tget c (i ++ [a + k]).
  Proof.
    intros Hs H Hi Hk. rewrite (tslice_spec b n) by assumption. rewrite tget_tbuild by now apply inb_snoc_intro.
    now rewrite removelast_snoc, last_snoc.
  Qed.
  Lemma tslice_full b n c : shp c = b ++ [n] -> tslice 0 n c = c.
  Proof.
    intros Hs. rewrite (tslice_spec b n) by (auto; lia). rewrite Nat.sub_0_r.
    apply tbuild_is; [exact Hs|]. intros i Hi. destruct (inb_snoc _ _ _ Hi) as (j & k & -> & Hj & Hk).
    now rewrite removelast_snoc, last_snoc.
  Qed.
  Lemma tslice_tslice b n a e a' e' c : shp c = b ++ [n] -> a <= e <= n -> a' <= e' <= e - a ->
    tslice a' e' (tslice a e c) = tslice (a + a') (a + e') c.
  Proof.
    intros Hs H H'. assert (Hs' := shp_tslice b n a e c Hs H).
    rewrite (tslice_spec b (e - a)) by (auto; lia). rewrite (tslice_spec b n (a + a') (a + e') c) by (auto; lia).
    replace (a + e' - (a + a')) with (e' - a') by lia.
    apply tbuild_ext. intros i Hi. destruct (inb_snoc _ _ _ Hi) as (j & k & -> & Hj & Hk).
    rewrite removelast_snoc, last_snoc. rewrite (tget_tslice b n) by (auto; lia). do 2 f_equal. f_equal. lia.
  Qed.

  Lemma tappend_ok b m n t u : shp t = b ++ [m] -> shp u = b ++ [n] ->
    tappend t u = Ok (tbuild (b ++ [m + n]) (fun i => if last i 0 <? m then tget t i else tget u (removelast i ++ [last i 0 - m]))).
  Proof.
    intros Ht Hu. unfold tappend. rewrite Ht, Hu, !last_snoc, !removelast_snoc.
    destruct (list_eq_dec Nat.eq_dec b b); [|congruence]. destruct b; reflexivity.
  Qed.
  Lemma tappend_slices b m n t u : shp t = b ++ [m] -> shp u = b ++ [n] ->
    exists c, tappend t u = Ok c /\ shp c = b ++ [m + n] /\ tslice 0 m c = t /\ tslice m (m + n) c = u.
  Proof.
    intros Ht Hu. eexists. split; [exact (tappend_ok b m n t u Ht Hu)|]. split; [reflexivity|]. split.
    - rewrite (tslice_spec b (m + n)) by (auto; lia). rewrite Nat.sub_0_r.
      apply tbuild_is; [exact Ht|]. intros i Hi. destruct (inb_snoc _ _ _ Hi) as (j & k & -> & Hj & Hk).
      rewrite removelast_snoc, last_snoc. cbn [plus]. rewrite tget_tbuild by (apply inb_snoc_intro; [auto|lia]).
      rewrite last_snoc. destruct (Nat.ltb_spec k m); [reflexivity|lia].
    - rewrite (tslice_spec b (m + n)) by (auto; lia). replace (m + n - m) with n by lia.
      apply tbuild_is; [exact Hu|]. intros i Hi. destruct (inb_snoc _ _ _ Hi) as (j & k & -> & Hj & Hk).
      rewrite removelast_snoc, last_snoc. rewrite tget_tbuild by (apply inb_snoc_intro; [auto|lia]).
      rewrite last_snoc, removelast_snoc. destruct (Nat.ltb_spec (m + k) m); [lia|]. do 2 f_equal. f_equal. lia.
  Qed.
  (** appending the two halves gives the whole *)
  Lemma tappend_halves b m n c : shp c = b ++ [m + n] -> tappend (tslice 0 m c) (tslice m (m + n) c) = Ok c.
  Proof.
    intros Hs. rewrite (tappend_ok b m n).
    - f_equal. apply tbuild_is; [exact Hs|]. intros i Hi.
      destruct (inb_snoc _ _ _ Hi) as (j & k & -> & Hj & Hk). rewrite removelast_snoc, last_snoc.
      destruct (Nat.ltb_spec k m).
      + now rewrite (tget_tslice b (m + n)) by (auto; lia).
      + rewrite (tget_tslice b (m + n)) by (auto; lia). do 2 f_equal. f_equal. lia.
    - rewrite (shp_tslice b (m + n)) by (auto; lia). now rewrite Nat.sub_0_r.
    - rewrite (shp_tslice b (m + n)) by (auto; lia). do 2 f_equal. lia.
  Qed.

  Lemma tlast_newaxis t : tlast 0 (tnewaxis t) = t.
  Proof.
    unfold tlast, tnewaxis. rewrite shp_tbuild, removelast_snoc. apply tbuild_is; [reflexivity|]. intros i Hi. rewrite tget_tbuild by (apply inb_snoc_intro; [auto|lia]).
    now rewrite removelast_snoc.
  Qed.
  Lemma tnewaxis_last b t : shp t = b ++ [1] -> tnewaxis (tlast 0 t) = t.
  Proof.
    intros Hs. unfold tnewaxis, tlast. rewrite shp_tbuild, Hs, removelast_snoc.
    apply tbuild_is; [exact Hs|]. intros i Hi.
    destruct (inb_snoc _ _ _ Hi) as (j & k & -> & Hj & Hk). rewrite removelast_snoc, tget_tbuild by auto.
    now replace k with 0 by lia.
  Qed.
  Lemma treshape_ok s t : prods s = prods (shp t) -> exists u, treshape s t = Ok u /\ shp u = s /\ dat u = dat t.
  Proof.
    intros H. unfold treshape. destruct (Bool.bool_dec _ _) as [e|e].
    - eexists. repeat split.
    - exfalso. apply e. rewrite H. apply twf.
  Qed.
  Lemma treshape_back s t u : treshape s t = Ok u -> treshape (shp t) u = Ok t.
  Proof.
    intros H. unfold treshape in H. destruct (Bool.bool_dec _ _) as [e|e]; [|discriminate]. injection H as <-.
    unfold treshape. cbn [dat]. destruct (Bool.bool_dec _ _) as [e'|e'].
    - f_equal. now apply tensor_eq.
    - exfalso. apply e'. apply twf.
  Qed.
  Lemma prods_app s1 s2 : prods (s1 ++ s2) = prods s1 * prods s2.
  Proof. induction s1 as [|n s1 IH]; cbn; [lia|]. rewrite IH. lia. Qed.
End F.

(** ** concatenation of a list of arrays along the last axis *)
Section Cat.
  Context {A : Type} {DA : Dflt A}.
  (** [holds_at c off ts]: the arrays ts are the consecutive slices of c starting at off *)
  Fixpoint holds_at (b : list nat) (c : tensor A) (off : nat) (ts : list (tensor A * nat)) : Prop :=
    match ts with
    | [] => True
    | (t, n) :: ts' => shp t = b ++ [n] /\ tslice off (off + n) c = t /\ holds_at b c (off + n) ts'
    end.
  Definition total (ts : list (tensor A * nat)) : nat := list_sum (map snd ts).
  Lemma total_cons t n ts : total ((t, n) :: ts) = n + total ts.
  Proof. reflexivity. Qed.
  Lemma holds_at_app b c ts1 : forall off ts2,
    holds_at b c off (ts1 ++ ts2) <-> holds_at b c off ts1 /\ holds_at b c (off + total ts1) ts2.
  Proof.
    induction ts1 as [|[t n] ts1 IH]; intros off ts2; cbn [app holds_at].
    - unfold total; cbn. rewrite Nat.add_0_r. tauto.
    - rewrite IH. replace (off + total ((t, n) :: ts1)) with (off + n + total ts1) by (rewrite total_cons; lia). tauto.
  Qed.
  Lemma holds_extend b (c u : tensor A) m n (c' : tensor A) ts : shp c = b ++ [m] -> shp u = b ++ [n] -> tslice 0 m c' = c ->
    shp c' = b ++ [m + n] -> forall off, off + total ts <= m -> holds_at b c off ts -> holds_at b c' off ts.
  Proof.
    intros Hc Hu Hs Hc'. induction ts as [|[t k] ts IH]; intros off Ho H; [exact I|].
    rewrite total_cons in Ho. destruct H as (H1 & H2 & H3). cbn. split; [exact H1|]. split.
    - rewrite <- H2. rewrite <- Hs. rewrite (tslice_tslice b (m + n)) by (auto; lia). reflexivity.
    - apply IH; [lia|exact H3].
  Qed.
  Lemma foldM_append b (ts : list (tensor A * nat)) : forall c0 m done, shp c0 = b ++ [m] -> m = total done -> holds_at b c0 0 done ->
    Forall (fun tn => shp (fst tn) = b ++ [snd tn]) ts ->
    exists c, foldM tappend c0 (map fst ts) = Ok c /\ shp c = b ++ [total (done ++ ts)] /\ holds_at b c 0 (done ++ ts).
  Proof.
    induction ts as [|[t n] ts IH]; intros c0 m done Hc0 Hm Hd Hf.
    - exists c0. cbn. rewrite app_nil_r, <- Hm. auto.
    - inversion Hf as [|? ? Ht Hf']; subst. cbn [fst snd] in Ht. cbn [map foldM fst].
      destruct (tappend_slices b (total done) n c0 t Hc0 Ht) as (c1 & H1 & H2 & H3 & H4). rewrite H1. cbn [bind].
      assert (Htot : total (done ++ [(t, n)]) = total done + n).
      { unfold total. rewrite map_app, list_sum_app. change (list_sum (map snd [(t, n)])) with (n + 0). lia. }
      destruct (IH c1 (total done + n) (done ++ [(t, n)])) as (c & H5 & H6 & H7).
      + exact H2.
      + now rewrite Htot.
      + apply holds_at_app. split.
        * apply (holds_extend b c0 t (total done) n c1); auto.
        * cbn. auto.
      + exact Hf'.
      + rewrite <- app_assoc in H6, H7. exists c. auto.
  Qed.
  Lemma reduce_append b (ts : list (tensor A * nat)) : ts <> [] -> Forall (fun tn => shp (fst tn) = b ++ [snd tn]) ts ->
    exists c, reduceM tappend (map fst ts) = Ok c /\ shp c = b ++ [total ts] /\ holds_at b c 0 ts.
  Proof.
    intros Hne Hf. destruct ts as [|[t n] ts]; [congruence|]. inversion Hf as [|? ? Ht Hf']; subst. cbn [fst snd] in Ht.
    cbn [map reduceM fst].
    destruct (foldM_append b ts t n [(t, n)]) as (c & H1 & H2 & H3); auto.
    - cbn. lia.
    - cbn. repeat split; auto. now rewrite (tslice_full b n).
    - exists c. auto.
  Qed.
End Cat.
