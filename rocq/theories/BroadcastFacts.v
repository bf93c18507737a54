(** Broadcasting an array against one with the same leading axes and trailing axes of length 1. *)
From Coq Require Import List Arith Bool Lia.
From Verif Require Import Base Tensor TensorFacts TensorFacts2.
Import ListNotations.

Lemma brev_ones k : forall s2 s1, length s2 = k -> brev (s2 ++ s1) (repeat 1 k ++ s1) = Some (s2 ++ s1).
Proof.
  induction k as [|k IH]; intros [|n s2] s1 H; cbn in H; try discriminate.
  - apply brev_same.
  - cbn. rewrite IH by lia. destruct (n =? 1) eqn:E; [reflexivity|]. reflexivity.
Qed.
Lemma repeat_snoc {A} (a : A) n : repeat a n ++ [a] = a :: repeat a n.
Proof. induction n as [|n IH]; cbn; [reflexivity|]. now rewrite IH. Qed.
Lemma rev_repeat {A} (a : A) n : rev (repeat a n) = repeat a n.
Proof. induction n as [|n IH]; cbn; [reflexivity|]. now rewrite IH, repeat_snoc. Qed.
Lemma bshape_ones (s1 s2 : list nat) : bshape (s1 ++ s2) (s1 ++ repeat 1 (length s2)) = Some (s1 ++ s2).
Proof.
  unfold bshape. rewrite !rev_app_distr, rev_repeat. rewrite brev_ones by now rewrite rev_length.
  cbn. now rewrite rev_app_distr, !rev_involutive.
Qed.
Lemma combine_app_l {A B} (a1 a2 : list A) : forall (b1 b2 : list B), length a1 = length b1 ->
  combine (a1 ++ a2) (b1 ++ b2) = combine a1 b1 ++ combine a2 b2.
Proof. induction a1 as [|x a1 IH]; intros [|y b1] b2 H; cbn in *; try discriminate; [reflexivity|]. now rewrite IH by lia. Qed.
Lemma bidx_ones s1 (s2 : list nat) i1 (i2 : list nat) : inb s1 i1 = true -> length i2 = length s2 ->
  bidx (s1 ++ repeat 1 (length s2)) (i1 ++ i2) = i1 ++ repeat 0 (length s2).
Proof.
  intros H1 H2. pose proof (inb_length _ _ H1) as Hl. unfold bidx.
  rewrite !app_length, repeat_length, Hl, H2, Nat.sub_diag. cbn [skipn].
  rewrite combine_app_l by congruence. rewrite map_app. f_equal.
  - pose proof (bidx_id _ _ H1) as H. unfold bidx in H. rewrite Hl, Nat.sub_diag in H. exact H.
  - clear -H2. revert i2 H2. induction s2 as [|n s2 IH]; intros [|k i2] H; cbn in *; try discriminate; [reflexivity|].
    now rewrite IH by lia.
Qed.

Section F.
  Context {A : Type} {DA : Dflt A}.
  Lemma shp_iter_newaxis k (t : tensor A) : shp (Nat.iter k tnewaxis t) = shp t ++ repeat 1 k.
  Proof.
    induction k as [|k IH]; [cbn; now rewrite app_nil_r|].
    change (shp (Nat.iter (S k) tnewaxis t)) with (shp (Nat.iter k tnewaxis t) ++ [1]).
    rewrite IH, <- app_assoc. cbn [repeat]. now rewrite repeat_snoc.
  Qed.
  Lemma inb_zeros k : inb (repeat 1 k) (repeat 0 k) = true.
  Proof. induction k; cbn; auto. Qed.
  Lemma inb_app_intro s1 s2 i1 i2 : inb s1 i1 = true -> inb s2 i2 = true -> inb (s1 ++ s2) (i1 ++ i2) = true.
  Proof. intros H1 H2. rewrite inb_app by now apply inb_length. now rewrite H1, H2. Qed.
  Lemma tget_iter_newaxis k (t : tensor A) i : inb (shp t) i = true ->
    tget (Nat.iter k tnewaxis t) (i ++ repeat 0 k) = tget t i.
  Proof.
    intros H. induction k as [|k IH]; [cbn; now rewrite app_nil_r|].
    change (Nat.iter (S k) tnewaxis t) with (tnewaxis (Nat.iter k tnewaxis t)). cbn [repeat].
    unfold tnewaxis at 1. rewrite tget_tbuild.
    - rewrite <- repeat_snoc, app_assoc, removelast_snoc. exact IH.
    - rewrite shp_iter_newaxis, <- app_assoc. apply inb_app_intro; [exact H|].
      rewrite repeat_snoc. apply (inb_zeros (S k)).
  Qed.
End F.

Section G.
  Context {A B C : Type} {DA : Dflt A} {DB : Dflt B}.
  Lemma tmap2_prefix (f : A -> B -> C) (x : tensor A) (t : tensor B) s1 s2 :
    shp x = s1 ++ s2 -> shp t = s1 ->
    tmap2 f x (Nat.iter (length s2) tnewaxis t)
    = Ok (tbuild (s1 ++ s2) (fun i => f (tget x i) (tget t (firstn (length s1) i)))).
  Proof.
    intros Hx Ht. unfold tmap2. rewrite shp_iter_newaxis, Hx, Ht, bshape_ones. f_equal. apply tbuild_ext.
    intros i Hi. rewrite bidx_id by exact Hi.
    destruct (inb_split _ _ _ Hi) as (i1 & i2 & -> & H1 & H2).
    rewrite bidx_ones by (auto; now apply inb_length).
    rewrite tget_iter_newaxis by now rewrite Ht.
    rewrite firstn_app. pose proof (inb_length _ _ H1) as Hl. rewrite <- Hl, Nat.sub_diag, firstn_all. cbn. now rewrite app_nil_r.
  Qed.
  Lemma tmap2_prefix_l (f : B -> A -> C) (x : tensor A) (t : tensor B) s1 s2 :
    shp x = s1 ++ s2 -> shp t = s1 ->
    tmap2 f (Nat.iter (length s2) tnewaxis t) x
    = Ok (tbuild (s1 ++ s2) (fun i => f (tget t (firstn (length s1) i)) (tget x i))).
  Proof.
    intros Hx Ht. unfold tmap2. rewrite shp_iter_newaxis, Hx, Ht, bshape_comm, bshape_ones. f_equal. apply tbuild_ext.
    intros i Hi. rewrite (bidx_id (s1 ++ s2)) by exact Hi.
    destruct (inb_split _ _ _ Hi) as (i1 & i2 & -> & H1 & H2).
    rewrite bidx_ones by (auto; now apply inb_length).
    rewrite tget_iter_newaxis by now rewrite Ht.
    rewrite firstn_app. pose proof (inb_length _ _ H1) as Hl. rewrite <- Hl, Nat.sub_diag, firstn_all. cbn. now rewrite app_nil_r.
  Qed.
End G.
