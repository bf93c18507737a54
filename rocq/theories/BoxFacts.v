(** A positive continuous function on a closed box is bounded below by a positive number (C53, for the families whose to_nat searches). *)
From Coquelicot Require Import Coquelicot.
From Coq Require Import List Arith Reals Lia Lra Classical.
Import ListNotations.
Local Unset Asymmetric Patterns.
Local Open Scope R_scope.

(** points of the box [-e, e]^m as lists *)
Definition boxed (m : nat) (e : R) (l : list R) : Prop := length l = m /\ forall k, (k < m)%nat -> Rabs (nth k l 0) <= e.
Definition near (d : R) (l l' : list R) : Prop := forall k, Rabs (nth k l' 0 - nth k l 0) < d.
Fixpoint t2l (m : nat) : Compactness.Tn m R -> list R :=
  match m with O => fun _ => [] | Datatypes.S m' => fun x => let '(a, x') := x in a :: t2l m' x' end.
Fixpoint l2t (m : nat) (l : list R) : Compactness.Tn m R :=
  match m return Compactness.Tn m R with O => tt | Datatypes.S m' => (nth 0 l 0, l2t m' (tl l)) end.
Fixpoint cst (m : nat) (e : R) : Compactness.Tn m R := match m return Compactness.Tn m R with O => tt | Datatypes.S m' => (e, cst m' e) end.
Lemma t2l_l2t m : forall l, length l = m -> t2l m (l2t m l) = l.
Proof. induction m as [|m IH]; intros [|a l] H; try discriminate H; [reflexivity|]. cbn. f_equal. apply IH. now injection H. Qed.
Lemma box_bounded m e : forall x, bounded_n m (cst m (- e)) (cst m e) x -> boxed m e (t2l m x).
Proof.
  induction m as [|m IH]; intros x H; [split; [reflexivity|intros; lia]|]. destruct x as [a x]. cbn in H. destruct H as [H1 H2]. destruct (IH x H2) as [I1 I2]. split; [cbn; now rewrite I1|].
  intros [|k] Hk; cbn; [apply Rabs_le; lra|apply I2; lia].
Qed.
Lemma bounded_box m e : forall l, boxed m e l -> bounded_n m (cst m (- e)) (cst m e) (l2t m l).
Proof.
  induction m as [|m IH]; intros l [L H]; [exact I|]. destruct l as [|a l]; [discriminate L|]. cbn. split; [pose proof (H 0%nat ltac:(lia)) as X; cbn in X; apply Rabs_le_between in X; lra|].
  apply IH. split; [now injection L|]. intros k Hk. exact (H (Datatypes.S k) ltac:(lia)).
Qed.
Lemma close_near m d : 0 < d -> forall x t, close_n m d x t -> near d (t2l m t) (t2l m x).
Proof.
  intros D. induction m as [|m IH]; intros x t H; [intros k; destruct k; cbn; rewrite Rminus_0_r, Rabs_R0; exact D|]. destruct x as [a x], t as [c t]. cbn in H. destruct H as [H1 H2]. intros [|k]; cbn; [exact H1|now apply IH].
Qed.

Section Box.
  Variables (m : nat) (e : R) (K : list R -> R).
  Hypothesis Kpos : forall l, boxed m e l -> 0 < K l.
  Hypothesis Kcont : forall l, boxed m e l -> forall eta, 0 < eta -> exists d, 0 < d /\ forall l', boxed m e l' -> near d l l' -> Rabs (K l' - K l) < eta.
  (** a radius within which K is at least the radius *)
  Let good (l : list R) (r : R) : Prop := 0 < r <= 1 /\ forall l', boxed m e l' -> near r l l' -> r <= K l'.
  Lemma good_ex l : boxed m e l -> exists r, good l r.
  Proof.
    intros B. pose proof (Kpos l B) as P. destruct (Kcont l B (K l / 2) ltac:(lra)) as (d & D & H). exists (Rmin 1 (Rmin d (K l / 2))).
    assert (A1 := Rmin_l 1 (Rmin d (K l / 2))). assert (A2 := Rmin_r 1 (Rmin d (K l / 2))). assert (A3 := Rmin_l d (K l / 2)). assert (A4 := Rmin_r d (K l / 2)).
    split; [split; [repeat apply Rmin_pos; lra|exact A1]|]. intros l' B' N. assert (X : Rabs (K l' - K l) < K l / 2) by (apply H; [exact B'|]; intros k; specialize (N k); lra). apply Rabs_lt_between in X. lra.
  Qed.
  Lemma good_less l r r' : good l r -> 0 < r' <= r -> good l r'.
  Proof. intros [G1 G2] H. split; [lra|]. intros l' B N. assert (r <= K l') by (apply G2; [exact B|]; intros k; specialize (N k); lra). lra. Qed.
  Let rad (l : list R) : R := match Lub_Rbar (good l) with Finite x => x / 2 | _ => 1 end.
  Lemma rad_good l : boxed m e l -> good l (rad l).
  Proof.
    intros B. destruct (good_ex l B) as (r & Hr). unfold rad. destruct (Lub_Rbar_correct (good l)) as [U1 U2]. destruct (Lub_Rbar (good l)) as [x| |] eqn:E.
    - assert (0 < x). { pose proof (U1 r Hr) as Q. cbn in Q. destruct Hr as [[Q1 _] _]. lra. }
      assert (Ex : exists r', good l r' /\ x / 2 < r').
      { apply NNPP. intros N. assert (is_ub_Rbar (good l) (Finite (x / 2))) as Q. { intros y Hy. cbn. destruct (Rle_or_lt y (x / 2)) as [|L]; [assumption|]. exfalso. apply N. exists y. split; [exact Hy|lra]. }
        specialize (U2 _ Q). cbn in U2. lra. }
      destruct Ex as (r' & G & L). apply (good_less l r'); [exact G|lra].
    - exfalso. specialize (U2 (Finite 1)). cbn in U2. apply U2. intros y [[_ Q] _]. exact Q.
    - exfalso. specialize (U1 r Hr). exact U1.
  Qed.
  Lemma box_lower : exists d, 0 < d /\ forall l, boxed m e l -> d <= K l.
  Proof.
    assert (P : forall l, 0 < Rmax (rad l) 0 \/ rad l <= 0) by (intros l; destruct (Rlt_or_le 0 (rad l)) as [H|H]; [left; apply Rlt_le_trans with (rad l); [exact H|apply Rmax_l]|now right]).
    assert (Q : forall l, 0 < if Rlt_dec 0 (rad l) then rad l else 1) by (intros l; destruct (Rlt_dec 0 (rad l)); lra).
    destruct (compactness_value m (cst m (- e)) (cst m e) (fun x => mkposreal _ (Q (t2l m x)))) as (d & Hd). exists d. split; [apply cond_pos|]. intros l B.
    destruct (Rle_or_lt d (K l)) as [|L]; [assumption|exfalso]. apply (Hd (l2t m l) (bounded_box m e l B)). intros (t & T1 & T2 & T3). cbn [pos] in T2, T3.
    pose proof (box_bounded m e t T1) as Bt. pose proof (rad_good _ Bt) as [G1 G2]. destruct (Rlt_dec 0 (rad (t2l m t))) as [R0|R0]; [|lra].
    apply close_near in T2; [|exact R0]. rewrite t2l_l2t in T2 by apply B. specialize (G2 l B T2). lra.
  Qed.
End Box.

(** the largest entry of a list in absolute value *)
Lemma largest (l : list R) : exists N, 0 <= N /\ (forall k, Rabs (nth k l 0) <= N) /\ (0 < N -> exists k, (k < length l)%nat /\ Rabs (nth k l 0) = N).
Proof.
  induction l as [|a l (N & H0 & H1 & H2)]; [exists 0; split; [lra|]; split; [intros [|k]; cbn; rewrite Rabs_R0; lra|lra]|]. exists (Rmax (Rabs a) N). assert (A := Rmax_l (Rabs a) N). assert (B := Rmax_r (Rabs a) N). split; [lra|]. split.
  - intros [|k]; cbn; [exact A|]. specialize (H1 k). lra.
  - intros P. destruct (Rle_dec (Rabs a) N) as [L|L].
    + rewrite Rmax_right in * by exact L. destruct (H2 P) as (k & K1 & K2). exists (Datatypes.S k). cbn. split; [lia|exact K2].
    + rewrite Rmax_left in * by lra. exists 0%nat. cbn. split; [lia|reflexivity].
Qed.
(** a nonnegative continuous function that vanishes only at 0 is bounded below on the boundary of the box *)
Lemma sphere_lower m e (K : list R -> R) : 0 < e -> (forall l, boxed m e l -> 0 <= K l) -> (forall l, boxed m e l -> (exists k, nth k l 0 <> 0) -> 0 < K l) ->
  (forall l, boxed m e l -> forall eta, 0 < eta -> exists d, 0 < d /\ forall l', boxed m e l' -> near d l l' -> Rabs (K l' - K l) < eta) ->
  exists d, 0 < d /\ forall l, boxed m e l -> (exists k, Rabs (nth k l 0) = e) -> d <= K l.
Proof.
  intros He H0 H1 Hc.
  set (N := fun l : list R => fold_right (fun x a => Rmax (Rabs x) a) 0 l).
  assert (N1 : forall l k, Rabs (nth k l 0) <= N l). { induction l as [|a l IH]; intros [|k]; cbn; try (rewrite Rabs_R0; lra); [apply Rmax_l|]. eapply Rle_trans; [apply IH|apply Rmax_r]. }
  assert (N2 : forall l c, 0 <= c -> (forall k, Rabs (nth k l 0) <= c) -> N l <= c). { induction l as [|a l IH]; intros c C H; cbn; [exact C|]. apply Rmax_lub; [exact (H 0%nat)|]. apply IH; [exact C|]. intros k. exact (H (Datatypes.S k)). }
  assert (N0 : forall l, 0 <= N l) by (intros l; eapply Rle_trans; [apply Rabs_pos|apply (N1 l 0%nat)]).
  assert (Out : forall l k, boxed m e l -> Rabs (nth k l 0) <= e). { intros l k [L B]. destruct (Nat.lt_ge_cases k m) as [Q|Q]; [now apply B|]. rewrite nth_overflow by (rewrite L; exact Q). rewrite Rabs_R0. lra. }
  destruct (box_lower m e (fun l => K l + (e - N l))) as (d & D & Hd).
  - intros l B. pose proof (H0 l B). assert (N l <= e) by (apply N2; [lra|]; intros k; now apply Out). destruct (Rlt_or_le (N l) e) as [L|L]; [lra|]. assert (E : N l = e) by lra.
    assert (0 < K l); [|lra]. apply H1; [exact B|]. apply NNPP. intros X. assert (N l <= 0); [|lra]. apply N2; [lra|]. intros k. destruct (Req_dec (nth k l 0) 0) as [->|Y]; [rewrite Rabs_R0; lra|]. exfalso. apply X. now exists k.
  - intros l B eta Eta. destruct (Hc l B (eta / 2) ltac:(lra)) as (d & D & H). exists (Rmin d (eta / 2)). split; [apply Rmin_pos; lra|]. intros l' B' Nr. assert (A1 := Rmin_l d (eta / 2)). assert (A2 := Rmin_r d (eta / 2)).
    assert (Q : Rabs (K l' - K l) < eta / 2) by (apply H; [exact B'|]; intros k; specialize (Nr k); lra).
    assert (X : Rabs (N l' - N l) <= eta / 2).
    { assert (Y : forall a c, (forall k, Rabs (nth k c 0 - nth k a 0) <= eta / 2) -> N c <= N a + eta / 2).
      { intros a c Hk. apply N2; [pose proof (N0 a); lra|]. intros k. specialize (Hk k). pose proof (N1 a k). replace (nth k c 0) with ((nth k c 0 - nth k a 0) + nth k a 0) by ring. eapply Rle_trans; [apply Rabs_triang|]. lra. }
      assert (Y1 := Y l l' ltac:(intros k; specialize (Nr k); lra)). assert (Y2 := Y l' l ltac:(intros k; specialize (Nr k); rewrite Rabs_minus_sym; lra)). apply Rabs_le. lra. }
    replace (K l' + (e - N l') - (K l + (e - N l))) with ((K l' - K l) + - (N l' - N l)) by ring. eapply Rle_lt_trans; [apply Rabs_triang|]. rewrite Rabs_Ropp. lra.
  - exists d. split; [exact D|]. intros l B (k & E). specialize (Hd l B). cbv beta in Hd. pose proof (N1 l k). assert (N l <= e) by (apply N2; [lra|]; intros k'; now apply Out). lra.
Qed.
