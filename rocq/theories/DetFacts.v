(** Determinants by expansion along the first row ([gdet], SpecFun.v) over any commutative ring: expansion along every row,
    alternation, Cramer's rule and the Schur complement of the last entry. *)
From Coq Require Import List Lia Arith Bool Ring Ring_theory.
From Verif Require Import SpecFun.
Import ListNotations.
Local Unset Asymmetric Patterns.

Section Det.
  Context {A : Type} (a0 a1 : A) (add mul sub : A -> A -> A) (opp : A -> A).
  Hypothesis Rth : ring_theory a0 a1 add mul sub opp eq.
  Add Ring Aring : Rth.
  Notation "0" := a0. Notation "1" := a1.
  Infix "+" := add. Infix "*" := mul. Notation "- x" := (opp x).
  Notation D := (gdet a0 a1 add mul opp).
  Notation alt := (alt opp).
  Definition gs (n : nat) (g : nat -> A) : A := fold_right add a0 (map g (seq 0%nat n)).
  Definition minor (r c : nat) (m : nat -> nat -> A) (a b : nat) : A := m (skip r a) (skip c b).
  Definition upd (m : nat -> nat -> A) (k : nat) (r : nat -> A) (a b : nat) : A := if Nat.eqb a k then r b else m a b.

  Lemma gs_Sl n g : gs (S n) g = g O + gs n (fun k => g (S k)).
  Proof. unfold gs. cbn [seq map fold_right]. now rewrite <- seq_shift, map_map. Qed.
  Lemma fold_app l l' : fold_right add a0 (l ++ l') = fold_right add a0 l + fold_right add a0 l'.
  Proof. induction l as [|x l IH]; cbn; [ring | rewrite IH; ring]. Qed.
  Lemma gs_S n g : gs (S n) g = gs n g + g n.
  Proof. unfold gs. rewrite seq_S, map_app, fold_app. cbn. ring. Qed.
  Lemma gs_0 g : gs 0%nat g = 0. Proof. reflexivity. Qed.
  Lemma gs_ext n g h : (forall k, (k < n)%nat -> g k = h k) -> gs n g = gs n h.
  Proof. induction n as [|n IH]; intros E; [reflexivity |]. rewrite !gs_S, IH, (E n) by (intros; try apply E; lia). reflexivity. Qed.
  Lemma gs_zero n g : (forall k, (k < n)%nat -> g k = 0) -> gs n g = 0.
  Proof. induction n as [|n IH]; intros E; [reflexivity |]. rewrite gs_S, IH, (E n) by (intros; try apply E; lia). ring. Qed.
  Lemma gs_plus n g h : gs n (fun k => g k + h k) = gs n g + gs n h.
  Proof. induction n as [|n IH]; [cbn; ring |]. rewrite !gs_S, IH. ring. Qed.
  Lemma gs_scal n c g : gs n (fun k => c * g k) = c * gs n g.
  Proof. induction n as [|n IH]; [cbn; ring |]. rewrite !gs_S, IH. ring. Qed.
  Lemma gs_opp n g : gs n (fun k => - g k) = - gs n g.
  Proof. induction n as [|n IH]; [cbn; ring |]. rewrite !gs_S, IH. ring. Qed.
  Lemma gs_swap n m (F : nat -> nat -> A) : gs n (fun a => gs m (fun b => F a b)) = gs m (fun b => gs n (fun a => F a b)).
  Proof.
    induction n as [|n IH]; [rewrite gs_0; symmetry; apply gs_zero; reflexivity |].
    rewrite gs_S, IH, <- gs_plus. apply gs_ext. intros k _. now rewrite gs_S.
  Qed.
  Lemma gs_pick n k g : (k < n)%nat -> gs n (fun j => if Nat.eqb j k then g j else 0) = g k.
  Proof.
    induction n as [|n IH]; intros H; [lia |]. rewrite gs_S. destruct (Nat.eq_dec k n) as [-> | N].
    - rewrite Nat.eqb_refl, gs_zero; [ring |]. intros j Hj. rewrite (proj2 (Nat.eqb_neq j n)); [reflexivity | lia].
    - rewrite IH by lia. rewrite (proj2 (Nat.eqb_neq n k)) by lia. ring.
  Qed.

  Lemma alt_mul j x y : alt j (x * y) = x * alt j y. Proof. unfold SpecFun.alt. destruct (Nat.even j); ring. Qed.
  Lemma alt_plus j x y : alt j (x + y) = alt j x + alt j y. Proof. unfold SpecFun.alt. destruct (Nat.even j); ring. Qed.
  Lemma alt_0 j : alt j 0 = 0. Proof. unfold SpecFun.alt. destruct (Nat.even j); ring. Qed.
  Lemma alt_S j x : alt (S j) x = - alt j x.
  Proof. unfold SpecFun.alt. rewrite Nat.even_succ, <- Nat.negb_even. destruct (Nat.even j); cbn; ring. Qed.
  Lemma alt_alt j x : alt j (alt j x) = x. Proof. unfold SpecFun.alt. destruct (Nat.even j); ring. Qed.
  Lemma alt_opp j x : alt j (- x) = - alt j x. Proof. unfold SpecFun.alt. destruct (Nat.even j); ring. Qed.
  Lemma alt_add j k x : alt (j + k)%nat x = alt j (alt k x).
  Proof. induction j as [|j IH]; [reflexivity |]. cbn [Nat.add]. now rewrite !alt_S, IH. Qed.
  Lemma alt_gs j n g : alt j (gs n g) = gs n (fun k => alt j (g k)).
  Proof. unfold SpecFun.alt. destruct (Nat.even j); [reflexivity | now rewrite gs_opp]. Qed.

  Lemma D_S n m : D (S n) m = gs (S n) (fun j => alt j (m O j * D n (minor O j m))). Proof. reflexivity. Qed.
  Lemma skip_lt k a n : (a < n)%nat -> (skip k a < S n)%nat. Proof. unfold skip. destruct (Nat.ltb_spec a k); lia. Qed.
  Lemma skip_ne k a : skip k a <> k. Proof. unfold skip. destruct (Nat.ltb_spec a k); lia. Qed.
  Lemma D_ext n : forall m m', (forall a b, (a < n)%nat -> (b < n)%nat -> m a b = m' a b) -> D n m = D n m'.
  Proof.
    induction n as [|n IH]; intros m m' E; [reflexivity |]. rewrite !D_S. apply gs_ext. intros j Hj.
    rewrite (E O j) by lia. f_equal. f_equal. apply IH. intros a b Ha Hb. unfold minor. apply E; apply skip_lt; lia.
  Qed.
  Lemma upd_same m k r b : upd m k r k b = r b. Proof. unfold upd. now rewrite Nat.eqb_refl. Qed.
  Lemma upd_other m k r a b : a <> k -> upd m k r a b = m a b. Proof. intros H. unfold upd. now rewrite (proj2 (Nat.eqb_neq a k) H). Qed.
  Lemma minor_upd m k r j a b : minor O j (upd m (S k) r) a b = upd (minor O j m) k (fun b => r (skip j b)) a b.
  Proof. unfold minor, upd, skip. cbn. reflexivity. Qed.

  Lemma D_lin n : forall m k c r s, (k < n)%nat -> D n (upd m k (fun b => c * r b + s b)) = c * D n (upd m k r) + D n (upd m k s).
  Proof.
    induction n as [|n IH]; intros m k c r s Hk; [lia |]. rewrite !D_S, <- gs_scal, <- gs_plus. apply gs_ext. intros j Hj.
    destruct k as [|k].
    - rewrite !upd_same. rewrite (D_ext n (minor O j (upd m O (fun b => c * r b + s b))) (minor O j m)),
        (D_ext n (minor O j (upd m O r)) (minor O j m)), (D_ext n (minor O j (upd m O s)) (minor O j m)) by (intros; reflexivity).
      rewrite <- alt_mul, <- alt_plus. f_equal. ring.
    - rewrite !upd_other by discriminate.
      rewrite (D_ext n (minor O j (upd m (S k) (fun b => c * r b + s b))) (upd (minor O j m) k (fun b => c * r (skip j b) + s (skip j b)))) by (intros; reflexivity).
      rewrite (IH (minor O j m) k c (fun b => r (skip j b)) (fun b => s (skip j b))) by lia.
      rewrite (D_ext n (minor O j (upd m (S k) r)) (upd (minor O j m) k (fun b => r (skip j b)))) by (intros; reflexivity).
      rewrite (D_ext n (minor O j (upd m (S k) s)) (upd (minor O j m) k (fun b => s (skip j b)))) by (intros; reflexivity).
      rewrite <- alt_mul, <- alt_plus. f_equal. ring.
  Qed.

  Lemma pair_cancel n (F : nat -> nat -> A) : (forall j l, (j <= l)%nat -> (l < n)%nat -> F j l = - F (S l) j) ->
    gs (S n) (fun j => gs n (F j)) = 0.
  Proof.
    induction n as [|n IH]; intros E; [rewrite gs_S, !gs_0; ring |].
    rewrite gs_S, (gs_ext (S n) _ (fun j => gs n (F j) + F j n)) by (intros; apply gs_S).
    rewrite gs_plus, IH by (intros; apply E; lia).
    rewrite (gs_ext (S n) (fun k => F k n) (fun k => - F (S n) k)) by (intros; apply E; lia). rewrite gs_opp. ring.
  Qed.
  Lemma skip_comm j l b : (j <= l)%nat -> skip j (skip l b) = skip (S l) (skip j b).
  Proof.
    intros H. unfold skip. repeat (match goal with |- context [Nat.ltb ?x ?y] => destruct (Nat.ltb_spec x y) end); lia.
  Qed.
  Lemma D_top_eq n m : (forall b, (b < S (S n))%nat -> m O b = m 1%nat b) -> D (S (S n)) m = 0.
  Proof.
    intros E. rewrite D_S.
    rewrite (gs_ext _ _ (fun j => gs (S n) (fun l => alt j (m O j * alt l (m 1%nat (skip j l) * D n (minor O l (minor O j m))))))).
    2:{ intros j Hj. rewrite D_S, <- gs_scal, alt_gs. apply gs_ext. intros l Hl. reflexivity. }
    apply pair_cancel. intros j l Hjl Hl.
    assert (S1 : skip j l = S l) by (unfold skip; destruct (Nat.ltb_spec l j); lia).
    assert (S2 : skip (S l) j = j) by (unfold skip; destruct (Nat.ltb_spec j (S l)); lia).
    rewrite S1, S2, <- (E j), (E (S l)) by lia. rewrite alt_S.
    rewrite (D_ext n (minor O l (minor O j m)) (minor O j (minor O (S l) m))).
    2:{ intros a b _ _. unfold minor. now rewrite (skip_comm j l b) by lia. }
    rewrite !alt_mul. set (d := D n (minor O j (minor O (S l) m))).
    unfold SpecFun.alt. destruct (Nat.even j), (Nat.even l); ring.
  Qed.
  Lemma D_adj_eq n : forall i m, (S i < n)%nat -> (forall b, (b < n)%nat -> m i b = m (S i) b) -> D n m = 0.
  Proof.
    induction n as [|n IH]; intros i m Hi E; [lia |]. destruct i as [|i].
    - destruct n as [|n]; [lia |]. apply D_top_eq. exact E.
    - rewrite D_S. apply gs_zero. intros j Hj. rewrite (IH i); [rewrite alt_mul, alt_0; ring | lia |].
      intros b Hb. unfold minor. apply E. apply skip_lt. lia.
  Qed.
  Definition swp (k a : nat) : nat := if Nat.eqb a k then S k else if Nat.eqb a (S k) then k else a.
  Lemma upd2 m k r s a b : upd (upd m k r) (S k) s a b = (if Nat.eqb a (S k) then s b else if Nat.eqb a k then r b else m a b).
  Proof. reflexivity. Qed.
  Lemma D_lin1 n m k r s : (k < n)%nat -> D n (upd m k (fun b => r b + s b)) = D n (upd m k r) + D n (upd m k s).
  Proof.
    intros H. pose proof (D_lin n m k a1 r s H) as E. rewrite (D_ext n _ (upd m k (fun b => r b + s b))) in E.
    - rewrite E. ring.
    - intros a b _ _. unfold upd. destruct (Nat.eqb a k); [ring | reflexivity].
  Qed.
  Lemma D_upd_id n m k : D n (upd m k (m k)) = D n m.
  Proof. apply D_ext. intros a b _ _. unfold upd. destruct (Nat.eqb_spec a k) as [-> |]; reflexivity. Qed.
  Lemma D_swap n k m : (S k < n)%nat -> D n (fun a b => m (swp k a) b) = - D n m.
  Proof.
    intros H. set (r := m k). set (s := m (S k)).
    assert (Z : forall t, D n (upd (upd m k t) (S k) t) = 0).
    { intros t. apply (D_adj_eq n k); [exact H |]. intros b _. rewrite upd2, upd_same. rewrite (proj2 (Nat.eqb_neq k (S k))) by lia. now rewrite Nat.eqb_refl. }
    pose proof (Z (fun b => r b + s b)) as E.
    rewrite D_lin1 in E by lia.
    assert (X : forall u t, D n (upd (upd m k u) (S k) t) = D n (upd (upd m (S k) t) k u)).
    { intros u t. apply D_ext. intros a b _ _. unfold upd. destruct (Nat.eqb_spec a (S k)) as [-> |]; [| reflexivity]. now rewrite (proj2 (Nat.eqb_neq (S k) k)) by lia. }
    rewrite !X, !D_lin1, <- !X in E by lia. rewrite !Z in E.
    rewrite (D_ext n (fun a b => m (swp k a) b) (upd (upd m k s) (S k) r)).
    2:{ intros a b _ _. rewrite upd2. unfold swp, r, s. destruct (Nat.eqb_spec a k) as [-> |].
        - now rewrite (proj2 (Nat.eqb_neq k (S k))) by lia.
        - destruct (Nat.eqb_spec a (S k)) as [-> |]; reflexivity. }
    rewrite (D_ext n m (upd (upd m k r) (S k) s)).
    2:{ intros a b _ _. rewrite upd2. unfold r, s. destruct (Nat.eqb_spec a (S k)) as [-> |]; [reflexivity |]. destruct (Nat.eqb_spec a k) as [-> |]; reflexivity. }
    set (x := D n (upd (upd m k s) (S k) r)) in *. set (y := D n (upd (upd m k r) (S k) s)) in *.
    transitivity (x + y + - y); [ring |]. replace (x + y) with (0 + x + (y + 0)) by ring. rewrite E. ring.
  Qed.
  Definition top (k : nat) (m : nat -> nat -> A) (a b : nat) : A := match a with O => m k b | S a => m (skip k a) b end.
  Lemma D_top n : forall k m, (k < n)%nat -> D n (top k m) = alt k (D n m).
  Proof.
    induction k as [|k IH]; intros m H.
    - apply D_ext. intros [|a] b _ _; reflexivity.
    - rewrite alt_S, <- alt_opp, <- (D_swap n k m H), <- IH by lia. apply D_ext. intros [|a] b _ _; cbn.
      + unfold swp. now rewrite Nat.eqb_refl.
      + f_equal. unfold skip, swp. destruct (Nat.ltb_spec a (S k)), (Nat.ltb_spec a k); try lia.
        * rewrite (proj2 (Nat.eqb_neq a k)), (proj2 (Nat.eqb_neq a (S k))) by lia. reflexivity.
        * rewrite (proj2 (Nat.eqb_neq (S a) k)), (proj2 (Nat.eqb_eq (S a) (S k))) by lia. lia.
        * rewrite (proj2 (Nat.eqb_neq (S a) k)), (proj2 (Nat.eqb_neq (S a) (S k))) by lia. reflexivity.
  Qed.
  Lemma D_row n k m : (k < S n)%nat -> D (S n) m = gs (S n) (fun j => alt (k + j) (m k j * D n (minor k j m))).
  Proof.
    intros H. rewrite <- (alt_alt k (D (S n) m)), <- D_top, D_S, alt_gs by exact H. apply gs_ext. intros j _.
    rewrite alt_add. reflexivity.
  Qed.
  Lemma D_equal n i k m : (i < n)%nat -> (k < n)%nat -> i <> k -> (forall b, (b < n)%nat -> m i b = m k b) -> D n m = 0.
  Proof.
    assert (W : forall i k m, (i < k)%nat -> (k < n)%nat -> (forall b, (b < n)%nat -> m i b = m k b) -> D n m = 0).
    { clear i k m. intros i k m Hi Hk E. rewrite <- (alt_alt k (D n m)), <- D_top by lia.
      rewrite <- (alt_alt (S i) (D n (top k m))), <- D_top by lia.
      rewrite (D_adj_eq n O); [now rewrite !alt_0 | lia |].
      intros b Hb. cbn. unfold skip. rewrite (proj2 (Nat.ltb_lt i k) Hi). apply E. exact Hb. }
    intros Hi Hk N E. destruct (Nat.lt_ge_cases i k) as [L | L]; [apply (W i k) | apply (W k i)]; auto; try lia.
    intros b Hb. symmetry. now apply E.
  Qed.
  Lemma cramer n i k m : (i < S n)%nat -> (k < S n)%nat ->
    gs (S n) (fun j => m i j * alt (j + k) (D n (minor k j m))) = if Nat.eqb i k then D (S n) m else 0.
  Proof.
    intros Hi Hk. destruct (Nat.eqb_spec i k) as [-> | N].
    - rewrite (D_row n k m Hk). apply gs_ext. intros j _. rewrite alt_mul, (Nat.add_comm j k). reflexivity.
    - transitivity (D (S n) (upd m k (m i))); [| apply (D_equal (S n) i k _ Hi Hk N)].
      + rewrite (D_row n k _ Hk). apply gs_ext. intros j _. rewrite upd_same, alt_mul, (Nat.add_comm j k). f_equal. f_equal.
        apply D_ext. intros a b _ _. unfold minor. rewrite upd_other; [reflexivity | apply skip_ne].
      + intros b _. rewrite upd_same, upd_other by exact N. reflexivity.
  Qed.
  Lemma D_zero_col n : forall c m, (c < n)%nat -> (forall a, (a < n)%nat -> m a c = 0) -> D n m = 0.
  Proof.
    induction n as [|n IH]; intros c m Hc E; [lia |]. rewrite D_S. apply gs_zero. intros j Hj.
    destruct (Nat.eq_dec j c) as [-> | N]; [rewrite E by lia; rewrite alt_mul; ring |].
    rewrite (IH (if Nat.ltb c j then c else pred c)); [rewrite alt_mul, alt_0; ring | |].
    - destruct (Nat.ltb_spec c j); lia.
    - intros a Ha. unfold minor. replace (skip j (if Nat.ltb c j then c else pred c)) with c; [apply E; apply skip_lt; lia |].
      unfold skip. destruct (Nat.ltb_spec c j) as [L | L]; [now rewrite (proj2 (Nat.ltb_lt c j) L) |].
      rewrite (proj2 (Nat.ltb_ge (pred c) j)); lia.
  Qed.
  Lemma D_clear n m w : forall t, (t <= n)%nat ->
    D (S n) (fun a b => if Nat.ltb a t then m a b + - (w a * m n b) else m a b) = D (S n) m.
  Proof.
    induction t as [|t IH]; intros Ht; [apply D_ext; intros; reflexivity |].
    rewrite <- IH by lia. set (M := fun a b => if Nat.ltb a t then m a b + - (w a * m n b) else m a b).
    rewrite (D_ext (S n) _ (upd M t (fun b => (- w t) * M n b + M t b))).
    - rewrite D_lin by lia. rewrite D_upd_id.
      rewrite (D_equal (S n) t n (upd M t (M n))); [ring | lia | lia | lia |].
      intros b _. rewrite upd_same, upd_other by lia. reflexivity.
    - intros a b Ha Hb. unfold upd, M. destruct (Nat.eqb_spec a t) as [-> | N].
      + rewrite (proj2 (Nat.ltb_lt t (S t))), (proj2 (Nat.ltb_ge n t)), (proj2 (Nat.ltb_ge t t)) by lia. ring.
      + destruct (Nat.ltb_spec a (S t)), (Nat.ltb_spec a t); try lia; reflexivity.
  Qed.
  Lemma D_schur n m w : (forall a, (a < n)%nat -> w a * m n n = m a n) ->
    D (S n) m = m n n * D n (fun a b => m a b + - (w a * m n b)).
  Proof.
    intros W. rewrite <- (D_clear n m w n (le_n n)). set (M := fun a b => if Nat.ltb a n then m a b + - (w a * m n b) else m a b).
    rewrite (D_row n n M (Nat.lt_succ_diag_r n)), gs_S, gs_zero.
    - rewrite alt_add, alt_alt. unfold M at 1. rewrite Nat.ltb_irrefl.
      rewrite (D_ext n (minor n n M) (fun a b => m a b + - (w a * m n b))); [ring |].
      intros a b Ha Hb. unfold minor, skip. rewrite (proj2 (Nat.ltb_lt a n) Ha), (proj2 (Nat.ltb_lt b n) Hb). unfold M. now rewrite (proj2 (Nat.ltb_lt a n) Ha).
    - intros j Hj. rewrite (D_zero_col n (pred n)); [rewrite alt_mul, alt_0; ring | lia |].
      intros a Ha. unfold minor, skip. rewrite (proj2 (Nat.ltb_lt a n) Ha), (proj2 (Nat.ltb_ge (pred n) j)) by lia.
      replace (S (pred n)) with n by lia. unfold M. rewrite (proj2 (Nat.ltb_lt a n) Ha), W by exact Ha. ring.
  Qed.
  Lemma D_opp n : forall m, D n (fun a b => - m a b) = alt n (D n m).
  Proof.
    induction n as [|n IH]; intros m; [reflexivity |]. rewrite !D_S, alt_S, alt_gs, <- gs_opp. apply gs_ext. intros j _.
    rewrite (D_ext n (minor O j (fun a b => - m a b)) (fun a b => - minor O j m a b)) by reflexivity. rewrite IH.
    set (d := D n (minor O j m)). unfold SpecFun.alt. destruct (Nat.even j), (Nat.even n); ring.
  Qed.
End Det.
