(** Determinants: adding rows to other rows, block triangular matrices, and the real matrix [[A, -B], [B, A]] of a Hermitian matrix A + iB. *)
From Coquelicot Require Import Coquelicot.
From Coq Require Import List Lia Arith Bool Ring Ring_theory Reals Lra.
From Verif Require Import SumSpec SpecFun PointSpec DotFacts DetFacts MatFacts IntMat DetInv SampleThms.
Import ListNotations.
Local Unset Asymmetric Patterns.

Section Det.
  Context {A : Type} (a0 a1 : A) (add mul sub : A -> A -> A) (opp : A -> A).
  Hypothesis Rth : ring_theory a0 a1 add mul sub opp eq.
  Add Ring Aring2 : Rth.
  Notation D := (gdet a0 a1 add mul opp).
  Notation alt := (alt opp).
  Notation gs := (gs a0 add).
  Lemma row_add n m a j c : (a < n)%nat -> (j < n)%nat -> a <> j -> D n (upd m a (fun b => add (mul c (m j b)) (m a b))) = D n m.
  Proof.
    intros Ha Hj N. rewrite (D_lin _ _ _ _ _ _ Rth n m a c (m j) (m a) Ha). rewrite (D_upd_id _ _ _ _ _ _ Rth).
    rewrite (D_equal _ _ _ _ _ _ Rth n a j (upd m a (m j)) Ha Hj N); [ring|]. intros b _. unfold upd. rewrite Nat.eqb_refl. destruct (Nat.eqb_spec j a); [congruence|reflexivity].
  Qed.
  Lemma row_adds n m a w : (a < n)%nat -> forall J, (J <= n)%nat -> D n (upd m a (fun b => add (m a b) (gs J (fun j => if Nat.eqb j a then a0 else mul (w j) (m j b))))) = D n m.
  Proof.
    intros Ha J. induction J as [|J IH]; intros HJ.
    - rewrite <- (D_upd_id _ _ _ _ _ _ Rth n m a) at 1. apply (D_ext _ _ _ _ _ _ Rth). intros x y _ _. unfold upd. destruct (Nat.eqb x a) eqn:E; [|reflexivity]. apply Nat.eqb_eq in E. subst x. cbn [DetFacts.gs seq map fold_right]. unfold DetFacts.gs. cbn. ring.
    - rewrite <- IH by lia. set (m' := upd m a (fun b => add (m a b) (gs J (fun j => if Nat.eqb j a then a0 else mul (w j) (m j b))))).
      destruct (Nat.eq_dec J a) as [->|N].
      + apply (D_ext _ _ _ _ _ _ Rth). intros x y _ _. unfold m', upd. destruct (Nat.eqb x a) eqn:E; [|reflexivity]. rewrite (gs_S _ _ _ _ _ _ Rth), Nat.eqb_refl. ring.
      + rewrite <- (row_add n m' a J (w J) Ha ltac:(lia) (not_eq_sym N)). apply (D_ext _ _ _ _ _ _ Rth). intros x y _ _. unfold m', upd. destruct (Nat.eqb x a) eqn:E; [|reflexivity].
        rewrite (gs_S _ _ _ _ _ _ Rth), Nat.eqb_refl. destruct (Nat.eqb_spec J a); [contradiction|]. ring.
  Qed.
  (** rows selected by p get combinations of the others *)
  Lemma rows_add n (p : nat -> bool) m w : D n (fun a b => if p a then add (m a b) (gs n (fun j => if p j then a0 else mul (w a j) (m j b))) else m a b) = D n m.
  Proof.
    assert (H : forall t, (t <= n)%nat -> D n (fun a b => if p a && Nat.ltb a t then add (m a b) (gs n (fun j => if p j then a0 else mul (w a j) (m j b))) else m a b) = D n m).
    { induction t as [|t IH]; intros Ht.
      - apply (D_ext _ _ _ _ _ _ Rth). intros a b _ _. now rewrite andb_false_r.
      - rewrite <- IH by lia. set (m' := fun a b => if p a && Nat.ltb a t then _ else _). destruct (p t) eqn:Pt.
        + rewrite <- (row_adds n m' t (fun j => if p j then a0 else w t j) ltac:(lia) n (le_n n)). apply (D_ext _ _ _ _ _ _ Rth). intros a b _ _. unfold m', upd. destruct (Nat.eqb_spec a t) as [->|N].
          * rewrite Pt, (proj2 (Nat.ltb_lt t (S t))), Nat.ltb_irrefl by lia. cbn [andb]. f_equal. apply (gs_ext _ _ _ _ _ _ Rth). intros j _. destruct (Nat.eqb_spec j t) as [->|Nj]; [now rewrite Pt|]. destruct (p j) eqn:Pj; cbn [andb]; ring.
          * destruct (p a); [|reflexivity]. cbn [andb]. destruct (Nat.ltb_spec a (S t)), (Nat.ltb_spec a t); try lia; reflexivity.
        + apply (D_ext _ _ _ _ _ _ Rth). intros a b _ _. unfold m'. destruct (Nat.eqb_spec a t) as [->|N]; [now rewrite Pt|]. destruct (p a); [|reflexivity]. cbn [andb]. destruct (Nat.ltb_spec a (S t)), (Nat.ltb_spec a t); try lia; reflexivity. }
    rewrite <- (H n (le_n n)). apply (D_ext _ _ _ _ _ _ Rth). intros a b Ha _. rewrite (proj2 (Nat.ltb_lt a n) Ha), andb_true_r. reflexivity.
  Qed.
  Lemma gs_split n k g : gs (n + k) g = add (gs n g) (gs k (fun j => g (n + j)%nat)).
  Proof. induction k as [|k IH]; [rewrite Nat.add_0_r; unfold DetFacts.gs; cbn [seq map fold_right]; ring|]. rewrite Nat.add_succ_r, !(gs_S _ _ _ _ _ _ Rth), IH. ring. Qed.
  Lemma alt_even n x : alt (n + n) x = x.
  Proof. rewrite (alt_add _ _ _ _ _ _ Rth). apply (alt_alt _ _ _ _ _ _ Rth). Qed.
  Lemma skip_add n k j : skip (n + k) (n + j) = (n + skip k j)%nat.
  Proof. unfold skip. destruct (Nat.ltb_spec (n + j) (n + k)), (Nat.ltb_spec j k); lia. Qed.
  Lemma D_block n : forall k m, (forall a b, (a < k)%nat -> (b < n)%nat -> m (n + a)%nat b = a0) -> D (n + k) m = mul (D n m) (D k (fun a b => m (n + a)%nat (n + b)%nat)).
  Proof.
    induction k as [|k IH]; intros m Z; [rewrite Nat.add_0_r; cbn; ring|]. rewrite Nat.add_succ_r. rewrite (D_row _ _ _ _ _ _ Rth (n + k) (n + k) m ltac:(lia)). rewrite <- Nat.add_succ_r, gs_split.
    rewrite (gs_zero _ _ _ _ _ _ Rth n) by (intros j Hj; rewrite Z by lia; rewrite (alt_mul _ _ _ _ _ _ Rth); ring).
    rewrite (D_row _ _ _ _ _ _ Rth k k (fun a b => m (n + a)%nat (n + b)%nat) ltac:(lia)). rewrite <- (gs_scal _ _ _ _ _ _ Rth).
    transitivity (gs (S k) (fun j => alt (n + k + (n + j)) (mul (m (n + k)%nat (n + j)%nat) (D (n + k) (minor (n + k) (n + j) m))))); [ring|].
    apply (gs_ext _ _ _ _ _ _ Rth). intros j Hj. replace (n + k + (n + j))%nat with ((n + n) + (k + j))%nat by lia. rewrite (alt_add _ _ _ _ _ _ Rth (n + n)), alt_even. rewrite !(alt_mul _ _ _ _ _ _ Rth). rewrite IH.
    - rewrite (D_ext _ _ _ _ _ _ Rth n (minor (n + k) (n + j) m) m) by (intros a b Ha Hb; unfold minor, skip; rewrite (proj2 (Nat.ltb_lt a (n + k))), (proj2 (Nat.ltb_lt b (n + j))) by lia; reflexivity).
      rewrite (D_ext _ _ _ _ _ _ Rth k (fun a b => minor (n + k) (n + j) m (n + a)%nat (n + b)%nat) (minor k j (fun a b => m (n + a)%nat (n + b)%nat))) by (intros a b Ha Hb; unfold minor; now rewrite !skip_add).
      rewrite !(alt_mul _ _ _ _ _ _ Rth). ring.
    - intros a b Ha Hb. unfold minor. rewrite skip_add. unfold skip at 2. rewrite (proj2 (Nat.ltb_lt b (n + j))) by lia. apply Z; [|exact Hb]. unfold skip. destruct (Nat.ltb_spec a k); lia.
  Qed.
End Det.

(** ** [[A, -B], [B, A]] *)
Local Open Scope R_scope.
Local Notation C := Complex.C (only parsing).
Definition blk (n : nat) (V : nat -> nat -> C) (a b : nat) : R :=
  if Nat.ltb a n then (if Nat.ltb b n then fst (V a b) else - snd (V a (b - n)%nat)) else (if Nat.ltb b n then snd (V (a - n)%nat b) else fst (V (a - n)%nat (b - n)%nat)).
Lemma blk00 n V a b : (a < n)%nat -> (b < n)%nat -> blk n V a b = fst (V a b). Proof. intros. unfold blk. now rewrite !(proj2 (Nat.ltb_lt _ _)) by assumption. Qed.
Lemma blk01 n V a b : (a < n)%nat -> blk n V a (n + b)%nat = - snd (V a b). Proof. intros. unfold blk. rewrite (proj2 (Nat.ltb_lt a n)), (proj2 (Nat.ltb_ge (n + b) n)) by lia. now replace (n + b - n)%nat with b by lia. Qed.
Lemma blk10 n V a b : (b < n)%nat -> blk n V (n + a)%nat b = snd (V a b). Proof. intros. unfold blk. rewrite (proj2 (Nat.ltb_lt b n)), (proj2 (Nat.ltb_ge (n + a) n)) by lia. now replace (n + a - n)%nat with a by lia. Qed.
Lemma blk11 n V a b : blk n V (n + a)%nat (n + b)%nat = fst (V a b). Proof. unfold blk. rewrite !(proj2 (Nat.ltb_ge _ n)) by lia. now replace (n + a - n)%nat with a by lia; replace (n + b - n)%nat with b by lia. Qed.
Lemma halves n a : (a < n + n)%nat -> (a < n)%nat \/ exists a', (a' < n)%nat /\ a = (n + a')%nat.
Proof. intros H. destruct (Nat.lt_ge_cases a n); [now left|]. right. exists (a - n)%nat. lia. Qed.
Lemma csum_split n k g : csum (n + k) g = (csum n g + csum k (fun j => g (n + j)%nat))%C. Proof. apply (gs_split _ _ _ _ _ _ Cth). Qed.
Lemma csum_dl'' n k g : (k < n)%nat -> csum n (fun j => g j * dl j k)%C = g k. Proof. apply csum_dl. Qed.

Lemma blk_det n V : hpdC n V -> rdet (n + n) (blk n V) = fst (cdet n V) * fst (cdet n V).
Proof.
  intros H. apply RtoC_inj. rewrite <- rdet_C. destruct (hpd_det n V H) as (r & Hr & Er). pose proof (hpd_det_ne n V H) as Ne.
  set (M := cmat (blk n V)). set (B := fun a b => RtoC (snd (V a b))). set (Ar := fun a b => RtoC (fst (V a b))).
  assert (VE : forall a b, V a b = (Ar a b + Ci * B a b)%C). { intros a b. unfold Ar, B, Ci, Cplus, Cmult, RtoC. cbn. destruct (V a b) as [x y]. cbn. f_equal; ring. }
  (* add i times the lower rows to the upper ones *)
  set (p1 := fun a => Nat.ltb a n). set (M1 := fun a b : nat => if p1 a then (M a b + csum (n + n) (fun j => if p1 j then RtoC 0 else (if Nat.eqb j (n + a) then Ci else RtoC 0) * M j b))%C else M a b).
  assert (E1 : cdet (n + n) M1 = cdet (n + n) M) by exact (rows_add _ _ _ _ _ _ Cth (n + n) p1 M (fun a j => if Nat.eqb j (n + a) then Ci else RtoC 0)).
  assert (M1t : forall a b, (a < n)%nat -> M1 a b = (M a b + Ci * M (n + a)%nat b)%C).
  { intros a b Ha. unfold M1, p1. rewrite (proj2 (Nat.ltb_lt a n) Ha). f_equal. rewrite csum_split, csum_zero by (intros k Hk; now rewrite (proj2 (Nat.ltb_lt k n) Hk)). rewrite Cplus_0_l.
    rewrite (csum_ext n _ (fun j => if Nat.eqb j a then (Ci * M (n + j)%nat b)%C else RtoC 0)); [now apply csum_pick|]. intros k Hk. rewrite (proj2 (Nat.ltb_ge (n + k) n)) by lia. destruct (Nat.eqb_spec (n + k) (n + a)), (Nat.eqb_spec k a); try lia; [reflexivity|apply Cmult_0_l]. }
  assert (M1b : forall a b, M1 (n + a)%nat b = M (n + a)%nat b). { intros a b. unfold M1, p1. now rewrite (proj2 (Nat.ltb_ge (n + a) n)) by lia. }
  (* subtract B V^-1 times the upper rows from the lower ones *)
  set (p2 := fun a => negb (Nat.ltb a n)). set (W := fun a j : nat => (- csum n (fun k => B (a - n)%nat k * cinv n V k j))%C).
  set (M2 := fun a b : nat => if p2 a then (M1 a b + csum (n + n) (fun j => if p2 j then RtoC 0 else W a j * M1 j b))%C else M1 a b).
  assert (E2 : cdet (n + n) M2 = cdet (n + n) M1) by exact (rows_add _ _ _ _ _ _ Cth (n + n) p2 M1 W).
  assert (U : forall a b, (a < n)%nat -> (b < n)%nat -> M1 a b = V a b /\ M1 a (n + b)%nat = (Ci * V a b)%C).
  { intros a b Ha Hb. rewrite !M1t by exact Ha. unfold M. rewrite blk00, blk01, blk10, blk11 by assumption. rewrite VE. unfold Ar, B, Ci, Cplus, Cmult, RtoC. cbn. split; f_equal; ring. }
  assert (Lw : forall a b, (a < n)%nat -> M2 (n + a)%nat b = (M (n + a)%nat b - csum n (fun j => csum n (fun k => B a k * cinv n V k j) * M1 j b))%C).
  { intros a b Ha. unfold M2, p2. rewrite (proj2 (Nat.ltb_ge (n + a) n)) by lia. cbn [negb]. rewrite M1b. unfold Cminus. f_equal. rewrite csum_split.
    rewrite (csum_zero n (fun j => if negb (Nat.ltb (n + j) n) then _ else _)) by (intros k Hk; now rewrite (proj2 (Nat.ltb_ge (n + k) n)) by lia). rewrite Cplus_0_r, <- csum_opp. apply csum_ext. intros j Hj. rewrite (proj2 (Nat.ltb_lt j n) Hj). cbn [negb]. unfold W. replace (n + a - n)%nat with a by lia. ring. }
  assert (BV : forall a b, (a < n)%nat -> (b < n)%nat -> csum n (fun j => csum n (fun k => B a k * cinv n V k j) * V j b)%C = B a b).
  { intros a b Ha Hb. rewrite (csum_ext n _ (fun j => csum n (fun k => B a k * (cinv n V k j * V j b)))%C) by (intros j Hj; rewrite <- csum_scal_r; apply csum_ext; intros; ring).
    rewrite csum_swap. rewrite (csum_ext n _ (fun k => B a k * dl k b)%C); [now apply csum_dl|]. intros k Hk. rewrite csum_scal. f_equal. apply cinv_left; try assumption. apply H. }
  rewrite <- E1, <- E2. change (cdet (n + n) M2) with (gdet (RtoC 0) (RtoC 1) Cplus Cmult Copp (n + n) M2). rewrite (D_block _ _ _ _ _ _ Cth).
  - fold (cdet n M2). fold (cdet n (fun a b => M2 (n + a)%nat (n + b)%nat)). rewrite (cdet_ext n M2 V).
    + rewrite (cdet_ext n (fun a b => M2 (n + a)%nat (n + b)%nat) (fun a b => Cconj (V a b))).
      * rewrite cdet_conj by exact H. rewrite Er. cbn [fst RtoC]. now rewrite RtoC_mult.
      * intros a b Ha Hb. rewrite Lw by exact Ha. rewrite (csum_ext n _ (fun j => Ci * (csum n (fun k => B a k * cinv n V k j) * V j b))%C) by (intros j Hj; destruct (U j b Hj Hb) as [_ ->]; ring). rewrite csum_scal, BV by assumption.
        unfold M. rewrite blk11. unfold B, Ci, Cconj, Cminus, Cplus, Copp, Cmult, RtoC. cbn. f_equal; ring.
    + intros a b Ha Hb. unfold M2, p2. rewrite (proj2 (Nat.ltb_lt a n) Ha). cbn [negb]. apply U; assumption.
  - intros a b Ha Hb. rewrite Lw by exact Ha. rewrite (csum_ext n _ (fun j => csum n (fun k => B a k * cinv n V k j) * V j b)%C) by (intros j Hj; destruct (U j b Hj Hb) as [-> _]; reflexivity). rewrite BV by assumption. unfold M. rewrite blk10 by assumption. unfold B. ring.
Qed.

Lemma blk_form n V x : sumR (n + n) (fun a => sumR (n + n) (fun b => x a * blk n V a b * x b)) = fst (form n V (fun k => (x k, x (n + k)%nat))).
Proof.
  unfold form. rewrite sumR_split, fst_csum, <- sumR_add. apply sumR_exti. intros a Ha. rewrite !sumR_split, fst_csum, <- !sumR_add. apply sumR_exti. intros b Hb. rewrite blk00, blk01, blk10, blk11 by assumption. unfold Cconj, Cmult. cbn. ring.
Qed.
Lemma blk_spd n V : hpdC n V -> spd (n + n) (blk n V).
Proof.
  intros [Hs Hp]. split.
  - intros a b Ha Hb. destruct (halves n a Ha) as [La|(a' & La & ->)], (halves n b Hb) as [Lb|(b' & Lb & ->)].
    + rewrite !blk00 by assumption. now rewrite (Hs a b La Lb).
    + rewrite blk01, blk10 by assumption. rewrite (Hs a b' La Lb). cbn. ring.
    + rewrite blk01, blk10 by assumption. rewrite (Hs a' b La Lb). reflexivity.
    + rewrite !blk11. now rewrite (Hs a' b' La Lb).
  - intros x (a & Ha & Na). rewrite blk_form. apply Hp. destruct (halves n a Ha) as [La|(a' & La & ->)].
    + exists a. split; [exact La|]. intros E. injection E as E _. contradiction.
    + exists a'. split; [exact La|]. intros E. injection E as _ E. contradiction.
Qed.
Lemma blk_inv n V i k : hpdC n V -> (i < n + n)%nat -> (k < n + n)%nat -> rinv (n + n) (blk n V) i k = blk n (cinv n V) i k.
Proof.
  intros H Hi Hk. pose proof (blk_spd n V H) as HS. pose proof (hpd_det_ne n V H) as Ne. symmetry. apply rinv_unique; [apply HS|now apply spd_ne| |assumption|assumption].
  assert (P : forall a b, (a < n)%nat -> (b < n)%nat -> sumR n (fun j => fst (V a j) * fst (cinv n V j b) - snd (V a j) * snd (cinv n V j b)) = dr a b /\ sumR n (fun j => fst (V a j) * snd (cinv n V j b) + snd (V a j) * fst (cinv n V j b)) = 0).
  { intros a b Ha Hb. pose proof (cinv_right n V a b Ne Ha Hb) as E. rewrite dl_dr in E. split; [rewrite <- (f_equal fst E : _ = dr a b)|change 0 with (snd (RtoC (dr a b))); rewrite <- E]; [rewrite fst_csum|rewrite snd_csum]; reflexivity. }
  intros a b Ha Hb. rewrite sumR_split, <- sumR_add. destruct (halves n a Ha) as [La|(a' & La & ->)], (halves n b Hb) as [Lb|(b' & Lb & ->)].
  - rewrite <- (proj1 (P a b La Lb)). apply sumR_exti. intros j Hj. rewrite !blk00, blk01, blk10 by assumption. ring.
  - transitivity (-1 * sumR n (fun j => fst (V a j) * snd (cinv n V j b') + snd (V a j) * fst (cinv n V j b'))); [rewrite <- sumR_mul; apply sumR_exti; intros j Hj; rewrite blk00, !blk01, blk11 by assumption; ring|]. rewrite (proj2 (P a b' La Lb)). unfold dr. destruct (Nat.eqb_spec a (n + b')); [lia|ring].
  - transitivity (sumR n (fun j => fst (V a' j) * snd (cinv n V j b) + snd (V a' j) * fst (cinv n V j b))); [apply sumR_exti; intros j Hj; rewrite (blk10 n V a' j), (blk11 n V a' j), (blk00 n _ j b), (blk10 n _ j b) by assumption; ring|]. rewrite (proj2 (P a' b La Lb)). unfold dr. destruct (Nat.eqb_spec (n + a') b); [lia|reflexivity].
  - replace (dr (n + a') (n + b')) with (dr a' b') by (unfold dr; destruct (Nat.eqb_spec (n + a') (n + b')), (Nat.eqb_spec a' b'); try lia; reflexivity). rewrite <- (proj1 (P a' b' La Lb)). apply sumR_exti. intros j Hj. rewrite blk10, !blk11, blk01 by assumption. ring.
Qed.
