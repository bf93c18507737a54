(** Hermitian and symmetric positive definite matrices: determinant, inverse and Cholesky factors. *)
From Coquelicot Require Import Coquelicot.
From Coq Require Import List Bool Arith Reals Lia Lra Ring Ring_theory.
From Verif Require Import Base XReal SpecFun PointSpec DetFacts.
Import ListNotations.
Local Unset Asymmetric Patterns.
Local Open Scope R_scope.
Local Notation C := Complex.C (only parsing).

Definition csum (n : nat) (g : nat -> C) : C := gs (RtoC 0) Cplus n g.
Definition dl (i k : nat) : C := if Nat.eqb i k then RtoC 1 else RtoC 0.
Definition Cth : ring_theory (RtoC 0) (RtoC 1) Cplus Cmult Cminus Copp eq.
Proof. constructor; intros; try ring. Qed.
Definition hpdC (n : nat) (m : nat -> nat -> C) : Prop :=
  (forall a b, (a < n)%nat -> (b < n)%nat -> m a b = Cconj (m b a)) /\
  forall z : nat -> C, (exists a, (a < n)%nat /\ z a <> RtoC 0) -> 0 < fst (csum n (fun a => csum n (fun b => Cconj (z a) * m a b * z b)%C)).

(** ** sums *)
Lemma csum_S n g : csum (S n) g = (csum n g + g n)%C. Proof. apply (gs_S _ _ _ _ _ _ Cth). Qed.
Lemma csum_0 g : csum 0 g = RtoC 0. Proof. reflexivity. Qed.
Lemma csum_ext n g h : (forall k, (k < n)%nat -> g k = h k) -> csum n g = csum n h. Proof. apply (gs_ext _ _ _ _ _ _ Cth). Qed.
Lemma csum_zero n g : (forall k, (k < n)%nat -> g k = RtoC 0) -> csum n g = RtoC 0. Proof. apply (gs_zero _ _ _ _ _ _ Cth). Qed.
Lemma csum_plus n g h : csum n (fun k => g k + h k)%C = (csum n g + csum n h)%C. Proof. apply (gs_plus _ _ _ _ _ _ Cth). Qed.
Lemma csum_opp n g : csum n (fun k => - g k)%C = (- csum n g)%C. Proof. apply (gs_opp _ _ _ _ _ _ Cth). Qed.
Lemma csum_scal n c g : csum n (fun k => c * g k)%C = (c * csum n g)%C. Proof. apply (gs_scal _ _ _ _ _ _ Cth). Qed.
Lemma csum_scal_r n c g : csum n (fun k => g k * c)%C = (csum n g * c)%C.
Proof. rewrite Cmult_comm, <- csum_scal. apply csum_ext. intros. apply Cmult_comm. Qed.
Lemma csum_minus n g h : csum n (fun k => g k - h k)%C = (csum n g - csum n h)%C.
Proof. unfold Cminus. now rewrite csum_plus, csum_opp. Qed.
Lemma csum_swap n m F : csum n (fun a => csum m (fun b => F a b)) = csum m (fun b => csum n (fun a => F a b)). Proof. apply (gs_swap _ _ _ _ _ _ Cth). Qed.
Lemma csum_pick n k g : (k < n)%nat -> csum n (fun j => if Nat.eqb j k then g j else RtoC 0) = g k. Proof. apply (gs_pick _ _ _ _ _ _ Cth). Qed.
Lemma csum_dl n k g : (k < n)%nat -> csum n (fun j => g j * dl j k)%C = g k.
Proof.
  intros H. rewrite <- (csum_pick n k g H). apply csum_ext. intros j _. unfold dl. destruct (Nat.eqb j k); ring.
Qed.
Lemma dl_sym i k : dl i k = dl k i. Proof. unfold dl. now rewrite Nat.eqb_sym. Qed.
Lemma csum_dl' n k g : (k < n)%nat -> csum n (fun j => dl k j * g j)%C = g k.
Proof. intros H. rewrite <- (csum_dl n k g H). apply csum_ext. intros j _. rewrite (dl_sym k j). apply Cmult_comm. Qed.
Lemma Cconj_plus a b : Cconj (a + b)%C = (Cconj a + Cconj b)%C. Proof. unfold Cconj, Cplus. cbn. f_equal. ring. Qed.
Lemma Cconj_mult a b : Cconj (a * b)%C = (Cconj a * Cconj b)%C. Proof. unfold Cconj, Cmult. cbn. f_equal; ring. Qed.
Lemma Cconj_opp a : Cconj (- a)%C = (- Cconj a)%C. Proof. reflexivity. Qed.
Lemma Cconj_R r : Cconj (RtoC r) = RtoC r. Proof. unfold Cconj, RtoC. cbn. f_equal. ring. Qed.
Lemma Cconj_conj a : Cconj (Cconj a) = a. Proof. destruct a. unfold Cconj. cbn. f_equal. ring. Qed.
Lemma Cconj_csum n g : Cconj (csum n g) = csum n (fun k => Cconj (g k)).
Proof. induction n as [|n IH]; [apply Cconj_R |]. now rewrite !csum_S, Cconj_plus, IH. Qed.
Lemma Cconj_dl i k : Cconj (dl i k) = dl i k. Proof. unfold dl. destruct (Nat.eqb i k); apply Cconj_R. Qed.
Lemma fst_csum n g : fst (csum n g) = sumR n (fun k => fst (g k)).
Proof.
  induction n as [|n IH]; [reflexivity |]. rewrite csum_S. unfold sumR in *. rewrite seq_S, map_app, fold_right_app. cbn.
  rewrite IH. generalize (map (fun k => fst (g k)) (seq 0 n)). induction l as [|x l IHl]; cbn; [ring |]. rewrite <- IHl. ring.
Qed.
Lemma snd_csum n g : snd (csum n g) = sumR n (fun k => snd (g k)).
Proof.
  induction n as [|n IH]; [reflexivity |]. rewrite csum_S. unfold sumR in *. rewrite seq_S, map_app, fold_right_app. cbn.
  rewrite IH. generalize (map (fun k => snd (g k)) (seq 0 n)). induction l as [|x l IHl]; cbn; [ring |]. rewrite <- IHl. ring.
Qed.
Lemma RtoC_0_inv r : RtoC r = RtoC 0 -> r = 0. Proof. intros E. exact (f_equal fst E). Qed.
Lemma RtoC_neq r : r <> 0 -> RtoC r <> RtoC 0. Proof. intros N E. apply N. now apply RtoC_0_inv. Qed.
Lemma RtoC_sum n g : RtoC (sumR n g) = csum n (fun k => RtoC (g k)).
Proof. apply injective_projections; [rewrite fst_csum | rewrite snd_csum]; cbn; [reflexivity |]. unfold sumR. induction (seq 0 n) as [|x l IH]; cbn; [reflexivity | rewrite <- IH; ring]. Qed.

(** ** the Schur complement of the last entry *)
Definition schur (n : nat) (m : nat -> nat -> C) (a b : nat) : C := (m a b + - (m a n / m n n * m n b))%C.
Definition form (n : nat) (m : nat -> nat -> C) (z : nat -> C) : C := csum n (fun a => csum n (fun b => Cconj (z a) * m a b * z b)%C).
Lemma form_ext n m m' z z' : (forall a b, (a < n)%nat -> (b < n)%nat -> m a b = m' a b) -> (forall a, (a < n)%nat -> z a = z' a) -> form n m z = form n m' z'.
Proof. intros E F. apply csum_ext. intros a Ha. apply csum_ext. intros b Hb. now rewrite E, !F. Qed.
Lemma form_S n m z : form (S n) m z = (form n m z + csum n (fun a => Cconj (z a) * m a n) * z n + Cconj (z n) * csum n (fun b => m n b * z b) + Cconj (z n) * m n n * z n)%C.
Proof.
  unfold form. rewrite csum_S, (csum_ext n _ (fun a => csum n (fun b => Cconj (z a) * m a b * z b) + Cconj (z a) * m a n * z n)%C) by (intros; apply csum_S).
  rewrite csum_plus, csum_S, csum_scal_r, <- csum_scal.
  rewrite (csum_ext n (fun b => Cconj (z n) * m n b * z b)%C (fun b => Cconj (z n) * (m n b * z b))%C) by (intros; ring). ring.
Qed.
Lemma form_schur n m z : m n n <> RtoC 0 -> form n (schur n m) z = (form n m z - csum n (fun a => Cconj (z a) * m a n) * csum n (fun b => m n b * z b) / m n n)%C.
Proof.
  intros N. unfold form, schur.
  rewrite (csum_ext n _ (fun a => csum n (fun b => Cconj (z a) * m a b * z b) - Cconj (z a) * m a n * (csum n (fun b => m n b * z b) / m n n))%C).
  - rewrite csum_minus, csum_scal_r. unfold Cdiv. ring.
  - intros a _. transitivity (csum n (fun b => Cconj (z a) * m a b * z b - (Cconj (z a) * m a n / m n n) * (m n b * z b))%C).
    + apply csum_ext. intros b _. field. exact N.
    + rewrite csum_minus, csum_scal. unfold Cdiv. ring.
Qed.
Lemma hpd_last n m : hpdC (S n) m -> exists r, 0 < r /\ m n n = RtoC r.
Proof.
  intros [H P]. exists (fst (m n n)). pose proof (H n n ltac:(lia) ltac:(lia)) as E.
  assert (I : snd (m n n) = 0). { apply (f_equal snd) in E. cbn in E. lra. }
  split; [| apply injective_projections; [reflexivity | exact I]].
  set (z := fun k => if Nat.eqb k n then RtoC 1 else RtoC 0). assert (P' : (exists a, (a < S n)%nat /\ z a <> RtoC 0) -> 0 < fst (form (S n) m z)) by exact (P z). clear P; rename P' into P.
  rewrite form_S in P. unfold form, z in P. rewrite Nat.eqb_refl in P.
  rewrite (csum_zero n (fun a => csum n _)), (csum_zero n (fun a => _ * m a n)%C), (csum_zero n (fun b => m n b * _)%C) in P.
  - rewrite Cconj_R in P. enough (X : (RtoC 0 + RtoC 0 * RtoC 1 + RtoC 1 * RtoC 0 + RtoC 1 * m n n * RtoC 1)%C = m n n).
    { rewrite X in P. apply P. exists n. split; [lia |]. rewrite Nat.eqb_refl. apply RtoC_neq. lra. }
    ring.
  - intros k Hk. rewrite (proj2 (Nat.eqb_neq k n)) by lia. ring.
  - intros k Hk. rewrite (proj2 (Nat.eqb_neq k n)) by lia. rewrite Cconj_R. ring.
  - intros k Hk. apply csum_zero. intros j Hj. rewrite (proj2 (Nat.eqb_neq j n)) by lia. ring.
Qed.
Lemma hpd_schur n m : hpdC (S n) m -> hpdC n (schur n m).
Proof.
  intros H. destruct (hpd_last n m H) as (r & R & E). destruct H as [H P].
  assert (N : m n n <> RtoC 0) by (rewrite E; apply RtoC_neq; lra). split.
  - intros a b Ha Hb. unfold schur. rewrite (H a b), (H a n), (H n b) by lia. rewrite Cconj_plus, Cconj_opp, Cconj_mult.
    unfold Cdiv. rewrite Cconj_mult, E, <- RtoC_inv, Cconj_R by lra. ring.
  - intros z (a & Ha & Za). fold (form n (schur n m) z). rewrite form_schur by exact N.
    set (u := csum n (fun b => m n b * z b)%C). set (v := csum n (fun a => Cconj (z a) * m a n)%C).
    assert (V : Cconj u = v). { unfold u, v. rewrite Cconj_csum. apply csum_ext. intros k Hk. rewrite Cconj_mult, (H k n) by lia. ring. }
    set (z' := fun k => if Nat.eqb k n then (- (u / m n n))%C else z k).
    assert (Z : forall k, (k < n)%nat -> z' k = z k). { intros k Hk. unfold z'. now rewrite (proj2 (Nat.eqb_neq k n)) by lia. }
    specialize (P z'). fold (form (S n) m z') in P. rewrite form_S in P.
    rewrite (form_ext n m m z' z), (csum_ext n (fun a => Cconj (z' a) * m a n)%C (fun a => Cconj (z a) * m a n)%C), (csum_ext n (fun b => m n b * z' b)%C (fun b => m n b * z b)%C) in P.
    2, 3: intros k Hk; now rewrite Z. 2: reflexivity. 2: exact Z.
    fold u v in P. assert (Zn : z' n = (- (u / m n n))%C) by (unfold z'; now rewrite Nat.eqb_refl). rewrite Zn in P.
    assert (Cn : Cconj (- (u / m n n))%C = (- (v / m n n))%C).
    { unfold Cdiv. rewrite Cconj_opp, Cconj_mult, V, E, <- RtoC_inv, Cconj_R by lra. reflexivity. }
    rewrite Cn in P. replace (form n m z - v * u / m n n)%C with (form n m z + v * - (u / m n n) + - (v / m n n) * u + - (v / m n n) * m n n * - (u / m n n))%C by (field; exact N).
    apply P. exists a. split; [lia |]. now rewrite Z.
Qed.
Lemma cdet_ext n m m' : (forall a b, (a < n)%nat -> (b < n)%nat -> m a b = m' a b) -> cdet n m = cdet n m'.
Proof. apply (D_ext _ _ _ _ _ _ Cth). Qed.
Lemma cdet_schur n m : m n n <> RtoC 0 -> cdet (S n) m = (m n n * cdet n (schur n m))%C.
Proof. intros N. apply (D_schur _ _ _ _ _ _ Cth n m (fun a => m a n / m n n)%C). intros a _. field. exact N. Qed.
Lemma hpd_det n : forall m, hpdC n m -> exists r, 0 < r /\ cdet n m = RtoC r.
Proof.
  induction n as [|n IH]; intros m H; [exists 1; split; [lra | reflexivity] |].
  destruct (hpd_last n m H) as (r & R & E). destruct (IH _ (hpd_schur n m H)) as (t & T & F). exists (r * t). split; [now apply Rmult_lt_0_compat |].
  rewrite cdet_schur by (rewrite E; apply RtoC_neq; lra). now rewrite E, F, RtoC_mult.
Qed.
Lemma hpd_ext n m m' : (forall a b, (a < n)%nat -> (b < n)%nat -> m a b = m' a b) -> hpdC n m -> hpdC n m'.
Proof.
  intros E [H P]. split; [intros a b Ha Hb; rewrite <- !E by assumption; now apply H |].
  intros z Z. specialize (P z Z). fold (form n m z) in P. fold (form n m' z). now rewrite <- (form_ext n m m' z z E (fun _ _ => eq_refl)).
Qed.

(** ** inverses *)
Lemma cinv_right n m i k : cdet n m <> RtoC 0 -> (i < n)%nat -> (k < n)%nat -> csum n (fun j => m i j * cinv n m j k)%C = dl i k.
Proof.
  intros N Hi Hk. destruct n as [|n]; [lia |].
  transitivity (csum (S n) (fun j => m i j * alt Copp (j + k) (cdet n (minor k j m)))%C * Cinv (cdet (S n) m))%C.
  - rewrite <- csum_scal_r. apply csum_ext. intros j _. unfold cinv, ginv. cbn [pred]. apply Cmult_assoc.
  - transitivity ((if Nat.eqb i k then cdet (S n) m else RtoC 0) * / cdet (S n) m)%C.
    { apply (f_equal (fun x => x * / cdet (S n) m)%C). exact (cramer _ _ _ _ _ _ Cth n i k m Hi Hk). }
    unfold dl. destruct (Nat.eqb i k); [now apply Cinv_r | ring].
Qed.
Section Inverse.
  Variables (n : nat) (m : nat -> nat -> C).
  Hypothesis (Hm : forall a b, (a < n)%nat -> (b < n)%nat -> m a b = Cconj (m b a)) (N : cdet n m <> RtoC 0).
  Let A := cinv n m.
  Lemma cinv_left' i k : (i < n)%nat -> (k < n)%nat -> csum n (fun j => Cconj (A j i) * m j k)%C = dl i k.
  Proof.
    intros Hi Hk. rewrite <- (Cconj_dl i k), dl_sym, <- (cinv_right n m k i N Hk Hi), Cconj_csum. apply csum_ext. intros j Hj.
    rewrite Cconj_mult, (Hm j k) by assumption. apply Cmult_comm.
  Qed.
  Lemma cinv_herm a b : (a < n)%nat -> (b < n)%nat -> A a b = Cconj (A b a).
  Proof.
    intros Ha Hb. rewrite <- (csum_dl' n a (fun j => A j b) Ha).
    rewrite (csum_ext n _ (fun i => csum n (fun j => Cconj (A j a) * m j i) * A i b)%C) by (intros i Hi; now rewrite cinv_left').
    rewrite (csum_ext n _ (fun i => csum n (fun j => Cconj (A j a) * (m j i * A i b)))%C) by (intros i Hi; rewrite <- csum_scal_r; apply csum_ext; intros; ring).
    rewrite csum_swap. rewrite (csum_ext n _ (fun j => Cconj (A j a) * dl j b)%C).
    - now apply (csum_dl n b (fun j => Cconj (A j a))).
    - intros j Hj. rewrite csum_scal. f_equal. now apply cinv_right.
  Qed.
  Lemma cinv_left i k : (i < n)%nat -> (k < n)%nat -> csum n (fun j => A i j * m j k)%C = dl i k.
  Proof. intros Hi Hk. rewrite <- (cinv_left' i k Hi Hk). apply csum_ext. intros j Hj. now rewrite cinv_herm. Qed.
  Lemma cinv_unique X : (forall i k, (i < n)%nat -> (k < n)%nat -> csum n (fun j => m i j * X j k)%C = dl i k) -> forall i k, (i < n)%nat -> (k < n)%nat -> X i k = A i k.
  Proof.
    intros H i k Hi Hk. rewrite <- (csum_dl' n i (fun j => X j k) Hi), <- (csum_dl n k (fun j => A i j) Hk).
    rewrite (csum_ext n (fun j => dl i j * X j k)%C (fun j => csum n (fun l => A i l * (m l j * X j k)))%C).
    - rewrite csum_swap. apply csum_ext. intros l Hl. rewrite csum_scal. f_equal. now apply H.
    - intros j Hj. rewrite <- (cinv_left i j Hi Hj), <- csum_scal_r. apply csum_ext. intros; ring.
  Qed.
  Lemma apply_inv z i : (i < n)%nat -> csum n (fun j => m i j * csum n (fun k => A j k * z k))%C = z i.
  Proof.
    intros Hi. rewrite <- (csum_dl' n i z Hi). rewrite (csum_ext n _ (fun j => csum n (fun k => m i j * A j k * z k))%C) by (intros; rewrite <- csum_scal; apply csum_ext; intros; ring).
    rewrite csum_swap. apply csum_ext. intros k Hk. rewrite csum_scal_r. f_equal. now apply cinv_right.
  Qed.
End Inverse.
Lemma hpd_det_ne n m : hpdC n m -> cdet n m <> RtoC 0.
Proof. intros H. destruct (hpd_det n m H) as (r & R & ->). apply RtoC_neq. lra. Qed.
Lemma hpd_inv n m : hpdC n m -> hpdC n (cinv n m).
Proof.
  intros H. pose proof (hpd_det_ne n m H) as N. destruct H as [H P]. split; [now apply cinv_herm |].
  intros z Z. set (y := fun j => csum n (fun k => cinv n m j k * z k)%C).
  assert (Y : forall i, (i < n)%nat -> csum n (fun j => m i j * y j)%C = z i) by (intros; now apply apply_inv).
  specialize (P y). fold (form n m y) in P. fold (form n (cinv n m) z).
  assert (E : form n (cinv n m) z = Cconj (form n m y)).
  { unfold form. rewrite (csum_ext n _ (fun a => Cconj (z a) * y a)%C) by (intros a Ha; unfold y; rewrite <- csum_scal; apply csum_ext; intros; ring).
    rewrite (csum_ext n (fun a => csum n (fun b => Cconj (y a) * m a b * y b))%C (fun a => Cconj (y a) * z a)%C).
    - rewrite Cconj_csum. apply csum_ext. intros a Ha. rewrite Cconj_mult, Cconj_conj. ring.
    - intros a Ha. rewrite <- (Y a Ha), <- csum_scal. apply csum_ext. intros; ring. }
  rewrite E. change (fst (Cconj (form n m y))) with (fst (form n m y)). apply P.
  destruct Z as (a & Ha & Za). apply Classical_Prop.NNPP. intros No. apply Za. rewrite <- (Y a Ha). apply csum_zero. intros k Hk.
  assert (y k = RtoC 0) as ->; [| ring]. apply Classical_Prop.NNPP. intros Yk. apply No. now exists k.
Qed.
Lemma cinv_inv n m i k : hpdC n m -> (i < n)%nat -> (k < n)%nat -> cinv n (cinv n m) i k = m i k.
Proof.
  intros H Hi Hk. pose proof (hpd_inv n m H) as H'. symmetry. apply (cinv_unique n (cinv n m) (proj1 H') (hpd_det_ne _ _ H')); try assumption.
  intros a b Ha Hb. apply (cinv_left n m (proj1 H) (hpd_det_ne _ _ H)); assumption.
Qed.

(** ** Cholesky factors *)
Lemma cholesky n : forall m, hpdC n m -> exists L : nat -> nat -> C, forall a b, (a < n)%nat -> (b < n)%nat -> m a b = csum n (fun k => L a k * Cconj (L b k))%C.
Proof.
  induction n as [|n IH]; intros m H; [exists (fun _ _ => RtoC 0); intros; lia |].
  destruct (hpd_last n m H) as (r & R & E). destruct (IH _ (hpd_schur n m H)) as (L & HL). destruct H as [H P].
  set (q := RtoC (sqrt r)). assert (Q : (q * q)%C = RtoC r) by (unfold q; rewrite <- RtoC_mult, sqrt_sqrt by lra; reflexivity).
  assert (Qn : q <> RtoC 0) by (apply RtoC_neq; apply Rgt_not_eq, sqrt_lt_R0; exact R). assert (Qc : Cconj q = q) by apply Cconj_R.
  assert (Qi : Cconj (/ q)%C = (/ q)%C) by (unfold q; rewrite <- RtoC_inv by (apply Rgt_not_eq, sqrt_lt_R0; exact R); apply Cconj_R).
  exists (fun a k => if Nat.ltb k n then (if Nat.ltb a n then L a k else RtoC 0) else (if Nat.ltb a n then m a n / q else q)%C).
  intros a b Ha Hb. rewrite csum_S, Nat.ltb_irrefl.
  rewrite (csum_ext n _ (fun k => (if Nat.ltb a n then L a k else RtoC 0) * Cconj (if Nat.ltb b n then L b k else RtoC 0))%C) by (intros k Hk; now rewrite (proj2 (Nat.ltb_lt k n) Hk)).
  destruct (Nat.ltb_spec a n) as [La | La], (Nat.ltb_spec b n) as [Lb | Lb].
  - rewrite <- (HL a b La Lb). unfold schur. rewrite (H n b) by lia. unfold Cdiv. rewrite Cconj_mult, Qi, E, <- Q. field. exact Qn.
  - replace b with n by lia. rewrite csum_zero by (intros; rewrite Cconj_R; ring). rewrite Qc. field. exact Qn.
  - replace a with n by lia. rewrite csum_zero by (intros; ring). unfold Cdiv. rewrite Cconj_mult, Qi, <- (H n b) by lia. field. exact Qn.
  - replace a with n by lia. replace b with n by lia. rewrite csum_zero by (intros; ring). rewrite Qc, Q, E. ring.
Qed.

(** ** real matrices *)
Notation cmat m := (fun a b => RtoC (m a b)).
Lemma rdet_C n : forall m, cdet n (cmat m) = RtoC (rdet n m).
Proof.
  induction n as [|n IH]; intros m; [reflexivity |]. transitivity (csum (S n) (fun j => alt Copp j (RtoC (m 0%nat j) * cdet n (cmat (fun a b => m (S a) (skip j b)))))%C); [reflexivity |].
  transitivity (csum (S n) (fun j => RtoC (alt Ropp j (m 0%nat j * rdet n (fun a b => m (S a) (skip j b)))))).
  - apply csum_ext. intros j _. rewrite IH. unfold alt. destruct (Nat.even j); [now rewrite RtoC_mult | now rewrite RtoC_opp, RtoC_mult].
  - symmetry. exact (RtoC_sum (S n) _).
Qed.
Lemma rinv_C n m i j : rdet n m <> 0 -> cinv n (cmat m) i j = RtoC (rinv n m i j).
Proof.
  intros N. set (M := fun a b => m (skip j a) (skip i b)).
  change (alt Copp (i + j) (cdet (pred n) (cmat M)) * / cdet n (cmat m) = RtoC (alt Ropp (i + j) (rdet (pred n) M) * / rdet n m))%C.
  rewrite !rdet_C, RtoC_mult, RtoC_inv by exact N. f_equal. unfold alt. destruct (Nat.even (i + j)); [reflexivity | now rewrite RtoC_opp].
Qed.
Lemma hpd_C n re im : hpd n re im -> hpdC n (fun a b => (re a b, im a b)).
Proof.
  intros [H P]. split.
  - intros a b Ha Hb. destruct (H a b Ha Hb) as [-> ->]. unfold Cconj. cbn. reflexivity.
  - intros z (a & Ha & Za). specialize (P (fun a => fst (z a)) (fun a => snd (z a))).
    match type of P with _ -> 0 < ?x => match goal with |- 0 < ?y => replace y with x end end.
    + apply P. exists a. split; [exact Ha |]. destruct (Req_dec (fst (z a)) 0) as [E | E]; [| now left]. right. intros E'. apply Za. now apply injective_projections.
    + rewrite fst_csum. unfold sumR. f_equal. apply map_ext. intros k. rewrite fst_csum. unfold sumR. f_equal. apply map_ext. intros l. cbn. ring.
Qed.
Lemma C_hpd n m : hpdC n m -> hpd n (fun a b => fst (m a b)) (fun a b => snd (m a b)).
Proof.
  intros [H P]. split.
  - intros a b Ha Hb. rewrite (H a b Ha Hb). cbn. split; ring.
  - intros x y (a & Ha & Za). specialize (P (fun a => (x a, y a))).
    match type of P with _ -> 0 < ?x => match goal with |- 0 < ?y => replace y with x end end.
    + apply P. exists a. split; [exact Ha |]. intros E. injection E as E1 E2. destruct Za as [Za | Za]; contradiction.
    + rewrite fst_csum. unfold sumR. f_equal. apply map_ext. intros k. rewrite fst_csum. unfold sumR. f_equal. apply map_ext. intros l. cbn. ring.
Qed.
Lemma sumR_add n g h : sumR n (fun k => g k + h k) = sumR n g + sumR n h.
Proof. unfold sumR. induction (seq 0 n) as [|x l IH]; cbn; [ring | rewrite IH; ring]. Qed.
Lemma sumR_z n g : (forall k, (k < n)%nat -> g k = 0) -> sumR n g = 0.
Proof. intros H. unfold sumR. assert (F : forall l, (forall k, In k l -> g k = 0) -> fold_right Rplus 0 (map g l) = 0). { induction l as [|x l IH]; cbn; intros E; [reflexivity | rewrite E, IH by auto; ring]. } apply F. intros k Hk. apply H. apply in_seq in Hk. lia. Qed.
Lemma spd_C n m : spd n m -> hpdC n (cmat m).
Proof.
  intros [H P]. apply (hpd_C n m (fun _ _ => 0)). split; [intros a b Ha Hb; split; [now apply H | ring] |].
  assert (Q : forall z, 0 <= sumR n (fun a => sumR n (fun b => z a * m a b * z b))).
  { intros z. destruct (Classical_Prop.classic (exists a, (a < n)%nat /\ z a <> 0)) as [E | E]; [left; now apply P |].
    right. symmetry. apply sumR_z. intros a Ha. apply sumR_z. intros b Hb. assert (Z : z a = 0); [| rewrite Z; ring].
    apply Classical_Prop.NNPP. intros Z. apply E. now exists a. }
  intros x y (a & Ha & Z). replace (sumR n _) with (sumR n (fun a => sumR n (fun b => x a * m a b * x b)) + sumR n (fun a => sumR n (fun b => y a * m a b * y b))).
  - pose proof (Q x). pose proof (Q y). destruct Z as [Z | Z]; [pose proof (P x (ex_intro _ a (conj Ha Z))) | pose proof (P y (ex_intro _ a (conj Ha Z)))]; lra.
  - rewrite <- sumR_add. unfold sumR at 1 4. f_equal. apply map_ext. intros k. rewrite <- sumR_add. unfold sumR. f_equal. apply map_ext. intros l. ring.
Qed.
Lemma C_spd n m : hpdC n (cmat m) -> spd n m.
Proof.
  intros H. destruct (C_hpd n _ H) as [S P]. cbn [fst snd RtoC] in S, P. split; [intros a b Ha Hb; exact (proj1 (S a b Ha Hb)) |].
  intros z (a & Ha & Z). specialize (P z (fun _ => 0) (ex_intro _ a (conj Ha (or_introl Z)))).
  match type of P with 0 < ?x => match goal with |- 0 < ?y => replace y with x; [exact P |] end end.
  unfold sumR. f_equal. apply map_ext. intros k. f_equal. apply map_ext. intros l. unfold RtoC. cbn. ring.
Qed.
Lemma spd_det n m : spd n m -> 0 < rdet n m.
Proof. intros H. destruct (hpd_det n _ (spd_C n m H)) as (r & R & E). rewrite rdet_C in E. apply (f_equal fst) in E. cbn in E. now rewrite E. Qed.
Definition dr (i k : nat) : R := if Nat.eqb i k then 1 else 0.
Lemma dl_dr i k : dl i k = RtoC (dr i k). Proof. unfold dl, dr. now destruct (Nat.eqb i k). Qed.
Lemma RtoC_inj x y : RtoC x = RtoC y -> x = y. Proof. intros E. exact (f_equal fst E). Qed.
Lemma rdet_ne n m : rdet n m <> 0 -> cdet n (cmat m) <> RtoC 0. Proof. intros H. rewrite rdet_C. now apply RtoC_neq. Qed.
Lemma rinv_right n m i k : rdet n m <> 0 -> (i < n)%nat -> (k < n)%nat -> sumR n (fun j => m i j * rinv n m j k) = dr i k.
Proof.
  intros N Hi Hk. apply RtoC_inj. rewrite RtoC_sum, <- dl_dr, <- (cinv_right n (cmat m) i k (rdet_ne n m N) Hi Hk). apply csum_ext. intros j _. now rewrite RtoC_mult, rinv_C.
Qed.
Lemma sym_C n (m : nat -> nat -> R) : (forall a b, (a < n)%nat -> (b < n)%nat -> m a b = m b a) -> forall a b, (a < n)%nat -> (b < n)%nat -> cmat m a b = Cconj (cmat m b a).
Proof. intros H a b Ha Hb. cbn. now rewrite Cconj_R, H. Qed.
Lemma rinv_sym n m a b : (forall a b, (a < n)%nat -> (b < n)%nat -> m a b = m b a) -> rdet n m <> 0 -> (a < n)%nat -> (b < n)%nat -> rinv n m a b = rinv n m b a.
Proof.
  intros H N Ha Hb. pose proof (cinv_herm n (cmat m) (sym_C n m H) (rdet_ne n m N) a b Ha Hb) as E. rewrite !rinv_C, Cconj_R in E by exact N. now apply RtoC_inj.
Qed.
Lemma rinv_left n m i k : (forall a b, (a < n)%nat -> (b < n)%nat -> m a b = m b a) -> rdet n m <> 0 -> (i < n)%nat -> (k < n)%nat -> sumR n (fun j => rinv n m i j * m j k) = dr i k.
Proof.
  intros H N Hi Hk. apply RtoC_inj. rewrite RtoC_sum, <- dl_dr, <- (cinv_left n (cmat m) (sym_C n m H) (rdet_ne n m N) i k Hi Hk). apply csum_ext. intros j _. now rewrite RtoC_mult, rinv_C.
Qed.
Lemma rinv_unique n m (X : nat -> nat -> R) : (forall a b, (a < n)%nat -> (b < n)%nat -> m a b = m b a) -> rdet n m <> 0 ->
  (forall i k, (i < n)%nat -> (k < n)%nat -> sumR n (fun j => m i j * X j k) = dr i k) -> forall i k, (i < n)%nat -> (k < n)%nat -> X i k = rinv n m i k.
Proof.
  intros H N E i k Hi Hk. apply RtoC_inj. rewrite <- rinv_C by exact N. apply (cinv_unique n (cmat m) (sym_C n m H) (rdet_ne n m N) (cmat X)); try assumption.
  intros a b Ha Hb. rewrite dl_dr, <- E, RtoC_sum by assumption. apply csum_ext. intros j _. now rewrite RtoC_mult.
Qed.
Lemma spd_ne n m : spd n m -> rdet n m <> 0. Proof. intros H. pose proof (spd_det n m H). lra. Qed.
Lemma spd_inv n m : spd n m -> spd n (rinv n m).
Proof.
  intros H. apply C_spd. eapply hpd_ext; [| exact (hpd_inv n _ (spd_C n m H))]. intros a b _ _. cbn. now rewrite rinv_C by now apply spd_ne.
Qed.
Lemma spd_ext n m m' : (forall a b, (a < n)%nat -> (b < n)%nat -> m a b = m' a b) -> spd n m -> spd n m'.
Proof. intros E H. apply C_spd. apply (hpd_ext n (cmat m)); [intros; cbn; now rewrite E | now apply spd_C]. Qed.
Lemma rinv_inv n m i k : spd n m -> (i < n)%nat -> (k < n)%nat -> rinv n (rinv n m) i k = m i k.
Proof.
  intros H Hi Hk. pose proof (spd_inv n m H) as H'. symmetry. apply (rinv_unique n (rinv n m)); [exact (proj1 H') | now apply spd_ne | | assumption | assumption].
  intros a b Ha Hb. apply rinv_left; [exact (proj1 H) | now apply spd_ne | assumption | assumption].
Qed.
Lemma rdet_ext n m m' : (forall a b, (a < n)%nat -> (b < n)%nat -> m a b = m' a b) -> rdet n m = rdet n m'.
Proof. intros E. apply RtoC_inj. rewrite <- !rdet_C. apply cdet_ext. intros a b Ha Hb. cbn. now rewrite E. Qed.
Lemma cinv_ext n m m' i j : (forall a b, (a < n)%nat -> (b < n)%nat -> m a b = m' a b) -> (i < n)%nat -> (j < n)%nat -> cinv n m i j = cinv n m' i j.
Proof.
  intros E Hi Hj. unfold cinv, ginv. fold (cdet (pred n)) (cdet n). rewrite (cdet_ext n m m' E). destruct n as [|n]; [lia |]. cbn [pred].
  rewrite (cdet_ext n _ (fun a b => m' (skip j a) (skip i b))); [reflexivity |]. intros a b Ha Hb. apply E; apply skip_lt; lia.
Qed.
Lemma rinv_ext n m m' i j : (forall a b, (a < n)%nat -> (b < n)%nat -> m a b = m' a b) -> (i < n)%nat -> (j < n)%nat -> rinv n m i j = rinv n m' i j.
Proof.
  intros E Hi Hj. unfold rinv, ginv. fold (rdet (pred n)) (rdet n). rewrite (rdet_ext n m m' E). destruct n as [|n]; [lia |]. cbn [pred].
  rewrite (rdet_ext n _ (fun a b => m' (skip j a) (skip i b))); [reflexivity |]. intros a b Ha Hb. apply E; apply skip_lt; lia.
Qed.
Definition Rth' : ring_theory 0 1 Rplus Rmult Rminus Ropp eq. Proof. constructor; intros; try ring. Qed.
Lemma rdet_opp n m : rdet n (fun a b => - m a b) = alt Ropp n (rdet n m). Proof. apply (D_opp _ _ _ _ _ _ Rth'). Qed.
Lemma rdet_opp_ne n m : rdet n m <> 0 -> rdet n (fun a b => - m a b) <> 0.
Proof. intros H. rewrite rdet_opp. unfold alt. destruct (Nat.even n); lra. Qed.
Lemma rinv_opp n m i j : rdet n m <> 0 -> (i < n)%nat -> (j < n)%nat -> rinv n (fun a b => - m a b) i j = - rinv n m i j.
Proof.
  intros N Hi Hj. pose proof (rdet_opp_ne n m N) as N'. unfold rinv, ginv. fold (rdet (pred n)) (rdet n). destruct n as [|n]; [lia |]. cbn [pred].
  change (fun a b => - m (skip j a) (skip i b)) with (fun a b => - (fun a b => m (skip j a) (skip i b)) a b). rewrite !rdet_opp in *. unfold alt in *.
  rewrite Nat.even_succ, <- Nat.negb_even in *. destruct (Nat.even (i + j)), (Nat.even n); cbn in *; field; lra.
Qed.
Lemma sumR_mul n c g : sumR n (fun k => c * g k) = c * sumR n g.
Proof. unfold sumR. induction (seq 0 n) as [|x l IH]; cbn; [ring | rewrite IH; ring]. Qed.
Lemma spd_scal n m c : 0 < c -> spd n m -> spd n (fun a b => c * m a b).
Proof.
  intros C [H P]. split; [intros a b Ha Hb; now rewrite H |]. intros z Z. specialize (P z Z).
  replace (sumR n _) with (c * sumR n (fun a => sumR n (fun b => z a * m a b * z b))); [now apply Rmult_lt_0_compat |].
  rewrite <- sumR_mul. unfold sumR at 1 3. f_equal. apply map_ext. intros k. rewrite <- sumR_mul. unfold sumR. f_equal. apply map_ext. intros l. ring.
Qed.
Lemma rinv_scal n m c i j : 0 < c -> spd n m -> (i < n)%nat -> (j < n)%nat -> rinv n (fun a b => c * m a b) i j = rinv n m i j / c.
Proof.
  intros C H Hi Hj. pose proof (spd_scal n m c C H) as H'. symmetry.
  apply (rinv_unique n (fun a b => c * m a b) (fun i j => rinv n m i j / c)); [exact (proj1 H') | now apply spd_ne | | assumption | assumption].
  intros a b Ha Hb. rewrite <- (rinv_right n m a b) by (assumption || now apply spd_ne). unfold sumR. f_equal. apply map_ext. intros k. field. lra.
Qed.

(** ** complex conjugates *)
Lemma hpd_conj n m : hpdC n m -> hpdC n (fun a b => Cconj (m a b)).
Proof.
  intros [H P]. split; [intros a b Ha Hb; now rewrite (H a b) |]. intros z (a & Ha & Za). specialize (P (fun k => Cconj (z k))).
  match type of P with _ -> 0 < fst ?x => match goal with |- 0 < fst ?y => replace y with (Cconj x) end end.
  - apply P. exists a. split; [exact Ha |]. intros E. apply Za. now rewrite <- (Cconj_conj (z a)), E, Cconj_R.
  - rewrite Cconj_csum. apply csum_ext. intros b _. rewrite Cconj_csum. apply csum_ext. intros c _. now rewrite !Cconj_mult, !Cconj_conj.
Qed.
Lemma cinv_conj n m i k : hpdC n m -> (i < n)%nat -> (k < n)%nat -> cinv n (fun a b => Cconj (m a b)) i k = Cconj (cinv n m i k).
Proof.
  intros H Hi Hk. pose proof (hpd_conj n m H) as H'. symmetry. apply (cinv_unique n _ (proj1 H') (hpd_det_ne _ _ H') (fun i k => Cconj (cinv n m i k))); try assumption.
  intros a b Ha Hb. rewrite <- Cconj_dl, <- (cinv_right n m a b (hpd_det_ne _ _ H) Ha Hb), Cconj_csum. apply csum_ext. intros j _. now rewrite Cconj_mult.
Qed.
Lemma hpd_ext' n re im re' im' : (forall a b, (a < n)%nat -> (b < n)%nat -> re a b = re' a b /\ im a b = im' a b) -> hpd n re im -> hpd n re' im'.
Proof.
  intros E H. apply hpd_C in H. apply (hpd_ext n _ (fun a b => (re' a b, im' a b))) in H; [exact (C_hpd n _ H) |].
  intros a b Ha Hb. destruct (E a b Ha Hb) as [-> ->]. reflexivity.
Qed.
Lemma sumR_exti n g h : (forall k, (k < n)%nat -> g k = h k) -> sumR n g = sumR n h.
Proof. intros E. unfold sumR. f_equal. apply map_ext_in. intros k Hk. apply in_seq in Hk. apply E. lia. Qed.
Lemma rapply_inv n m (z : nat -> R) i : rdet n m <> 0 -> (i < n)%nat -> sumR n (fun j => m i j * sumR n (fun k => rinv n m j k * z k)) = z i.
Proof.
  intros N Hi. apply RtoC_inj. rewrite <- (apply_inv n (cmat m) (rdet_ne n m N) (fun k => RtoC (z k)) i Hi), RtoC_sum. apply csum_ext. intros j _. rewrite RtoC_mult, RtoC_sum. f_equal.
  apply csum_ext. intros k _. now rewrite RtoC_mult, rinv_C.
Qed.
