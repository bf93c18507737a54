(** The determinants of inverses, multiples and conjugates of positive definite matrices. *)
From Coquelicot Require Import Coquelicot.
From Coq Require Import List Bool Arith Reals Lia Lra.
From Verif Require Import Base XReal SpecFun PointSpec DetFacts MatFacts IntMat.
Import ListNotations.
Local Unset Asymmetric Patterns.
Local Open Scope R_scope.

Lemma hpd_top n m : hpdC (S n) m -> hpdC n m.
Proof.
  intros [H P]. split; [intros a b A B; apply H; lia|]. intros z (a & Ha & Za). specialize (P (fun k => if (k <? n)%nat then z k else RtoC 0)). assert (L : forall k, (k < n)%nat -> (k <? n)%nat = true) by (intros; now apply Nat.ltb_lt).
  rewrite csum_S in P. rewrite Nat.ltb_irrefl in P. rewrite (csum_zero (S n) (fun b => Cconj (RtoC 0) * m n b * (if (b <? n)%nat then z b else RtoC 0))%C) in P by (intros; rewrite Cconj_R; ring).
  rewrite Cplus_0_r in P. erewrite csum_ext; [apply P|].
  - exists a. split; [lia|]. now rewrite L.
  - intros b B. cbv beta. rewrite csum_S, Nat.ltb_irrefl, L, Cmult_0_r, Cplus_0_r by assumption. apply csum_ext. intros c Hc. now rewrite L.
Qed.
Lemma cinv_corner n m : cinv (S n) m n n = (cdet n m * / cdet (S n) m)%C.
Proof.
  unfold cinv, ginv. cbn [pred]. f_equal. unfold alt. replace (Nat.even (n + n)) with true by (symmetry; apply Nat.even_spec; exists n; lia). apply cdet_ext. intros a b A B. unfold skip. now rewrite (proj2 (Nat.ltb_lt a n) A), (proj2 (Nat.ltb_lt b n) B).
Qed.
Lemma cdet_inv n : forall m, hpdC n m -> (cdet n (cinv n m) * cdet n m)%C = RtoC 1.
Proof.
  induction n as [|n IH]; intros m H; [cbn; ring|]. pose proof (hpd_inv _ _ H) as HB. set (B := cinv (S n) m) in *. pose proof (hpd_top n m H) as Ht. pose proof (hpd_det_ne _ _ H) as N. pose proof (hpd_det_ne _ _ Ht) as Nt.
  destruct (hpd_last n B HB) as (r & R & Er). assert (Nb : B n n <> RtoC 0) by (rewrite Er; apply RtoC_neq; lra).
  rewrite cdet_schur by exact Nb. assert (E : forall a b, (a < n)%nat -> (b < n)%nat -> schur n B a b = cinv n m a b).
  { apply (cinv_unique n m (proj1 Ht) Nt). intros i k Hi Hk. 
    pose proof (cinv_right (S n) m i k N ltac:(lia) ltac:(lia)) as K1. pose proof (cinv_right (S n) m i n N ltac:(lia) ltac:(lia)) as K2. fold B in K1, K2. rewrite csum_S in K1, K2. rewrite <- K1.
    replace (dl i n) with (RtoC 0) in K2 by (unfold dl; now rewrite (proj2 (Nat.eqb_neq i n)) by lia).
    unfold schur. rewrite (csum_ext n _ (fun j => m i j * B j k + - (B n k / B n n) * (m i j * B j n))%C) by (intros; field; exact Nb). rewrite csum_plus, csum_scal.
    assert (K3 : csum n (fun j => m i j * B j n)%C = (- (m i n * B n n))%C). { transitivity (csum n (fun j => m i j * B j n) + m i n * B n n - m i n * B n n)%C; [ring|rewrite K2; ring]. } rewrite K3. field. exact Nb. }
  rewrite (cdet_ext n _ (cinv n m) E). unfold B. rewrite cinv_corner. pose proof (IH m Ht) as K. transitivity (cdet n (cinv n m) * cdet n m * (/ cdet (S n) m * cdet (S n) m))%C; [ring|]. rewrite K, Cinv_l by exact N. ring.
Qed.
Lemma cdet_conj n : forall m, hpdC n m -> cdet n (fun a b => Cconj (m a b)) = cdet n m.
Proof.
  intros m H. destruct (hpd_det n m H) as (r & _ & E). transitivity (Cconj (cdet n m)); [|rewrite E; apply Cconj_R]. clear E r. revert m H.
  induction n as [|n IH]; intros m H; [cbn; unfold Cconj; cbn; now rewrite Ropp_0|]. destruct (hpd_last n m H) as (r & R & Er). assert (Nb : m n n <> RtoC 0) by (rewrite Er; apply RtoC_neq; lra).
  assert (Nc : Cconj (m n n) <> RtoC 0) by (rewrite Er, Cconj_R; apply RtoC_neq; lra).
  rewrite (cdet_schur n m Nb), (cdet_schur n (fun a b => Cconj (m a b)) Nc), Cconj_mult, <- (IH _ (hpd_schur n m H)). f_equal. apply cdet_ext. intros a b A B. unfold schur. rewrite Er, Cconj_R, !Cconj_plus, Cconj_opp, !Cconj_mult. f_equal. f_equal. f_equal.
  unfold Cdiv. rewrite Cconj_mult. f_equal. rewrite <- RtoC_inv by lra. now rewrite Cconj_R.
Qed.
Lemma rdet_inv n m : spd n m -> rdet n (rinv n m) = / rdet n m.
Proof.
  intros H. pose proof (spd_det n m H) as Dp. pose proof (cdet_inv n (cmat m) (spd_C n m H)) as K. rewrite (cdet_ext n _ (cmat (rinv n m))) in K by (intros; apply rinv_C; lra). rewrite !rdet_C, <- RtoC_mult in K. apply RtoC_inj in K.
  apply Rmult_eq_reg_r with (rdet n m); [|lra]. rewrite K. field. lra.
Qed.
Lemma rdet_scal n c : forall m, c <> 0 -> spd n m -> rdet n (fun a b => c * m a b) = c ^ n * rdet n m.
Proof.
  induction n as [|n IH]; intros m Hc H; [cbn; ring|]. pose proof (spd_last n m H) as L. rewrite (rdet_sch n m) by lra. rewrite rdet_sch by (apply Rmult_integral_contrapositive_currified; lra).
  rewrite (rdet_ext n _ (fun a b => c * rsch n m a b)); [rewrite (IH _ Hc (spd_sch n m H)); cbn [pow]; ring|]. intros a b A B. unfold rsch. field. split; lra.
Qed.
