(** Changes of variable between the draws and the samples (C49). *)
From Coquelicot Require Import Coquelicot.
From Coq Require Import String List Bool Arith Reals Lia Lra.
From Verif Require Import Base XReal Tensor TensorFacts Support Dist Iteration Structure Spec SumSpec DotSpec Tools Joint SpecFun GammaFn Expr Fam DotFacts BatchFacts
  PointSpec PointFacts Val FamR FamVal ConvFacts LeafVal DerivFacts DensSpec DensVal DensThms IntSpec IntFacts GammaInt IntNorm IntGen IntMulti LawSpec.
Import ListNotations.
Local Unset Asymmetric Patterns.
Local Open Scope string_scope.
Local Open Scope R_scope.

(** ** t |-> a t + m *)
Lemma gen_affine (F F' G G' : (R -> Prop) -> Prop) (f : R -> R) a m v : Filter F' -> Filter G' -> filterlim (fun t => a * t + m) F' F -> filterlim (fun t => a * t + m) G' G ->
  is_RInt_gen f F G v -> is_RInt_gen (fun t => a * f (a * t + m)) F' G' v.
Proof.
  intros X Y HF HG H P HP. specialize (H P HP). unfold filtermapi in *. destruct H as [U V HU HV H]. exists (fun t => U (a * t + m)) (fun t => V (a * t + m)).
  - apply HF. exact HU.
  - apply HG. exact HV.
  - intros x y Hx Hy. destruct (H _ _ Hx Hy) as (w & W1 & W2). exists w. split; [|exact W2]. cbn [fst snd] in *. apply (is_RInt_comp_lin f a m x y w). exact W1.
Qed.
Lemma aff_m a m : 0 < a -> filterlim (fun t => a * t + m) (Rbar_locally m_infty) (Rbar_locally m_infty).
Proof.
  intros Ha P [M HM]. exists ((M - m) / a). intros x Hx. apply HM. apply (Rmult_lt_compat_l a) in Hx; [|exact Ha]. replace (a * ((M - m) / a)) with (M - m) in Hx by (field; lra). lra.
Qed.
Lemma aff_p a m : 0 < a -> filterlim (fun t => a * t + m) (Rbar_locally p_infty) (Rbar_locally p_infty).
Proof.
  intros Ha P [M HM]. exists ((M - m) / a). intros x Hx. apply HM. apply (Rmult_lt_compat_l a) in Hx; [|exact Ha]. replace (a * ((M - m) / a)) with (M - m) in Hx by (field; lra). lra.
Qed.
Lemma aff_0 a : 0 < a -> filterlim (fun t => a * t + 0) (at_right 0) (at_right 0).
Proof.
  intros Ha P [d Hd]. assert (K : 0 < d / a) by (apply Rdiv_lt_0_compat; [apply cond_pos|exact Ha]). exists (mkposreal _ K). intros x Hx Px. apply Hd.
  - change (Rabs (x - 0) < d / a) in Hx. change (Rabs (a * x + 0 - 0) < d). replace (a * x + 0 - 0) with (a * (x - 0)) by ring. rewrite Rabs_mult, (Rabs_pos_eq a) by lra.
    apply (Rmult_lt_compat_l a) in Hx; [|exact Ha]. replace (a * (d / a)) with (pos d) in Hx by (field; lra). exact Hx.
  - rewrite Rplus_0_r. now apply Rmult_lt_0_compat.
Qed.
Lemma line_affine a m (F : R -> R) v : 0 < a -> improper m_infty p_infty F v -> improper m_infty p_infty (fun t => a * F (a * t + m)) v.
Proof. intros Ha. apply gen_affine; [typeclasses eauto|typeclasses eauto|now apply aff_m|now apply aff_p]. Qed.
Lemma half_scale a (F : R -> R) v : 0 < a -> improper 0 p_infty F v -> improper 0 p_infty (fun t => a * F (a * t)) v.
Proof.
  intros Ha H. apply (improper_ext 0 p_infty (fun t => a * F (a * t + 0)) _ v 1); [split; [cbn; lra|exact Logic.I]|intros; now rewrite Rplus_0_r|].
  revert H. apply gen_affine; [typeclasses eauto|typeclasses eauto|now apply aff_0|now apply aff_p].
Qed.
(** ** coordinate by coordinate *)
Fixpoint affl (k : nat) (sg mu : nat -> R) (l : list R) : list R := match l with [] => [] | t :: r => (sg k * t + mu k) :: affl (S k) sg mu r end.
Lemma affl_len sg mu l : forall k, length (affl k sg mu l) = length l. Proof. induction l; intros; cbn; auto. Qed.
Lemma affl_app sg mu l l' : forall k, affl k sg mu (l ++ l')%list = (affl k sg mu l ++ affl (k + length l) sg mu l')%list.
Proof. induction l as [|t l IH]; intros k; cbn [affl app length]; [now rewrite Nat.add_0_r|]. rewrite IH. do 3 f_equal. lia. Qed.
Lemma affl_nth sg mu l : forall k m, (m < length l)%nat -> nth m (affl k sg mu l) 0 = sg (k + m)%nat * nth m l 0 + mu (k + m)%nat.
Proof. induction l as [|t l IH]; intros k m H; cbn in *; [lia|]. destruct m as [|m]; [now rewrite Nat.add_0_r|]. rewrite IH by lia. now rewrite Nat.add_succ_comm. Qed.
Fixpoint prod_from (m k : nat) (sg : nat -> R) : R := match k with O => 1 | S k' => sg m * prod_from (S m) k' sg end.
Lemma prod_from_pos sg k : forall m, (forall j, (j < m + k)%nat -> 0 < sg j) -> 0 < prod_from m k sg.
Proof. induction k as [|k IH]; intros m H; cbn; [lra|]. apply Rmult_lt_0_compat; [apply H; lia|]. apply IH. intros j Hj. apply H. lia. Qed.
Lemma WL_affine sg mu F k : forall l v, (forall j, (j < length l + k)%nat -> 0 < sg j) -> WL k (affl 0 sg mu l) F v -> WL k l (fun x => prod_from (length l) k sg * F (affl 0 sg mu x)) v.
Proof.
  induction k as [|k IH]; intros l v Hs; unfold WL; cbn [iterated prod_from].
  - intros ->. ring.
  - intros (G & G1 & G2). set (m := length l) in *. exists (fun t => sg m * G (sg m * t + mu m)). split; [|apply line_affine; [apply Hs; lia|exact G2]].
    intros t _. assert (E : (affl 0 sg mu l ++ [sg m * t + mu m])%list = affl 0 sg mu (l ++ [t])%list) by (rewrite affl_app; cbn [affl Nat.add]; fold m; reflexivity).
    specialize (G1 (sg m * t + mu m) (inmp _)). rewrite E in G1. apply IH in G1.
    + rewrite app_length in G1. cbn [length] in G1. fold m in G1. replace (m + 1)%nat with (S m) in G1 by lia. apply (iterated_scal _ _ _ (sg m)) in G1. revert G1. apply WL_ext. intros l' L. ring.
    + rewrite app_length. cbn [length]. fold m. intros j Hj. apply Hs. lia.
Qed.
Lemma WL1 (F : R -> R) v : improper m_infty p_infty F v -> WL 1 [] (fun l => F (nth 0 l 0)) v.
Proof. intros H. exists F. split; [|exact H]. intros t _. reflexivity. Qed.
Lemma line_space (F : R -> R) v : improper m_infty p_infty F v -> iterated 1 (fun _ => m_infty) (fun _ => p_infty) [] (fun l => F (nth 0 l 0)) v.
Proof. exact (WL1 F v). Qed.
Lemma prod_prodR n g : product n g = prodR n g. Proof. induction n; cbn; congruence. Qed.
Lemma whole_INR m : whole (INR m) = m.
Proof. unfold whole. rewrite INR_IZR_INZ. destruct (archimed (IZR (Z.of_nat m))) as [A B]. assert (E : up (IZR (Z.of_nat m)) = (Z.of_nat m + 1)%Z). { apply Z.le_antisymm; [apply Z.lt_succ_r|apply Z.le_succ_l]; apply lt_IZR; rewrite ?succ_IZR, ?plus_IZR; lra. } rewrite E. lia. Qed.
Lemma Rpower_pow' a m : 0 < a -> Rpower a (INR m) = a ^ m. Proof. apply Rpower_pow. Qed.
