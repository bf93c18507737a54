(** Concrete distributions used to show that the hypotheses of the theorems are met. *)
From Coq Require Import String List Bool Arith Reals Lra.
From Verif Require Import Base XReal Tensor TensorFacts Support SupportSpec Dist Iteration Structure Spec FlattenSpec.
Import ListNotations.
Local Open Scope string_scope.

Definition vec (l : list R) (s : list nat) (H : Nat.eqb (length (map Fin l)) (prods s) = true) : arr := RA (@mkT xr s (map Fin l) H).
(** two normals (batch shape [2]) *)
Definition ex_normal : dist :=
  Dist (NP Normal) DefaultMinimizer
    [("mean_times_precision", vec [3; 4]%R [2] eq_refl); ("negative_half_precision", vec [-1; -2]%R [2] eq_refl)] [].
(** two 3-dimensional normals with fixed variances *)
Definition ex_fixed : dist :=
  Dist (NP MultivariateFixedVarianceNormal) DefaultMinimizer
    [("mean_times_precision", vec [1; 2; 3; 4; 5; 6]%R [2; 3] eq_refl); ("variance", vec [7; 8]%R [2] eq_refl)] [].
Definition ex_gamma : dist :=
  Dist (NP Gamma) DefaultMinimizer
    [("negative_rate", vec [-1; -5]%R [2] eq_refl); ("shape_minus_one", vec [0; 2]%R [2] eq_refl)] [].
(** a nested joint distribution *)
Definition ex_joint : dist :=
  Dist JointDistributionN DefaultMinimizer []
    [("x", Dist JointDistributionN DefaultMinimizer [] [("n", ex_normal); ("g", ex_gamma)]); ("m", ex_fixed)].

Lemma ex_joint_wf : well_formed ex_joint = true. Proof. reflexivity. Qed.
Lemma ex_joint_default : no_custom_minimizer ex_joint = true. Proof. reflexivity. Qed.
Lemma ex_joint_shaped : shaped [2] ex_joint = true. Proof. reflexivity. Qed.
Lemma ex_joint_create : exists infos, create ex_joint = Ok infos /\ length infos = 5. Proof. eexists. split; reflexivity. Qed.
Lemma ex_joint_size : flat_size ex_joint = 7. Proof. reflexivity. Qed.

Lemma feps_small : (0 < feps < / 8)%R.
Proof. unfold feps. split; [apply Rinv_0_lt_compat; lra|apply Rinv_lt_contravar; lra]. Qed.
Lemma adj_max_0 : adj_max 0 = (- feps)%R.
Proof. unfold adj_max. rewrite Rmult_0_l, Rminus_0_l. apply Rmin_left. pose proof feps_small. lra. Qed.
Lemma adj_min_0 : adj_min 0 = feps.
Proof. unfold adj_min. rewrite Rmult_0_l, Rplus_0_l. apply Rmax_left. pose proof feps_small. lra. Qed.
Lemma adj_min_m1 : (-1 < adj_min (-1) < - / 2)%R.
Proof.
  unfold adj_min, copysign. pose proof feps_small. destruct (Rlt_dec (-1) 0); [|exfalso; lra]. rewrite Rabs_right by lra.
  rewrite Rmax_left; lra.
Qed.
Lemma small_cases (n i : nat) : inb [n] [i] = true -> (i < n)%nat.
Proof. cbn. rewrite andb_true_r. apply Nat.ltb_lt. Qed.
Ltac idx := let i := fresh "i" in let Hi := fresh "Hi" in intros i Hi;
  apply in_indices in Hi; cbn in Hi;
  repeat (destruct Hi as [<-|Hi]; [cbn; eexists; split; [reflexivity|] | ]); [..|contradiction].
(** a complex normal whose pseudo precision is bounded by its precision *)
Definition cvec (l : list (R * R)) (s : list nat)
    (H : Nat.eqb (length (map (fun p => cfin (fst p) (snd p)) l)) (prods s) = true) : arr :=
  CA (@mkT xc s (map (fun p => cfin (fst p) (snd p)) l) H).
Lemma ex_joint_vals m : dist_vals m [2] ex_joint.
Proof.
  intros p q Hi. cbn in Hi. destruct Hi as [H|[H|[H|[]]]]; injection H as <- <-.
  - exists 1. split; [reflexivity|]. intros f [<-|[<-|[]]]; eexists _, _; (split; [reflexivity|]); (split; [reflexivity|]); split; try reflexivity;
      intros _; idx; unfold inside; rewrite ?adj_max_0; pose proof feps_small; split; trivial; lra.
  - exists 1. split; [reflexivity|]. intros f [<-|[<-|[]]]; eexists _, _; (split; [reflexivity|]); (split; [reflexivity|]); split; try reflexivity;
      intros _; idx; unfold inside; rewrite ?adj_max_0; pose proof feps_small; pose proof adj_min_m1; split; trivial; lra.
  - exists 3. split; [reflexivity|]. intros f [<-|[]]; eexists _, _; (split; [reflexivity|]); (split; [reflexivity|]); split; try reflexivity;
      intros _; idx; unfold inside; split; trivial.
Qed.
Definition ex_complex : dist :=
  Dist (NP ComplexNormal) DefaultMinimizer
    [("mean_times_precision", cvec [(3, 4)]%R [1] eq_refl); ("negative_precision", vec [-2]%R [1] eq_refl);
     ("pseudo_precision", cvec [(1/2, 1/2)]%R [1] eq_refl)] [].
Lemma ex_complex_vals m : dist_vals m [1] ex_complex.
Proof.
  intros p q Hi. cbn in Hi. destruct Hi as [H|[]]; injection H as <- <-. exists 1. split; [reflexivity|].
  intros f [<-|[<-|[<-|[]]]]; eexists _, _; (split; [reflexivity|]); (split; [reflexivity|]); split; try reflexivity; intros _.
  - split; [exists [1]; reflexivity|]. split; [intros M HM; discriminate|]. intros i Hi. apply in_indices in Hi. cbn in Hi. destruct Hi as [<-|[]].
    exists 0%R, None, 3%R, 4%R. cbn. repeat split; trivial; try lra. unfold cmag. replace (3 * 3 + 4 * 4)%R with (5 * 5)%R by lra. rewrite sqrt_square; lra.
  - idx. unfold inside. rewrite ?adj_max_0; pose proof feps_small; split; trivial; lra.
  - split; [exists [1]; reflexivity|]. split; [intros M HM; injection HM as <-; exists []; reflexivity|].
    intros i Hi. apply in_indices in Hi. cbn in Hi. destruct Hi as [<-|[]].
    exists 0%R, (Some 2%R), (1/2)%R, (1/2)%R. cbn. repeat split; trivial; try lra.
    + do 2 f_equal. rewrite Rabs_right; lra.
    + apply sqrt_lt_R0. lra.
    + unfold cmag. apply Rsqr_incrst_0; [|apply sqrt_pos|lra]. rewrite Rsqr_sqrt; unfold Rsqr; lra.
Qed.
