(** Concrete cases for C29 and C30. *)
From Coquelicot Require Import Coquelicot.
From Coq Require Import String List Bool Arith Reals Lia Lra.
From Verif Require Import Base XReal Tensor TensorFacts Support Dist Iteration Structure Spec Tools Joint SpecFun Expr Fam SumSpec DotSpec Examples JointEx PointSpec ConvEx PointFacts Val FamR LeafVal DerivFacts DerivThms StructFacts MapFacts JointThms JointThms2 HessFacts Fisher FisherSpec FisherThms SupportSpec FlattenSpec.
Import ListNotations.
Local Unset Asymmetric Patterns.
Local Open Scope string_scope.
Local Open Scope R_scope.

Definition fx (x : R) : dist := Dist (NP Exponential) DefaultMinimizer [("negative_rate", vec [x] [] eq_refl)] [].
Definition fe (x : R) : dist := Dist (EP Exponential) DefaultMinimizer [("mean", vec [x] [] eq_refl)] [].
Definition fmat (x : R) : tensor xr := @mkT xr [1; 1]%nat [Fin x] eq_refl.
Lemma fx_dom : tree_in_domain (fx (-2)) [].
Proof. intros p l H. cbn in H. destruct H as [H|[]]; injection H as <- <-. leaf_ 1%nat. lra. Qed.
Lemma fx_fin x : finite_vars (fx x).
Proof. fin_tree_tac. Qed.
Lemma fx_matrix solve : fisher_matrix_of (fam_methods solve) (fx (-1)) (fmat 1).
Proof.
  eexists _, _, [], 1%nat. split; [reflexivity|]. split; [reflexivity|]. split; [reflexivity|].
  intros i a c Hi Ha Hc. destruct i; [|discriminate Hi]. destruct a as [|?]; [|lia]. destruct c as [|?]; [|lia].
  exists (fun s t => - ln (- (-1 + s + t))), (fun s => / (1 - s)), 1, (1 / 4). split; [lra|]. split; [|split; [|split; [|reflexivity]]].
  - intros s t Hs Ht. eexists _, _. split; [reflexivity|]. split; [reflexivity|]. cbn.
    apply Rabs_lt_between in Hs. apply Rabs_lt_between in Ht. unfold rltb, xlog. destruct (Rlt_dec 0 (- (-1 + s + t))) as [|X]; [reflexivity|exfalso; apply X; lra].
  - intros s Hs. apply Rabs_lt_between in Hs. apply is_derive_Reals. auto_derive; [lra|]. field. lra.
  - apply is_derive_Reals. auto_derive; [lra|]. field.
Qed.
(** the value: the diagonal is 1, the result holds a negative number *)
Lemma fx_diagonal : exists r x, fisher_information_diagonal (fun _ => Ok (fmat 1)) (fx (-1)) = Ok r /\ dget (dparams r) "negative_rate" = Some (RA x) /\ shp x = [] /\ exists v, tget x [] = Fin v /\ v < 0.
Proof.
  eexists _, _. split; [reflexivity|]. split; [reflexivity|]. split; [reflexivity|]. cbn. pose proof (exp_pos (- (1))) as E.
  destruct (Rlt_dec 0 (1 + exp (- (1)))) as [|X]; [|exfalso; apply X; lra]. cbn. eexists. split; [reflexivity|].
  assert (0 < ln (1 + exp (- (1)))) by (rewrite <- ln_1; apply ln_increasing; lra). unfold adj_max. match goal with |- Rmin ?a ?b + _ < 0 => pose proof (Rmin_l a b) end. assert (0 < feps) by (unfold feps; apply Rinv_0_lt_compat; lra). lra.
Qed.
(** two Poisson distributions *)
Definition fpo (x y : R) : dist := Dist (NP Poisson) DefaultMinimizer [("log_mean", vec [x; y] [2]%nat eq_refl)] [].
Definition fmat2 (x y : R) : tensor xr := @mkT xr [2; 1; 1]%nat [Fin x; Fin y] eq_refl.
Lemma fpo_matrix solve : fisher_matrix_of (fam_methods solve) (fpo 0 0) (fmat2 1 1).
Proof.
  eexists _, _, [2]%nat, 1%nat. split; [reflexivity|]. split; [reflexivity|]. split; [reflexivity|].
  intros i a c Hi Ha Hc. destruct a as [|?]; [|lia]. destruct c as [|?]; [|lia].
  destruct i as [|[|[|?]] [|? ?]]; try discriminate Hi.
  all: exists (fun s t => exp (s + t)), (fun s => exp s), 1, 1; split; [lra|]; split; [|split; [|split; [|reflexivity]]].
  1, 4: intros s t Hs Ht; eexists _, _; split; [reflexivity|]; split; [reflexivity|]; cbn; do 2 f_equal; ring.
  1, 3: intros s Hs; apply is_derive_Reals; auto_derive; [exact Logic.I|]; rewrite Rplus_0_r; ring.
  all: apply is_derive_Reals; auto_derive; [exact Logic.I|]; rewrite exp_0; ring.
Qed.
Lemma fpo_diagonal : exists r, fisher_information_diagonal (fun _ => Ok (fmat2 1 1)) (fpo 0 0) = Ok r /\ dshape r = Ok [1]%nat.
Proof. eexists. split; reflexivity. Qed.
(** C30: a product with the Fisher information: the vector 3, the Fisher information 1/4 *)
Lemma Forall2_inv_head {A B} {P : A -> B -> Prop} {x y l m} : Forall2 P (x :: l) (y :: m) -> P x y. Proof. intros H. now inversion H. Qed.
Lemma fx_direction u : direction [] [] (fx (-2)) u -> exists x m, u = Dist (NP Exponential) m [("negative_rate", RA x)] [] /\ shp x = [] /\ exists v, tget x [] = Fin v.
Proof.
  intros (Wu & Sk & T & Fu & Hu). destruct (Sk []) as [C1 C2]. destruct u as [c m ps subs]. cbn in C1, C2. injection C1 as <-. injection C2 as C2. destruct subs; [|discriminate C2].
  pose proof (wf_inv _ _ _ _ Wu) as (Wk & _). cbn in Wk. destruct ps as [|[k a] [|? ?]]; try discriminate Wk. cbn in Wk. injection Wk as ->.
  pose proof (Forall2_inv_head T) as TT. destruct TT as [_ (_ & _ & _ & Sh & _)]. cbn [snd] in Sh. specialize (Fu ["negative_rate"] _ a [] eq_refl eq_refl eq_refl).
  destruct a as [x|x]; [|exfalso; cbn in Sh; destruct (shape_eqb (shp x) []); discriminate Sh]. exists x, m. split; [reflexivity|]. cbn in Sh. assert (Es : shp x = []) by (destruct (shp x); [reflexivity|discriminate Sh]). split; [exact Es|].
  cbn in Fu. rewrite Es in Fu. destruct (Fu eq_refl) as (v & w & E). unfold cofr in E. injection E as E _. eauto.
Qed.
Lemma fx_pullback solve : pullback (fam_methods solve) [] [] (fx (-2)) (fe 3) (fx (3 / 4)).
Proof.
  intros u Du. destruct (fx_direction u Du) as (x & m & -> & Sx & v & Ev). destruct x as [sh dat wf]. cbn in Sx. subst sh. destruct dat as [|d0 [|? ?]]; try discriminate wf. cbn in Ev. subst d0.
  exists (3 * v / 4). eexists. split; [|split; [reflexivity|split; [reflexivity|]]]. 2: { cbn. f_equal. field. }
  exists (fun s => 3 * (-1 / (-2 + s * v))). split. 2: { apply is_derive_Reals. auto_derive; [lra|]. field. }
  exists (/ (1 + Rabs v)). pose proof (Rabs_pos v) as P. split; [apply Rinv_0_lt_compat; lra|]. intros s Hs.
  assert (Z : -2 + s * v < 0). { assert (Rabs (s * v) < 1). { rewrite Rabs_mult. apply Rle_lt_trans with (/ (1 + Rabs v) * Rabs v); [apply Rmult_le_compat_r; lra|]. apply Rmult_lt_reg_l with (1 + Rabs v); [lra|]. rewrite <- Rmult_assoc, Rinv_r by lra. lra. } apply Rabs_lt_between in H. lra. }
  eexists _, _, _. split; [reflexivity|]. split; [reflexivity|]. split; [reflexivity|]. split; [reflexivity|]. cbn.
  match goal with |- context [Req_EM_T ?a 0] => destruct (Req_EM_T a 0); [exfalso; lra|] end. cbn. f_equal. field. repeat split; lra.
Qed.
Lemma fx_tm : tree_match [] (fx (-2)) (fe 3).
Proof. unfold tree_match. repeat constructor; try (cbn; eexists; split; reflexivity); reflexivity. Qed.
Lemma fx_dir x : direction [] [] (fx (-2)) (fx x).
Proof.
  split; [reflexivity|]. split; [intros [|n p]; split; reflexivity|]. split; [unfold tree_match; repeat constructor; try (cbn; eexists; split; reflexivity); reflexivity|]. split; [apply fx_fin|]. split.
  - intros p l H. cbn in H. destruct H as [H|[]]; injection H as <- <-. exists 1%nat. split; [reflexivity|]. fin_.
  - intros p l H. cbn in H. destruct H as [H|[]]; injection H as <- <-. intros n D a c Ha Hc. split; intros X; discriminate X.
Qed.
Lemma fx_numbers : same_numbers (fx 3) (fe 3).
Proof. unfold same_numbers. repeat constructor. intros g h I. cbn in I. destruct I as [I|[]]. injection I as <- <-. reflexivity. Qed.
Lemma ex_joint_dir : direction [2]%nat [1]%nat ex_joint ex_joint'.
Proof. split; [reflexivity|]. split; [exact ex_skel|]. split; [exact ex_tm|]. split; [exact ex_joint'_fin|]. split; [exact ex_joint'_finite|].
  intros p l H. cbn in H. repeat (destruct H as [H|H]; [injection H as <- <-; intros n D a c Ha Hc; split; intros X; discriminate X|]). destruct H.
Qed.
Lemma ex_joint_inside : inside_clip ex_joint [1]%nat.
Proof. intros p l H C. cbn in H. repeat (destruct H as [H|H]; [injection H as <- <-; discriminate C|]). destruct H. Qed.
Lemma fx_inside x : inside_clip (fx x) [].
Proof. intros p l H C. cbn in H. destruct H as [H|[]]. injection H as <- <-. discriminate C. Qed.
Lemma t_diag solve : exists q F, well_formed q = true /\ nat_tree q = true /\ shaped [] q = true /\ fisher_matrix_of (fam_methods solve) q F /\ shp F = [1; 1]%nat /\ tget F [0; 0]%nat = Fin 1 /\
  exists r x, fisher_information_diagonal (fun _ => Ok F) q = Ok r /\ dget (dparams r) "negative_rate"%string = Some (RA x) /\ exists v, tget x [] = Fin v /\ v < 0.
Proof.
  exists (fx (-1)), (fmat 1). repeat (split; [first [reflexivity|apply fx_matrix]|]). destruct fx_diagonal as (r & x & A & B & _ & C). eauto.
Qed.
Lemma t_batch solve : exists q F, well_formed q = true /\ nat_tree q = true /\ shaped [2]%nat q = true /\ fisher_matrix_of (fam_methods solve) q F /\ shp F = [2; 1; 1]%nat /\
  exists r, fisher_information_diagonal (fun _ => Ok F) q = Ok r /\ dshape r = Ok [1]%nat.
Proof. exists (fpo 0 0), (fmat2 1 1). repeat (split; [first [reflexivity|apply fpo_matrix]|]). exact fpo_diagonal. Qed.
Lemma fx_plane : well_formed (fx (-1)) = true /\ dist_vals true [] (fx (-1)) /\ shp (fmat 1) = [flat_size (fx (-1)); flat_size (fx (-1))]%nat /\
  plane_point true [] (fx (-1)) (@mkT xr [1]%nat [Fin 1] eq_refl) /\ tget (fmat 1) [0; 0]%nat = Fin 1.
Proof.
  split; [reflexivity|]. split.
  { intros p q Hi. cbn in Hi. destruct Hi as [H|[]]; injection H as <- <-. exists 1%nat. split; [reflexivity|]. intros f [<-|[]]; eexists _, _; (split; [reflexivity|]); (split; [reflexivity|]); split; try reflexivity;
      intros _; idx; unfold inside; rewrite ?adj_max_0; pose proof feps_small; split; trivial; lra. }
  split; [reflexivity|]. split; [|reflexivity]. split; [reflexivity|].
  cbn [plane_list]. split; [|exact Logic.I]. split; [reflexivity|]. intros _. 
  split; [exact Logic.I|]. intros i Hi. apply in_indices in Hi. cbn in Hi. destruct Hi as [<-|[]]. exists 1. reflexivity.
Qed.
