(** concrete case for C72 *)
From Coquelicot Require Import Coquelicot.
From Coq Require Import String List Bool Arith Reals Lia Lra.
From Verif Require Import Base XReal Tensor TensorFacts Support Dist Iteration Structure Spec Tools ToolThms Joint JointThms2 SpecFun Expr Fam SumSpec DotSpec PointSpec KlSpec FisherSpec JointIntSpec CovSpec GradSpec
  Examples JointEx ConvEx MatEx GradEx StructFacts AssembleFacts MapFacts JointThms PointFacts Val FamR LeafVal DerivFacts DerivThms KlPos DotFacts DotLaws KlTri CentSpec CentThms.
Import ListNotations.
Local Unset Asymmetric Patterns.
Local Open Scope string_scope.
Local Open Scope R_scope.

(** a normal distribution with natural parameters a, c and a unit normal distribution with mean u *)
Definition nu (a c u : R) : dist := Dist JointDistributionN DefaultMinimizer []
  [("n", Dist (NP Normal) DefaultMinimizer [("mean_times_precision", vec [a] [] eq_refl); ("negative_half_precision", vec [c] [] eq_refl)] []);
   ("u", Dist (NP UnitNormal) DefaultMinimizer [("mean", vec [u] [] eq_refl)] [])].
Lemma nu_proper a c u : c < 0 -> joint_proper [] [] (nu a c u) /\ not_clipped (nu a c u) [] /\ finite_vars (nu a c u).
Proof.
  intros Hc. split. { do 4 (split; [reflexivity|]). intros p l H. cbn in H. destruct H as [H|[H|[]]]; injection H as <- <-; leaf_ 1%nat; try exact Logic.I; lra. }
  split. { intros p l H K. cbn in H. destruct H as [H|[H|[]]]; injection H as <- <-; discriminate K. }
  fin_tree_tac.
Qed.
Lemma nu_like a c u a' c' u' : same_skeleton (nu a c u) (nu a' c' u') /\ tree_match [] (nu a c u) (nu a' c' u') /\ same_fixed_at [] [] (nu a c u) (nu a' c' u').
Proof.
  split. { intros p. destruct p as [|k p]; [split; reflexivity|]. cbn. destruct (keq k "n"); [|destruct (keq k "u")]; [| |split; reflexivity]; destruct p; split; reflexivity. }
  split. { unfold tree_match. cbn [leaves nu is_joint flat_map app fst snd]. repeat constructor; try (cbn; eexists; split; reflexivity); reflexivity. }
  unfold same_fixed_at. cbn [leaves nu is_joint flat_map app fst snd]. repeat constructor; cbn [snd]; intros f v w j I F E1 E2 Hj; cbn in I; repeat (destruct I as [<-|I]; [try discriminate F|]); try destruct I.
Qed.
Definition nue (m s u : R) : dist := Dist JointDistributionE DefaultMinimizer []
  [("n", Dist (EP Normal) DefaultMinimizer [("mean", vec [m] [] eq_refl); ("second_moment", vec [s] [] eq_refl)] []);
   ("u", Dist (EP UnitNormal) DefaultMinimizer [("mean", vec [u] [] eq_refl)] [])].
Ltac one := apply tensor_ext; [reflexivity|]; let i := fresh in let H := fresh in intros i H; apply in_indices in H; cbn in H; destruct H as [<-|[]]; cbn.
Lemma nu_exp solve a c u m s : c < 0 -> m = - a / (2 * c) -> s = m * m - 1 / 2 / c -> to_exp (fam_methods solve) (nu a c u) = Ok (nue m s u).
Proof.
  intros Hc Hm Hs. cbn. unfold fam_to_exp, make, evals. cbn. apply f_equal. unfold nue.
  repeat match goal with |- context [RA (tbuild _ ?f)] => set (RA (tbuild _ f)) end.
  assert (E1 : a0 = vec [m] [] eq_refl). { subst a0. unfold vec. f_equal. one. dec. f_equal. subst m. reflexivity. }
  assert (E2 : a1 = vec [s] [] eq_refl). { subst a1. unfold vec. f_equal. one. dec. f_equal. subst s m. reflexivity. }
  now rewrite E1, E2.
Qed.
Lemma nue_mix m s u m' s' u' t : parameter_map (lin_op (1 - t) t) (nue m s u) [nue m' s' u'] = Ok (nue ((1 - t) * m + t * m') ((1 - t) * s + t * s') ((1 - t) * u + t * u')).
Proof.
  cbn. apply f_equal. unfold nue, vec.
  repeat match goal with |- context [RA ?f] => match f with context [(1 - t)%R] => let a := fresh "a" in set (a := RA f) end end.
  assert (E1 : a = a2). { subst a a2. f_equal. one. reflexivity. } assert (E2 : a0 = a3). { subst a0 a3. f_equal. one. reflexivity. } assert (E3 : a1 = a4). { subst a1 a4. f_equal. one. reflexivity. }
  now rewrite E1, E2, E3.
Qed.
Lemma nue_fin m s u : finite_vars (nue m s u). Proof. fin_tree_tac. Qed.
Lemma nue_same m s u : same_at [] [] (nue m s u) (nue m s u).
Proof.
  unfold same_at. cbn [leaves nue is_joint flat_map app fst snd]. repeat constructor; try (cbn; eexists; split; reflexivity); cbn [snd]; intros f v w j I E1 E2 Hj; congruence.
Qed.
(** normal distributions with means 1, -1 and 0 and variances 1/4, 1/4 and 5/4, and unit normal distributions with means 3, 1 and 2 *)
Lemma ex_average solve : exists ep eq em e, to_exp (fam_methods solve) (nu 4 (-2) 3) = Ok ep /\ to_exp (fam_methods solve) (nu (-4) (-2) 1) = Ok eq /\ to_exp (fam_methods solve) (nu 0 (-2 / 5) 2) = Ok em /\
  finite_vars ep /\ finite_vars eq /\ parameter_map (lin_op (1 - 1 / 2) (1 / 2)) ep [eq] = Ok e /\ same_at [] [] e em.
Proof.
  exists (nue 1 (5 / 4) 3), (nue (-1) (5 / 4) 1), (nue 0 (5 / 4) 2), (nue ((1 - 1 / 2) * 1 + 1 / 2 * -1) ((1 - 1 / 2) * (5 / 4) + 1 / 2 * (5 / 4)) ((1 - 1 / 2) * 3 + 1 / 2 * 1)).
  split; [apply nu_exp; lra|]. split; [apply nu_exp; lra|]. split; [apply nu_exp; lra|]. split; [apply nue_fin|]. split; [apply nue_fin|]. split; [apply nue_mix|].
  replace ((1 - 1 / 2) * 1 + 1 / 2 * -1) with 0 by lra. replace ((1 - 1 / 2) * (5 / 4) + 1 / 2 * (5 / 4)) with (5 / 4) by lra. replace ((1 - 1 / 2) * 3 + 1 / 2 * 1) with 2 by lra. apply nue_same.
Qed.
Lemma ex_averages solve : averages (fam_methods solve) [] [] [(1 - 1 / 2, nu 4 (-2) 3); (1 / 2, nu (-4) (-2) 1)] (nu 0 (-2 / 5) 2).
Proof.
  destruct (ex_average solve) as (ep & eq & em & e & E1 & E2 & E3 & F1 & F2 & V & Sa).
  apply (t_average solve [] [] (nu 4 (-2) 3) (nu (-4) (-2) 1) (nu 0 (-2 / 5) 2) (1 / 2) ep eq em e); auto; try apply nu_proper; try apply nu_like; lra.
Qed.
