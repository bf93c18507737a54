(** Concrete cases for C68: a history of three observations of two categorical distributions. *)
From Coquelicot Require Import Coquelicot.
From Coq Require Import String List Bool Arith Reals Lia Lra Permutation.
From Verif Require Import Base XReal Tensor TensorFacts Support Dist Iteration Structure Spec Tools Joint SpecFun Expr Fam SumSpec DotSpec Examples JointEx PointSpec PointFacts FamR FamVal ConvFacts LeafVal ConvThms ConvEx DensSpec DensVal DensThms DensEx KlSpec IntSpec IntThms Conj ConjSpec ConjThms ConjEx Combine CombSpec CombThms BayesSpec ConjBayes BayesEx HistThms.
Import ListNotations.
Local Unset Asymmetric Patterns.
Local Open Scope string_scope.
Local Open Scope R_scope.

Definition by_y : arr := vec [1; 0; 1; 0] [2; 2]%nat eq_refl.
Lemma by_yobs : observed [2]%nat [1]%nat by_ref by_y (vec2 1 0).
Proof. observed_. destruct j as [|k [|? ?]]; try discriminate; [|destruct k as [|[|k]]; discriminate]. destruct k as [|[|k]]; try discriminate; reflexivity. Qed.
Lemma by_yspace : sample_space Multinomial 2 (vec2 1 0).
Proof. split; [intros k K; destruct k as [|[|k]]; [right|left|lia]; reflexivity|]. unfold sumR. cbn. lra. Qed.
Lemma by_history solve : let p1 := cj_multi 0 0 (1 / 3) (1 / 4) in let p2 := cj_multi 0 0 (1 / 7) (3 / 4) in
  comparable [2]%nat [1]%nat Multinomial p1 p2 /\ exists q1 q2 est o1 o2 c0, to_nat (fam_methods solve) p1 = Ok q1 /\ to_nat (fam_methods solve) p2 = Ok q2 /\ create_estimator_from_natural q1 = Ok est /\
    proper [2]%nat [1]%nat Multinomial q1 /\ dims_of q1 = Ok 2%nat /\
    conjugate_prior_observation p1 = Ok o1 /\ conjugate_prior_observation p2 = Ok o2 /\ conjugate_prior_distribution p1 (vec [1; 5] [2]%nat eq_refl) = Ok c0 /\ dcls c0 = NP Dirichlet /\
    proper [2]%nat [1]%nat Dirichlet c0 /\ history [2]%nat [1]%nat Multinomial 2 q1 [by_x; by_y; by_x].
Proof.
  cbv zeta. destruct (by_multi solve) as [C12 (q1 & q2 & est & e & T1 & T2 & O & X & E1 & E2)]. split; [exact C12|].
  set (p1 := cj_multi 0 0 (1 / 3) (1 / 4)) in *. set (p2 := cj_multi 0 0 (1 / 7) (3 / 4)) in *.
  destruct (setup solve [2]%nat [1]%nat Multinomial 2 p1 p2 q1 Logic.I C12 eq_refl T1) as (Hi & A1 & A2 & H1 & H2 & K & Pq & Dq).
  destruct (conj_vals solve [2]%nat [1]%nat Multinomial p1 (vec [1; 5] [2]%nat eq_refl) 5 Logic.I (cj_obs 5)) as (m & c0 & D & Ec & Pc & _ & _ & _ & Z); [lra|intros [|]; discriminate|exact (proj1 C12)|].
  assert (Cs : comparable [2]%nat [1]%nat Multinomial p1 p1). { split; [apply C12|]. split; [apply C12|]. split; [reflexivity|]. intros h v w j _ _ V W. congruence. }
  destruct (Z p1 Cs) as (o1 & Q1 & _). destruct (Z p2 C12) as (o2 & Q2 & _).
  exists q1, q2, est, o1, o2, c0. do 8 (split; [assumption|]). split; [apply Pc|]. split; [exact Pc|].
  assert (Y : observed [2]%nat [1]%nat q1 by_y (vec2 1 0)). { apply (observed_same [2]%nat [1]%nat by_ref); [symmetry; exact (proj1 Pq)|rewrite Dq; reflexivity|exact by_yobs]. }
  constructor; [exists (vec2 0 1); auto|]. constructor; [exists (vec2 1 0); split; [exact Y|exact by_yspace]|]. constructor; [exists (vec2 0 1); auto|]. constructor.
Qed.
