(** The entropy of the code is the textbook entropy (C62). *)
From Coquelicot Require Import Coquelicot.
From Coq Require Import String List Bool Arith ZArith Reals Lra Lia.
From Verif Require Import Base XReal Tensor Support Dist Iteration Structure Tools Joint Fam LeafVal ConvThms Spec SumSpec DotSpec PointSpec DensSpec SpecFun Val FamR FamVal DerivFacts DensVal DensThms ConvFacts IntSpec IntFam IntThms
  DotFacts DotLaws TextSpec TextFacts TextThms EntSpec EntFacts.
Import ListNotations.
Local Unset Asymmetric Patterns.
Local Open Scope string_scope.
Local Open Scope R_scope.
Local Notation C := Complex.C (only parsing).

Lemma ent_all f : has_entropy_ep (EP f) = true -> ent_ok f.
Proof.
  destruct f; intros H; try discriminate H;
    first [exact e_bernoulli|exact e_geometric|exact e_beta|exact e_chi|exact e_chi_square|exact e_exponential|exact e_gamma|exact e_normal|exact e_unit_normal|exact e_rayleigh|exact e_weibull|exact e_multinomial|exact e_dirichlet
      |exact e_generalized_dirichlet|exact e_von_mises_fisher|exact e_diagonal|exact e_fixed|exact e_isotropic|exact e_unit|exact e_mvn|exact e_complex_unit|exact e_complex_multivariate_unit|exact e_complex_normal|exact e_ccs].
Qed.
Ltac fill_ := repeat match goal with |- _ /\ _ => split end; first [eassumption|reflexivity|eauto].
Lemma ent_of_classical f n p d : has_entropy_ep (EP f) = true -> classical f n p d -> exists h, entropic f n p h.
Proof.
  destruct f; intros H K; try discriminate H; cbn [classical] in K; cbn [entropic];
    repeat match goal with K : ex _ |- _ => let x := fresh "v" in destruct K as [x K] end; repeat match goal with K : _ /\ _ |- _ => destruct K end;
    try (eexists; reflexivity); eexists;
    first [solve [exists v, v0, v1; fill_]|solve [exists v, v0; fill_]|solve [exists v0; fill_]|solve [exists v; fill_]].
Qed.
Theorem entropic_total b i f q n : proper b i f q -> dims_of q = Ok n -> has_entropy_ep (EP f) = true -> exists h, entropic f n (point_of q i) h.
Proof. intros Pq D He. destruct (textbook_total b i f q n Pq D) as [d K]. exact (ent_of_classical f n _ d He K). Qed.

Section E.
  Variable solve : minimizer -> dist -> nat -> xr.
  Notation L := (fam_methods solve).
  Theorem entropy_nat_textbook b i f q n h : proper b i f q -> dims_of q = Ok n -> has_entropy_ep (EP f) = true -> (carrier_by_search f = true -> recovered L b i q) ->
    entropic f n (point_of q i) h -> exists t, entropy_nat L q = Ok t /\ shp t = b /\ tget t i = Fin h.
  Proof.
    intros Pq D He R K. pose proof (entropy_unclipped b i f q Pq He) as U. pose proof Pq as (_ & _ & _ & Hi & _).
    destruct (exp_form_at solve b i f q n Pq D U) as (e & E1 & E2 & A & H).
    destruct (proper_dims b i f q Pq) as (n' & D1 & _ & _ & D4 & _). assert (n' = n) by congruence. subst n'.
    assert (EC : exists t, expected_carrier_measure L e = Ok t /\ shp t = b /\ tget t i = Fin (ecmR n (point_of q i) f)).
    { destruct (carrier_by_search f) eqn:Cs.
      - destruct (recovered_at solve b i f q n e Pq D E1 E2 (R eq_refl)) as (r & _ & R2 & R3). apply (ecm_at solve b i f r e n (point_of q i)); auto.
      - apply (ecm_at solve b i f q e n (point_of q i)); auto. intros [->| ->]; discriminate Cs. }
    destruct (cross_at solve b i f e q q n Hi E2 A A H EC) as (t & T1 & T2 & T3). exists t. split; [unfold entropy_nat; rewrite E1; exact T1|]. split; [exact T2|]. rewrite T3. f_equal. exact (ent_all f He n _ h D4 H K).
  Qed.
  Theorem entropy_exp_textbook b i f q n h : proper b i f q -> dims_of q = Ok n -> has_entropy_ep (EP f) = true -> (closed_form f = false -> recovered L b i q) ->
    entropic f n (point_of q i) h -> exists e t, to_exp L q = Ok e /\ entropy_exp L e = Ok t /\ shp t = b /\ tget t i = Fin h.
  Proof.
    intros Pq D He R0 K. assert (R : recovered L b i q). { destruct (closed_form f) eqn:Cf; [|auto]. exact (closed_recovered solve b i f q Pq Cf). }
    pose proof (entropy_unclipped b i f q Pq He) as U. pose proof Pq as (_ & _ & _ & Hi & _).
    destruct (exp_form_at solve b i f q n Pq D U) as (e & E1 & E2 & A & H).
    destruct (proper_dims b i f q Pq) as (n' & D1 & _ & _ & D4 & _). assert (n' = n) by congruence. subst n'.
    destruct (recovered_at solve b i f q n e Pq D E1 E2 R) as (r & R1 & R2 & R3).
    assert (EC : exists t, expected_carrier_measure L e = Ok t /\ shp t = b /\ tget t i = Fin (ecmR n (point_of q i) f)) by (apply (ecm_at solve b i f r e n (point_of q i)); auto).
    destruct (cross_at solve b i f e q r n Hi E2 A R3 H EC) as (t & T1 & T2 & T3). exists e, t. split; [exact E1|]. split; [unfold entropy_exp; rewrite R1; exact T1|]. split; [exact T2|]. rewrite T3. f_equal. exact (ent_all f He n _ h D4 H K).
  Qed.
End E.
