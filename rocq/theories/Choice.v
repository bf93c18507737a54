(** C75: the solver that ExpToNat chooses when none is given (mixins/exp_to_nat/exp_to_nat.py:34-46). *)
From Coq Require Import String List Bool Arith Reals Lia.
From Verif Require Import Base XReal Tensor Support Dist Structure Spec DotSpec FlattenSpec PointSpec VarSpec DensSpec Fam RootSpec ResidSpec MeanSpec Bisect Initial FamFacts InitialThms.
Import ListNotations.

Inductive solver := AdamSolver | BisectionSolver.
(** __post_init__, exp_to_nat.py:38-46: default_minimizer (Adam) if initial_search_parameters.shape[-1] > 1, else default_bisection_minimizer *)
Definition default_solver (d : dist) (f : family) : result solver :=
  let* t := initial_search_parameters d f in Ok (if 1 <? last (shp t) 0 then AdamSolver else BisectionSolver).

Lemma last_snoc (b : list nat) m : last (b ++ [m]) 0 = m.
Proof. induction b as [|x b IH]; [reflexivity|]. cbn [app]. rewrite <- IH at 2. destruct b; reflexivity. Qed.
Theorem t_choice b i f e n k : proper_e b i f e -> dims_of e = Ok n -> search_count f n = Some k -> dist_vals true b e ->
  exists s, default_solver e f = Ok s /\ (s = BisectionSolver <-> k <= 1).
Proof.
  intros P D M V. destruct (t_initial b i f e n k P D M V) as (t & T1 & T2 & _). unfold default_solver. rewrite T1. cbn [bind]. rewrite T2, last_snoc. eexists. split; [reflexivity|].
  destruct (Nat.ltb_spec 1 k); split; intros; trivial; try discriminate; lia.
Qed.
Theorem t_choice_family b i f e n k : proper_e b i f e -> dims_of e = Ok n -> search_count f n = Some k -> dist_vals true b e -> 2 <= n \/ (f <> Dirichlet /\ f <> GeneralizedDirichlet) ->
  exists s, default_solver e f = Ok s /\ (s = BisectionSolver <-> f = Gamma \/ f = ChiSquare \/ f = Logarithmic \/ f = VonMisesFisher).
Proof.
  intros P D M V N. destruct (t_choice b i f e n k P D M V) as (s & S1 & S2). exists s. split; [exact S1|]. rewrite S2. clear S1 S2 s.
  assert (B : f = Beta -> n = 2). { intros ->. destruct P as (C & _ & S & _). destruct (FamFacts.leaf_dims _ _ S) as (n' & D' & K). rewrite C in K. assert (n' = n) by congruence. subst n'. now apply Nat.eqb_eq in K. }
  destruct f; cbn in M; try discriminate M; injection M as <-; (split; [intros H|intros [H|[H|[H|H]]]]); try discriminate H; auto; try (specialize (B eq_refl); lia); destruct N as [N|[N1 N2]]; try lia; congruence.
Qed.
