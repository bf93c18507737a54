(** Theorems for C68: Bayesian updating over any history of observations.
    [posterior L est one c xs] (BayesSpec.v) adds to the natural parameters of c those of the conjugate prior (with one pseudo-observation) of the statistics of each
    observation of xs in turn.  The initial c is any in-domain distribution of the class and dimensions of the conjugate priors of the family. *)
From Coq Require Import String List Bool Arith Reals Lra Permutation.
From Verif Require Import Base XReal Tensor Support Dist Iteration Structure Spec Tools Joint Fam SumSpec DotSpec PointSpec KlSpec DensSpec DensEx Conj ConjSpec Examples ConjEx Combine CombSpec BayesSpec ConjBayes BayesEx HistThms HistEx.
Import ListNotations.
Local Open Scope string_scope.
Local Open Scope R_scope.

(** after any number of observations the posterior exists, is in the domain, and its log density at two values of the parameters differs as the log density of c
    plus the log-likelihood of the whole history does (the evidence, which does not depend on the parameters, cancels) *)
Theorem C68_history solve b i f p1 p2 q1 q2 m est one xs o1 o2 n N c0 c g : has_prior f -> f <> Exponential -> comparable b i f p1 p2 -> dims_of p1 = Ok m ->
  to_nat (fam_methods solve) p1 = Ok q1 -> to_nat (fam_methods solve) p2 = Ok q2 -> create_estimator_from_natural q1 = Ok est -> pseudo_observations b i one 1 ->
  conjugate_prior_observation p1 = Ok o1 -> conjugate_prior_observation p2 = Ok o2 -> pseudo_observations b i n N -> conjugate_prior_distribution p1 n = Ok c0 -> dcls c0 = NP g ->
  proper b i g c -> dims_of c = dims_of c0 -> history b i f m q1 xs ->
  exists s d1 d2 t1 t2 ls1 ls2, posterior (fam_methods solve) est one c xs = Ok s /\ proper b i g s /\ dims_of s = dims_of c0 /\
    log_density (fam_methods solve) b i c o1 d1 /\ log_density (fam_methods solve) b i c o2 d2 /\ log_density (fam_methods solve) b i s o1 t1 /\ log_density (fam_methods solve) b i s o2 t2 /\
    log_likelihoods (fam_methods solve) b i q1 xs ls1 /\ log_likelihoods (fam_methods solve) b i q2 xs ls2 /\ t1 - t2 = (d1 + total ls1) - (d2 + total ls2).
Proof. exact (t_history solve b i f p1 p2 q1 q2 m est one xs o1 o2 n N c0 c g). Qed.

(** the posterior does not depend on the order of the observations *)
Theorem C68_order solve b i f q p m est one xs ys n N c0 c g : has_prior f -> proper b i f q -> dims_of q = Ok m -> create_estimator_from_natural q = Ok est -> pseudo_observations b i one 1 ->
  proper_e b i f p -> dims_of p = Ok m -> pseudo_observations b i n N -> conjugate_prior_distribution p n = Ok c0 -> dcls c0 = NP g -> proper b i g c -> dims_of c = dims_of c0 ->
  history b i f m q xs -> Permutation xs ys ->
  exists s t, posterior (fam_methods solve) est one c xs = Ok s /\ posterior (fam_methods solve) est one c ys = Ok t /\ same_leaf_at b i s t.
Proof. exact (t_order' solve b i f q p m est one xs ys n N c0 c g). Qed.

(** both theorems' hypotheses hold (with c = c0 and 5 pseudo-observations) for a history of three observations *)
Example C68_example solve : let p1 := cj_multi 0 0 (1 / 3) (1 / 4) in let p2 := cj_multi 0 0 (1 / 7) (3 / 4) in
  comparable [2]%nat [1]%nat Multinomial p1 p2 /\ exists q1 q2 est o1 o2 c0, to_nat (fam_methods solve) p1 = Ok q1 /\ to_nat (fam_methods solve) p2 = Ok q2 /\ create_estimator_from_natural q1 = Ok est /\
    proper [2]%nat [1]%nat Multinomial q1 /\ dims_of q1 = Ok 2%nat /\
    conjugate_prior_observation p1 = Ok o1 /\ conjugate_prior_observation p2 = Ok o2 /\ conjugate_prior_distribution p1 (vec [1; 5] [2]%nat eq_refl) = Ok c0 /\ dcls c0 = NP Dirichlet /\
    proper [2]%nat [1]%nat Dirichlet c0 /\ history [2]%nat [1]%nat Multinomial 2 q1 [by_x; by_y; by_x].
Proof. exact (by_history solve). Qed.
