(** Theorems for C66: the conjugate priors obey Bayes' rule.
    The statistics e of one observation x (MLE, C18) as expectation parameters have a conjugate prior c1 with one pseudo-observation; adding its natural parameters to those of any
    distribution c of the prior family (parameter_map(jnp.add, c, c1)) is the posterior: its log density, as a function of the parameters at which it is observed, is that of c plus the
    log-likelihood of x, up to a constant (which the difference at p1 and p2 removes). *)
From Coq Require Import String List Bool Arith Reals Lra.
From Verif Require Import Base XReal Tensor Support Dist Iteration Structure Spec Tools Joint Fam SumSpec DotSpec PointSpec KlSpec DensSpec DensEx Conj ConjSpec Examples ConjEx Combine BayesSpec ConjBayes BayesEx.
Import ListNotations.
Local Open Scope string_scope.
Local Open Scope R_scope.

Theorem C66_bayes solve b i f p1 p2 q1 q2 m x xv est e one : has_prior f -> f <> Exponential -> comparable b i f p1 p2 -> dims_of p1 = Ok m ->
  to_nat (fam_methods solve) p1 = Ok q1 -> to_nat (fam_methods solve) p2 = Ok q2 -> observed b i q1 x xv -> sample_space f m xv ->
  create_estimator_from_natural q1 = Ok est -> mle_sufficient_statistics (fam_methods solve) est (Leaf x) = Ok e -> pseudo_observations b i one 1 ->
  exists g c1 o1 o2 l1 l2, conjugate_prior_distribution e one = Ok c1 /\ dcls c1 = NP g /\ conjugate_prior_observation p1 = Ok o1 /\ conjugate_prior_observation p2 = Ok o2 /\
    log_density (fam_methods solve) b i q1 x l1 /\ log_density (fam_methods solve) b i q2 x l2 /\
    (* in particular the conjugate priors of the family can be updated... *)
    (forall p n N, comparable b i f p p1 -> pseudo_observations b i n N -> 0 < N -> (f = MultivariateUnitNormal \/ f = MultivariateFixedVarianceNormal -> m <> 0%nat) ->
       exists c, conjugate_prior_distribution p n = Ok c /\ proper b i g c /\ dims_of c = dims_of c1) /\
    (* ... and so can the posteriors, by the next observation *)
    forall c, proper b i g c -> dims_of c = dims_of c1 -> exists s d1 d2 t1 t2, combine_evidence c c1 = Ok s /\ proper b i g s /\ dims_of s = dims_of c1 /\
      log_density (fam_methods solve) b i c o1 d1 /\ log_density (fam_methods solve) b i c o2 d2 /\ log_density (fam_methods solve) b i s o1 t1 /\ log_density (fam_methods solve) b i s o2 t2 /\
      t1 - t2 = (d1 + l1) - (d2 + l2).
Proof. exact (t_bayes solve b i f p1 p2 q1 q2 m x xv est e one). Qed.
Example C66_example solve : has_prior Multinomial /\ Multinomial <> Exponential /\ pseudo_observations [2]%nat [1]%nat (vec [1; 1] [2]%nat eq_refl) 1 /\
  let p1 := cj_multi 0 0 (1 / 3) (1 / 4) in let p2 := cj_multi 0 0 (1 / 7) (3 / 4) in dims_of p1 = Ok 2%nat /\
  comparable [2]%nat [1]%nat Multinomial p1 p2 /\ exists q1 q2 est e, to_nat (fam_methods solve) p1 = Ok q1 /\ to_nat (fam_methods solve) p2 = Ok q2 /\
    observed [2]%nat [1]%nat q1 by_x (vec2 0 1) /\ sample_space Multinomial 2 (vec2 0 1) /\
    create_estimator_from_natural q1 = Ok est /\ mle_sufficient_statistics (fam_methods solve) est (Leaf by_x) = Ok e.
Proof. split; [exact I|]. split; [discriminate|]. split; [exact (cj_obs 1)|]. cbv zeta. split; [reflexivity|]. exact (by_multi solve). Qed.
(** adding the priors of p1 with N1 and p2 with N2 pseudo-observations gives the prior of their pooled mean with N1 + N2 *)
Theorem C66_accumulate (solve : minimizer -> dist -> nat -> xr) b i f p1 p2 p n1 n2 n N1 N2 : has_prior f -> f <> Exponential -> comparable b i f p p1 -> comparable b i f p p2 ->
  pseudo_observations b i n1 N1 -> pseudo_observations b i n2 N2 -> pseudo_observations b i n (N1 + N2) -> pooled b i N1 N2 p1 p2 p ->
  exists c1 c2 c s, conjugate_prior_distribution p1 n1 = Ok c1 /\ conjugate_prior_distribution p2 n2 = Ok c2 /\ conjugate_prior_distribution p n = Ok c /\
    combine_evidence c1 c2 = Ok s /\ same_leaf_at b i s c.
Proof. exact (t_accumulate solve b i f p1 p2 p n1 n2 n N1 N2). Qed.
Example C66_accumulate_example : has_prior Poisson /\ Poisson <> Exponential /\ comparable [2]%nat [1]%nat Poisson (by_pois 7 4) (by_pois 7 5) /\ comparable [2]%nat [1]%nat Poisson (by_pois 7 4) (by_pois 7 1) /\
  pseudo_observations [2]%nat [1]%nat (vec [1; 3] [2]%nat eq_refl) 3 /\ pseudo_observations [2]%nat [1]%nat (vec [1; 1] [2]%nat eq_refl) 1 /\
  pseudo_observations [2]%nat [1]%nat (vec [1; 3 + 1] [2]%nat eq_refl) (3 + 1) /\ pooled [2]%nat [1]%nat 3 1 (by_pois 7 5) (by_pois 7 1) (by_pois 7 4).
Proof. split; [exact I|]. split; [discriminate|]. split; [apply by_pois_cmp; lra|]. split; [apply by_pois_cmp; lra|]. split; [apply cj_obs|]. split; [apply cj_obs|]. split; [apply cj_obs|]. exact by_pooled. Qed.
(** the prior of the exponential distributions does not obey Bayes' rule *)
Theorem C66_exponential_refuted solve : exists p1 p2 q1 q2 x xv est e one c c1 s o1 o2 d1 d2 t1 t2 l1 l2, comparable [] [] Exponential p1 p2 /\
  to_nat (fam_methods solve) p1 = Ok q1 /\ to_nat (fam_methods solve) p2 = Ok q2 /\ observed [] [] q1 x xv /\ sample_space Exponential 1 xv /\
  create_estimator_from_natural q1 = Ok est /\ mle_sufficient_statistics (fam_methods solve) est (Leaf x) = Ok e /\ pseudo_observations [] [] one 1 /\
  conjugate_prior_distribution p1 one = Ok c /\ conjugate_prior_distribution e one = Ok c1 /\ combine_evidence c c1 = Ok s /\ conjugate_prior_observation p1 = Ok o1 /\ conjugate_prior_observation p2 = Ok o2 /\
  log_density (fam_methods solve) [] [] c o1 d1 /\ log_density (fam_methods solve) [] [] c o2 d2 /\ log_density (fam_methods solve) [] [] s o1 t1 /\ log_density (fam_methods solve) [] [] s o2 t2 /\
  log_density (fam_methods solve) [] [] q1 x l1 /\ log_density (fam_methods solve) [] [] q2 x l2 /\ t1 - t2 <> (d1 + l1) - (d2 + l2).
Proof. exact (by_refuted solve). Qed.
