(** Theorems for C31: conjugate priors.
    [comparable b i f p p1]: p and p1 are in-domain expectation parameters of the family f at batch index i, of the same dimensions, with the same fixed parameters.
    [divergence L b i p p1 k]: p.kl_divergence(p1.to_nat()) is k at batch index i.  As the divergence is the expected log-likelihood of p under p, which does not depend on p1,
    minus the expected log-likelihood of p under p1, "up to a constant" is expressed by the difference of two log densities.
    [pseudo_observations b i n N]: n has the batch shape and is N at batch index i (ConjSpec.v). *)
From Coq Require Import String List Bool Arith Reals.
From Verif Require Import Base XReal Tensor Support Dist Iteration Structure Spec Tools Joint Fam SumSpec DotSpec PointSpec KlSpec DensSpec Conj ConjSpec ConjThms ConjGen Examples ConjEx.
Import ListNotations.
Local Open Scope string_scope.
Local Open Scope R_scope.

(** the prior's log density at the observation of p1 is, up to a constant, - N times the divergence from p to p1.  (False for the exponential family, see below.) *)
Theorem C31_conjugate_prior solve b i f p p1 p2 n N : has_prior f -> f <> Exponential -> pseudo_observations b i n N -> 0 < N ->
  (f = MultivariateUnitNormal \/ f = MultivariateFixedVarianceNormal -> dims_of p <> Ok 0%nat) -> comparable b i f p p1 -> comparable b i f p p2 ->
  exists g c x1 x2 d1 d2 k1 k2, conjugate_prior_distribution p n = Ok c /\ proper b i g c /\ conjugate_prior_observation p1 = Ok x1 /\ conjugate_prior_observation p2 = Ok x2 /\
    log_density (fam_methods solve) b i c x1 d1 /\ log_density (fam_methods solve) b i c x2 d2 /\
    divergence (fam_methods solve) b i p p1 k1 /\ divergence (fam_methods solve) b i p p2 k2 /\ d1 - d2 = N * (k2 - k1).
Proof. exact (t_conj solve b i f p p1 p2 n N). Qed.
Example C31_conjugate_example : has_prior Multinomial /\ Multinomial <> Exponential /\ pseudo_observations [2]%nat [1]%nat (vec [1; 7] [2]%nat eq_refl) 7 /\ 0 < 7 /\
  comparable [2]%nat [1]%nat Multinomial (cj_multi 0 0 (1 / 5) (1 / 2)) (cj_multi 0 0 (1 / 3) (1 / 4)) /\ comparable [2]%nat [1]%nat Multinomial (cj_multi 0 0 (1 / 5) (1 / 2)) (cj_multi 0 0 (1 / 7) (3 / 4)).
Proof. split; [exact I|]. split; [discriminate|]. split; [apply cj_obs|]. repeat split; try apply cj_multi_cmp; try Lra.lra; apply cj_multi_proper; Lra.lra. Qed.
(** the density of the prior is maximal at the observation of p, and only there (all families, including the exponential one) *)
Theorem C31_mode solve b i f p p1 n N : has_prior f -> pseudo_observations b i n N -> 0 < N ->
  (f = MultivariateUnitNormal \/ f = MultivariateFixedVarianceNormal -> dims_of p <> Ok 0%nat) -> comparable b i f p p1 ->
  exists g c x x1 d d1, conjugate_prior_distribution p n = Ok c /\ proper b i g c /\ conjugate_prior_observation p = Ok x /\ conjugate_prior_observation p1 = Ok x1 /\
    log_density (fam_methods solve) b i c x d /\ log_density (fam_methods solve) b i c x1 d1 /\ d1 <= d /\ (d1 = d <-> same_leaf_at b i p p1).
Proof. exact (t_conj_mode solve b i f p p1 n N). Qed.
(** the prior of an exponential distribution is not conjugate... *)
Theorem C31_exponential_refuted solve : exists p p1 p2 n N c x1 x2 d1 d2 k1 k2, pseudo_observations [] [] n N /\ 0 < N /\ comparable [] [] Exponential p p1 /\ comparable [] [] Exponential p p2 /\
  conjugate_prior_distribution p n = Ok c /\ conjugate_prior_observation p1 = Ok x1 /\ conjugate_prior_observation p2 = Ok x2 /\
  log_density (fam_methods solve) [] [] c x1 d1 /\ log_density (fam_methods solve) [] [] c x2 d2 /\
  divergence (fam_methods solve) [] [] p p1 k1 /\ divergence (fam_methods solve) [] [] p p2 k2 /\ d1 - d2 <> N * (k2 - k1).
Proof. exact (cj_refuted solve). Qed.
(** ... its log density uses the divergences in the other direction, from p1 to p *)
Theorem C31_exponential_reversed solve b i p p1 p2 n N : pseudo_observations b i n N -> 0 < N -> comparable b i Exponential p p1 -> comparable b i Exponential p p2 ->
  exists c x1 x2 d1 d2 k1 k2, conjugate_prior_distribution p n = Ok c /\ proper b i Gamma c /\ conjugate_prior_observation p1 = Ok x1 /\ conjugate_prior_observation p2 = Ok x2 /\
    log_density (fam_methods solve) b i c x1 d1 /\ log_density (fam_methods solve) b i c x2 d2 /\
    divergence (fam_methods solve) b i p1 p k1 /\ divergence (fam_methods solve) b i p2 p k2 /\ d1 - d2 = N * (k2 - k1).
Proof. exact (t_conj_exp solve b i p p1 p2 n N). Qed.
Example C31_exponential_example : pseudo_observations [] [] (vec [5] [] eq_refl) 5 /\ 0 < 5 /\ comparable [] [] Exponential (cj_exp 2) (cj_exp 3) /\ comparable [] [] Exponential (cj_exp 2) (cj_exp 1).
Proof. split; [apply cj_obs0|]. split; [Lra.lra|]. split; apply cj_exp_cmp; Lra.lra. Qed.
(** generalized priors: a number of pseudo-observations N k for every dimension k of the normal distributions; v is the variance *)
Theorem C31_generalized_conjugate_prior solve b i f p p1 p2 n N m : f = MultivariateUnitNormal \/ f = MultivariateFixedVarianceNormal -> dims_of p = Ok m -> pseudo_observations_v b i m n N ->
  (forall k, (k < m)%nat -> 0 < N k) -> comparable b i f p p1 -> comparable b i f p p2 ->
  let v := match f with MultivariateFixedVarianceNormal => par p i "variance" [] | _ => 1 end in
  exists c x1 x2 d1 d2, generalized_conjugate_prior_distribution p n = Ok c /\ proper b i MultivariateDiagonalNormal c /\ conjugate_prior_observation p1 = Ok x1 /\ conjugate_prior_observation p2 = Ok x2 /\
    log_density (fam_methods solve) b i c x1 d1 /\ log_density (fam_methods solve) b i c x2 d2 /\
    d1 - d2 = sumR m (fun k => N k * (normal_kl v (par p i "mean" [k]) (par p2 i "mean" [k]) - normal_kl v (par p i "mean" [k]) (par p1 i "mean" [k]))).
Proof. exact (t_gen solve b i f p p1 p2 n N m). Qed.
Theorem C31_generalized_mode solve b i f p p1 n N m : f = MultivariateUnitNormal \/ f = MultivariateFixedVarianceNormal -> dims_of p = Ok m -> pseudo_observations_v b i m n N ->
  (forall k, (k < m)%nat -> 0 < N k) -> comparable b i f p p1 ->
  exists c x x1 d d1, generalized_conjugate_prior_distribution p n = Ok c /\ proper b i MultivariateDiagonalNormal c /\ conjugate_prior_observation p = Ok x /\ conjugate_prior_observation p1 = Ok x1 /\
    log_density (fam_methods solve) b i c x d /\ log_density (fam_methods solve) b i c x1 d1 /\ d1 <= d.
Proof. exact (t_gen_mode solve b i f p p1 n N m). Qed.
Example C31_generalized_example : dims_of (cj_fixed 1 2) = Ok 2%nat /\ pseudo_observations_v [] [] 2 (vec [4; 9] [2]%nat eq_refl) (fun k => match k with O => 4 | _ => 9 end) /\
  comparable [] [] MultivariateFixedVarianceNormal (cj_fixed 1 2) (cj_fixed 0 5) /\ comparable [] [] MultivariateFixedVarianceNormal (cj_fixed 1 2) (cj_fixed (-1) 2).
Proof. split; [reflexivity|]. split; [apply cj_obsv|]. split; apply cj_fixed_cmp. Qed.
(** the generalized prior of a multinomial distribution: an array n of the documented shape is rejected whenever there are more than two categories *)
Theorem C31_generalized_multinomial_refuted b p m t : dcls p = EP Multinomial -> leaf_shaped b p = true -> dims_of p = Ok m -> (2 <= m)%nat -> shp t = (b ++ [m])%list ->
  generalized_conjugate_prior_distribution p (RA t) = Err BroadcastError.
Proof. exact (t_gen_multinomial b p m t). Qed.
Example C31_generalized_multinomial_example : dcls (cj_multi 0 0 (1 / 5) (1 / 2)) = EP Multinomial /\ leaf_shaped [2]%nat (cj_multi 0 0 (1 / 5) (1 / 2)) = true /\ dims_of (cj_multi 0 0 (1 / 5) (1 / 2)) = Ok 2%nat.
Proof. repeat split. Qed.
(** with one more pseudo-observation count than dimensions - the shape the code accepts - category k, of probability P k, gets a stick whose beta distribution has the parameters
    N k * P k and N k * (1 - P k): the sticks are centred at P k.  (The fraction of the remaining stick that category k takes is P k / (1 - P 0 - ... - P (k-1)), so the prior is centred
    at the distribution only for the first category.)  The prior has m + 1 dimensions although the observation has m. *)
Theorem C31_generalized_multinomial_sticks b i p m n N : proper_e b i Multinomial p -> dims_of p = Ok m -> pseudo_observations_v b i (m + 1) n N ->
  let P k := if (k <? m)%nat then par p i "probability" [k] else 1 - sumR m (fun k => par p i "probability" [k]) in
  exists c al be, generalized_conjugate_prior_distribution p n = Ok c /\ dcls c = NP GeneralizedDirichlet /\ dims_of c = Ok (m + 1)%nat /\
    alpha_beta c = Ok (al, be) /\ shp al = (b ++ [m + 1]%nat)%list /\ shp be = (b ++ [m + 1]%nat)%list /\
    forall k, (k < m + 1)%nat -> tget al (i ++ [k])%list = Fin (N k * P k) /\ tget be (i ++ [k])%list = Fin (N k * (1 - P k)).
Proof. exact (t_gen_sticks b i p m n N). Qed.
(** with equal counts, every parameter gamma of the prior but the last is negative, although its support is the nonnegative numbers *)
Theorem C31_generalized_multinomial_support_refuted b i p m n N : proper_e b i Multinomial p -> dims_of p = Ok m -> (1 <= m)%nat -> 0 < N -> pseudo_observations_v b i (m + 1) n (fun _ => N) ->
  exists c, generalized_conjugate_prior_distribution p n = Ok c /\ dcls c = NP GeneralizedDirichlet /\ dims_of c = Ok (m + 1)%nat /\
    (forall k, (k < m)%nat -> par c i "gamma" [k] = - N * par p i "probability" [k] /\ par c i "gamma" [k] < 0) /\ ~ in_domain c i.
Proof. exact (t_gen_outside b i p m n N). Qed.
Example C31_sticks_example : proper_e [2]%nat [1]%nat Multinomial (cj_multi 0 0 (1 / 5) (1 / 2)) /\ dims_of (cj_multi 0 0 (1 / 5) (1 / 2)) = Ok 2%nat /\
  pseudo_observations_v [2]%nat [1]%nat (2 + 1) (vec [1; 2; 3; 4; 4; 4] [2; 3]%nat eq_refl) (fun _ => 4).
Proof. split; [apply cj_multi_proper; Lra.lra|]. split; [reflexivity|]. eexists. split; [reflexivity|]. split; [reflexivity|]. intros k K. destruct k as [|[|[|k]]]; [reflexivity|reflexivity|reflexivity|Lia.lia]. Qed.
