(** Theorems for C26: the mean of the sufficient statistics gives the maximum likelihood estimate.
    [rows N p x xs]: xs k = x[k]; [data_in_domain N b i q0 x]: the N observations at batch index i are in the sample spaces; [stacked_fixed N i q0 p]: the fixed parameters
    of the distribution q0 from which the estimator is made are those of p, repeated along the axis of the data (MleSpec.v). *)
From Coq Require Import String List Bool Arith Reals.
From Verif Require Import Base XReal Tensor Support Dist Iteration Structure Spec Tools Joint Fam SumSpec DotSpec PointSpec KlSpec DensSpec MleSpec MleThms MleEx.
Import ListNotations.
Local Open Scope R_scope.

(** m = parameter_mean(estimator.sufficient_statistics(x), axis=0).  If p has the expectation parameters m, no q with the fixed parameters of p
    makes the observations x[0], ..., x[N - 1] more likely, and only p makes them as likely *)
Theorem C26_maximum_likelihood solve N b i q0 p q x xs : well_formed q0 = true -> nat_tree q0 = true -> shaped (N :: b) q0 = true -> obs_matches q0 x -> obs_shaped (N :: b) q0 x -> inb b i = true ->
  (forall k, (k < N)%nat -> tree_in_domain q0 (k :: i)) -> data_in_domain N b i q0 x -> rows N p x xs ->
  well_formed p = true -> well_formed q = true -> nat_tree p = true -> same_skeleton p q -> tree_match b p q ->
  tree_in_domain p i -> tree_in_domain q i -> not_clipped p i -> same_fixed_at b i p q -> stacked_fixed N i q0 p ->
  exists est s m, create_estimator_from_natural q0 = Ok est /\ mle_sufficient_statistics (fam_methods solve) est x = Ok s /\ parameter_mean s 0 = Ok m /\
    forall e, to_exp (fam_methods solve) p = Ok e -> same_at b i e m ->
      exists lp lq : nat -> R, (forall k, (k < N)%nat -> log_likelihood (fam_methods solve) b i p (xs k) (lp k) /\ log_likelihood (fam_methods solve) b i q (xs k) (lq k)) /\
        sumR N lq <= sumR N lp /\ ((0 < N)%nat -> (sumR N lq = sumR N lp <-> same_at b i p q)).
Proof. exact (t_mle solve N b i q0 p q x xs). Qed.
Example C26_example solve : well_formed mle_q0 = true /\ nat_tree mle_q0 = true /\ shaped [2]%nat mle_q0 = true /\ obs_matches mle_q0 mle_x /\ obs_shaped [2]%nat mle_q0 mle_x /\ inb [] [] = true /\
  (forall k, (k < 2)%nat -> tree_in_domain mle_q0 [k]) /\ data_in_domain 2 [] [] mle_q0 mle_x /\ rows 2 mle_p mle_x mle_xs /\
  well_formed mle_p = true /\ well_formed mle_q = true /\ nat_tree mle_p = true /\ same_skeleton mle_p mle_q /\ tree_match [] mle_p mle_q /\ 
  tree_in_domain mle_p [] /\ tree_in_domain mle_q [] /\ not_clipped mle_p [] /\ same_fixed_at [] [] mle_p mle_q /\ stacked_fixed 2 [] mle_q0 mle_p /\
  exists est s m e, create_estimator_from_natural mle_q0 = Ok est /\ mle_sufficient_statistics (fam_methods solve) est mle_x = Ok s /\ parameter_mean s 0 = Ok m /\
    to_exp (fam_methods solve) mle_p = Ok e /\ same_at [] [] e m.
Proof.
  destruct mle_obs as [O1 O2]. repeat (split; [first [reflexivity|exact O1|exact O2|exact mle_q0_dom|exact mle_data|exact mle_rows|exact mle_skel|exact mle_tm|apply mle_dom|exact mle_fam|exact mle_clip|exact mle_fixed|exact mle_stacked]|]).
  exact (mle_means solve).
Qed.
(** the estimator of the example in the documentation, create_simple_estimator(type_p): for a simple distribution without fixed parameters
    it computes what the estimator of create_estimator_from_natural computes *)
Theorem C26_simple_estimator solve b f q0 a : dcls q0 = NP f -> well_formed q0 = true -> leaf_shaped b q0 = true -> (forall g, In g (fields (NP f)) -> fd_fixed g = false) ->
  exists est est', create_estimator_from_natural q0 = Ok est /\ create_simple_estimator (EP f) [] = Ok est' /\
    mle_sufficient_statistics (fam_methods solve) est' (Leaf a) = mle_sufficient_statistics (fam_methods solve) est (Leaf a).
Proof. exact (t_simple solve b f q0 a). Qed.
Example C26_simple_example : dcls mle_leaf0 = NP Normal /\ well_formed mle_leaf0 = true /\ leaf_shaped [2]%nat mle_leaf0 = true /\ (forall g, In g (fields (NP Normal)) -> fd_fixed g = false).
Proof. repeat (split; [reflexivity|]). intros g [<-|[<-|[]]]; reflexivity. Qed.
