(** Theorems for C27: every method acts on each batch element alone. f(d) has the batch shape b of d and f(d)[i] = f(d[i]).
    [getitem d i] is d[i] (C39); [tsub t i] is t[i]. *)
From Coq Require Import String List Bool Arith Reals.
From Verif Require Import Base XReal Tensor Support Dist Iteration Structure Spec Tools Joint Fam SumSpec ExprFacts
  BatchFacts BatchThms BatchProofs Examples JointEx.
Import ListNotations.
Local Open Scope list_scope.

Theorem C27_log_normalizer solve b d i : well_formed d = true -> nat_tree d = true -> shaped b d = true -> no_custom_minimizer d = true -> inb b i = true ->
  exists di t, getitem d i = Ok di /\ log_normalizer (fam_methods solve) d = Ok t /\ shp t = b /\ log_normalizer (fam_methods solve) di = Ok (tsub t i).
Proof. exact (p_C27_ln solve b d i). Qed.
Theorem C27_to_exp solve b d i : well_formed d = true -> nat_tree d = true -> shaped b d = true -> no_custom_minimizer d = true -> inb b i = true ->
  exists di e ei, getitem d i = Ok di /\ to_exp (fam_methods solve) d = Ok e /\ getitem e i = Ok ei /\ to_exp (fam_methods solve) di = Ok ei.
Proof. exact (p_C27_to_exp solve b d i). Qed.
Theorem C27_to_nat solve b d i : well_formed d = true -> exp_tree d = true -> shaped b d = true -> no_custom_minimizer d = true -> inb b i = true ->
  exists di e ei, getitem d i = Ok di /\ to_nat (fam_methods solve) d = Ok e /\ getitem e i = Ok ei /\ to_nat (fam_methods solve) di = Ok ei.
Proof. exact (p_C27_to_nat solve b d i). Qed.
(** an observation xi that holds x[i] at every leaf, in any key order *)
Theorem C27_carrier_measure solve b q i x xi : well_formed q = true -> nat_tree q = true -> shaped b q = true -> no_custom_minimizer q = true -> inb b i = true ->
  obs_matches q x -> obs_shaped b q x -> obs_matches q xi -> (forall p a, nested_get x p = Some a -> exists ai, arr_getitem i a = Ok ai /\ nested_get xi p = Some ai) ->
  exists qi t, getitem q i = Ok qi /\ carrier_measure (fam_methods solve) q x = Ok t /\ shp t = b /\ carrier_measure (fam_methods solve) qi xi = Ok (tsub t i).
Proof. exact (p_C27_cm solve b q i x xi). Qed.
Theorem C27_log_pdf solve b q i x xi : well_formed q = true -> nat_tree q = true -> shaped b q = true -> no_custom_minimizer q = true -> inb b i = true ->
  obs_matches q x -> obs_shaped b q x -> obs_matches q xi -> (forall p a, nested_get x p = Some a -> exists ai, arr_getitem i a = Ok ai /\ nested_get xi p = Some ai) ->
  exists qi t, getitem q i = Ok qi /\ log_pdf (fam_methods solve) q x = Ok t /\ shp t = b /\ log_pdf (fam_methods solve) qi xi = Ok (tsub t i).
Proof. exact (p_C27_log_pdf solve b q i x xi). Qed.
Theorem C27_entropy_nat solve b q i : well_formed q = true -> nat_tree q = true -> shaped b q = true -> no_custom_minimizer q = true -> inb b i = true ->
  (forall p l f, In (p, l) (leaves [] q) -> dcls l = NP f -> has_entropy_ep (EP f) = true) ->
  exists qi t, getitem q i = Ok qi /\ entropy_nat (fam_methods solve) q = Ok t /\ shp t = b /\ entropy_nat (fam_methods solve) qi = Ok (tsub t i).
Proof. exact (p_C27_entropy_nat solve b q i). Qed.
Theorem C27_entropy_exp solve b p i : well_formed p = true -> all_nodes has_entropy_ep p = true -> shaped b p = true -> no_custom_minimizer p = true -> inb b i = true ->
  exists pi t, getitem p i = Ok pi /\ entropy_exp (fam_methods solve) p = Ok t /\ shp t = b /\ entropy_exp (fam_methods solve) pi = Ok (tsub t i).
Proof. exact (p_C27_entropy_exp solve b p i). Qed.
Theorem C27_cross_entropy solve b p q i : well_formed p = true -> well_formed q = true -> all_nodes has_entropy_ep p = true -> nat_tree q = true -> tree_match b p q ->
  no_custom_minimizer p = true -> no_custom_minimizer q = true -> inb b i = true ->
  exists pi qi t, getitem p i = Ok pi /\ getitem q i = Ok qi /\ cross_entropy (fam_methods solve) p q = Ok t /\ shp t = b /\ cross_entropy (fam_methods solve) pi qi = Ok (tsub t i).
Proof. exact (p_C27_cross_entropy solve b p q i). Qed.
Theorem C27_kl_divergence solve b p q i : well_formed p = true -> well_formed q = true -> nat_tree p = true -> nat_tree q = true -> same_skeleton p q -> tree_match b p q ->
  no_custom_minimizer p = true -> no_custom_minimizer q = true -> inb b i = true ->
  exists pi qi t, getitem p i = Ok pi /\ getitem q i = Ok qi /\ kl_divergence_nat (fam_methods solve) p q = Ok t /\ shp t = b /\ kl_divergence_nat (fam_methods solve) pi qi = Ok (tsub t i).
Proof. exact (p_C27_kl solve b p q i). Qed.
Theorem C27_kl_divergence_exp solve b p q n i : well_formed p = true -> well_formed q = true -> exp_tree p = true -> nat_tree q = true ->
  to_nat (fam_methods solve) p = Ok n -> same_skeleton n q -> tree_match b p q -> no_custom_minimizer p = true -> no_custom_minimizer q = true -> inb b i = true ->
  exists pi qi t, getitem p i = Ok pi /\ getitem q i = Ok qi /\ kl_divergence_exp (fam_methods solve) p q None = Ok t /\ shp t = b /\
    kl_divergence_exp (fam_methods solve) pi qi None = Ok (tsub t i).
Proof. exact (p_C27_kl_exp solve b p q n i). Qed.
Example C27_example : (well_formed ex_joint = true /\ nat_tree ex_joint = true /\ shaped [2] ex_joint = true /\ no_custom_minimizer ex_joint = true /\ inb [2] [1] = true /\
    (forall p l f, In (p, l) (leaves [] ex_joint) -> dcls l = NP f -> has_entropy_ep (EP f) = true)) /\
  (well_formed ex_joint' = true /\ nat_tree ex_joint' = true /\ same_skeleton ex_joint ex_joint' /\ tree_match [2] ex_joint ex_joint' /\ no_custom_minimizer ex_joint' = true) /\
  (well_formed ex_joint_e = true /\ exp_tree ex_joint_e = true /\ all_nodes has_entropy_ep ex_joint_e = true /\ shaped [2] ex_joint_e = true /\ no_custom_minimizer ex_joint_e = true /\ tree_match [2] ex_joint_e ex_joint) /\
  exists xi, obs_matches ex_joint ex_obs /\ obs_shaped [2] ex_joint ex_obs /\ obs_matches ex_joint xi /\
    (forall p a, nested_get ex_obs p = Some a -> exists ai, arr_getitem [1] a = Ok ai /\ nested_get xi p = Some ai).
Proof. exact p_C27_ex. Qed.
