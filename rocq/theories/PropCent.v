(** Theorems for C72: averages of expectation parameters and the divergence. [wsum wps xs]: the weighted sum of xs; [averages L b i wps m]:
    the weights sum to 1 and the expectation parameters of m are the weighted average of those of the distributions in wps
    (CentSpec.v); [value_is b i r m]: the computation r succeeds and its value at batch index i is m (GradSpec.v). *)
From Coq Require Import String List Bool Arith Reals.
From Verif Require Import Base XReal Tensor Support Dist Iteration Structure Spec Tools Joint Fam SumSpec DotSpec PointSpec KlSpec FisherSpec JointIntSpec CovSpec GradSpec
  CentSpec CentThms CentConv CentEx.
Import ListNotations.
Local Open Scope R_scope.

(** averaging the expectation parameters of two distributions with parameter_map *)
Theorem C72_average solve b i p q m s ep eq em e : joint_proper b i p -> joint_proper b i q -> joint_proper b i m ->
  same_skeleton m p -> tree_match b m p -> same_skeleton m q -> tree_match b m q ->
  to_exp (fam_methods solve) p = Ok ep -> to_exp (fam_methods solve) q = Ok eq -> to_exp (fam_methods solve) m = Ok em -> finite_vars ep -> finite_vars eq ->
  parameter_map (lin_op (1 - s) s) ep [eq] = Ok e -> same_at b i e em ->
  averages (fam_methods solve) b i [(1 - s, p); (s, q)] m.
Proof. exact (t_average solve b i p q m s ep eq em e). Qed.
Example C72_average_example solve : exists ep eq em e, to_exp (fam_methods solve) (nu 4 (-2) 3) = Ok ep /\ to_exp (fam_methods solve) (nu (-4) (-2) 1) = Ok eq /\
  to_exp (fam_methods solve) (nu 0 (-2 / 5) 2) = Ok em /\ finite_vars ep /\ finite_vars eq /\
  parameter_map (lin_op (1 - 1 / 2) (1 / 2)) ep [eq] = Ok e /\ same_at [] [] e em.
Proof. exact (ex_average solve). Qed.

(** the weighted divergence of the p_k from x is that from their average m plus the divergence of m from x *)
Theorem C72_compensation solve b i wps m x :
  (forall w p, In (w, p) wps -> joint_proper b i p /\ not_clipped p i /\ same_skeleton m p /\ tree_match b m p) ->
  joint_proper b i m -> not_clipped m i -> joint_proper b i x -> same_skeleton m x -> tree_match b m x -> finite_vars m -> finite_vars x ->
  averages (fam_methods solve) b i wps m ->
  exists ks ls k, Forall2 (fun wp k => value_is b i (kl_divergence_nat (fam_methods solve) (snd wp) x) k) wps ks /\
    Forall2 (fun wp k => value_is b i (kl_divergence_nat (fam_methods solve) (snd wp) m) k) wps ls /\
    value_is b i (kl_divergence_nat (fam_methods solve) m x) k /\ wsum wps ks = wsum wps ls + k.
Proof. exact (t_compensation solve b i wps m x). Qed.

(** so the average is the one distribution with the least weighted divergence *)
Theorem C72_centroid solve b i wps m x :
  (forall w p, In (w, p) wps -> joint_proper b i p /\ not_clipped p i /\ same_skeleton m p /\ tree_match b m p) ->
  joint_proper b i m -> not_clipped m i -> joint_proper b i x -> same_skeleton m x -> tree_match b m x -> same_fixed_at b i m x -> finite_vars m -> finite_vars x ->
  averages (fam_methods solve) b i wps m ->
  exists ks ls, Forall2 (fun wp k => value_is b i (kl_divergence_nat (fam_methods solve) (snd wp) x) k) wps ks /\
    Forall2 (fun wp k => value_is b i (kl_divergence_nat (fam_methods solve) (snd wp) m) k) wps ls /\
    wsum wps ls <= wsum wps ks /\ (wsum wps ls = wsum wps ks <-> same_at b i m x).
Proof. exact (t_centroid solve b i wps m x). Qed.

(** with weights that are not negative, the divergence is convex in the expectation parameters of its first argument, strictly where the
    p_k of positive weight are not all alike *)
Theorem C72_convex solve b i wps m x :
  (forall w p, In (w, p) wps -> 0 <= w /\ joint_proper b i p /\ not_clipped p i /\ same_skeleton p m /\ tree_match b p m /\ same_fixed_at b i p m) ->
  joint_proper b i m -> not_clipped m i -> joint_proper b i x -> same_skeleton m x -> tree_match b m x -> finite_vars m -> finite_vars x ->
  averages (fam_methods solve) b i wps m ->
  exists ks k, Forall2 (fun wp k => value_is b i (kl_divergence_nat (fam_methods solve) (snd wp) x) k) wps ks /\
    value_is b i (kl_divergence_nat (fam_methods solve) m x) k /\
    k <= wsum wps ks /\ (k = wsum wps ks <-> forall w p, In (w, p) wps -> 0 < w -> same_at b i p m).
Proof. exact (t_convex_first solve b i wps m x). Qed.

(** the average of two joint distributions of a normal and a unit normal distribution *)
Example C72_example solve :
  (forall a c u, c < 0 -> joint_proper [] [] (nu a c u) /\ not_clipped (nu a c u) [] /\ finite_vars (nu a c u)) /\
  (forall a c u a' c' u', same_skeleton (nu a c u) (nu a' c' u') /\ tree_match [] (nu a c u) (nu a' c' u') /\ same_fixed_at [] [] (nu a c u) (nu a' c' u')) /\
  averages (fam_methods solve) [] [] [(1 - 1 / 2, nu 4 (-2) 3); (1 / 2, nu (-4) (-2) 1)] (nu 0 (-2 / 5) 2).
Proof. exact (conj nu_proper (conj nu_like (ex_averages solve))). Qed.
