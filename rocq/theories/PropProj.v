(** Theorems for C73: fitting an arbitrary density by its moments. [true_density p P]: P is a probability density on the sample space of
    p (any one: the parts of a joint distribution need not be independent under it); [has_moments L b i p P]: the expected sufficient
    statistics under P are p.to_exp(); [has_carriers L b i p P]: likewise the expected carrier measures (ProjSpec.v). *)
From Coquelicot Require Import Coquelicot.
From Coq Require Import String List Bool Arith Reals.
From Verif Require Import Base XReal Tensor Support Dist Iteration Structure Spec Tools Joint Fam SumSpec DotSpec PointSpec KlSpec FisherSpec DensSpec SampleSpec IntSpec JointIntSpec GradSpec
  ProjSpec ProjThms MaxEnt ProjEx.
Import ListNotations.
Local Open Scope R_scope.

(** under P, the expected log-likelihood ratio of p and any q is p.kl_divergence(q) *)
Theorem C73_projection solve b i p q P : joint_proper b i p -> joint_proper b i q -> not_clipped p i -> same_skeleton p q -> tree_match b p q -> same_fixed_at b i p q ->
  integral_joint p P 1 -> has_moments (fam_methods solve) b i p P ->
  exists k, value_is b i (kl_divergence_nat (fam_methods solve) p q) k /\
    forall lp lq, joint_log_pdf_is (fam_methods solve) b i p lp -> joint_log_pdf_is (fam_methods solve) b i q lq -> integral_joint p (fun xv => P xv * (lp xv - lq xv)) k.
Proof. exact (t_projection solve b i p q P). Qed.

(** so p has the least expected loss - log_pdf of all q, and no other q has it *)
Theorem C73_loss solve b i p q P : joint_proper b i p -> joint_proper b i q -> not_clipped p i -> same_skeleton p q -> tree_match b p q -> same_fixed_at b i p q ->
  integral_joint p P 1 -> has_moments (fam_methods solve) b i p P ->
  forall lp lq u v, joint_log_pdf_is (fam_methods solve) b i p lp -> joint_log_pdf_is (fam_methods solve) b i q lq ->
    integral_joint p (fun xv => P xv * - lp xv) u -> integral_joint p (fun xv => P xv * - lq xv) v ->
    exists k, value_is b i (kl_divergence_nat (fam_methods solve) p q) k /\ v = u + k /\ u <= v /\ (u = v <-> same_at b i p q).
Proof. exact (t_loss solve b i p q P). Qed.

(** the expected loss of p under P is p.entropy() *)
Theorem C73_entropy solve b i p P : joint_proper b i p -> not_clipped p i -> integral_joint p P 1 -> has_moments (fam_methods solve) b i p P -> has_carriers (fam_methods solve) b i p P ->
  (forall pth l f, In (pth, l) (leaves [] p) -> dcls l = NP f -> has_entropy_ep (EP f) = true) ->
  (forall pth l f, In (pth, l) (leaves [] p) -> dcls l = NP f -> carrier_by_search f = true -> recovered (fam_methods solve) b i l) ->
  exists h, value_is b i (entropy_nat (fam_methods solve) p) h /\ forall lp, joint_log_pdf_is (fam_methods solve) b i p lp -> integral_joint p (fun xv => P xv * - lp xv) h.
Proof. exact (t_entropy_moment solve b i p P). Qed.

(** and no density with those moments has a larger entropy *)
Theorem C73_maximum_entropy solve b i p P : joint_proper b i p -> not_clipped p i -> true_density p P -> has_moments (fam_methods solve) b i p P -> has_carriers (fam_methods solve) b i p P ->
  (forall pth l f, In (pth, l) (leaves [] p) -> dcls l = NP f -> has_entropy_ep (EP f) = true) ->
  (forall pth l f, In (pth, l) (leaves [] p) -> dcls l = NP f -> carrier_by_search f = true -> recovered (fam_methods solve) b i l) ->
  forall s, integral_joint p (fun xv => P xv * - ln (P xv)) s -> exists h, value_is b i (entropy_nat (fam_methods solve) p) h /\ s <= h.
Proof. exact (fun A B D M C E F s => t_maximum_entropy solve b i p P A B (proj2 D) M C E F s (proj1 D)). Qed.

(** two independent fair coins, fitted to two coins that always agree *)
Example C73_example solve : (forall u v, joint_proper [] [] (coins u v) /\ not_clipped (coins u v) []) /\
  (forall u v u' v', same_skeleton (coins u v) (coins u' v') /\ tree_match [] (coins u v) (coins u' v') /\ same_fixed_at [] [] (coins u v) (coins u' v')) /\
  true_density (coins 0 0) agree /\ has_moments (fam_methods solve) [] [] (coins 0 0) agree /\ has_carriers (fam_methods solve) [] [] (coins 0 0) agree /\
  (forall pth l f, In (pth, l) (leaves [] (coins 0 0)) -> dcls l = NP f -> has_entropy_ep (EP f) = true /\ (carrier_by_search f = true -> recovered (fam_methods solve) [] [] l)) /\
  integral_joint (coins 0 0) (fun xv => agree xv * - ln (agree xv)) (ln 2).
Proof. exact (conj coins_proper (conj coins_like (conj (agree_density 0 0) (conj (agree_moments solve) (conj (agree_carriers solve 0 0) (conj (coins_entropy solve 0 0) (agree_entropy 0 0))))))). Qed.
