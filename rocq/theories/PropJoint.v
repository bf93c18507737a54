(** Theorems for C10, C12, C16-C18, C40: joint distributions and the generic methods, for the modelled classes.
    [solve] is the numerical root finder of the ExpToNat classes: any function. *)
From Coq Require Import String List Bool Arith Reals.
From Verif Require Import Base XReal Tensor Support Dist Iteration Structure Spec Tools Joint Fam SumSpec DotSpec DotLaws
  JointThms JointThms2 LogPdfThms KlThms BatchFacts JointProofs Examples JointEx.
Import ListNotations.
Local Open Scope list_scope.

(** ** C10 *)
Theorem C10_value b x y : well_formed x = true -> well_formed y = true -> tree_match b x y ->
  exists t, parameter_dot_product x y = Ok t /\ shp t = b /\
    forall i, inb b i = true ->
      tget t i = xsum (map (fun pq => leaf_inner b i (snd (fst pq)) (snd (snd pq))) (combine (leaves [] x) (leaves [] y))).
Proof. exact (dot_value b x y). Qed.
(** (u x + c x') . y = u (x . y) + c (x' . y) *)
Theorem C10_linear u c b x x' y : well_formed x = true -> well_formed x' = true -> well_formed y = true ->
  same_skeleton x x' -> tree_match b x x' -> tree_match b x y -> finite_vars x -> finite_vars x' -> finite_vars y ->
  exists r t s1 s2, parameter_map (lin_op u c) x [x'] = Ok r /\ parameter_dot_product r y = Ok t /\
    parameter_dot_product x y = Ok s1 /\ parameter_dot_product x' y = Ok s2 /\ lin_entries b u c t s1 s2.
Proof. exact (dot_lin (lin_op u c) u c (lin_op_linear u c) b x x' y). Qed.
Theorem C10_symmetric b x y : well_formed x = true -> well_formed y = true -> tree_match b x y ->
  exists t t', parameter_dot_product x y = Ok t /\ parameter_dot_product y x = Ok t' /\ shp t = b /\ shp t' = b /\
    forall i, inb b i = true -> tget t i = tget t' i.
Proof. exact (dot_sym b x y). Qed.
Theorem C10_ignores_fixed x x' y y' :
  parameters_s x (Some false) = parameters_s x' (Some false) -> parameters_s y (Some false) = parameters_s y' (Some false) ->
  parameter_dot_product x y = parameter_dot_product x' y'.
Proof. exact (dot_fixed x x' y y'). Qed.
Example C10_example : well_formed ex_joint = true /\ well_formed ex_joint' = true /\ well_formed ex_joint_e = true /\
  same_skeleton ex_joint ex_joint' /\ tree_match [2] ex_joint ex_joint' /\ tree_match [2] ex_joint ex_joint_e /\
  finite_vars ex_joint /\ finite_vars ex_joint' /\ finite_vars ex_joint_e.
Proof. exact (conj eq_refl (conj eq_refl (conj eq_refl (conj ex_skel (conj ex_tm (conj (tm_sym _ _ _ ex_tm_e) (conj ex_joint_fin (conj ex_joint'_fin ex_joint_e_fin)))))))). Qed.

(** ** C12 *)
Theorem C12_to_exp solve b d : well_formed d = true -> nat_tree d = true -> shaped b d = true ->
  exists e infos einfos, to_exp (fam_methods solve) d = Ok e /\ create d = Ok infos /\ create e = Ok einfos /\
    struct_to_exp infos = Ok einfos /\ struct_to_nat einfos = Ok infos.
Proof. exact (p_C12_exp solve b d). Qed.
Theorem C12_to_nat solve b d : well_formed d = true -> exp_tree d = true -> shaped b d = true ->
  exists n infos ninfos, to_nat (fam_methods solve) d = Ok n /\ create d = Ok infos /\ create n = Ok ninfos /\
    struct_to_nat infos = Ok ninfos /\ struct_to_exp ninfos = Ok infos.
Proof. exact (p_C12_nat solve b d). Qed.
(** on any structure on which they are defined *)
Theorem C12_inverse infos j : (struct_to_exp infos = Ok j -> struct_to_nat j = Ok infos) /\ (struct_to_nat infos = Ok j -> struct_to_exp j = Ok infos).
Proof. exact (conj (s2e_s2n infos j) (s2n_s2e infos j)). Qed.
Example C12_example : (well_formed ex_joint = true /\ nat_tree ex_joint = true /\ shaped [2] ex_joint = true) /\
  (well_formed ex_joint_e = true /\ exp_tree ex_joint_e = true /\ shaped [2] ex_joint_e = true).
Proof. repeat split. Qed.

(** ** C16 *)
Theorem C16_log_pdf solve b q x : well_formed q = true -> nat_tree q = true -> shaped b q = true -> obs_matches q x -> obs_shaped b q x ->
  sums_to (fun pl => match nested_get x (fst pl) with
                     | Some a => log_pdf (fam_methods solve) (snd pl) (Leaf a)
                     | None => Err KeyError
                     end) b (leaves [] q) (log_pdf (fam_methods solve) q x).
Proof. exact (log_pdf_sum _ (fam_good solve) b q x). Qed.
Theorem C16_key_order solve b q x y : well_formed q = true -> nat_tree q = true -> shaped b q = true ->
  obs_matches q x -> obs_matches q y -> obs_shaped b q x -> (forall p, nested_get x p = nested_get y p) ->
  log_pdf (fam_methods solve) q x = log_pdf (fam_methods solve) q y.
Proof. exact (p_C16_order solve b q x y). Qed.
Example C16_example : well_formed ex_joint = true /\ nat_tree ex_joint = true /\ shaped [2] ex_joint = true /\
  obs_matches ex_joint ex_obs /\ obs_shaped [2] ex_joint ex_obs.
Proof. exact (conj eq_refl (conj eq_refl (conj eq_refl ex_obs_ok))). Qed.

(** ** C17 *)
Theorem C17_log_normalizer solve b d : well_formed d = true -> nat_tree d = true -> shaped b d = true ->
  sums_to (fun pl => log_normalizer (fam_methods solve) (snd pl)) b (leaves [] d) (log_normalizer (fam_methods solve) d).
Proof. exact (ln_sum _ (fam_good solve) b d). Qed.
Theorem C17_kl_divergence solve b p q : well_formed p = true -> well_formed q = true -> nat_tree p = true -> nat_tree q = true ->
  same_skeleton p q -> tree_match b p q ->
  sums_to (fun pl => at_path q (fst pl) (fun ql => kl_divergence_nat (fam_methods solve) (snd pl) ql)) b (leaves [] p)
    (kl_divergence_nat (fam_methods solve) p q).
Proof. exact (p_C17_kl solve b p q). Qed.
Theorem C17_kl_divergence_exp solve b p q n : well_formed p = true -> well_formed q = true -> exp_tree p = true -> nat_tree q = true ->
  to_nat (fam_methods solve) p = Ok n -> same_skeleton n q -> tree_match b p q ->
  sums_to (fun pl => at_path q (fst pl) (fun ql => kl_divergence_exp (fam_methods solve) (snd pl) ql None)) b (leaves [] p)
    (kl_divergence_exp (fam_methods solve) p q None).
Proof. exact (p_C17_kl_exp solve b p q n). Qed.
Theorem C17_cross_entropy solve b p q : well_formed p = true -> well_formed q = true -> all_nodes has_entropy_ep p = true -> nat_tree q = true ->
  tree_match b p q ->
  sums_to (fun pl => at_path q (fst pl) (fun ql => cross_entropy (fam_methods solve) (snd pl) ql)) b (leaves [] p)
    (cross_entropy (fam_methods solve) p q).
Proof. exact (p_C17_ce solve b p q). Qed.
Theorem C17_entropy_nat solve b q : well_formed q = true -> nat_tree q = true -> shaped b q = true ->
  (forall p l f, In (p, l) (leaves [] q) -> dcls l = NP f -> has_entropy_ep (EP f) = true) ->
  sums_to (fun pl => entropy_nat (fam_methods solve) (snd pl)) b (leaves [] q) (entropy_nat (fam_methods solve) q).
Proof. exact (entropy_nat_sum _ (fam_good solve) b q). Qed.
Theorem C17_entropy_exp solve b p : well_formed p = true -> all_nodes has_entropy_ep p = true -> shaped b p = true ->
  sums_to (fun pl => entropy_exp (fam_methods solve) (snd pl)) b (leaves [] p) (entropy_exp (fam_methods solve) p).
Proof. exact (entropy_exp_sum _ (fam_good solve) b p). Qed.
Example C17_example : well_formed ex_joint = true /\ well_formed ex_joint' = true /\ nat_tree ex_joint = true /\ nat_tree ex_joint' = true /\
  shaped [2] ex_joint = true /\ same_skeleton ex_joint ex_joint' /\ tree_match [2] ex_joint ex_joint' /\
  well_formed ex_joint_e = true /\ all_nodes has_entropy_ep ex_joint_e = true /\ shaped [2] ex_joint_e = true /\ tree_match [2] ex_joint_e ex_joint /\
  (forall p l f, In (p, l) (leaves [] ex_joint) -> dcls l = NP f -> has_entropy_ep (EP f) = true).
Proof. exact p_C17_ex. Qed.

(** ** C18 *)
Theorem C18_difference solve b p q e : well_formed p = true -> well_formed q = true -> nat_tree p = true -> nat_tree q = true ->
  same_skeleton p q -> tree_match b p q ->
  (forall pth l f, In (pth, l) (leaves [] p) -> dcls l = NP f -> has_entropy_ep (EP f) = true) ->
  to_exp (fam_methods solve) p = Ok e -> finite_vars p -> finite_vars q -> finite_vars e ->
  exists k c h, kl_divergence_nat (fam_methods solve) p q = Ok k /\ cross_entropy (fam_methods solve) e q = Ok c /\
    entropy_nat (fam_methods solve) p = Ok h /\ shp k = b /\ shp c = b /\ shp h = b /\
    forall i, inb b i = true -> fin_at (log_normalizer (fam_methods solve) p) i -> fin_at (log_normalizer (fam_methods solve) q) i ->
      fin_at (expected_carrier_measure (fam_methods solve) e) i ->
      exists x y, tget c i = Fin x /\ tget h i = Fin y /\ tget k i = Fin (x - y).
Proof. exact (kl_is_difference _ (fam_good solve) b p q e). Qed.
Theorem C18_diagonal solve b p e : well_formed p = true -> nat_tree p = true -> shaped b p = true ->
  to_exp (fam_methods solve) p = Ok e -> finite_vars p -> finite_vars e ->
  exists k, kl_divergence_nat (fam_methods solve) p p = Ok k /\ shp k = b /\
    forall i, inb b i = true -> fin_at (log_normalizer (fam_methods solve) p) i -> tget k i = Fin 0.
Proof. exact (kl_self _ (fam_good solve) b p e). Qed.
Example C18_example solve : well_formed ex_p = true /\ well_formed ex_q = true /\ nat_tree ex_p = true /\ nat_tree ex_q = true /\ shaped [2] ex_p = true /\
  same_skeleton ex_p ex_q /\ tree_match [2] ex_p ex_q /\
  (forall pth l f, In (pth, l) (leaves [] ex_p) -> dcls l = NP f -> has_entropy_ep (EP f) = true) /\
  to_exp (fam_methods solve) ex_p = Ok ex_pe /\ finite_vars ex_p /\ finite_vars ex_q /\ finite_vars ex_pe /\
  forall i, inb [2] i = true -> fin_at (log_normalizer (fam_methods solve) ex_p) i /\ fin_at (log_normalizer (fam_methods solve) ex_q) i /\
    fin_at (expected_carrier_measure (fam_methods solve) ex_pe) i.
Proof. exact (p_C18_ex solve). Qed.

(** ** C40 *)
Theorem C40_to_exp solve b d : well_formed d = true -> nat_tree d = true -> shaped b d = true ->
  exists e, to_exp (fam_methods solve) d = Ok e /\ parameters e (Some true) = parameters d (Some true).
Proof. exact (p_C40_to_exp solve b d). Qed.
Theorem C40_to_nat solve b d : well_formed d = true -> exp_tree d = true -> shaped b d = true ->
  exists e, to_nat (fam_methods solve) d = Ok e /\ parameters e (Some true) = parameters d (Some true).
Proof. exact (p_C40_to_nat solve b d). Qed.
Theorem C40_sufficient_statistics solve b q x : well_formed q = true -> nat_tree q = true -> shaped b q = true ->
  obs_matches q x -> obs_shaped b q x ->
  exists est tx, create_estimator_from_natural q = Ok est /\ mle_sufficient_statistics (fam_methods solve) est x = Ok tx /\
    parameters tx (Some true) = parameters q (Some true).
Proof. exact (p_C40_stats solve b q x). Qed.
