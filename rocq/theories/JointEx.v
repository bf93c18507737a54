(** Concrete joint distributions and observations meeting the hypotheses of PropJoint.v. *)
From Coq Require Import String List Bool Arith Reals Lra.
From Verif Require Import Base XReal Tensor TensorFacts Support Dist Iteration Structure Spec Joint SpecFun Expr Fam SumSpec DotSpec KlThms Examples.
Import ListNotations.
Local Open Scope string_scope.

(** the names, classes and shapes of ex_joint with other values *)
Definition ex_joint' : dist :=
  Dist JointDistributionN DefaultMinimizer []
    [("x", Dist JointDistributionN DefaultMinimizer []
       [("n", Dist (NP Normal) DefaultMinimizer
          [("mean_times_precision", vec [-1; 0]%R [2] eq_refl); ("negative_half_precision", vec [-3; -1/2]%R [2] eq_refl)] []);
        ("g", Dist (NP Gamma) DefaultMinimizer
          [("negative_rate", vec [-2; -1]%R [2] eq_refl); ("shape_minus_one", vec [1; 3]%R [2] eq_refl)] [])]);
     ("m", Dist (NP MultivariateFixedVarianceNormal) DefaultMinimizer
       [("mean_times_precision", vec [0; 1; -2; 1; 0; 1]%R [2; 3] eq_refl); ("variance", vec [1; 2]%R [2] eq_refl)] [])].
(** an observation, its keys in another order *)
Definition ex_obs : nested arr :=
  Node [("m", Leaf (vec [0; 1; -2; 1; 0; 1]%R [2; 3] eq_refl)); ("x", Node [("g", Leaf (vec [2; 1]%R [2] eq_refl)); ("n", Leaf (vec [-1; 7]%R [2] eq_refl))])].
(** the expectation parameters of a joint distribution *)
Definition ex_joint_e : dist :=
  Dist JointDistributionE DefaultMinimizer []
    [("x", Dist JointDistributionE DefaultMinimizer []
       [("n", Dist (EP Normal) DefaultMinimizer [("mean", vec [1; 2]%R [2] eq_refl); ("second_moment", vec [3; 5]%R [2] eq_refl)] []);
        ("g", Dist (EP Gamma) DefaultMinimizer [("mean", vec [1; 2]%R [2] eq_refl); ("mean_log", vec [-1; 0]%R [2] eq_refl)] [])]);
     ("m", Dist (EP MultivariateFixedVarianceNormal) DefaultMinimizer
       [("mean", vec [0; 1; -2; 1; 0; 1]%R [2; 3] eq_refl); ("variance", vec [1; 2]%R [2] eq_refl)] [])].

Lemma ex_joint_nat : nat_tree ex_joint = true. Proof. reflexivity. Qed.
Lemma ex_joint'_ok : well_formed ex_joint' = true /\ nat_tree ex_joint' = true /\ shaped [2] ex_joint' = true. Proof. auto. Qed.
Lemma ex_joint_e_ok : well_formed ex_joint_e = true /\ exp_tree ex_joint_e = true /\ shaped [2] ex_joint_e = true /\ all_nodes has_entropy_ep ex_joint_e = true. Proof. auto. Qed.
Lemma ex_obs_ok : obs_matches ex_joint ex_obs /\ obs_shaped [2] ex_joint ex_obs.
Proof.
  split.
  - cbn [obs_matches ex_joint is_joint ex_normal ex_gamma ex_fixed ex_obs map fst]. 
    split; [repeat constructor; cbn; intuition discriminate|]. split; [intros n; cbn; tauto|]. cbn.
    split; [|split; [exact I|exact I]]. split; [repeat constructor; cbn; intuition discriminate|]. split; [intros n; cbn; tauto|]. auto.
  - intros p l a Hi Ha. cbn in Hi. destruct Hi as [H|[H|[H|[]]]]; injection H as <- <-; cbn in Ha; injection Ha as <-; unfold obs_leaf.
    all: eexists _, _; (split; [reflexivity|]); (split; [reflexivity|]); split; reflexivity.
Qed.
Lemma ex_tm : tree_match [2] ex_joint ex_joint'.
Proof. unfold tree_match. cbn [leaves ex_joint ex_joint' is_joint flat_map app fst snd ex_normal ex_gamma ex_fixed]. repeat constructor; try (cbn; eexists; split; reflexivity); reflexivity. Qed.
Lemma ex_skel : same_skeleton ex_joint ex_joint'.
Proof.
  intros p. destruct p as [|a p]; [split; reflexivity|]. cbn. destruct (keq a "x"); [|destruct (keq a "m")]; [| |split; reflexivity].
  - destruct p as [|a' p]; [split; reflexivity|]. cbn. destruct (keq a' "n"); [|destruct (keq a' "g")]; [| |split; reflexivity]; destruct p; split; reflexivity.
  - destruct p; split; reflexivity.
Qed.
Lemma ex_tm_e : tree_match [2] ex_joint_e ex_joint.
Proof. unfold tree_match. cbn [leaves ex_joint ex_joint_e is_joint flat_map app fst snd ex_normal ex_gamma ex_fixed]. repeat constructor; try (cbn; eexists; split; reflexivity); reflexivity. Qed.

(** a pair of joint distributions whose divergence is finite *)
Definition ex_p : dist :=
  Dist JointDistributionN DefaultMinimizer []
    [("n", ex_normal); ("u", Dist (NP UnitNormal) DefaultMinimizer [("mean", vec [2; 0]%R [2] eq_refl)] [])].
Definition ex_q : dist :=
  Dist JointDistributionN DefaultMinimizer []
    [("n", Dist (NP Normal) DefaultMinimizer
        [("mean_times_precision", vec [-1; 0]%R [2] eq_refl); ("negative_half_precision", vec [-3; -1/2]%R [2] eq_refl)] []);
     ("u", Dist (NP UnitNormal) DefaultMinimizer [("mean", vec [1; 1]%R [2] eq_refl)] [])].
Lemma ex_pq_ok : well_formed ex_p = true /\ well_formed ex_q = true /\ nat_tree ex_p = true /\ nat_tree ex_q = true /\ shaped [2] ex_p = true. Proof. auto. Qed.
Lemma ex_pq_skel : same_skeleton ex_p ex_q.
Proof.
  intros p. destruct p as [|a p]; [split; reflexivity|]. cbn. destruct (keq a "n"); [|destruct (keq a "u")]; [| |split; reflexivity]; destruct p; split; reflexivity.
Qed.
Lemma ex_pq_tm : tree_match [2] ex_p ex_q.
Proof. unfold tree_match. cbn [leaves ex_p ex_q is_joint flat_map app fst snd ex_normal]. repeat constructor; try (cbn; eexists; split; reflexivity); reflexivity. Qed.
Ltac params H := cbn in H; repeat match type of H with
  | context [keq ?a ?b] => destruct (keq a b); cbn in H
  | context [String.eqb ?a ?b] => destruct (String.eqb a b); cbn in H
  end.
Lemma fin_vec l s H i : inb s i = true -> exists r, tget (@mkT xr s (map Fin l) H) i = Fin r.
Proof.
  intros Hi. unfold tget. cbn [shp dat]. apply Nat.eqb_eq in H. rewrite map_length in H. pose proof (ravel_lt _ _ Hi) as Hl. rewrite <- H in Hl.
  exists (nth (ravel s i) l 0%R). rewrite (nth_indep _ _ (Fin 0)) by (now rewrite map_length). apply map_nth.
Qed.
Lemma fin_vec_entry l s H i : inb s i = true -> finite_entry (entry_c (vec l s H) i).
Proof. intros Hi. cbn [entry_c vec]. destruct (fin_vec l s H i Hi) as [r ->]. exists r, 0%R. reflexivity. Qed.
(** every parameter is a vector of numbers *)
Definition fin_params (d : dist) : Prop := forall n v, dget (dparams d) n = Some v -> forall i, inb (ashape v) i = true -> finite_entry (entry_c v i).
Lemma fin_tree d : (forall p q, dist_at d p = Some q -> fin_params q) -> finite_vars d.
Proof.
  intros H p f v i _ _ Hv Hi. revert d H Hv. induction p as [|a [|a' p] IH]; intros d H Hv; [discriminate| |].
  - cbn [param_at] in Hv. exact (H [] d eq_refl a v Hv i Hi).
  - change (match dget (sub_distributions d) a with Some s => param_at s (a' :: p) | None => None end = Some v) in Hv. destruct (dget (sub_distributions d) a) as [s|] eqn:E; [|discriminate].
    apply (IH s); [|exact Hv]. intros p' q Hq. apply (H (a :: p')). cbn [dist_at]. now rewrite E.
Qed.
Ltac fin_tree_tac := apply fin_tree; let p := fresh in let q := fresh in let H := fresh in intros p q H;
  repeat (match type of H with context [keq ?a ?b] => destruct (keq a b); cbn in H | dist_at _ ?p = Some _ => destruct p; cbn in H end); try discriminate; injection H as <-; 
  let n := fresh in let v := fresh in let Hv := fresh in intros n v Hv; cbn in Hv;
  repeat (match type of Hv with context [keq ?a ?b] => destruct (keq a b); cbn in Hv end); try discriminate; injection Hv as <-; intros; now apply fin_vec_entry.
Lemma ex_p_fin : finite_vars ex_p. Proof. fin_tree_tac. Qed.
Lemma ex_q_fin : finite_vars ex_q. Proof. fin_tree_tac. Qed.
Lemma ex_joint_fin : finite_vars ex_joint. Proof. fin_tree_tac. Qed.
Lemma ex_joint'_fin : finite_vars ex_joint'. Proof. fin_tree_tac. Qed.
Lemma ex_joint_e_fin : finite_vars ex_joint_e. Proof. fin_tree_tac. Qed.
Definition ex_pe : dist :=
  Dist JointDistributionE DefaultMinimizer []
    [("n", Dist (EP Normal) DefaultMinimizer [("mean", vec [3/2; 1]%R [2] eq_refl); ("second_moment", vec [11/4; 5/4]%R [2] eq_refl)] []);
     ("u", Dist (EP UnitNormal) DefaultMinimizer [("mean", vec [2; 0]%R [2] eq_refl)] [])].
Ltac dec := repeat (match goal with
  | |- context [Req_EM_T ?a ?b] => destruct (Req_EM_T a b); [exfalso; lra|]
  | |- context [Rlt_dec ?a ?b] => destruct (Rlt_dec a b); [|exfalso; lra]
  end; cbn).
Ltac two i := let H := fresh in intros i H; apply in_indices in H; cbn in H; destruct H as [<-|[<-|[]]].
Lemma ex_p_exp solve : to_exp (fam_methods solve) ex_p = Ok ex_pe.
Proof.
  cbn. unfold fam_to_exp, make, evals. cbn. apply f_equal. unfold ex_pe. 
  repeat match goal with |- context [RA (tbuild _ ?f)] => set (RA (tbuild _ f)) end. 
  assert (E1 : a = vec [3/2; 1]%R [2] eq_refl). { subst a. unfold vec. f_equal. apply tensor_ext; [reflexivity|]. two i; cbn; dec; f_equal; lra. }
  assert (E2 : a0 = vec [11/4; 5/4]%R [2] eq_refl). { subst a0. unfold vec. f_equal. apply tensor_ext; [reflexivity|]. two i; cbn; dec; f_equal; lra. }
  now rewrite E1, E2.
Qed.
Lemma ex_pe_fin : finite_vars ex_pe. Proof. fin_tree_tac. Qed.
Lemma ex_pq_fins solve i : inb [2] i = true -> let L := fam_methods solve in
  fin_at (log_normalizer L ex_p) i /\ fin_at (log_normalizer L ex_q) i /\ fin_at (expected_carrier_measure L ex_pe) i.
Proof.
  intros H L. subst L. revert i H. pose proof PI_RGT_0. assert (Q : (- PI / -1 > 0)%R) by lra. assert (Q2 : (- PI / -2 > 0)%R) by lra. assert (Q3 : (- PI / -3 > 0)%R) by lra. assert (Q4 : (- PI / (-1/2) > 0)%R) by lra.
  two i; repeat split; unfold fin_at; cbn; unfold fam_log_normalizer, fam_expected_carrier_measure; cbn; dec; eexists; reflexivity.
Qed.
Lemma p_C17_ex : well_formed ex_joint = true /\ well_formed ex_joint' = true /\ nat_tree ex_joint = true /\ nat_tree ex_joint' = true /\
  shaped [2] ex_joint = true /\ same_skeleton ex_joint ex_joint' /\ tree_match [2] ex_joint ex_joint' /\
  well_formed ex_joint_e = true /\ all_nodes has_entropy_ep ex_joint_e = true /\ shaped [2] ex_joint_e = true /\ tree_match [2] ex_joint_e ex_joint /\
  (forall p l f, In (p, l) (leaves [] ex_joint) -> dcls l = NP f -> has_entropy_ep (EP f) = true).
Proof.
  repeat (split; [first [reflexivity|exact ex_skel|exact ex_tm|exact ex_tm_e]|]).
  intros p l f Hi. cbn in Hi. destruct Hi as [H|[H|[H|[]]]]; injection H as _ <-; cbn; intros H; injection H as <-; reflexivity.
Qed.
Lemma p_C18_ex solve : well_formed ex_p = true /\ well_formed ex_q = true /\ nat_tree ex_p = true /\ nat_tree ex_q = true /\ shaped [2] ex_p = true /\
  same_skeleton ex_p ex_q /\ tree_match [2] ex_p ex_q /\
  (forall pth l f, In (pth, l) (leaves [] ex_p) -> dcls l = NP f -> has_entropy_ep (EP f) = true) /\
  to_exp (fam_methods solve) ex_p = Ok ex_pe /\ finite_vars ex_p /\ finite_vars ex_q /\ finite_vars ex_pe /\
  forall i, inb [2] i = true -> fin_at (log_normalizer (fam_methods solve) ex_p) i /\ fin_at (log_normalizer (fam_methods solve) ex_q) i /\
    fin_at (expected_carrier_measure (fam_methods solve) ex_pe) i.
Proof.
  repeat (split; [first [reflexivity|exact ex_pq_skel|exact ex_pq_tm]|]).
  split.
  - intros p l f Hi. cbn in Hi. destruct Hi as [H|[H|[]]]; injection H as _ <-; cbn; intros H; injection H as <-; reflexivity.
  - split; [apply ex_p_exp|]. split; [exact ex_p_fin|]. split; [exact ex_q_fin|]. split; [exact ex_pe_fin|]. exact (ex_pq_fins solve).
Qed.
