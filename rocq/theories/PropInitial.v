(** C75: e.initial_search_parameters() is a usable start of the search, and the default bisection that starts there solves it. *)
From Coq Require Import String List Bool Arith Reals.
From Verif Require Import Base XReal Tensor Support Dist Structure Spec DotSpec SumSpec FlattenSpec PointSpec VarSpec DensSpec Fam FamR Joint RootSpec ResidSpec MeanSpec Bisect Initial InitialThms Tools InitSpec InitBatch InitJoint InitJointEx InitEx LogBisect LogEx NatBisect NatBisectEx NatBatch NatSpec NatJoint Choice RootEx MeanThms ResidThms ResidEx MeanEx BisectEx.
Import ListNotations.
Local Open Scope string_scope.
Local Open Scope R_scope.

(** one finite number for each search parameter, in every search *)
Theorem C75_initial b i f e n k : proper_e b i f e -> dims_of e = Ok n -> search_count f n = Some k -> dist_vals true b e ->
  exists t, initial_search_parameters e f = Ok t /\ finite_search b i k t.
Proof. exact (t_initial b i f e n k). Qed.
Example C75_initial_example : proper_e [] [] VonMisesFisher ex_v /\ dims_of ex_v = Ok 3%nat /\ search_count VonMisesFisher 3 = Some 1%nat /\ dist_vals true [] ex_v.
Proof. exact (conj ex_v_proper (conj eq_refl (conj eq_refl ex_v_vals))). Qed.
(** Gamma: the initial shape s = softplus(x) is positive and solves the rational approximation (3 s + 1) / (s (6 s + 1)) of log s - digamma s for the
    log(mean) - mean_log of e *)
Theorem C75_gamma b i e : proper_e b i Gamma e -> exists t x s, initial_search_parameters e Gamma = Ok t /\ tget t (i ++ [0%nat])%list = Fin x /\ s = ln (1 + exp x) /\ 0 < s /\
  ln (par e i "mean" []) - par e i "mean_log" [] = (3 * s + 1) / (s * (6 * s + 1)).
Proof. exact (t_gamma_start b i e). Qed.
Example C75_gamma_example : proper_e [2]%nat [1]%nat Gamma ex_g2.
Proof. exact (proj1 ex_g2_bracket). Qed.
(** VonMisesFisher: the initial concentration softplus(x) is mu (n - mu^2) / (1 - mu^2), where mu is the length of the mean *)
Theorem C75_von_mises_fisher b i e n : proper_e b i VonMisesFisher e -> dims_of e = Ok n -> exists t x mu, initial_search_parameters e VonMisesFisher = Ok t /\ tget t (i ++ [0%nat])%list = Fin x /\
  mu = sqrt (sumR n (fun k => par e i "mean" [k] ^ 2)) /\ ln (1 + exp x) = mu * (INR n - mu ^ 2) / (1 - mu ^ 2) /\ 0 < ln (1 + exp x).
Proof. exact (t_vmf_start b i e n). Qed.
Example C75_von_mises_fisher_example : proper_e [] [] VonMisesFisher ex_v /\ dims_of ex_v = Ok 3%nat.
Proof. exact (conj ex_v_proper eq_refl). Qed.
(** C74 with the start that the code uses *)
Theorem C75_bisection f e eps : 0 < eps -> proper_e [] [] f e -> dist_vals true [] (snd (searched f e)) ->
  f = Gamma \/ f = VonMisesFisher \/ ((f = ChiSquare \/ f = Chi) /\ exists sp, search_root [] [] ChiSquare 1 (snd (searched f e)) sp) ->
  exists K N, forall k m, (K <= k)%nat -> (N <= m)%nat -> let L := fam_methods (default_bisection k m) in
    exists q e', to_nat L e = Ok q /\ proper [] [] f q /\ to_exp L q = Ok e' /\ near_params_at [] [] eps e e'.
Proof. exact (t_default_bisection f e eps). Qed.
Example C75_bisection_example : (proper_e [] [] Gamma ex_g3 /\ dist_vals true [] ex_g3) /\ (proper_e [] [] VonMisesFisher ex_v /\ dist_vals true [] ex_v).
Proof. exact (conj (conj ex_g3_proper ex_g3_vals) (conj ex_v_proper ex_v_vals)). Qed.
(** and for a batch: every element comes as close to e[i] as one likes *)
Theorem C75_batch b f e eps : 0 < eps -> dcls e = EP f -> well_formed e = true -> leaf_shaped b e = true -> no_custom_minimizer e = true ->
  (forall i, inb b i = true -> exists ei, getitem e i = Ok ei /\ proper_e [] [] f ei /\ dist_vals true [] (snd (searched f ei)) /\
    (f = Gamma \/ f = VonMisesFisher \/ ((f = ChiSquare \/ f = Chi) /\ exists sp, search_root [] [] ChiSquare 1 (snd (searched f ei)) sp))) ->
  exists K N, forall k m, (K <= k)%nat -> (N <= m)%nat -> let L := fam_methods (default_bisection k m) in
    exists q e', to_nat L e = Ok q /\ to_exp L q = Ok e' /\
      forall i, inb b i = true -> exists ei qi ei', getitem e i = Ok ei /\ getitem q i = Ok qi /\ getitem e' i = Ok ei' /\ proper [] [] f qi /\ near_params_at [] [] eps ei ei'.
Proof. exact (t_bisection_batch b f e eps). Qed.
Example C75_batch_example : dcls ex_g2 = EP Gamma /\ well_formed ex_g2 = true /\ leaf_shaped [2]%nat ex_g2 = true /\ no_custom_minimizer ex_g2 = true /\
  (forall i, inb [2]%nat i = true -> exists ei, getitem ex_g2 i = Ok ei /\ proper_e [] [] Gamma ei /\ dist_vals true [] (snd (searched Gamma ei)) /\
    (Gamma = Gamma \/ Gamma = VonMisesFisher \/ ((Gamma = ChiSquare \/ Gamma = Chi) /\ exists sp, search_root [] [] ChiSquare 1 (snd (searched Gamma ei)) sp))).
Proof. exact (conj eq_refl (conj eq_refl (conj eq_refl (conj eq_refl ex_g2_each)))). Qed.
(** Logarithmic: when its log_probability is above the -50 below which the mean is replaced by 1 *)
Theorem C75_logarithmic e eps : 0 < eps -> proper_e [] [] Logarithmic e -> dist_vals true [] e ->
  (exists sp q, search_root [] [] Logarithmic 1 e sp /\ search_to_natural e Logarithmic sp = Ok q /\ -50 < par q [] "log_probability" []) ->
  exists K N, forall k m, (K <= k)%nat -> (N <= m)%nat -> let L := fam_methods (default_bisection k m) in
    exists q e', to_nat L e = Ok q /\ proper [] [] Logarithmic q /\ to_exp L q = Ok e' /\ near_params_at [] [] eps e e'.
Proof. exact (t_log_bisection e eps). Qed.
(** the logarithmic distribution with log_probability = -log 2 *)
Example C75_logarithmic_example : proper_e [] [] Logarithmic ex_lg /\ dist_vals true [] ex_lg /\
  exists sp q, search_root [] [] Logarithmic 1 ex_lg sp /\ search_to_natural ex_lg Logarithmic sp = Ok q /\ -50 < par q [] "log_probability" [].
Proof. exact (conj ex_lg_proper (conj ex_lg_vals ex_lg_search)). Qed.
(** without a given minimizer the bisection is the solver exactly when there is one search parameter *)
Theorem C75_choice b i f e n k : proper_e b i f e -> dims_of e = Ok n -> search_count f n = Some k -> dist_vals true b e ->
  exists s, default_solver e f = Ok s /\ (s = BisectionSolver <-> (k <= 1)%nat).
Proof. exact (t_choice b i f e n k). Qed.
(** which are the families of C75_bisection and C75_logarithmic *)
Theorem C75_choice_family b i f e n k : proper_e b i f e -> dims_of e = Ok n -> search_count f n = Some k -> dist_vals true b e -> (2 <= n)%nat \/ (f <> Dirichlet /\ f <> GeneralizedDirichlet) ->
  exists s, default_solver e f = Ok s /\ (s = BisectionSolver <-> f = Gamma \/ f = ChiSquare \/ f = Logarithmic \/ f = VonMisesFisher).
Proof. exact (t_choice_family b i f e n k). Qed.
(** a von Mises-Fisher distribution, with one search parameter, and a batch of two Dirichlet distributions with two *)
Example C75_choice_example : (proper_e [] [] VonMisesFisher ex_v /\ dims_of ex_v = Ok 3%nat /\ search_count VonMisesFisher 3 = Some 1%nat /\ dist_vals true [] ex_v) /\
  (proper_e [2]%nat [1]%nat Dirichlet (ex_dir (-1)) /\ dims_of (ex_dir (-1)) = Ok 2%nat /\ search_count Dirichlet 2 = Some 2%nat /\ dist_vals true [2]%nat (ex_dir (-1))).
Proof. split; [exact (conj ex_v_proper (conj eq_refl (conj eq_refl ex_v_vals)))|]. split; [apply ex_dir_proper; Lra.lra|]. exact (conj eq_refl (conj eq_refl ex_dir_vals)). Qed.
(** and for a batch of them *)
Theorem C75_logarithmic_batch b e eps : 0 < eps -> dcls e = EP Logarithmic -> well_formed e = true -> leaf_shaped b e = true -> no_custom_minimizer e = true ->
  (forall i, inb b i = true -> exists ei, getitem e i = Ok ei /\ proper_e [] [] Logarithmic ei /\ dist_vals true [] ei /\
    exists sp q, search_root [] [] Logarithmic 1 ei sp /\ search_to_natural ei Logarithmic sp = Ok q /\ -50 < par q [] "log_probability" []) ->
  exists K N, forall k m, (K <= k)%nat -> (N <= m)%nat -> let L := fam_methods (default_bisection k m) in
    exists q e', to_nat L e = Ok q /\ to_exp L q = Ok e' /\
      forall i, inb b i = true -> exists ei qi ei', getitem e i = Ok ei /\ getitem q i = Ok qi /\ getitem e' i = Ok ei' /\ proper [] [] Logarithmic qi /\ near_params_at [] [] eps ei ei'.
Proof. exact (t_log_batch b e eps). Qed.
Example C75_logarithmic_batch_example : dcls ex_lg2 = EP Logarithmic /\ well_formed ex_lg2 = true /\ leaf_shaped [2]%nat ex_lg2 = true /\ no_custom_minimizer ex_lg2 = true /\
  (forall i, inb [2]%nat i = true -> exists ei, getitem ex_lg2 i = Ok ei /\ proper_e [] [] Logarithmic ei /\ dist_vals true [] ei /\
    exists sp q, search_root [] [] Logarithmic 1 ei sp /\ search_to_natural ei Logarithmic sp = Ok q /\ -50 < par q [] "log_probability" []).
Proof. exact (conj eq_refl (conj eq_refl (conj eq_refl (conj eq_refl ex_lg2_each)))). Qed.
(** and for joint distributions: the leaves whose to_nat is a formula come back exactly, the others as close as one likes ([converts] and
    [returned]: InitSpec.v) *)
Theorem C75_joint e eps : 0 < eps -> well_formed e = true -> exp_tree e = true -> shaped [] e = true ->
  (forall p l, In (p, l) (leaves [] e) -> exists f, dcls l = EP f /\ converts f l) ->
  exists K N, forall k m, (K <= k)%nat -> (N <= m)%nat -> let L := fam_methods (default_bisection k m) in
    exists q e', to_nat L e = Ok q /\ to_exp L q = Ok e' /\ forall p l f, In (p, l) (leaves [] e) -> dcls l = EP f -> exists l', dist_at e' p = Some l' /\ returned eps f l l'.
Proof. exact (t_bisection_joint e eps). Qed.
(** a nested joint distribution of a Gamma, a VonMisesFisher, a Logarithmic and an Exponential *)
Example C75_joint_example : well_formed ex_jt = true /\ exp_tree ex_jt = true /\ shaped [] ex_jt = true /\ forall p l, In (p, l) (leaves [] ex_jt) -> exists f, dcls l = EP f /\ converts f l.
Proof. exact (conj eq_refl (conj eq_refl (conj eq_refl ex_jt_converts))). Qed.
(** the other round trip: the distribution that comes back from the expectation parameters of q has parameters as close to those of q as one likes *)
Theorem C75_natural f q e eps : 0 < eps -> proper [] [] f q ->
  f = Gamma \/ f = VonMisesFisher \/ (f = ChiSquare /\ -1 + / 2 ^ 23 < par q [] "k_over_two_minus_one" []) \/ (f = Logarithmic /\ -50 < par q [] "log_probability" [] < - / 2 ^ 23) ->
  to_exp (fam_methods (default_bisection 0 0)) q = Ok e -> dist_vals true [] e ->
  exists K N, forall k m, (K <= k)%nat -> (N <= m)%nat -> let L := fam_methods (default_bisection k m) in
    exists q', to_exp L q = Ok e /\ to_nat L e = Ok q' /\ near_params_at [] [] eps q q'.
Proof. exact (t_natural_trip f q e eps). Qed.
(** the Gamma with rate and shape log 2, and the Logarithmic with log_probability = -log 2 *)
Example C75_natural_example : (proper [] [] Gamma ex_gq /\ exists e, to_exp (fam_methods (default_bisection 0 0)) ex_gq = Ok e /\ dist_vals true [] e) /\
  (proper [] [] Logarithmic ex_lq /\ -50 < par ex_lq [] "log_probability" [] < - / 2 ^ 23 /\ exists e, to_exp (fam_methods (default_bisection 0 0)) ex_lq = Ok e /\ dist_vals true [] e).
Proof. exact (conj ex_gq_trip ex_lq_trip). Qed.
(** and for every element of a batch *)
Theorem C75_natural_batch b f q eps : 0 < eps -> dcls q = NP f -> well_formed q = true -> leaf_shaped b q = true -> no_custom_minimizer q = true ->
  (forall i, inb b i = true -> exists qi ei, getitem q i = Ok qi /\ proper [] [] f qi /\
    (f = Gamma \/ f = VonMisesFisher \/ (f = ChiSquare /\ -1 + / 2 ^ 23 < par qi [] "k_over_two_minus_one" []) \/ (f = Logarithmic /\ -50 < par qi [] "log_probability" [] < - / 2 ^ 23)) /\
    to_exp (fam_methods (default_bisection 0 0)) qi = Ok ei /\ dist_vals true [] ei) ->
  exists K N, forall k m, (K <= k)%nat -> (N <= m)%nat -> let L := fam_methods (default_bisection k m) in
    exists e q', to_exp L q = Ok e /\ to_nat L e = Ok q' /\
      forall i, inb b i = true -> exists qi qi', getitem q i = Ok qi /\ getitem q' i = Ok qi' /\ near_params_at [] [] eps qi qi'.
Proof. exact (t_natural_batch b f q eps). Qed.
Example C75_natural_batch_example : dcls ex_gq2 = NP Gamma /\ well_formed ex_gq2 = true /\ leaf_shaped [2]%nat ex_gq2 = true /\ no_custom_minimizer ex_gq2 = true /\
  (forall i, inb [2]%nat i = true -> exists qi ei, getitem ex_gq2 i = Ok qi /\ proper [] [] Gamma qi /\ to_exp (fam_methods (default_bisection 0 0)) qi = Ok ei /\ dist_vals true [] ei).
Proof. exact (conj eq_refl (conj eq_refl (conj eq_refl (conj eq_refl ex_gq2_each)))). Qed.
(** and for joint distributions ([recovers]: NatSpec.v) *)
Theorem C75_natural_joint q eps : 0 < eps -> well_formed q = true -> nat_tree q = true -> shaped [] q = true ->
  (forall p l, In (p, l) (leaves [] q) -> exists f, dcls l = NP f /\ recovers f l) ->
  exists K N, forall k m, (K <= k)%nat -> (N <= m)%nat -> let L := fam_methods (default_bisection k m) in
    exists e q', to_exp L q = Ok e /\ to_nat L e = Ok q' /\ forall p l f, In (p, l) (leaves [] q) -> dcls l = NP f -> exists l', dist_at q' p = Some l' /\ returned eps f l l'.
Proof. exact (t_natural_joint q eps). Qed.
(** a nested joint distribution of a Gamma, an Exponential and a Logarithmic *)
Example C75_natural_joint_example : well_formed ex_jq = true /\ nat_tree ex_jq = true /\ shaped [] ex_jq = true /\ forall p l, In (p, l) (leaves [] ex_jq) -> exists f, dcls l = NP f /\ recovers f l.
Proof. exact (conj eq_refl (conj eq_refl (conj eq_refl ex_jq_recovers))). Qed.
