(** C67: equivalent ways of making an estimator, of reading the domain support, and of evaluating a variance parametrization agree. *)
From Coquelicot Require Import Coquelicot.
From Coq Require Import String List Bool Arith Reals Lra Lia.
From Verif Require Import Base XReal Tensor Support Dist Iteration Structure Spec Tools Joint Fam SumSpec DotSpec PointSpec DensSpec TextSpec Examples JointEx ConvEx DensEx CombEx Var VarSpec VarEx EstThms.
Import ListNotations.
Local Open Scope string_scope.
Local Open Scope list_scope.
Local Open Scope R_scope.

(** create_estimator(q.to_exp()) == create_estimator_from_natural(q): the same structure and the same fixed parameters *)
Theorem C67_from_natural solve b q e : well_formed q = true -> nat_tree q = true -> shaped b q = true -> to_exp (fam_methods solve) q = Ok e ->
  exists est, create_estimator_from_natural q = Ok est /\ create_estimator e = Ok est.
Proof. exact (t_from_natural solve b q e). Qed.
Example C67_from_natural_example solve : well_formed ex_joint = true /\ nat_tree ex_joint = true /\ shaped [2]%nat ex_joint = true /\ (exists e, to_exp (fam_methods solve) ex_joint = Ok e) /\
  exists est, create_estimator_from_natural ex_joint = Ok est /\ keys (e_fixed est) = [["m"; "variance"]].
Proof.
  repeat (split; [reflexivity|]). split; [destruct (JointThms.g_exp_tree _ (BatchFacts.fam_good solve) [2]%nat ex_joint eq_refl eq_refl eq_refl) as (e & E & _); now exists e|].
  eexists. split; reflexivity.
Qed.

(** create_estimator(e) == create_estimator_from_natural(e.to_nat()) *)
Theorem C67_from_expectation solve b e q : well_formed e = true -> exp_tree e = true -> shaped b e = true -> to_nat (fam_methods solve) e = Ok q ->
  exists est, create_estimator e = Ok est /\ create_estimator_from_natural q = Ok est.
Proof. exact (t_from_expectation solve b e q). Qed.
Example C67_from_expectation_example solve : well_formed ex_joint_e = true /\ exp_tree ex_joint_e = true /\ shaped [2]%nat ex_joint_e = true /\ (exists q, to_nat (fam_methods solve) ex_joint_e = Ok q) /\
  exists est, create_estimator ex_joint_e = Ok est /\ keys (e_fixed est) = [["m"; "variance"]].
Proof.
  repeat (split; [reflexivity|]). split; [destruct (JointThms.g_nat_tree _ (BatchFacts.fam_good solve) [2]%nat ex_joint_e eq_refl eq_refl eq_refl) as (q & E & _); now exists q|].
  eexists. split; reflexivity.
Qed.

(** create_simple_estimator(type_p, **fixed), given the fixed parameters of a simple distribution q0 (and perhaps further keyword arguments),
    computes on every x what the estimator of q0 computes *)
Theorem C67_simple_estimator solve b f q0 fixed x : dcls q0 = NP f -> well_formed q0 = true -> leaf_shaped b q0 = true ->
  (forall g, In g (fields (NP f)) -> fd_fixed g = true -> dget fixed (fd_name g) = dget (dparams q0) (fd_name g)) ->
  exists est est', create_estimator_from_natural q0 = Ok est /\ create_simple_estimator (EP f) fixed = Ok est' /\
    mle_sufficient_statistics (fam_methods solve) est' (Leaf x) = mle_sufficient_statistics (fam_methods solve) est (Leaf x).
Proof. exact (t_simple_fixed solve b f q0 fixed x). Qed.
Example C67_simple_example : dcls ex_wei = NP Weibull /\ well_formed ex_wei = true /\ leaf_shaped [2]%nat ex_wei = true /\
  forall g, In g (fields (NP Weibull)) -> fd_fixed g = true -> dget [("concentration", vec [2; 5]%R [2]%nat eq_refl)] (fd_name g) = dget (dparams ex_wei) (fd_name g).
Proof. repeat (split; [reflexivity|]). intros g [<-|[<-|[]]]; [reflexivity|intros X; discriminate X]. Qed.

(** Structure.create(d).domain_support() holds exactly the simple distributions of d, each at its path with its own domain support *)
Theorem C67_domain_support d infos p : well_formed d = true -> create d = Ok infos ->
  dget (struct_domain_support infos) p = match dist_at d p with Some x => domain_support (dcls x) | None => None end.
Proof. exact (t_domain_support d infos p). Qed.
(** and it is the same for the natural and the expectation parametrization *)
Theorem C67_domain_support_dual solve b q e infos einfos : well_formed q = true -> nat_tree q = true -> shaped b q = true -> to_exp (fam_methods solve) q = Ok e ->
  create q = Ok infos -> create e = Ok einfos -> struct_domain_support einfos = struct_domain_support infos.
Proof. exact (t_domain_dual solve b q e infos einfos). Qed.
Example C67_domain_support_example : well_formed ex_joint = true /\ exists infos, create ex_joint = Ok infos /\
  keys (struct_domain_support infos) = [["x"; "n"]; ["x"; "g"]; ["m"]] /\ dget (struct_domain_support infos) ["m"] = Some (VectorS real_field) /\ dget (struct_domain_support infos) ["x"] = None.
Proof. split; [reflexivity|]. eexists. split; [reflexivity|]. split; [reflexivity|]. split; reflexivity. Qed.

(** NormalVP(mean, variance).pdf(x) and log_pdf(x) are the density of the normal distribution of that mean and that variance, and its logarithm *)
Theorem C67_normal_vp solve b i d x xv : inb b i = true -> well_formed d = true -> leaf_shaped b d = true -> vp_domain d i -> dcls d = NormalVP -> observed b i d x xv ->
  (exists t, vp_pdf (fam_methods solve) d (Leaf x) = Ok t /\ shp t = b /\ tget t i = Fin (normal_pdf (par d i "mean" []) (par d i "variance" []) (xv false []))) /\
  (exists t, vp_log_pdf (fam_methods solve) d (Leaf x) = Ok t /\ shp t = b /\ tget t i = Fin (ln (normal_pdf (par d i "mean" []) (par d i "variance" []) (xv false [])))).
Proof. exact (fun H => t_normal_vp solve b i H d x xv). Qed.
(** MultivariateDiagonalNormalVP(mean, variance).pdf(x) is the product of the densities of the components *)
Theorem C67_diagonal_vp solve b i d n x xv : inb b i = true -> well_formed d = true -> leaf_shaped b d = true -> vp_domain d i -> dcls d = MultivariateDiagonalNormalVP -> dims_of d = Ok n ->
  observed b i d x xv ->
  exists t, vp_pdf (fam_methods solve) d (Leaf x) = Ok t /\ shp t = b /\ tget t i = Fin (prodR n (fun k => normal_pdf (par d i "mean" [k]) (par d i "variance" [k]) (xv false [k]))).
Proof. exact (fun H => t_diag_vp solve b i H d n x xv). Qed.
Example C67_vp_example : inb [2]%nat [1]%nat = true /\ well_formed ex_nvp = true /\ leaf_shaped [2]%nat ex_nvp = true /\ vp_domain ex_nvp [1]%nat /\ observed [2]%nat [1]%nat ex_nvp ex_rx (scalar 2) /\
  inb [1]%nat [0]%nat = true /\ well_formed ex_dvp = true /\ leaf_shaped [1]%nat ex_dvp = true /\ vp_domain ex_dvp [0]%nat /\ dims_of ex_dvp = Ok 2%nat /\
  observed [1]%nat [0]%nat ex_dvp (vec [1; 2]%R [1; 2]%nat eq_refl) (vec2 1 2).
Proof.
  repeat (split; [first [reflexivity|exact ex_nvp_dom]|]). split; [observed_; destruct j as [|? ?]; [reflexivity|discriminate]|]. repeat (split; [first [reflexivity|exact ex_dvp_dom]|]).
  observed_. destruct j as [|[|[|j]] [|? ?]]; try discriminate; reflexivity.
Qed.
