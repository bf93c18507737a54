(** C36: the variance parametrizations agree with the natural and expectation ones. *)
From Coquelicot Require Import Coquelicot.
From Coq Require Import String List Bool Arith Reals Lra Lia.
From Verif Require Import Base XReal Tensor Support Dist Iteration Structure Spec Joint SpecFun Expr Fam SumSpec DotSpec PointSpec Examples ConvEx Var VarSpec VarThms VarEx Refute1 SupportSpec FlattenSpec RootSpec RootEx InjThms.
Import ListNotations.
Local Open Scope string_scope.
Local Open Scope list_scope.
Local Open Scope nat_scope.

(** d.to_exp().to_nat() == d.to_nat() and d.to_nat().to_exp() == d.to_exp(), for NormalVP and MultivariateDiagonalNormalVP
    (GammaVP is below; MultivariateNormalVP has no to_nat) *)
Theorem C36_to_exp_to_nat solve b i d : inb b i = true -> well_formed d = true -> leaf_shaped b d = true -> vp_domain d i ->
  dcls d = NormalVP \/ dcls d = MultivariateDiagonalNormalVP ->
  exists e q q' e', vp_to_exp d = Ok e /\ vp_to_nat d = Ok q /\ in_domain e i /\ in_domain q i /\
    to_nat (fam_methods solve) e = Ok q' /\ same_params_at b i q q' /\ to_exp (fam_methods solve) q = Ok e' /\ same_params_at b i e e'.
Proof. exact (fun H => vp_nat_exp solve b i H d). Qed.
Example C36_to_exp_to_nat_example : inb [2] [1] = true /\ well_formed ex_nvp = true /\ leaf_shaped [2] ex_nvp = true /\ vp_domain ex_nvp [1] /\
  inb [1] [0] = true /\ well_formed ex_dvp = true /\ leaf_shaped [1] ex_dvp = true /\ vp_domain ex_dvp [0].
Proof. repeat (split; [first [reflexivity|exact ex_nvp_dom]|]). exact ex_dvp_dom. Qed.

(** d.to_exp().to_var() == d (to_variance_parametrization for the multivariate classes) *)
Theorem C36_to_exp_to_var b i d : inb b i = true -> well_formed d = true -> leaf_shaped b d = true -> vp_domain d i ->
  dcls d = NormalVP \/ dcls d = MultivariateDiagonalNormalVP \/ dcls d = MultivariateNormalVP ->
  exists e r, vp_to_exp d = Ok e /\ in_domain e i /\ ep_to_var e = Ok r /\ same_params_at b i d r.
Proof. exact (fun H => vp_exp_var b i H d). Qed.
(** e.to_var().to_exp() == e *)
Theorem C36_to_var_to_exp b i e : inb b i = true -> well_formed e = true -> leaf_shaped b e = true -> in_domain e i ->
  dcls e = EP Normal \/ dcls e = EP MultivariateDiagonalNormal \/ dcls e = EP MultivariateNormal ->
  exists v r, ep_to_var e = Ok v /\ vp_domain v i /\ vp_to_exp v = Ok r /\ same_params_at b i e r.
Proof. exact (fun H => ep_var_exp b i H e). Qed.
Example C36_to_var_example : inb [] [] = true /\ well_formed ex_mvp = true /\ leaf_shaped [] ex_mvp = true /\ vp_domain ex_mvp [] /\
  well_formed ex_mep = true /\ leaf_shaped [] ex_mep = true /\ in_domain ex_mep [].
Proof. repeat (split; [first [reflexivity|exact ex_mvp_dom]|]). exact ex_mep_dom. Qed.

(** GammaVP: d.to_nat().to_var() == d, d.to_exp() == d.to_nat().to_exp(), and to_exp keeps the mean *)
Theorem C36_gamma solve b i d : inb b i = true -> well_formed d = true -> leaf_shaped b d = true -> vp_domain d i -> dcls d = GammaVP ->
  exists q r e, vp_to_nat d = Ok q /\ in_domain q i /\ np_to_var q = Ok r /\ same_params_at b i d r /\ vp_to_exp d = Ok e /\ in_domain e i /\ to_exp (fam_methods solve) q = Ok e /\
    point_of e i false "mean" [] = point_of d i false "mean" [].
Proof. exact (fun H => gamma_var_nat solve b i H d). Qed.
(** d.to_exp().to_nat() == d.to_nat() for an unbatched GammaVP (C27 extends it to batches) whenever the search of GammaEP.to_nat returns a root *)
Theorem C36_gamma_to_exp_to_nat solve d e : well_formed d = true -> leaf_shaped [] d = true -> vp_domain d [] -> dcls d = GammaVP ->
  vp_to_exp d = Ok e -> dist_vals true [] e -> root_found solve Gamma e ->
  exists q q', vp_to_nat d = Ok q /\ to_nat (fam_methods solve) e = Ok q' /\ same_params_at [] [] q q'.
Proof. exact (t_gamma_vp solve d e). Qed.
Example C36_gamma_search_example : exists e, well_formed ex_gvp0 = true /\ leaf_shaped [] ex_gvp0 = true /\ vp_domain ex_gvp0 [] /\ vp_to_exp ex_gvp0 = Ok e /\ dist_vals true [] e /\ root_found solve0 Gamma e.
Proof. destruct ex_gvp0_root as (e & E). exists e. do 2 (split; [reflexivity|]). split; [exact ex_gvp0_dom|exact E]. Qed.
(** NormalNP and GammaNP: q.to_var().to_nat() == q *)
Theorem C36_to_var_to_nat b i q : inb b i = true -> well_formed q = true -> leaf_shaped b q = true -> in_domain q i -> dcls q = NP Normal \/ dcls q = NP Gamma ->
  exists v r, np_to_var q = Ok v /\ vp_domain v i /\ vp_to_nat v = Ok r /\ same_params_at b i q r.
Proof. exact (fun H => np_var_nat (fun _ _ _ => Fin 0) b i H q). Qed.
Example C36_gamma_example : inb [2] [1] = true /\ well_formed ex_gvp = true /\ leaf_shaped [2] ex_gvp = true /\ vp_domain ex_gvp [1] /\
  well_formed ex_normal = true /\ leaf_shaped [2] ex_normal = true /\ in_domain ex_normal [1].
Proof. repeat (split; [first [reflexivity|exact ex_gvp_dom]|]). apply (ex_closed_dom ["x"; "n"]). now left. Qed.

(** shape is the batch shape *)
Theorem C36_shape b d : well_formed d = true -> leaf_shaped b d = true -> In (dcls d) [NormalVP; MultivariateDiagonalNormalVP; MultivariateNormalVP] -> dshape d = Ok b.
Proof. exact (vp_shape b d). Qed.
(** the shape of a GammaVP drops the last batch axis *)
Theorem C36_shape_refuted : exists d, well_formed d = true /\ shaped [2] d = true /\ dcls d = GammaVP /\ dshape d = Ok [].
Proof. exists ex_gvp. repeat split; reflexivity. Qed.
