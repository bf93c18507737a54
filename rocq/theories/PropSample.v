(** C32: samples are in the sample space, which values can be sampled, and the shape of a sample. *)
From Coquelicot Require Import Coquelicot.
From Coq Require Import String List Bool Arith Reals Lra Lia.
From Verif Require Import Base XReal Tensor Support Dist Iteration Structure Spec Joint SpecFun Expr Fam SumSpec DotSpec PointSpec Examples VarSpec VarEx DensSpec
  Sample SampleSpec SampleShape SampleThms SampleTop SampleEx MatEx.
Import ListNotations.
Local Open Scope string_scope.
Local Open Scope list_scope.
Local Open Scope R_scope.

(** q.sample(key, shape) of every class that can be sampled succeeds, and its shape is the requested shape, then the batch shape, then the shape of
    one observation, for every generator and every key, whatever the values of the parameters *)
Theorem C32_shape {K} (split2 : K -> K * K) draw solve b q n key sh :
  is_samplable (dcls q) = true -> well_formed q = true -> leaf_shaped b q = true -> dims_of q = Ok n ->
  exists x s, sample split2 draw (fam_methods solve) q key sh = Ok x /\ domain_support (dcls q) = Some s /\ ashape x = requested sh ++ b ++ supp_shape s n.
Proof. exact (sample_shape_top split2 solve draw b q n key sh). Qed.
Example C32_shape_example : is_samplable (dcls ex_sgamma) = true /\ well_formed ex_sgamma = true /\ leaf_shaped [2]%nat ex_sgamma = true /\ dims_of ex_sgamma = Ok 1%nat /\
  is_samplable (dcls ex_mep) = true /\ well_formed ex_mep = true /\ leaf_shaped [] ex_mep = true /\ dims_of ex_mep = Ok 2%nat.
Proof. repeat split. Qed.

(** Every sample is a point of the sample space of its distribution: for every generator whose draws are those jax.random documents, every key and every requested
    shape, the sample at each index of the requested shape and each batch index where the parameters are in the domain is finite and in the sample space.
    Geometric needs a mean of at least 1: see the refutation below *)
Theorem C32_in_sample_space {K} (split2 : K -> K * K) draw solve b i f q key sh :
  lawful draw -> samplable_at (fam_methods solve) b i f q ->
  (f = Geometric -> forall e, exp_form (fam_methods solve) q e -> 1 <= point_of e i false "mean" []) ->
  exists x n, sample split2 draw (fam_methods solve) q key sh = Ok x /\ dims_of q = Ok n /\
    forall j, inb (requested sh) j = true -> exists xv, sampled_row q j i x xv /\ sample_space f n xv.
Proof. exact (sample_domain split2 solve draw b i f q key sh). Qed.
Example C32_in_sample_space_example : lawful (@oracle nat (fun _ => 1) 3) /\ samplable_at (fam_methods ex_solve) [2]%nat [1]%nat Gamma ex_sgamma /\ samplable_at (fam_methods ex_solve) [2]%nat [1]%nat Normal ex_nvp /\
  samplable_at (fam_methods ex_solve) [2]%nat [1]%nat NegativeBinomial ex_snb /\ samplable_at (fam_methods ex_solve) [2]%nat [0]%nat Geometric ex_sgeo /\
  (forall e, exp_form (fam_methods ex_solve) ex_sgeo e -> 1 <= point_of e [0]%nat false "mean" []).
Proof. split; [apply oracle_lawful|]. split; [exact ex_sgamma_at|]. split; [exact ex_snvp_at|]. split; [exact ex_snb_at|]. split; [apply ex_sgeo_at; auto|]. intros e He. cbn in He. subst e. cbn. lra. Qed.
Example C32_matrix_example : samplable_at (fam_methods ex_solve) [2]%nat [1]%nat ComplexCircularlySymmetricNormal ex_ccs.
Proof. do 5 (split; [reflexivity|]). split; [|discriminate]. exact (ex_mat_dom _ _ (or_introl eq_refl)). Qed.

(** Every point of the sample space can be sampled, for all families but four, which are refuted below *)
Theorem C32_reachable_partial {K} (split2 : K -> K * K) solve b i f q key sh j n xv :
  samplable_at (fam_methods solve) b i f q -> sampler_misses f = false -> dims_of q = Ok n ->
  sample_space f n xv -> real_obs (dcls q) n xv -> inb (requested sh) j = true -> can_sample (K := K) split2 (fam_methods solve) q key sh j i xv.
Proof. exact (sample_reach split2 solve b i f q key sh j n xv). Qed.
Example C32_reachable_example : samplable_at (fam_methods ex_solve) [2]%nat [1]%nat Gamma ex_sgamma /\ sampler_misses Gamma = false /\ dims_of ex_sgamma = Ok 1%nat /\
  sample_space Gamma 1 (fun c _ => if c then 0 else 5) /\ real_obs (NP Gamma) 1 (fun c _ => if c then 0 else 5) /\ inb (requested (Some [3]%nat)) [2]%nat = true.
Proof. split; [exact ex_sgamma_at|]. split; [reflexivity|]. split; [reflexivity|]. split; [cbn; lra|]. split; [|reflexivity]. intros s _ _ e _. reflexivity. Qed.

(** A Multinomial distribution never samples its last category, whose observation is the zero vector: exactly the one-hot vectors can be sampled *)
Theorem C32_multinomial_samples {K} (split2 : K -> K * K) solve b i q key sh j n xv :
  samplable_at (fam_methods solve) b i Multinomial q -> dims_of q = Ok n -> inb (requested sh) j = true -> real_obs (dcls q) n xv ->
  (can_sample (K := K) split2 (fam_methods solve) q key sh j i xv <-> sample_space Multinomial n xv /\ sumR n (fun k => xv false [k]) = 1).
Proof. exact (multinomial_samples split2 solve b i q key sh j n xv). Qed.
Theorem C32_multinomial_reachable_refuted : exists q n xv, samplable_at (fam_methods ex_solve) [1]%nat [0]%nat Multinomial q /\ dims_of q = Ok n /\ sample_space Multinomial n xv /\ real_obs (dcls q) n xv /\
  forall key sh j, inb (requested sh) j = true -> ~ can_sample ex_split (fam_methods ex_solve) q key sh j [0]%nat xv.
Proof. exact multinomial_missed. Qed.

(** A Geometric distribution with mean above 1 samples exactly 1, 2, ...: never 0, which its sample space contains *)
Theorem C32_geometric_samples {K} (split2 : K -> K * K) solve b i q key sh j n xv :
  samplable_at (fam_methods solve) b i Geometric q -> dims_of q = Ok n -> inb (requested sh) j = true -> real_obs (dcls q) n xv ->
  (forall e, exp_form (fam_methods solve) q e -> 1 < point_of e i false "mean" []) ->
  (can_sample (K := K) split2 (fam_methods solve) q key sh j i xv <-> exists k, xv false [] = INR (S k)).
Proof. exact (geometric_samples split2 solve b i q key sh j n xv). Qed.
Theorem C32_geometric_reachable_refuted : exists q n xv, samplable_at (fam_methods ex_solve) [2]%nat [0]%nat Geometric q /\ dims_of q = Ok n /\ sample_space Geometric n xv /\ real_obs (dcls q) n xv /\
  forall key sh j, inb (requested sh) j = true -> ~ can_sample ex_split (fam_methods ex_solve) q key sh j [0]%nat xv.
Proof. exact geometric_missed. Qed.
(** A Geometric distribution with mean below 1 samples NaN *)
Theorem C32_geometric_nan {K} (split2 : K -> K * K) draw solve b i q key sh j :
  lawful draw -> samplable_at (fam_methods solve) b i Geometric q -> inb (requested sh) j = true ->
  (forall e, exp_form (fam_methods solve) q e -> point_of e i false "mean" [] < 1) ->
  exists x, sample split2 draw (fam_methods solve) q key sh = Ok x /\ entry_c x (j ++ i) = XC NaN (Fin 0).
Proof. exact (geometric_nan split2 solve draw b i q key sh j). Qed.
Theorem C32_in_sample_space_refuted : exists draw q x, lawful draw /\ samplable_at (fam_methods ex_solve) [2]%nat [1]%nat Geometric q /\
  sample ex_split draw (fam_methods ex_solve) q 0%nat None = Ok x /\ entry_c x [1]%nat = XC NaN (Fin 0).
Proof. exact geometric_outside. Qed.

(** Every sample of a complex unit normal has the same difference between its imaginary and real parts, because both use the same key *)
Theorem C32_complex_unit_samples {K} (split2 : K -> K * K) solve b i f q n :
  samplable_at (fam_methods solve) b i f q -> f = ComplexUnitNormal \/ f = ComplexMultivariateUnitNormal -> dims_of q = Ok n ->
  exists d, forall key sh j xv s e, inb (requested sh) j = true -> can_sample (K := K) split2 (fam_methods solve) q key sh j i xv ->
    domain_support (dcls q) = Some s -> inb (supp_shape s n) e = true -> xv true e - xv false e = d e.
Proof. exact (complex_unit_fixed split2 solve b i f q n). Qed.
Theorem C32_complex_unit_reachable_refuted {K} (split2 : K -> K * K) solve b i f q n :
  samplable_at (fam_methods solve) b i f q -> f = ComplexUnitNormal \/ f = ComplexMultivariateUnitNormal -> dims_of q = Ok n -> (1 <= n)%nat ->
  exists xv, sample_space f n xv /\ forall key sh j, inb (requested sh) j = true -> ~ can_sample (K := K) split2 (fam_methods solve) q key sh j i xv.
Proof. exact (complex_unit_missed split2 solve b i f q n). Qed.
Example C32_refutations_example : samplable_at (fam_methods ex_solve) [1]%nat [0]%nat Multinomial ex_smul /\ samplable_at (fam_methods ex_solve) [1]%nat [0]%nat ComplexUnitNormal ex_scun /\
  samplable_at (fam_methods ex_solve) [2]%nat [0]%nat Geometric ex_sgeo /\ samplable_at (fam_methods ex_solve) [2]%nat [1]%nat Geometric ex_sgeo.
Proof. split; [exact ex_smul_at|]. split; [exact ex_scun_at|]. split; apply ex_sgeo_at; auto. Qed.
