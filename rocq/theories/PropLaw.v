(** C49: samples follow the density of their distribution.  [draw_mean k n s A g v]: over the draws that jax.random documents for its function k with arguments
    A, the expected value of g is v; [follows ... q P]: sample of q maps one such draw to a sample, and every expected value under the density P is the
    expected value of the samples (LawSpec.v). *)
From Coquelicot Require Import Coquelicot.
From Coq Require Import String List Bool Arith Reals Lra Lia.
From Verif Require Import Base XReal Tensor Support Dist Iteration Structure Spec Joint SpecFun Expr Fam SumSpec DotSpec PointSpec Examples ConvEx VarSpec VarEx DensSpec IntSpec
  Var Sample SampleSpec SampleShape SampleThms SampleTop SampleEx MatEx LawSpec LawThms Law3 Law4.
Import ListNotations.
Local Open Scope string_scope.
Local Open Scope R_scope.

(** every distribution that can be sampled has natural parameters m and a density P *)
Theorem C49_density solve b i f q : samplable_at (fam_methods solve) b i f q ->
  exists m n P, natural_of (fam_methods solve) q m /\ dims_of q = Ok n /\ pdf_is (fam_methods solve) b i f n m P.
Proof. exact (density_exists (fun k : nat => (k, k)) solve b i f q). Qed.

(** Samples follow the density of the distribution, for all families but four, which are refuted below, and NegativeBinomial, whose sampler draws twice *)
Theorem C49_samples_follow_partial {K} (split2 : K -> K * K) solve b i f q m n P :
  samplable_at (fam_methods solve) b i f q -> sampler_misses f = false -> f <> NegativeBinomial ->
  natural_of (fam_methods solve) q m -> dims_of q = Ok n -> pdf_is (fam_methods solve) b i f n m P -> follows split2 (fam_methods solve) b i f n q P.
Proof. intros S Mi Nb. exact (samples_follow split2 solve b i f q m n P S Mi (not_two solve b i f q S Nb)). Qed.
Theorem C49_negative_binomial {K} (split2 : K -> K * K) solve b i q m n P :
  samplable_at (fam_methods solve) b i NegativeBinomial q -> natural_of (fam_methods solve) q m -> dims_of q = Ok n ->
  pdf_is (fam_methods solve) b i NegativeBinomial n m P -> follows_two split2 (fam_methods solve) b i q P.
Proof. exact (nb_follows split2 solve b i q m n P). Qed.
Example C49_example : samplable_at (fam_methods ex_solve) [2]%nat [1]%nat Gamma ex_sgamma /\ samplable_at (fam_methods ex_solve) [2]%nat [1]%nat Normal ex_nvp /\
  samplable_at (fam_methods ex_solve) [2]%nat [1]%nat ComplexCircularlySymmetricNormal ex_ccs /\ samplable_at (fam_methods ex_solve) [2]%nat [1]%nat NegativeBinomial ex_snb /\
  sampler_misses Gamma = false /\ sampler_misses Normal = false /\ sampler_misses ComplexCircularlySymmetricNormal = false.
Proof.
  split; [exact ex_sgamma_at|]. split; [exact ex_snvp_at|]. split; [|split; [exact ex_snb_at|repeat split]].
  do 5 (split; [reflexivity|]). split; [|discriminate]. exact (ex_mat_dom _ _ (or_introl eq_refl)).
Qed.

(** Samples of a Multinomial follow its density given that the last category, whose observation is the zero vector, is not drawn *)
Theorem C49_multinomial_conditional {K} (split2 : K -> K * K) solve b i q m n P :
  samplable_at (fam_methods solve) b i Multinomial q -> natural_of (fam_methods solve) q m -> dims_of q = Ok n ->
  pdf_is (fam_methods solve) b i Multinomial n m P -> follows split2 (fam_methods solve) b i Multinomial n q (not_last n P).
Proof. exact (multi_follows split2 solve b i q m n P). Qed.
Theorem C49_multinomial_refuted {K} (split2 : K -> K * K) solve b i q m n P :
  samplable_at (fam_methods solve) b i Multinomial q -> natural_of (fam_methods solve) q m -> dims_of q = Ok n ->
  pdf_is (fam_methods solve) b i Multinomial n m P -> departs split2 (fam_methods solve) b i Multinomial n q P.
Proof. exact (multi_departs split2 solve b i q m n P). Qed.
(** Samples of a Geometric distribution with mean at least 1 (probability of 0 at most 1/2) follow the geometric distribution on 1, 2, ... of the same mean, not
    the one on 0, 1, ... whose density pdf is *)
Theorem C49_geometric_from_one {K} (split2 : K -> K * K) solve b i q m n P :
  samplable_at (fam_methods solve) b i Geometric q -> natural_of (fam_methods solve) q m -> dims_of q = Ok n ->
  pdf_is (fam_methods solve) b i Geometric n m P -> P (scalar_obs 0) <= 1 / 2 -> follows split2 (fam_methods solve) b i Geometric n q (from_one P).
Proof. exact (geometric_follows split2 solve b i q m n P). Qed.
Theorem C49_geometric_refuted {K} (split2 : K -> K * K) solve b i q m n P :
  samplable_at (fam_methods solve) b i Geometric q -> natural_of (fam_methods solve) q m -> dims_of q = Ok n ->
  pdf_is (fam_methods solve) b i Geometric n m P -> departs split2 (fam_methods solve) b i Geometric n q P.
Proof. exact (geometric_departs split2 solve b i q m n P). Qed.
(** Samples of a complex unit normal do not follow its density: the real and the imaginary part use the same key *)
Theorem C49_complex_unit_refuted {K} (split2 : K -> K * K) solve b i f q m n P :
  f = ComplexUnitNormal \/ f = ComplexMultivariateUnitNormal /\ (1 <= n)%nat ->
  samplable_at (fam_methods solve) b i f q -> natural_of (fam_methods solve) q m -> dims_of q = Ok n ->
  pdf_is (fam_methods solve) b i f n m P -> departs split2 (fam_methods solve) b i f n q P.
Proof. exact (complex_departs split2 solve b i f q m n P). Qed.
Example C49_refutations_example : samplable_at (fam_methods ex_solve) [1]%nat [0]%nat Multinomial ex_smul /\ samplable_at (fam_methods ex_solve) [1]%nat [0]%nat ComplexUnitNormal ex_scun /\
  samplable_at (fam_methods ex_solve) [2]%nat [0]%nat Geometric ex_sgeo.
Proof. split; [exact ex_smul_at|]. split; [exact ex_scun_at|]. apply ex_sgeo_at; auto. Qed.
Example C49_geometric_example : exists m n P, natural_of (fam_methods ex_solve) ex_sgeo m /\ dims_of ex_sgeo = Ok n /\ pdf_is (fam_methods ex_solve) [2]%nat [0]%nat Geometric n m P /\ P (scalar_obs 0) <= 1 / 2.
Proof.
  destruct (geo_density ex_solve [2]%nat [0]%nat ex_sgeo (ex_sgeo_at _ (or_introl eq_refl)) eq_refl) as (m & n & P & H1 & H2 & H3 & H4). exists m, n, P. do 3 (split; [assumption|]). rewrite H4. cbn. lra.
Qed.
