(** C50: the parameters of a variance parametrization are the mean and the variance of its distribution.  [natural_of L d m]: m is d in natural parameters
    (LawSpec.v); [pdf_is L b i f n m P]: P is m.pdf; [expected f n P g v]: the integral of P * g over the sample space is v (IntSpec.v). *)
From Coquelicot Require Import Coquelicot.
From Coq Require Import String List Bool Arith Reals Lra Lia.
From Verif Require Import Base XReal Tensor Support Dist Iteration Structure Spec Joint SpecFun Expr Fam SumSpec DotSpec PointSpec Examples ConvEx VarSpec VarEx DensSpec IntSpec
  Var Sample SampleSpec SampleEx LawSpec LawThms Law4 VarMean.
Import ListNotations.
Local Open Scope string_scope.
Local Open Scope R_scope.

Theorem C50_normal solve b i d m n P : dcls d = NormalVP -> well_formed d = true -> leaf_shaped b d = true -> inb b i = true -> vp_domain d i ->
  natural_of (fam_methods solve) d m -> dims_of d = Ok n -> pdf_is (fam_methods solve) b i Normal n m P ->
  expected Normal n P (fun x => x false []) (par d i "mean" []) /\
  expected Normal n P (fun x => (x false [] - par d i "mean" []) * (x false [] - par d i "mean" [])) (par d i "variance" []).
Proof. intros C W S I V N D HP. exact (t_vp_normal solve b i d m n P C (conj W (conj S (conj I (conj V (conj N (conj D HP))))))). Qed.
Theorem C50_gamma solve b i d m n P : dcls d = GammaVP -> well_formed d = true -> leaf_shaped b d = true -> inb b i = true -> vp_domain d i ->
  natural_of (fam_methods solve) d m -> dims_of d = Ok n -> pdf_is (fam_methods solve) b i Gamma n m P ->
  expected Gamma n P (fun x => x false []) (par d i "mean" []) /\
  expected Gamma n P (fun x => (x false [] - par d i "mean" []) * (x false [] - par d i "mean" [])) (par d i "variance" []).
Proof. intros C W S I V N D HP. exact (t_vp_gamma solve b i d m n P C (conj W (conj S (conj I (conj V (conj N (conj D HP))))))). Qed.
(** each coordinate *)
Theorem C50_diagonal solve b i d m n P : dcls d = MultivariateDiagonalNormalVP -> well_formed d = true -> leaf_shaped b d = true -> inb b i = true -> vp_domain d i ->
  natural_of (fam_methods solve) d m -> dims_of d = Ok n -> pdf_is (fam_methods solve) b i MultivariateDiagonalNormal n m P -> forall k, (k < n)%nat ->
  expected MultivariateDiagonalNormal n P (fun x => x false [k]) (par d i "mean" [k]) /\
  expected MultivariateDiagonalNormal n P (fun x => (x false [k] - par d i "mean" [k]) * (x false [k] - par d i "mean" [k])) (par d i "variance" [k]).
Proof. intros C W S I V N D HP. exact (t_vp_diagonal solve b i d m n P C (conj W (conj S (conj I (conj V (conj N (conj D HP))))))). Qed.
(** each entry of the covariance matrix *)
Theorem C50_multivariate solve b i d m n P : dcls d = MultivariateNormalVP -> well_formed d = true -> leaf_shaped b d = true -> inb b i = true -> vp_domain d i ->
  natural_of (fam_methods solve) d m -> dims_of d = Ok n -> pdf_is (fam_methods solve) b i MultivariateNormal n m P -> forall k l, (k < n)%nat -> (l < n)%nat ->
  expected MultivariateNormal n P (fun x => x false [k]) (par d i "mean" [k]) /\
  expected MultivariateNormal n P (fun x => (x false [k] - par d i "mean" [k]) * (x false [l] - par d i "mean" [l])) (par d i "variance" [k; l]).
Proof. intros C W S I V N D HP. exact (t_vp_mvn solve b i d m n P C (conj W (conj S (conj I (conj V (conj N (conj D HP))))))). Qed.
(** by C49_density the natural parameters m and the density P of these exist *)
Example C50_example solve : samplable_at (fam_methods solve) [2]%nat [1]%nat Normal ex_nvp /\ samplable_at (fam_methods solve) [2]%nat [1]%nat Gamma ex_gvp /\
  samplable_at (fam_methods solve) [1]%nat [0]%nat MultivariateDiagonalNormal ex_dvp /\ samplable_at (fam_methods solve) [] [] MultivariateNormal ex_mvp.
Proof.
  split; [do 5 (split; [reflexivity|]); split; [exact ex_nvp_dom|discriminate]|]. split; [do 5 (split; [reflexivity|]); split; [exact ex_gvp_dom|discriminate]|].
  split; [do 5 (split; [reflexivity|]); split; [exact ex_dvp_dom|discriminate]|]. do 5 (split; [reflexivity|]); split; [exact ex_mvp_dom|discriminate].
Qed.
