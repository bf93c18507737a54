(** Theorems for C43, C44 and C45: category probabilities, concentration and angle, variances.
    [observed b i q x (category k)]: x is, at batch index i, the observation of category k of q (MethodSpec.v); [density], [log_density]: q.pdf(x) and
    q.log_pdf(x) (DensSpec.v); [expected f n P g v]: the integral of P * g over the sample space is v (IntSpec.v). *)
From Coquelicot Require Import Coquelicot.
From Coq Require Import String List Bool Arith Reals.
From Verif Require Import Base XReal Tensor Support Dist Iteration Structure Spec Tools Joint Fam SumSpec DotSpec PointSpec DensSpec IntSpec MethodSpec Category CategoryThms Kappa KappaThms Moment MomentThms
  IntFam IntThms Examples DensEx MatEx MethodEx.
Import ListNotations.
Local Open Scope string_scope.
Local Open Scope R_scope.

(** ** C43: nat_to_probability has one entry for each category, the last one included; they are positive, sum to one, and each is the probability
    that pdf assigns to the observation of that category *)
Theorem C43_probability solve b i f q m : categorical f -> proper b i f q -> dims_of q = Ok m ->
  exists t P, nat_to_probability q = Ok t /\ shp t = (b ++ [m + 1]%nat)%list /\ (forall k, (k <= m)%nat -> tget t (i ++ [k])%list = Fin (P k) /\ 0 < P k) /\ sumR (m + 1) P = 1 /\
    forall k x, (k <= m)%nat -> observed b i q x (category k) -> density (fam_methods solve) b i q x (P k).
Proof. exact (t_category solve b i f q m). Qed.
(** nat_to_surprisal is minus their log probability *)
Theorem C43_surprisal solve b i f q m : categorical f -> proper b i f q -> dims_of q = Ok m ->
  exists t, nat_to_surprisal q = Ok t /\ shp t = (b ++ [m + 1]%nat)%list /\ forall k, (k <= m)%nat -> exists s, tget t (i ++ [k])%list = Fin s /\ 0 <= s /\
    forall x, observed b i q x (category k) -> log_density (fam_methods solve) b i q x (- s).
Proof. exact (t_surprisal solve b i f q m). Qed.
(** the entries of nat_to_probability before the last are the expectation parameters *)
Theorem C43_to_exp solve b i f q m t : categorical f -> proper b i f q -> dims_of q = Ok m -> nat_to_probability q = Ok t ->
  exists e, to_exp (fam_methods solve) q = Ok e /\ forall k, (k < m)%nat -> tget t (i ++ [k])%list = Fin (par e i "probability" (match f with Bernoulli => [] | _ => [k] end)).
Proof. exact (t_cat_exp solve b i f q m t). Qed.
Example C43_example : categorical Multinomial /\ proper [2]%nat [1]%nat Multinomial me_multi /\ dims_of me_multi = Ok 2%nat /\
  observed [2]%nat [1]%nat me_multi (vec [1; 0; 0; 1]%R [2; 2]%nat eq_refl) (category 1) /\ observed [2]%nat [1]%nat me_multi (vec [1; 0; 0; 0]%R [2; 2]%nat eq_refl) (category 2).
Proof. split; [right; reflexivity|]. split; [exact me_multi_proper|]. split; [reflexivity|]. split; [exact me_multi_1|exact me_multi_2]. Qed.

(** ** C44: kappa is the norm of the natural parameter... *)
Theorem C44_kappa b i q m : plain b i VonMisesFisher q m ->
  exists t, kappa q = Ok t /\ shp t = b /\ tget t i = Fin (sqrt (sumR m (fun k => par q i "mean_times_concentration" [k] * par q i "mean_times_concentration" [k]))).
Proof. exact (t_kappa b i q m). Qed.
(** ... and on the circle to_kappa_angle returns the polar coordinates of the natural parameter, with the angle 0 of the zero vector... *)
Theorem C44_kappa_angle b i q : plain b i VonMisesFisher q 2 ->
  exists k a r t, to_kappa_angle q = Ok (k, a) /\ shp k = b /\ shp a = b /\ tget k i = Fin r /\ tget a i = Fin t /\ 0 <= r /\ - PI < t <= PI /\ (r = 0 -> t = 0) /\
    r * cos t = par q i "mean_times_concentration" [0%nat] /\ r * sin t = par q i "mean_times_concentration" [1%nat].
Proof. exact (t_kappa_angle b i q). Qed.
(** ... while in every other dimension it raises ValueError *)
Theorem C44_other_dimensions q m : dims_of q = Ok m -> m <> 2%nat -> to_kappa_angle q = Err ValueError.
Proof. exact (t_kappa_dims q m). Qed.
Example C44_example : plain [2]%nat [0]%nat VonMisesFisher me_vmf 2 /\ plain [2]%nat [1]%nat VonMisesFisher me_vmf 2.
Proof. split; [exact me_vmf_plain0|exact me_vmf_plain1]. Qed.

(** ** C45: variance() of q.to_exp() is the expected squared deviation from the mean under the density of q *)
Theorem C45_normal solve b i q n P : proper b i Normal q -> dims_of q = Ok n -> pdf_is (fam_methods solve) b i Normal n q P ->
  exists e t v, to_exp (fam_methods solve) q = Ok e /\ variance e = Ok t /\ shp t = b /\ tget t i = Fin v /\ expected Normal n P (fun x => x false []) (par e i "mean" []) /\
    expected Normal n P (fun x => (x false [] - par e i "mean" []) * (x false [] - par e i "mean" [])) v.
Proof. exact (t_var_normal solve b i q n P). Qed.
(** of each coordinate *)
Theorem C45_diagonal solve b i q n P : proper b i MultivariateDiagonalNormal q -> dims_of q = Ok n -> pdf_is (fam_methods solve) b i MultivariateDiagonalNormal n q P ->
  exists e t, to_exp (fam_methods solve) q = Ok e /\ variance e = Ok t /\ shp t = (b ++ [n])%list /\ forall k, (k < n)%nat -> exists v, tget t (i ++ [k])%list = Fin v /\
    expected MultivariateDiagonalNormal n P (fun x => x false [k]) (par e i "mean" [k]) /\
    expected MultivariateDiagonalNormal n P (fun x => (x false [k] - par e i "mean" [k]) * (x false [k] - par e i "mean" [k])) v.
Proof. exact (t_var_diagonal solve b i q n P). Qed.
(** the covariance matrix *)
Theorem C45_multivariate solve b i q n P : proper b i MultivariateNormal q -> dims_of q = Ok n -> pdf_is (fam_methods solve) b i MultivariateNormal n q P ->
  exists e t, to_exp (fam_methods solve) q = Ok e /\ variance e = Ok t /\ shp t = (b ++ [n; n])%list /\ forall k l, (k < n)%nat -> (l < n)%nat -> exists v, tget t (i ++ [k; l])%list = Fin v /\
    expected MultivariateNormal n P (fun x => x false [k]) (par e i "mean" [k]) /\
    expected MultivariateNormal n P (fun x => (x false [k] - par e i "mean" [k]) * (x false [l] - par e i "mean" [l])) v.
Proof. exact (t_var_mvn solve b i q n P). Qed.
(** the mean over the n coordinates *)
Theorem C45_isotropic solve b i q n P : proper b i IsotropicNormal q -> dims_of q = Ok n -> pdf_is (fam_methods solve) b i IsotropicNormal n q P ->
  exists e t v, to_exp (fam_methods solve) q = Ok e /\ variance e = Ok t /\ shp t = b /\ tget t i = Fin v /\ (forall k, (k < n)%nat -> expected IsotropicNormal n P (fun x => x false [k]) (par e i "mean" [k])) /\
    expected IsotropicNormal n P (fun x => sumR n (fun k => (x false [k] - par e i "mean" [k]) * (x false [k] - par e i "mean" [k]))) (INR n * v).
Proof. exact (t_var_isotropic solve b i q n P). Qed.
Example C45_example solve : (proper [2]%nat [1]%nat Normal me_normal /\ dims_of me_normal = Ok 1%nat /\ exists P, pdf_is (fam_methods solve) [2]%nat [1]%nat Normal 1 me_normal P) /\
  (proper [1]%nat [0]%nat MultivariateDiagonalNormal ex_diag /\ dims_of ex_diag = Ok 2%nat /\ exists P, pdf_is (fam_methods solve) [1]%nat [0]%nat MultivariateDiagonalNormal 2 ex_diag P) /\
  (proper [1]%nat [0]%nat IsotropicNormal ex_iso /\ dims_of ex_iso = Ok 2%nat /\ exists P, pdf_is (fam_methods solve) [1]%nat [0]%nat IsotropicNormal 2 ex_iso P) /\
  (proper [2]%nat [1]%nat MultivariateNormal ex_mvn /\ dims_of ex_mvn = Ok 2%nat /\ exists P, pdf_is (fam_methods solve) [2]%nat [1]%nat MultivariateNormal 2 ex_mvn P).
Proof.
  assert (A : proper [2]%nat [1]%nat MultivariateNormal ex_mvn) by (do 4 (split; [reflexivity|]); exact (ex_mat_dom _ _ (or_intror (or_introl eq_refl)))).
  split; [|split; [|split]].
  - split; [exact me_normal_proper|]. split; [reflexivity|]. eexists. exact (pdf_dens solve _ _ _ _ _ me_normal_proper eq_refl).
  - split; [exact ex_diag_proper|]. split; [reflexivity|]. eexists. exact (pdf_dens solve _ _ _ _ _ ex_diag_proper eq_refl).
  - split; [exact ex_iso_proper|]. split; [reflexivity|]. eexists. exact (pdf_dens solve _ _ _ _ _ ex_iso_proper eq_refl).
  - split; [exact A|]. split; [reflexivity|]. eexists. exact (pdf_dens solve _ _ _ _ _ A eq_refl).
Qed.
