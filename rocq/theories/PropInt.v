(** Theorems for C23, C24 and C25: sums and integrals of densities over the sample space.  [integral_over f n F v]: the sum, improper integral
    or iterated improper integral of F over the sample space of family f exists and is v; [expected f n P g v]: the same for P(x) * g(x)
    (IntSpec.v). *)
From Coquelicot Require Import Coquelicot.
From Coq Require Import String List Bool Arith Reals Lra Lia.
From Verif Require Import Base XReal Tensor Support Dist Iteration Structure Spec Joint SpecFun Expr Fam SumSpec DotSpec PointSpec Examples ConvEx DensSpec DensEx RootEx IntSpec IntThms IntEx MatEx JointIntSpec JointInt.
Import ListNotations.
Local Open Scope string_scope.
Local Open Scope R_scope.

(** q.pdf is defined on the whole sample space, positive there, and sums (integrates) to one *)
Theorem C23_normalised solve b i f q n : proper b i f q -> dims_of q = Ok n ->
  (exists P, pdf_is (fam_methods solve) b i f n q P) /\ forall P, pdf_is (fam_methods solve) b i f n q P -> integral_over f n P 1.
Proof. exact (normalised solve b i f q n). Qed.
Theorem C23_positive solve b i f q n P x xv : proper b i f q -> dims_of q = Ok n -> pdf_is (fam_methods solve) b i f n q P ->
  observed b i q x xv -> sample_space f n xv -> 0 < P xv.
Proof. exact (pdf_positive solve b i f q n P x xv). Qed.
Example C23_example : (proper [2]%nat [1]%nat Gamma ex_gam /\ dims_of ex_gam = Ok 1%nat) /\
  (proper [] [] Dirichlet ex_dir3 /\ dims_of ex_dir3 = Ok 3%nat) /\
  (proper [1]%nat [0]%nat IsotropicNormal ex_iso /\ dims_of ex_iso = Ok 2%nat /\ observed [1]%nat [0]%nat ex_iso ex_ix (vec2 5 6)) /\
  (proper [2]%nat [1]%nat Logarithmic ex_log2 /\ dims_of ex_log2 = Ok 1%nat).
Proof.
  split; [split; [exact ex_gam_proper|reflexivity]|]. split; [split; [exact ex_dir3_proper|reflexivity]|].
  split; [|split; [exact ex_log2_proper|reflexivity]]. split; [exact ex_iso_proper|]. split; [reflexivity|exact ex_iso_obs].
Qed.
Example C23_matrix_example : (proper [2]%nat [1]%nat ComplexCircularlySymmetricNormal ex_ccs /\ dims_of ex_ccs = Ok 2%nat) /\
  (proper [2]%nat [1]%nat MultivariateNormal ex_mvn /\ dims_of ex_mvn = Ok 2%nat).
Proof.
  split; (split; [do 4 (split; [reflexivity|])|reflexivity]); [exact (ex_mat_dom _ _ (or_introl eq_refl))|exact (ex_mat_dom _ _ (or_intror (or_introl eq_refl)))].
Qed.
Example C23_sphere_example : proper [2]%nat [1]%nat VonMisesFisher ex_vmf /\ dims_of ex_vmf = Ok 3%nat.
Proof. split; [exact ex_vmf_proper|reflexivity]. Qed.

(** every entry of every parameter of q.to_exp() is the expected value of the same entry of the sufficient statistics *)
Theorem C25_expected_statistics solve b i f q n : proper b i f q -> dims_of q = Ok n -> not_clipped q i ->
  exists e, to_exp (fam_methods solve) q = Ok e /\
    forall P g c j, pdf_is (fam_methods solve) b i f n q P -> In g (fields (EP f)) -> inb (supp_shape (fd_support g) n) j = true ->
      (exists T, statistic_is (fam_methods solve) b i f n q c (fd_name g) j T) /\
      forall T, statistic_is (fam_methods solve) b i f n q c (fd_name g) j T -> exists v, value_at e i c (fd_name g) j v /\ expected f n P T v.
Proof. exact (mean_statistics solve b i f q n). Qed.
Example C25_example : (proper [] [] Dirichlet ex_dir3 /\ dims_of ex_dir3 = Ok 3%nat /\ not_clipped ex_dir3 [] /\
    exists g, In g (fields (EP Dirichlet)) /\ fd_name g = "mean_log_probability" /\ inb (supp_shape (fd_support g) 3) [2]%nat = true) /\
  (proper [2]%nat [1]%nat Logarithmic ex_log2 /\ dims_of ex_log2 = Ok 1%nat /\ not_clipped ex_log2 [1]%nat).
Proof.
  split; [split; [exact ex_dir3_proper|]|split; [exact ex_log2_proper|split; [reflexivity|exact ex_log2_clip]]]. split; [reflexivity|]. split; [eapply clip_other; [reflexivity|discriminate]|].
  eexists. split; [left; reflexivity|]. split; reflexivity.
Qed.
(** the off-diagonal entries of the covariance of a complex normal vector, real and imaginary part *)
Example C25_matrix_example : proper [2]%nat [1]%nat ComplexCircularlySymmetricNormal ex_ccs /\ dims_of ex_ccs = Ok 2%nat /\ not_clipped ex_ccs [1]%nat /\
  exists g, In g (fields (EP ComplexCircularlySymmetricNormal)) /\ fd_name g = "variance" /\ inb (supp_shape (fd_support g) 2) [0; 1]%nat = true.
Proof.
  split; [do 4 (split; [reflexivity|]); exact (ex_mat_dom _ _ (or_introl eq_refl))|]. split; [reflexivity|]. split; [eapply clip_other; [reflexivity|discriminate]|]. eexists. split; [left; reflexivity|]. split; reflexivity.
Qed.
(** Without [not_clipped] it is false: for a logarithmic distribution with log_probability in (-1e-7, 0) the expected statistic is finite, and
    to_exp() returns +inf *)
Theorem C25_expected_statistics_refuted : exists q, proper [1]%nat [0]%nat Logarithmic q /\ dims_of q = Ok 1%nat /\ forall solve, exists e P T v,
  to_exp (fam_methods solve) q = Ok e /\ pdf_is (fam_methods solve) [1]%nat [0]%nat Logarithmic 1 q P /\
  statistic_is (fam_methods solve) [1]%nat [0]%nat Logarithmic 1 q false "chi" [] T /\ expected Logarithmic 1 P T v /\ ~ value_at e [0]%nat false "chi" [] v.
Proof. exact clipped_mean. Qed.

(** q.entropy() is minus the expected log_pdf, and q.to_exp().expected_carrier_measure() is the expected carrier measure.  Chi and ChiSquare
    compute the latter from to_nat(), a numerical search: for them the search has to recover q *)
Theorem C24_entropy solve b i f q n : proper b i f q -> dims_of q = Ok n -> has_entropy_ep (EP f) = true ->
  (carrier_by_search f = true -> recovered (fam_methods solve) b i q) ->
  exists e t t' h h', to_exp (fam_methods solve) q = Ok e /\ entropy_nat (fam_methods solve) q = Ok t /\ shp t = b /\ tget t i = Fin h /\
    expected_carrier_measure (fam_methods solve) e = Ok t' /\ shp t' = b /\ tget t' i = Fin h' /\
    (exists l, log_pdf_is (fam_methods solve) b i f n q l) /\ (exists M, carrier_is (fam_methods solve) b i f n q M) /\
    forall P, pdf_is (fam_methods solve) b i f n q P ->
      (forall l, log_pdf_is (fam_methods solve) b i f n q l -> expected f n P (fun x => - l x) h) /\
      (forall M, carrier_is (fam_methods solve) b i f n q M -> expected f n P M h').
Proof. exact (entropies solve b i f q n). Qed.
(** the same for the entropy of the expectation parameters, which converts them to natural parameters first *)
Theorem C24_entropy_exp solve b i f q n : proper b i f q -> dims_of q = Ok n -> has_entropy_ep (EP f) = true ->
  (closed_form f = false -> recovered (fam_methods solve) b i q) ->
  exists e t h, to_exp (fam_methods solve) q = Ok e /\ entropy_exp (fam_methods solve) e = Ok t /\ shp t = b /\ tget t i = Fin h /\
    forall P l, pdf_is (fam_methods solve) b i f n q P -> log_pdf_is (fam_methods solve) b i f n q l -> expected f n P (fun x => - l x) h.
Proof. exact (entropy_exp_thm solve b i f q n). Qed.
Example C24_example : (proper [2]%nat [1]%nat Weibull ex_wei /\ dims_of ex_wei = Ok 1%nat /\ has_entropy_ep (EP Weibull) = true /\
    carrier_by_search Weibull = false /\ closed_form Weibull = true) /\
  (proper [] [] Chi ex_chi /\ dims_of ex_chi = Ok 1%nat /\ has_entropy_ep (EP Chi) = true /\ recovered (fam_methods solve0) [] [] ex_chi).
Proof.
  split.
  - split; [exact ex_wei_proper|]. repeat (split; [first [reflexivity|eapply clip_other; [reflexivity|discriminate]]|]). reflexivity.
  - split; [exact ex_chi_proper|]. repeat (split; [first [reflexivity|eapply clip_other; [reflexivity|discriminate]]|]). exact ex_chi_recovered.
Qed.
Example C24_matrix_example : proper [2]%nat [1]%nat MultivariateNormal ex_mvn /\ dims_of ex_mvn = Ok 2%nat /\ has_entropy_ep (EP MultivariateNormal) = true /\
  carrier_by_search MultivariateNormal = false /\ closed_form MultivariateNormal = true.
Proof.
  split; [do 4 (split; [reflexivity|]); exact (ex_mat_dom _ _ (or_intror (or_introl eq_refl)))|]. repeat (split; [first [reflexivity|eapply clip_other; [reflexivity|discriminate]]|]). reflexivity.
Qed.

(** ** Joint distributions.  [integral_joint q F v]: the iterated sum or integral of F over the sample spaces of the leaves of q, one after the
    other, exists and is v (JointIntSpec.v) *)
Theorem C23_joint_normalised solve b i q : joint_proper b i q ->
  (exists P, joint_pdf_is (fam_methods solve) b i q P) /\ forall P, joint_pdf_is (fam_methods solve) b i q P -> integral_joint q P 1.
Proof. exact (joint_normalised solve b i q). Qed.
(** every entry of every leaf of q.to_exp() is the expected value, under the joint density, of the same entry of the sufficient statistics *)
Theorem C25_joint_expected_statistics solve b i q : joint_proper b i q -> not_clipped q i -> exists e, to_exp (fam_methods solve) q = Ok e /\
  forall p l f n P g c j, In (p, l) (leaves [] q) -> dcls l = NP f -> dims_of l = Ok n -> joint_pdf_is (fam_methods solve) b i q P ->
    In g (fields (EP f)) -> inb (supp_shape (fd_support g) n) j = true ->
    (exists T, joint_statistic_is (fam_methods solve) b i q p c (fd_name g) j T) /\
    forall T, joint_statistic_is (fam_methods solve) b i q p c (fd_name g) j T ->
      exists le v, dist_at e p = Some le /\ value_at le i c (fd_name g) j v /\ integral_joint q (fun xv => P xv * T xv) v.
Proof. exact (joint_mean solve b i q). Qed.
(** the entropy of a joint distribution is minus the expected value of its log_pdf *)
Theorem C24_joint_entropy solve b i q : joint_proper b i q ->
  (forall p l f, In (p, l) (leaves [] q) -> dcls l = NP f -> has_entropy_ep (EP f) = true) ->
  (forall p l f, In (p, l) (leaves [] q) -> dcls l = NP f -> carrier_by_search f = true -> recovered (fam_methods solve) b i l) ->
  exists t h, entropy_nat (fam_methods solve) q = Ok t /\ shp t = b /\ tget t i = Fin h /\ (exists lp, joint_log_pdf_is (fam_methods solve) b i q lp) /\
    forall P lp, joint_pdf_is (fam_methods solve) b i q P -> joint_log_pdf_is (fam_methods solve) b i q lp -> integral_joint q (fun xv => P xv * - lp xv) h.
Proof. exact (joint_entropy solve b i q). Qed.
(** a normal, a gamma and a normal vector with fixed variance, nested *)
Example C23_joint_example : joint_proper [2]%nat [1]%nat ex_joint /\ not_clipped ex_joint [1]%nat /\
  spaces ex_joint = [(["x"; "n"], (Normal, 1%nat)); (["x"; "g"], (Gamma, 1%nat)); (["m"], (MultivariateFixedVarianceNormal, 3%nat))] /\
  forall p l f, In (p, l) (leaves [] ex_joint) -> dcls l = NP f -> has_entropy_ep (EP f) = true /\ carrier_by_search f = false.
Proof.
  split; [do 4 (split; [reflexivity|]); exact ex_joint_dom|]. split; [|split; [reflexivity|]].
  - intros p l H C. cbn in H. destruct H as [H|[H|[H|[]]]]; injection H as <- <-; discriminate C.
  - intros p l f H C. cbn in H. destruct H as [H|[H|[H|[]]]]; injection H as <- <-; cbn in C; injection C as <-; split; reflexivity.
Qed.
