(** Theorems for C57 to C60: the numpy distributions with the interface of scipy.stats (efax/_src/scipy_replacement).  G is the type of the
    states of a numpy.random.Generator; gen is an arbitrary Generator.multivariate_normal. *)
From Coquelicot Require Import Complex.
From Coq Require Import String List Bool Arith Reals Lra.
From Verif Require Import Base XReal Tensor Support Dist Iteration Structure Spec Tools Joint Fam SumSpec DotSpec PointSpec ConvEx Examples DensSpec DensEx MatEx TextSpec TextEx
  Scipy ScipyShaped ScipyFacts ScipyThms ScipyAgree ScipyRest ScipyDir ScipyRvs ScipyEx.
Import ListNotations.
Local Open Scope string_scope.
Local Open Scope R_scope.
Local Notation C := Complex.C (only parsing).
Local Existing Instance Scipy.Dflt_C.
Local Existing Instance Scipy.Dflt_R.

(** ** C57: an array of distributions is what its objects are, index by index *)
(** [d.pdf(x)[i]] is [d.objects[i].pdf(x[i])] *)
Theorem C57_pdf {G} (d : sdist G) x ev : shp x = (sd_shape d ++ ev)%list -> (forall i, inb (sd_shape d) i = true -> exists v, o_pdf (sd_objects d i) (tsub x i) = Ok v /\ shp v = []) ->
  exists r, sd_pdf d x = Ok r /\ shp r = sd_shape d /\ forall i, inb (sd_shape d) i = true -> o_pdf (sd_objects d i) (tsub x i) = Ok (tscalar (tget r i)).
Proof. exact (pdf_spec d x ev). Qed.

(** [d.entropy()[i]] is [d.objects[i].entropy()] *)
Theorem C57_entropy {G} (d : sdist G) : (forall i, inb (sd_shape d) i = true -> exists v, o_entropy (sd_objects d i) = Ok v /\ shp v = []) ->
  exists r, sd_entropy d = Ok r /\ shp r = sd_shape d /\ forall i, inb (sd_shape d) i = true -> o_entropy (sd_objects d i) = Ok (tscalar (tget r i)).
Proof. exact (entropy_spec d). Qed.

(** [d.rvs(size)] draws once from every object, in the order of the indices (st k: the state of the generator after k objects) *)
Theorem C57_rvs {G} (d : sdist G) a g : (forall i h, inb (sd_shape d) i = true -> exists v h', o_rvs (sd_objects d i) (size_of a) h = Ok (v, h') /\ shp v = (size_of a ++ sd_rvs_shape d)%list) ->
  exists r (st : nat -> G), sd_rvs d a g = Ok (r, st (prods (sd_shape d))) /\ st 0%nat = g /\ shp r = (sd_shape d ++ size_of a ++ sd_rvs_shape d)%list /\
    forall i, inb (sd_shape d) i = true -> exists v, o_rvs (sd_objects d i) (size_of a) (st (ravel (sd_shape d) i)) = Ok (v, st (S (ravel (sd_shape d) i))) /\
      forall j, inb (size_of a ++ sd_rvs_shape d)%list j = true -> tget r (i ++ j)%list = cast (sd_real d) (tget v j).
Proof. exact (rvs_spec d a g). Qed.

(** [ScipyJointDistribution(subs).pdf(z)] is the product of the densities, whatever the order of the keys of z *)
Theorem C57_joint_pdf {G} b (subs : dict string (sjobj G)) z (v : string -> tensor R) : NoDup (map fst subs) -> NoDup (map fst z) -> (forall n, In n (map fst z) <-> In n (map fst subs)) -> subs <> [] ->
  (forall k d x, In (k, d) subs -> In (k, x) z -> j_pdf d x = Ok (v k) /\ shp (v k) = b) ->
  exists r, sj_pdf subs z = Ok r /\ shp r = b /\ forall i, inb b i = true -> tget r i = fold_right Rmult 1 (map (fun kv => tget (v (fst kv)) i) subs).
Proof. exact (joint_pdf_spec b subs z v). Qed.

(** and an error if the keys differ *)
Theorem C57_joint_pdf_keys {G} (subs : dict string (sjobj G)) z k : NoDup (map fst subs) -> NoDup (map fst z) -> ~ (In k (map fst z) <-> In k (map fst subs)) -> forall r, sj_pdf subs z <> Ok r.
Proof. exact (joint_pdf_missing subs z k). Qed.

(** the entropy is the sum of the entropies *)
Theorem C57_joint_entropy {G} b (subs : dict string (sjobj G)) (v : string -> tensor R) : subs <> [] -> (forall k d, In (k, d) subs -> j_entropy d = Ok (v k) /\ shp (v k) = b) ->
  exists r, sj_entropy subs = Ok r /\ shp r = b /\ forall i, inb b i = true -> tget r i = fold_right Rplus 0 (map (fun kv => tget (v (fst kv)) i) subs).
Proof. exact (joint_entropy_spec b subs v). Qed.

(** the draws are those of the parts, one after another *)
Theorem C57_joint_rvs {G} a (subs : dict string (sjobj G)) g r g' : sj_rvs subs a g = Ok (r, g') -> map fst r = map fst subs /\
  exists st : nat -> G, st 0%nat = g /\ st (length subs) = g' /\ forall k n d, nth_error subs k = Some (n, d) -> exists v, nth_error r k = Some (n, v) /\ j_rvs d a (st k) = Ok (v, st (S k)).
Proof. exact (joint_rvs_spec a subs g r g'). Qed.

Example C57_example : (exists r, sd_pdf sd sx = Ok r /\ shp r = [2]%nat /\ tget r [0]%nat = 0 + 5 /\ tget r [1]%nat = 1 + 7) /\
  (exists r, sd_rvs sd (SizeInt 3) 0%nat = Ok (r, 2%nat) /\ shp r = [2; 3]%nat /\ tget r [0; 2]%nat = (0, 0) /\ tget r [1; 0]%nat = (1, 1)) /\
  exists r, sj_pdf sjoint [("b", sx); ("a", sx)] = Ok r /\ shp r = [2]%nat.
Proof. split; [exact sd_pdf_ok|]. split; [exact sd_rvs_ok|exact sjoint_pdf]. Qed.

(** ** C58: the complex normal distributions have the density of the NP of the same parameters *)
Theorem C58_complex_normal {G} (gen : @gen_mvn_t G) solve b q e n (m v u x : tensor C) : dims_of q = Ok n -> to_exp (fam_methods solve) q = Ok e ->
  (forall i, inb b i = true -> proper b i ComplexNormal q) -> shp m = b -> shp v = b -> shp u = b ->
  (forall i, inb b i = true -> tget m i = cpar e i "mean" [] /\ tget v i = RtoC (par e i "second_moment" [] - Cmod (tget m i) ^ 2) /\ tget u i = (cpar e i "pseudo_second_moment" [] - tget m i * tget m i)%C) -> shp x = b ->
  exists c r, cn_array (Some (NArr false m)) (Some (NArr true v)) (Some (NArr false u)) = Ok c /\ sd_pdf (cn_dist gen c) x = Ok r /\ shp r = b /\
    forall i xe, inb b i = true -> observed b i q xe (obs_at x i) -> density (fam_methods solve) b i q xe (tget r i).
Proof. intros D E. exact (agree_cn gen solve b q e n D E m v u x). Qed.

Theorem C58_complex_unit_normal {G} (gen : @gen_mvn_t G) solve b q e n (m v u x : tensor C) : dims_of q = Ok n -> to_exp (fam_methods solve) q = Ok e ->
  (forall i, inb b i = true -> proper b i ComplexUnitNormal q) -> shp m = b -> shp v = b -> shp u = b ->
  (forall i, inb b i = true -> tget m i = cpar e i "mean" [] /\ tget v i = RtoC 1 /\ tget u i = RtoC 0) -> shp x = b ->
  exists c r, cn_array (Some (NArr false m)) (Some (NArr true v)) (Some (NArr false u)) = Ok c /\ sd_pdf (cn_dist gen c) x = Ok r /\ shp r = b /\
    forall i xe, inb b i = true -> observed b i q xe (obs_at x i) -> density (fam_methods solve) b i q xe (tget r i).
Proof. intros D E. exact (agree_cu gen solve b q e n D E m v u x). Qed.

Theorem C58_complex_multivariate_unit_normal {G} (gen : @gen_mvn_t G) solve b q e n (m x : tensor C) : dims_of q = Ok n -> to_exp (fam_methods solve) q = Ok e ->
  (forall i, inb b i = true -> proper b i ComplexMultivariateUnitNormal q) -> shp m = (b ++ [n])%list ->
  (forall i k, inb b i = true -> (k < n)%nat -> tget m (i ++ [k])%list = cpar e i "mean" [k]) -> shp x = (b ++ [n])%list ->
  exists c r, cm_array (Some (NArr false m)) None None = Ok c /\ sd_pdf (cm_dist gen c) x = Ok r /\ shp r = b /\
    forall i xe, inb b i = true -> observed b i q xe (obs_at x i) -> density (fam_methods solve) b i q xe (tget r i).
Proof. intros D E. exact (agree_cmu gen solve b q e n D E m x). Qed.

Theorem C58_circularly_symmetric {G} (gen : @gen_mvn_t G) solve b q e n (v x : tensor C) : dims_of q = Ok n -> to_exp (fam_methods solve) q = Ok e ->
  (forall i, inb b i = true -> proper b i ComplexCircularlySymmetricNormal q) -> shp v = (b ++ [n; n])%list ->
  (forall i a c, inb b i = true -> (a < n)%nat -> (c < n)%nat -> tget v (i ++ [a; c])%list = cpar e i "variance" [a; c]) -> shp x = (b ++ [n])%list ->
  exists c r, cm_array None (Some (NArr false v)) None = Ok c /\ sd_pdf (cm_dist gen c) x = Ok r /\ shp r = b /\
    forall i xe, inb b i = true -> observed b i q xe (obs_at x i) -> density (fam_methods solve) b i q xe (tget r i).
Proof. intros D E. exact (agree_ccs gen solve b q e n D E v x). Qed.

(** the multivariate normal of (real part, imaginary part): the variance is E|z-m|^2, the pseudo-variance E(z-m)^2 *)
Theorem C58_covariance m v u : let S := cn_mv_cov (CNormal m v u) in
  S 0%nat 0%nat + S 1%nat 1%nat = v /\ (S 0%nat 0%nat - S 1%nat 1%nat, 2 * S 0%nat 1%nat) = u /\ S 0%nat 1%nat = S 1%nat 0%nat.
Proof. exact (cn_covariance m v u). Qed.

Theorem C58_covariance_psd m v u : Cmod u <= v -> let S := cn_mv_cov (CNormal m v u) in forall x : nat -> R, 0 <= sumR 2 (fun a => sumR 2 (fun b => x a * S a b * x b)).
Proof. exact (cn_psd m v u). Qed.

Theorem C58_covariance_multivariate m v u o : cm_init m v u = Ok o -> let n := cm_size o in let S := cm_mv_cov o in
  (forall a b, (a < n)%nat -> (b < n)%nat -> (S a b + S (n + a)%nat (n + b)%nat, S (n + a)%nat b - S a (n + b)%nat) = cm_variance o a b /\
     (S a b - S (n + a)%nat (n + b)%nat, S (n + a)%nat b + S a (n + b)%nat) = cm_pseudo o a b) /\
  forall a b, (a < n + n)%nat -> (b < n + n)%nat -> S a b = S b a.
Proof. exact (cm_covariance m v u o). Qed.

(** the constructor accepts exactly the parameters with |pseudo-variance| <= variance *)
Theorem C58_accepted b (m v u : tensor C) rm ru : shp m = b -> shp v = b -> shp u = b -> (forall i, inb b i = true -> snd (tget v i) = 0) ->
  (forall i, inb b i = true -> Cmod (tget u i) <= fst (tget v i)) ->
  exists c, cn_array (Some (NArr rm m)) (Some (NArr true v)) (Some (NArr ru u)) = Ok c /\ ca_shape c = b /\ ca_real c = (rm && ru)%bool /\
    forall i, inb b i = true -> ca_at c i = CNormal (tget m i) (fst (tget v i)) (tget u i).
Proof. intros Em Ev Eu Rv. exact (cn_array_ok b m v u rm ru Em Ev Eu Rv). Qed.

Theorem C58_rejected b (m v u : tensor C) rm ru i : shp m = b -> shp v = b -> shp u = b -> (forall i, inb b i = true -> snd (tget v i) = 0) ->
  inb b i = true -> fst (tget v i) < Cmod (tget u i) -> cn_array (Some (NArr rm m)) (Some (NArr true v)) (Some (NArr ru u)) = Err ValueError.
Proof. intros Em Ev Eu Rv. exact (cn_array_reject b m v u rm ru Em Ev Eu Rv i). Qed.

(** [init_using_angle]: the polarization is at most 1 *)
Theorem C58_angle v angle polarization : 0 < v -> (Cmod (angle_pseudo v angle polarization) <= v <-> Cmod polarization <= 1).
Proof. exact (angle_accept v angle polarization). Qed.

Example C58_example {G} (gen : @gen_mvn_t G) solve (z : C) (x2 x22 : tensor C) : shp x2 = [2]%nat -> shp x22 = [2; 2]%nat ->
  cn_agrees gen solve [] dx_cn (tscalar z) /\ cn_agrees gen solve [] ex_cu (tscalar z) /\
  (exists m c r, cm_array (Some (NArr false m)) None None = Ok c /\ sd_pdf (cm_dist gen c) x2 = Ok r /\ shp r = [] /\
     forall i xe, inb [] i = true -> observed [] i ex_cmu xe (obs_at x2 i) -> density (fam_methods solve) [] i ex_cmu xe (tget r i)) /\
  (exists v c r, cm_array None (Some (NArr false v)) None = Ok c /\ sd_pdf (cm_dist gen c) x22 = Ok r /\ shp r = [2]%nat /\
     forall i xe, inb [2]%nat i = true -> observed [2]%nat i ex_ccs xe (obs_at x22 i) -> density (fam_methods solve) [2]%nat i ex_ccs xe (tget r i)).
Proof. intros H1 H2. split; [apply dx_cn_agrees|]. split; [apply ex_cu_agrees|]. split; [now apply ex_cmu_agrees|now apply ex_ccs_agrees]. Qed.

(** ** C59: the Dirichlet distributions *)
(** a row of alpha for every row of x *)
Theorem C59_dirichlet {G} b n (alpha : tensor R) (draw : list nat -> shape -> G -> tensor R * G) (x : tensor C) : shp alpha = (b ++ [n])%list -> shp x = (b ++ [n])%list ->
  (forall i, inb b i = true -> (forall k, (k < n)%nat -> 0 < fst (tget x (i ++ [k])%list)) /\ sumR n (fun k => fst (tget x (i ++ [k])%list)) = 1) ->
  exists d r, dirichlet_dist alpha draw = Ok d /\ dirichlet_dist_pdf d x = Ok r /\ shp r = b /\
    forall i, inb b i = true -> tget r i = dirichlet_pdf n (fun k => tget alpha (i ++ [k])%list) (fun k => fst (tget x (i ++ [k])%list)).
Proof. exact (dirichlet_pdf_ok b n alpha draw x). Qed.

(** one alpha for all rows of a matrix x *)
Theorem C59_dirichlet_matrix {G} m n (alpha : tensor R) (draw : list nat -> shape -> G -> tensor R * G) (x : tensor C) : shp alpha = [n] -> shp x = [m; n] -> (0 < n)%nat ->
  (forall a, (a < m)%nat -> (forall k, (k < n)%nat -> 0 < fst (tget x [a; k])) /\ sumR n (fun k => fst (tget x [a; k])) = 1) ->
  exists d r, dirichlet_dist alpha draw = Ok d /\ dirichlet_dist_pdf d x = Ok r /\ shp r = [m] /\
    forall a, (a < m)%nat -> tget r [a] = dirichlet_pdf n (fun k => tget alpha [k]) (fun k => fst (tget x [a; k])).
Proof. exact (dirichlet_pdf_matrix m n alpha draw x). Qed.

(** probabilities that do not sum to 1 are rejected *)
Theorem C59_dirichlet_rejected {G} (d : sdist G) (x : tensor C) b n i : shp x = (b ++ [n])%list -> inb b i = true -> Rabs (sumR n (fun k => fst (tget x (i ++ [k])%list)) - 1) > 1 / 100000 -> dirichlet_dist_pdf d x = Err ValueError.
Proof. exact (dirichlet_reject d x b n i). Qed.

(** [DirichletNP.pdf(x[..., :-1])] *)
Theorem C59_dirichlet_agrees {G} solve b q n (alpha : tensor R) (draw : list nat -> shape -> G -> tensor R * G) (x : tensor C) : (forall i, inb b i = true -> proper b i Dirichlet q) -> dims_of q = Ok n ->
  shp alpha = (b ++ [n])%list -> (forall i k, inb b i = true -> (k < n)%nat -> tget alpha (i ++ [k])%list = par q i "alpha_minus_one" [k] + 1) ->
  shp x = (b ++ [n])%list -> (forall i, inb b i = true -> (forall k, (k < n)%nat -> 0 < fst (tget x (i ++ [k])%list)) /\ sumR n (fun k => fst (tget x (i ++ [k])%list)) = 1) ->
  exists d r, dirichlet_dist alpha draw = Ok d /\ dirichlet_dist_pdf d x = Ok r /\ shp r = b /\
    forall i xe, inb b i = true -> observed b i q xe (obs_at x i) -> density (fam_methods solve) b i q xe (tget r i).
Proof. exact (agree_dirichlet solve b q n alpha draw x). Qed.

(** more than two axes of x, and a single alpha: the components are taken from the wrong axis *)
Theorem C59_dirichlet_axes_refuted {G} m1 m2 s n (alpha : tensor R) (draw : list nat -> shape -> G -> tensor R * G) (x : tensor C) d : shp alpha = [n] -> shp x = (m1 :: m2 :: s ++ [n])%list -> m1 <> n -> S m1 <> n ->
  dirichlet_dist alpha draw = Ok d -> dirichlet_dist_pdf d x = Err ValueError.
Proof. exact (dirichlet_pdf_axes m1 m2 s n alpha draw x d). Qed.

(** ScipyGeneralizedDirichlet.pdf is Connor's and Mosimann's density, and that of GeneralizedDirichletNP *)
Theorem C59_generalized n a c x : gd_pdf n a c x = generalized_dirichlet_pdf n a c x.
Proof. exact (gd_pdf_text n a c x). Qed.

Theorem C59_generalized_agrees solve b i q n x xe a c : proper b i GeneralizedDirichlet q -> dims_of q = Ok n ->
  (forall k, (k < n)%nat -> a k = par q i "alpha_minus_one" [k] + 1 /\ c k = 1 + sumR (n - k) (fun j => par q i "gamma" [(k + j)%nat]) + sumR (n - 1 - k) (fun j => a (k + 1 + j)%nat)) ->
  observed b i q xe (fun im j => if im then 0 else x (nth 0 j 0%nat)) -> (forall k, (k < n)%nat -> 0 < x k) -> sumR n x < 1 ->
  density (fam_methods solve) b i q xe (gd_pdf n a c x).
Proof. exact (agree_gd solve b i q n x xe a c). Qed.

(** its samples are sticks broken off what is left: inside of the simplex *)
Theorem C59_sticks l : (forall s, In s l -> 0 < s < 1) -> length (gd_sticks l 0) = length l /\ (forall y, In y (gd_sticks l 0) -> 0 < y) /\ fold_right Rplus 0 (gd_sticks l 0) < 1 /\
  forall k, (k < length l)%nat -> nth k (gd_sticks l 0) 0 = nth k l 0 * (1 - fold_right Rplus 0 (firstn k (gd_sticks l 0))).
Proof. exact (sticks_zero l). Qed.

Example C59_example {G} (draw : list nat -> shape -> G -> tensor R * G) solve :
  density (fam_methods solve) [] [] ex_gd (vec [1 / 2; 1 / 4]%R [2]%nat eq_refl) (gd_pdf 2 gd_a gd_c gd_x) /\
  exists d r, dirichlet_dist (mkT [2]%nat [2; 3] eq_refl) draw = Ok d /\ dirichlet_dist_pdf d dir_x = Ok r /\ shp r = [] /\
    density (fam_methods solve) [] [] ex_dir (vec [1 / 3]%R [1]%nat eq_refl) (tget r []).
Proof. split; [exact (ex_gd_agrees solve)|exact (ex_dir_agrees draw solve)]. Qed.

(** ** C60: draws of the complex normal distributions *)
(** what [rvs] returns: the generator's pair (or 2n-tuple) as complex number (or n-tuple); [cast]: to the dtype of the distribution *)
Theorem C60_complex_normal_rvs {G} (gen : @gen_mvn_t G) c a g : gen_shaped gen ->
  exists r (st : nat -> G), sd_rvs (cn_dist gen c) a g = Ok (r, st (prods (ca_shape c))) /\ st 0%nat = g /\ shp r = (ca_shape c ++ size_of a)%list /\
  forall i, inb (ca_shape c) i = true -> let w := gen 2%nat (cn_mv_mean (ca_at c i)) (cn_mv_cov (ca_at c i)) (size_of a) (st (ravel (ca_shape c) i)) in
    st (S (ravel (ca_shape c) i)) = snd w /\
    forall j, inb (size_of a) j = true -> tget r (i ++ j)%list = cast (ca_real c) (tget (fst w) (j ++ [0%nat])%list, tget (fst w) (j ++ [1%nat])%list).
Proof. intros Hg. exact (cn_rvs gen Hg c a g). Qed.

Theorem C60_complex_multivariate_normal_rvs {G} (gen : @gen_mvn_t G) c a g : gen_shaped gen -> (forall i, inb (cma_shape c) i = true -> cm_size (cma_at c i) = cma_dims c) -> let n := cma_dims c in
  exists r (st : nat -> G), sd_rvs (cm_dist gen c) a g = Ok (r, st (prods (cma_shape c))) /\ st 0%nat = g /\ shp r = (cma_shape c ++ size_of a ++ [n])%list /\
  forall i, inb (cma_shape c) i = true -> let w := gen (2 * n)%nat (cm_mv_mean (cma_at c i)) (cm_mv_cov (cma_at c i)) (size_of a) (st (ravel (cma_shape c) i)) in
    st (S (ravel (cma_shape c) i)) = snd w /\
    forall j k, inb (size_of a) j = true -> (k < n)%nat -> tget r (i ++ j ++ [k])%list = cast (cma_real c) (tget (fst w) (j ++ [k])%list, tget (fst w) (j ++ [(n + k)%nat])%list).
Proof. intros Hg. exact (cm_rvs gen Hg c a g). Qed.

(** parameters in real arrays: the dtype is real and every imaginary part is lost, although its variance is positive *)
Theorem C60_real_parameters_refuted {G} (gen : @gen_mvn_t G) m v u c a g t g' i j : cn_array (Some (NArr true m)) (Some (NArr true v)) (Some (NArr true u)) = Ok c -> sd_rvs (cn_dist gen c) a g = Ok (t, g') ->
  inb (ca_shape c) i = true -> inb (size_of a) j = true -> snd (tget t (i ++ j)%list) = 0.
Proof. exact (cn_rvs_real gen m v u c a g t g' i j). Qed.

(** [as_multivariate_normal().rvs()] always raises *)
Theorem C60_as_multivariate_refuted {G} (gen : @gen_mvn_t G) c a g : gen_shaped gen -> prods (ca_shape c) <> 0%nat -> sd_rvs (cn_dist_mvn gen c) a g = Err ValueError.
Proof. intros Hg. exact (cn_mvn_rvs_fails gen Hg c a g). Qed.

Theorem C60_as_multivariate_vector_refuted {G} (gen : @gen_mvn_t G) c a g : gen_shaped gen -> prods (cma_shape c) <> 0%nat -> (0 < cma_dims c)%nat -> (forall i, inb (cma_shape c) i = true -> cm_size (cma_at c i) = cma_dims c) ->
  sd_rvs (cm_dist_mvn gen c) a g = Err ValueError.
Proof. intros Hg. exact (cm_mvn_rvs_fails gen Hg c a g). Qed.

(** the multivariate constructor accepts a pseudo-variance that no distribution with the given variance has *)
Theorem C60_accepts_incompatible_refuted {G} (gen : @gen_mvn_t G) : exists m v u o, cm_init m v u = Ok o /\ cm_variance o 0%nat 0%nat = RtoC 1 /\ cm_pseudo o 0%nat 0%nat = RtoC 2 /\
  cm_mv_cov o 1%nat 1%nat < 0 /\ forall z, o_pdf (cm_obj gen o) z = Err ValueError.
Proof. exact (incompatible gen). Qed.

(** the univariate constructor accepts |pseudo-variance| = variance, where pdf raises *)
Theorem C60_degenerate_refuted {G} (gen : @gen_mvn_t G) m v u z : Cmod u = v -> cn_init (tscalar m) true (tscalar (RtoC v)) (tscalar u) = Ok (CNormal m v u) /\ o_pdf (cn_obj gen (CNormal m v u)) z = Err ValueError.
Proof. exact (degenerate gen m v u z). Qed.

Example C60_example : gen_shaped gen1 /\ exists c, cn_array (Some real0) (Some real1) (Some real0) = Ok c /\ cn_mv_cov (ca_at c []) 1%nat 1%nat = 1 / 2 /\
  tget (fst (gen1 2%nat (cn_mv_mean (ca_at c [])) (cn_mv_cov (ca_at c [])) [] 0%nat)) [1]%nat = 2 /\
  exists t, sd_rvs (cn_dist gen1 c) SizeNone 0%nat = Ok (t, 1%nat) /\ snd (tget t []) = 0.
Proof. split; [exact gen1_shaped|exact ex_real]. Qed.
