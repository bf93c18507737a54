(** Theorems for C61: the real distributions of efax/_src/scipy_replacement, built the way the project builds them from an EP or NP
    (tests/create_info.py), have the density of that NP.  e is [q.to_exp()]. *)
From Coquelicot Require Import Complex.
From Coq Require Import String List Bool Arith Reals Lra.
From Verif Require Import Base XReal Tensor Support Dist Iteration Structure Spec Tools Joint Fam SumSpec DotSpec PointSpec SpecFun Val ConvEx Examples DensSpec DensEx MatEx TextSpec TextEx MethodSpec Kappa
  Scipy ScipyShaped ScipyFacts ScipyThms ScipyAgree ScipyMv ScipyMvFacts ScipyVm ScipyMvEx.
Import ListNotations.
Local Open Scope string_scope.
Local Open Scope R_scope.
Local Notation C := Complex.C (only parsing).
Local Existing Instance Scipy.Dflt_C.
Local Existing Instance Scipy.Dflt_R.

(** [ScipyMultivariateNormal.from_mc(mean, cov)] has the multivariate normal density of every mean and covariance matrix *)
Theorem C61_from_mc {G} (gen : @gen_mvn_t G) b n (m c : tensor R) (x : tensor C) : shp m = (b ++ [n])%list -> shp c = (b ++ [n; n])%list -> (forall i, inb b i = true -> spd n (fun k l => tget c (i ++ [k; l])%list)) -> shp x = (b ++ [n])%list ->
  exists d r, mc_dist gen (Some m) (Some c) = Ok d /\ sd_pdf d x = Ok r /\ shp r = b /\
    forall i, inb b i = true -> tget r i = multivariate_normal_pdf n (fun k => tget m (i ++ [k])%list) (fun k l => tget c (i ++ [k; l])%list) (fun k => fst (tget x (i ++ [k])%list)).
Proof. exact (mc_pdf gen b n m c x). Qed.

(** [ScipyMultivariateNormal.from_mc(cov=cov)]: the default mean is zero in every dimension and for every index *)
Theorem C61_default_mean {G} (gen : @gen_mvn_t G) b n (c : tensor R) (x : tensor C) : shp c = (b ++ [n; n])%list -> (forall i, inb b i = true -> spd n (fun k l => tget c (i ++ [k; l])%list)) -> shp x = (b ++ [n])%list ->
  exists d r, mc_dist gen None (Some c) = Ok d /\ sd_pdf d x = Ok r /\ shp r = b /\
    forall i, inb b i = true -> tget r i = multivariate_normal_pdf n (fun _ => 0) (fun k l => tget c (i ++ [k; l])%list) (fun k => fst (tget x (i ++ [k])%list)).
Proof. exact (mc_zero_mean gen b n c x). Qed.

(** a matrix with a leading minor that is not positive is rejected *)
Theorem C61_from_mc_rejected {G} (gen : @gen_mvn_t G) b n (m c : tensor R) i k : shp m = (b ++ [n])%list -> shp c = (b ++ [n; n])%list -> inb b i = true -> (1 <= k <= n)%nat ->
  rdet k (fun k l => tget c (i ++ [k; l])%list) <= 0 -> mc_dist gen (Some m) (Some c) = Err ValueError.
Proof. exact (mc_reject gen b n m c i k). Qed.

(** with the mean and covariance of a real multivariate normal family, the density of its NP *)
Theorem C61_normal {G} (gen : @gen_mvn_t G) solve b q e n f (m c : tensor R) (x : tensor C) : In f [MultivariateNormal; MultivariateDiagonalNormal; MultivariateFixedVarianceNormal; IsotropicNormal; MultivariateUnitNormal] ->
  dims_of q = Ok n -> to_exp (fam_methods solve) q = Ok e -> (forall i, inb b i = true -> proper b i f q) -> shp m = (b ++ [n])%list -> shp c = (b ++ [n; n])%list ->
  (forall i k, inb b i = true -> (k < n)%nat -> tget m (i ++ [k])%list = par e i "mean" [k]) ->
  (forall i k l, inb b i = true -> (k < n)%nat -> (l < n)%nat -> tget c (i ++ [k; l])%list =
     match f with
     | MultivariateNormal => par e i "second_moment" [k; l] - par e i "mean" [k] * par e i "mean" [l]
     | MultivariateDiagonalNormal => if Nat.eqb k l then par e i "second_moment" [k] - par e i "mean" [k] * par e i "mean" [k] else 0
     | MultivariateFixedVarianceNormal => if Nat.eqb k l then par e i "variance" [] else 0
     | IsotropicNormal => if Nat.eqb k l then (par e i "total_second_moment" [] - sumR n (fun k => par e i "mean" [k] * par e i "mean" [k])) / INR n else 0
     | _ => if Nat.eqb k l then 1 else 0
     end) -> shp x = (b ++ [n])%list ->
  exists d r, mc_dist gen (Some m) (Some c) = Ok d /\ sd_pdf d x = Ok r /\ shp r = b /\
    forall i xe, inb b i = true -> observed b i q xe (obs_at x i) -> density (fam_methods solve) b i q xe (tget r i).
Proof. intros F D E Pq Em Ec Hm Hc. exact (agree_normal_cov solve b q e n D E gen f m c x F Pq Em Ec Hm Hc). Qed.

(** [ScipyMultivariateNormal.from_mc(mean=mean)]: the default covariance is the unit matrix *)
Theorem C61_unit_normal {G} (gen : @gen_mvn_t G) solve b q e n (m : tensor R) (x : tensor C) : dims_of q = Ok n -> to_exp (fam_methods solve) q = Ok e ->
  (forall i, inb b i = true -> proper b i MultivariateUnitNormal q) -> shp m = (b ++ [n])%list ->
  (forall i k, inb b i = true -> (k < n)%nat -> tget m (i ++ [k])%list = par e i "mean" [k]) -> shp x = (b ++ [n])%list ->
  exists d r, mc_dist gen (Some m) None = Ok d /\ sd_pdf d x = Ok r /\ shp r = b /\
    forall i xe, inb b i = true -> observed b i q xe (obs_at x i) -> density (fam_methods solve) b i q xe (tget r i).
Proof. intros D E. exact (agree_unit_default solve b q e n D E gen m x). Qed.

(** [ScipyVonMises] of [q.to_kappa_angle()] at the angle t has the density of q at (cos t, sin t); draw is an arbitrary sampler *)
Theorem C61_von_mises {G} (draw : list nat -> shape -> G -> tensor R * G) solve b q (k a : tensor xr) (kappa loc : tensor R) (x : tensor C) : dims_of q = Ok 2%nat -> (forall i, inb b i = true -> proper b i VonMisesFisher q) ->
  to_kappa_angle q = Ok (k, a) -> shp kappa = b -> shp loc = b -> (forall i, inb b i = true -> tget k i = Fin (tget kappa i) /\ tget a i = Fin (tget loc i)) -> shp x = b ->
  exists d r, vm_dist kappa (Some loc) draw = Ok d /\ sd_pdf d x = Ok r /\ shp r = b /\
    forall i xe xv, inb b i = true -> observed b i q xe xv -> xv false [0%nat] = cos (fst (tget x i)) -> xv false [1%nat] = sin (fst (tget x i)) -> density (fam_methods solve) b i q xe (tget r i).
Proof. exact (agree_von_mises_angle draw solve b q k a kappa loc x). Qed.

(** [ScipyVonMisesFisher(mu, kappa)], kappa the length and mu the direction of the natural parameter, in two or more dimensions *)
Theorem C61_von_mises_fisher {G} (draw : list nat -> shape -> G -> tensor R * G) solve b q n (mu kappa : tensor R) (x : tensor C) : (2 <= n)%nat -> dims_of q = Ok n -> (forall i, inb b i = true -> proper b i VonMisesFisher q) ->
  shp mu = (b ++ [n])%list -> shp kappa = b -> (forall i, inb b i = true -> tget kappa i = sqrt (sumR n (fun k => par q i "mean_times_concentration" [k] * par q i "mean_times_concentration" [k]))) ->
  (forall i k, inb b i = true -> (k < n)%nat -> tget mu (i ++ [k])%list = par q i "mean_times_concentration" [k] / tget kappa i) -> shp x = (b ++ [n])%list ->
  (forall i, inb b i = true -> sumR n (fun k => fst (tget x (i ++ [k])%list) * fst (tget x (i ++ [k])%list)) = 1) ->
  exists d r, vmf_dist mu kappa draw = Ok d /\ sd_pdf d x = Ok r /\ shp r = b /\ forall i xe, inb b i = true -> observed b i q xe (obs_at x i) -> density (fam_methods solve) b i q xe (tget r i).
Proof. exact (agree_von_mises_fisher draw solve b q n mu kappa x). Qed.

(** [ScipyGeometric(1 / (1 + mean))] at x + 1 has the probability of q at x: scipy counts trials, GeometricNP failures *)
Theorem C61_geometric solve b q e (p z : tensor R) : to_exp (fam_methods solve) q = Ok e -> (forall i, inb b i = true -> proper b i Geometric q) -> shp p = b -> shp z = b ->
  (forall i, inb b i = true -> tget p i = 1 / (1 + par e i "mean" [])) ->
  exists r, scipy_geometric_pmf p z = Ok r /\ shp r = b /\
    forall i xe xv, inb b i = true -> observed b i q xe xv -> (exists k, xv false [] = INR k) -> tget z i = xv false [] + 1 -> density (fam_methods solve) b i q xe (tget r i).
Proof. exact (agree_geometric solve b q e p z). Qed.

Example C61_example {G} (gen : @gen_mvn_t G) (draw : list nat -> shape -> G -> tensor R * G) solve t (x : tensor C) : shp x = [2; 2]%nat ->
  (exists m c d r, mc_dist gen (Some m) (Some c) = Ok d /\ sd_pdf d x = Ok r /\ shp r = [2]%nat /\
    forall i xe, inb [2]%nat i = true -> observed [2]%nat i ex_mvn xe (obs_at x i) -> density (fam_methods solve) [2]%nat i ex_mvn xe (tget r i)) /\
  (exists p r, scipy_geometric_pmf p (tscalar 3) = Ok r /\ shp r = [] /\ density (fam_methods solve) [] [] dx_geo (vec [2]%R [] eq_refl) (tget r [])) /\
  (exists mu kappa d r, vmf_dist mu kappa draw = Ok d /\ sd_pdf d (tbuild [2]%nat (fun j => RtoC (if nth 0 j 0%nat then 1 else 0))) = Ok r /\ shp r = [] /\ density (fam_methods solve) [] [] ex_vm (vec [1; 0]%R [2]%nat eq_refl) (tget r [])) /\
  exists k a kappa loc d r, to_kappa_angle ex_vm = Ok (k, a) /\ tget k [] = Fin (tget kappa []) /\ tget a [] = Fin (tget loc []) /\ vm_dist kappa (Some loc) draw = Ok d /\ sd_pdf d (tscalar (RtoC t)) = Ok r /\ shp r = [] /\
    forall i xe xv, inb [] i = true -> observed [] i ex_vm xe xv -> xv false [0%nat] = cos t -> xv false [1%nat] = sin t -> density (fam_methods solve) [] i ex_vm xe (tget r i).
Proof. intros Ex. split; [exact (ex_mvn_agrees gen solve x Ex)|]. split; [exact (dx_geo_agrees solve)|]. split; [exact (ex_vmf_agrees draw solve)|exact (ex_vm_agrees draw solve t)]. Qed.
