(** Theorems for C62: entropy() is the textbook entropy, [entropic f n P h] (EntSpec.v), and that of the scipy replacements. *)
From Coquelicot Require Import Complex.
From Coq Require Import String List Bool Arith Reals Lra.
From Verif Require Import Base XReal Tensor Support Dist Iteration Structure Spec Tools Joint Fam SumSpec DotSpec PointSpec SpecFun Val ConvEx Examples DensSpec DensEx IntSpec IntEx RootEx MatEx TextSpec TextEx EntSpec EntThms
  Scipy ScipyShaped ScipyFacts ScipyThms ScipyAgree ScipyEx ScipyMv ScipyMvFacts ScipyMvEx ScipyEnt EntEx.
Import ListNotations.
Local Open Scope string_scope.
Local Open Scope R_scope.
Local Notation C := Complex.C (only parsing).
Local Existing Instance Scipy.Dflt_C.
Local Existing Instance Scipy.Dflt_R.

(** natural parameters; every family with an entropy method.  Chi and ChiSquare search for the natural parameters *)
Theorem C62_entropy solve b i f q n h : proper b i f q -> dims_of q = Ok n -> has_entropy_ep (EP f) = true -> (carrier_by_search f = true -> recovered (fam_methods solve) b i q) ->
  entropic f n (point_of q i) h -> exists t, entropy_nat (fam_methods solve) q = Ok t /\ shp t = b /\ tget t i = Fin h.
Proof. exact (entropy_nat_textbook solve b i f q n h). Qed.
(** expectation parameters *)
Theorem C62_entropy_exp solve b i f q n h : proper b i f q -> dims_of q = Ok n -> has_entropy_ep (EP f) = true -> (closed_form f = false -> recovered (fam_methods solve) b i q) ->
  entropic f n (point_of q i) h -> exists e t, to_exp (fam_methods solve) q = Ok e /\ entropy_exp (fam_methods solve) e = Ok t /\ shp t = b /\ tget t i = Fin h.
Proof. exact (entropy_exp_textbook solve b i f q n h). Qed.
(** every distribution has a textbook entropy *)
Theorem C62_defined b i f q n : proper b i f q -> dims_of q = Ok n -> has_entropy_ep (EP f) = true -> exists h, entropic f n (point_of q i) h.
Proof. exact (entropic_total b i f q n). Qed.
Example C62_example solve : (exists t, entropy_nat (fam_methods solve) ex_wei = Ok t /\ shp t = [2]%nat /\ tget t [1]%nat = Fin (euler_gamma * (1 - 1 / 5) + ln (Rpower 3 (- (1 / 5)) / 5) + 1)) /\
  (proper [] [] Chi ex_chi /\ dims_of ex_chi = Ok 1%nat /\ has_entropy_ep (EP Chi) = true /\ recovered (fam_methods solve0) [] [] ex_chi) /\
  (proper [2]%nat [1]%nat MultivariateNormal ex_mvn /\ dims_of ex_mvn = Ok 2%nat /\ has_entropy_ep (EP MultivariateNormal) = true /\ carrier_by_search MultivariateNormal = false /\ closed_form MultivariateNormal = true).
Proof.
  split; [exact (ex_wei_entropy solve)|]. split; [split; [exact ex_chi_proper|]; do 2 (split; [reflexivity|]); exact ex_chi_recovered|]. split; [now apply ex_mvn_proper_all|]. repeat split.
Qed.

(** ** the entropies of the scipy replacements, built as in C58 and C61 *)
Theorem C62_complex_normal {G} (gen : @gen_mvn_t G) solve b q e n (m v u : tensor C) : dims_of q = Ok n -> to_exp (fam_methods solve) q = Ok e ->
  (forall i, inb b i = true -> proper b i ComplexNormal q) -> shp m = b -> shp v = b -> shp u = b ->
  (forall i, inb b i = true -> tget m i = cpar e i "mean" [] /\ tget v i = RtoC (par e i "second_moment" [] - Cmod (tget m i) ^ 2) /\ tget u i = (cpar e i "pseudo_second_moment" [] - tget m i * tget m i)%C) ->
  exists c r, cn_array (Some (NArr false m)) (Some (NArr true v)) (Some (NArr false u)) = Ok c /\ sd_entropy (cn_dist gen c) = Ok r /\ shp r = b /\
    forall i, inb b i = true -> exists t, entropy_nat (fam_methods solve) q = Ok t /\ shp t = b /\ tget t i = Fin (tget r i).
Proof. intros D E. exact (ent_cn gen solve b q e n D E m v u). Qed.
Theorem C62_complex_unit_normal {G} (gen : @gen_mvn_t G) solve b q e n (m v u : tensor C) : dims_of q = Ok n ->
  (forall i, inb b i = true -> proper b i ComplexUnitNormal q) -> shp m = b -> shp v = b -> shp u = b ->
  (forall i, inb b i = true -> tget m i = cpar e i "mean" [] /\ tget v i = RtoC 1 /\ tget u i = RtoC 0) ->
  exists c r, cn_array (Some (NArr false m)) (Some (NArr true v)) (Some (NArr false u)) = Ok c /\ sd_entropy (cn_dist gen c) = Ok r /\ shp r = b /\
    forall i, inb b i = true -> exists t, entropy_nat (fam_methods solve) q = Ok t /\ shp t = b /\ tget t i = Fin (tget r i).
Proof. intros D. exact (ent_cu gen solve b q e n D m v u). Qed.
Theorem C62_complex_multivariate_unit_normal {G} (gen : @gen_mvn_t G) solve b q n (m : tensor C) : dims_of q = Ok n ->
  (forall i, inb b i = true -> proper b i ComplexMultivariateUnitNormal q) -> shp m = (b ++ [n])%list ->
  exists c r, cm_array (Some (NArr false m)) None None = Ok c /\ sd_entropy (cm_dist gen c) = Ok r /\ shp r = b /\
    forall i, inb b i = true -> exists t, entropy_nat (fam_methods solve) q = Ok t /\ shp t = b /\ tget t i = Fin (tget r i).
Proof. intros D. exact (ent_cmu gen solve b q n D m). Qed.
Theorem C62_circularly_symmetric {G} (gen : @gen_mvn_t G) solve b q e n (v : tensor C) : dims_of q = Ok n -> to_exp (fam_methods solve) q = Ok e ->
  (forall i, inb b i = true -> proper b i ComplexCircularlySymmetricNormal q) -> shp v = (b ++ [n; n])%list ->
  (forall i a c, inb b i = true -> (a < n)%nat -> (c < n)%nat -> tget v (i ++ [a; c])%list = cpar e i "variance" [a; c]) ->
  exists c r, cm_array None (Some (NArr false v)) None = Ok c /\ sd_entropy (cm_dist gen c) = Ok r /\ shp r = b /\
    forall i, inb b i = true -> exists t, entropy_nat (fam_methods solve) q = Ok t /\ shp t = b /\ tget t i = Fin (tget r i).
Proof. intros D E. exact (ent_ccs gen solve b q e n D E v). Qed.
Theorem C62_normal {G} (gen : @gen_mvn_t G) solve b q e n f (m c : tensor R) : In f [MultivariateNormal; MultivariateDiagonalNormal; MultivariateFixedVarianceNormal; IsotropicNormal; MultivariateUnitNormal] ->
  dims_of q = Ok n -> to_exp (fam_methods solve) q = Ok e -> (forall i, inb b i = true -> proper b i f q) -> shp m = (b ++ [n])%list -> shp c = (b ++ [n; n])%list ->
  (forall i k l, inb b i = true -> (k < n)%nat -> (l < n)%nat -> tget c (i ++ [k; l])%list =
     match f with
     | MultivariateNormal => par e i "second_moment" [k; l] - par e i "mean" [k] * par e i "mean" [l]
     | MultivariateDiagonalNormal => if Nat.eqb k l then par e i "second_moment" [k] - par e i "mean" [k] * par e i "mean" [k] else 0
     | MultivariateFixedVarianceNormal => if Nat.eqb k l then par e i "variance" [] else 0
     | IsotropicNormal => if Nat.eqb k l then (par e i "total_second_moment" [] - sumR n (fun k => par e i "mean" [k] * par e i "mean" [k])) / INR n else 0
     | _ => if Nat.eqb k l then 1 else 0
     end) ->
  exists d r, mc_dist gen (Some m) (Some c) = Ok d /\ sd_entropy d = Ok r /\ shp r = b /\
    forall i, inb b i = true -> exists t, entropy_nat (fam_methods solve) q = Ok t /\ shp t = b /\ tget t i = Fin (tget r i).
Proof. exact (ent_normal_cov gen solve b q e n f m c). Qed.
Example C62_scipy_example {G} (gen : @gen_mvn_t G) solve :
  (exists m c d r, mc_dist gen (Some m) (Some c) = Ok d /\ sd_entropy d = Ok r /\ entropy_agrees solve [2]%nat ex_mvn r) /\
  (exists m v u c r, cn_array (Some (NArr false m)) (Some (NArr true v)) (Some (NArr false u)) = Ok c /\ sd_entropy (cn_dist gen c) = Ok r /\ entropy_agrees solve [] dx_cn r) /\
  (exists v c r, cm_array None (Some (NArr false v)) None = Ok c /\ sd_entropy (cm_dist gen c) = Ok r /\ entropy_agrees solve [2]%nat ex_ccs r).
Proof. split; [exact (ex_mvn_ent gen solve)|]. split; [exact (dx_cn_ent gen solve)|exact (ex_ccs_ent gen solve)]. Qed.
