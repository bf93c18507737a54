(** Theorems for C65: adding natural parameters multiplies densities, scaling them raises the density to a power.  The [carrier] H is
    p.carrier_measure; the density of a family is exp (parameters . statistics - log_normalizer + H), so that the factor exp H, which is no
    evidence about the parameters, is counted once in the combination. *)
From Coq Require Import String List Bool Arith Reals Lra.
From Verif Require Import Base XReal Tensor Support Dist Iteration Structure Spec Tools Joint Fam SumSpec DotSpec PointSpec SpecFun KlSpec Examples ConvEx JointEx KlEx DensSpec DensEx IntSpec Combine CombSpec CombThms CombEx.
Import ListNotations.
Local Open Scope string_scope.
Local Open Scope R_scope.

(** combine_evidence p q = parameter_map(jnp.add, p, q) *)
Theorem C65_combine solve b i f n p q : proper b i f p -> proper b i f q -> dims_of p = Ok n -> dims_of q = Ok n -> same_fixed_leaf_at b i p q ->
  exists s, combine_evidence p q = Ok s /\ (closed_under_combination f = true -> in_domain s i) /\
    (in_domain s i -> proper b i f s /\ dims_of s = Ok n /\
      forall P Q U H, pdf_is (fam_methods solve) b i f n p P -> pdf_is (fam_methods solve) b i f n q Q -> pdf_is (fam_methods solve) b i f n s U ->
        carrier_is (fam_methods solve) b i f n p H -> exists Z, 0 < Z /\
        (forall x xv, observed b i p x xv -> sample_space f n xv -> U xv * exp (H xv) * Z = P xv * Q xv) /\
        integral_over f n (fun x => P x * Q x * exp (- H x)) Z).
Proof. exact (combined solve b i f n p q). Qed.
(** for the families without a carrier, the combination is the normalised product of the densities *)
Theorem C65_product solve b i f n p q s : no_carrier f = true -> proper b i f p -> proper b i f q -> dims_of p = Ok n -> dims_of q = Ok n -> same_fixed_leaf_at b i p q ->
  combine_evidence p q = Ok s -> in_domain s i ->
  forall P Q U, pdf_is (fam_methods solve) b i f n p P -> pdf_is (fam_methods solve) b i f n q Q -> pdf_is (fam_methods solve) b i f n s U ->
    exists Z, 0 < Z /\ integral_over f n (fun x => P x * Q x) Z /\
      forall x xv, observed b i p x xv -> sample_space f n xv -> U xv = P xv * Q xv / Z.
Proof. exact (combined_flat solve b i f n p q s). Qed.
(** scale_evidence c p = parameter_map(lambda x: c * x, p) *)
Theorem C65_scale solve b i f n p c : proper b i f p -> dims_of p = Ok n ->
  exists s, scale_evidence c p = Ok s /\ (closed_under_combination f = true -> 0 < c -> in_domain s i) /\
    (in_domain s i -> proper b i f s /\ dims_of s = Ok n /\
      forall P U H, pdf_is (fam_methods solve) b i f n p P -> pdf_is (fam_methods solve) b i f n s U -> carrier_is (fam_methods solve) b i f n p H -> exists Z, 0 < Z /\
        (forall x xv, observed b i p x xv -> sample_space f n xv -> U xv * exp ((c - 1) * H xv) * Z = Rpower (P xv) c) /\
        integral_over f n (fun x => Rpower (P x) c * exp (- ((c - 1) * H x))) Z).
Proof. exact (scaled solve b i f n p c). Qed.
(** joint distributions are combined and scaled sub-distribution by sub-distribution *)
Theorem C65_combine_joint b p q : well_formed p = true -> well_formed q = true -> nat_tree p = true -> same_skeleton p q -> tree_match b p q ->
  exists s, combine_evidence p q = Ok s /\ well_formed s = true /\ same_skeleton p s /\ tree_match b p s /\
    forall pth l, In (pth, l) (leaves [] p) -> exists m r, dist_at q pth = Some m /\ dist_at s pth = Some r /\ combine_evidence l m = Ok r.
Proof. exact (combined_tree b p q). Qed.
Theorem C65_scale_joint b c p : well_formed p = true -> nat_tree p = true -> shaped b p = true ->
  exists s, scale_evidence c p = Ok s /\ well_formed s = true /\ same_skeleton p s /\ tree_match b p s /\
    forall pth l, In (pth, l) (leaves [] p) -> exists r, dist_at s pth = Some r /\ scale_evidence c l = Ok r.
Proof. exact (scaled_tree b c p). Qed.
Example C65_example : proper [2]%nat [1]%nat Normal cx_n1 /\ proper [2]%nat [1]%nat Normal cx_n2 /\ dims_of cx_n1 = Ok 1%nat /\ dims_of cx_n2 = Ok 1%nat /\ same_fixed_leaf_at [2]%nat [1]%nat cx_n1 cx_n2 /\
  closed_under_combination Normal = true /\ no_carrier Normal = true /\
  exists s m h, combine_evidence cx_n1 cx_n2 = Ok s /\ dget (dparams s) "mean_times_precision" = Some m /\ dget (dparams s) "negative_half_precision" = Some h /\
    entry_c m [1]%nat = cofr (Fin 8) /\ entry_c h [1]%nat = cofr (Fin (-5/2)).
Proof. exact (conj cx_n1_proper (conj cx_n2_proper (conj eq_refl (conj eq_refl (conj cx_n_fixed (conj eq_refl (conj eq_refl cx_sum))))))). Qed.
Example C65_fixed_example : proper [] [] Weibull cx_w1 /\ proper [] [] Weibull cx_w2 /\ dims_of cx_w1 = Ok 1%nat /\ dims_of cx_w2 = Ok 1%nat /\ same_fixed_leaf_at [] [] cx_w1 cx_w2 /\ closed_under_combination Weibull = true.
Proof. exact (conj cx_w1_proper (conj cx_w2_proper (conj eq_refl (conj eq_refl (conj cx_w_fixed eq_refl))))). Qed.
(** not every family is closed: two distributions of ChiSquare whose sum is none *)
Example C65_not_closed_example : proper [] [] ChiSquare cx_c /\ exists s, combine_evidence cx_c cx_c = Ok s /\ ~ in_domain s [].
Proof. exact (conj cx_c_proper cx_not_closed). Qed.
Example C65_joint_example : well_formed ex_joint = true /\ well_formed ex_joint2 = true /\ nat_tree ex_joint = true /\ same_skeleton ex_joint ex_joint2 /\ tree_match [2]%nat ex_joint ex_joint2 /\ shaped [2]%nat ex_joint = true.
Proof. exact (conj eq_refl (conj eq_refl (conj eq_refl (conj ex_joint2_skel (conj ex_joint2_tm eq_refl))))). Qed.
