(** Theorems for C34 (clamp) and C35 (generate). *)
From Coq Require Import String List Bool Arith Reals ZArith.
From Verif Require Import Base XReal Tensor Support SupportSpec ClampThms ClampEx Dist Iteration Structure Spec PointSpec Generate GenSpec GenFacts GenThms Examples GenEx.
Import ListNotations.
Local Open Scope R_scope.

(** Scalars, vectors, square and symmetric matrices over a real field with any bounds: the clamped array is in the support
    and entries that are eps away from the bounds are unchanged.  Missing: the other supports (refuted below). *)
Theorem C34_clamp_real_partial s mn mx sc b n t : real_support s mn mx sc -> roomy mn mx -> shp t = (b ++ supp_shape s n)%list -> finite_entries t ->
  (forall r h p q, s = SymS r h p q -> arr_symmetric h b n (RA t)) ->
  exists t', supp_clamp s (RA t) = Ok (RA t') /\ supp_vals s true b n (RA t') /\ forall i v, inb (shp t) i = true -> tget t i = Fin v -> clear_of mn mx v -> tget t' i = Fin v.
Proof. exact (clamp_real s mn mx sc b n t). Qed.
Example C34_real_example : real_support (VectorS (RealF (Some 0) (Some 1) 1)) (Some 0) (Some 1) 1 /\ roomy (Some 0) (Some 1) /\
  shp ex_clamp = ([2] ++ supp_shape (VectorS (RealF (Some 0%R) (Some 1%R) 1%R)) 2)%nat%list /\ finite_entries ex_clamp.
Proof. exact ex_clamp_ok. Qed.
(** SimplexSupport: every clamped entry is in [eps, 1 - eps], and a point that is eps away from the boundary is unchanged.
    Missing: that the entries sum to less than one (refuted below). *)
Theorem C34_clamp_simplex_partial r b n t : shp t = (b ++ [n])%list -> finite_entries t ->
  exists t', supp_clamp (SimplexS r) (RA t) = Ok (RA t') /\ shp t' = shp t /\
    (forall i, inb (shp t) i = true -> exists v, tget t' i = Fin v /\ feps <= v <= 1 - feps) /\
    (forall j, inb b j = true -> (forall k, (k < n)%nat -> exists v, tget t (j ++ [k])%list = Fin v /\ feps <= v <= 1 - feps) ->
       (exists s, xsum (map (fun k => tget t (j ++ [k])%list) (seq 0 n)) = Fin s /\ s <= 1 - feps) -> forall k, (k < n)%nat -> tget t' (j ++ [k])%list = tget t (j ++ [k])%list).
Proof. exact (clamp_simplex r b n t). Qed.
Example C34_simplex_example : shp ex_clamp = ([2] ++ [2])%nat%list /\ finite_entries ex_clamp.
Proof. split; [reflexivity|apply ex_clamp_ok]. Qed.

(** The clamped value of the finite vector (1, 0) is not in the simplex: its entries sum to one. *)
Theorem C34_clamp_simplex_refuted r : exists t t' a c, shp t = [2]%nat /\ finite_entries t /\ supp_clamp (SimplexS r) (RA t) = Ok (RA t') /\
  tget t' [0]%nat = Fin a /\ tget t' [1]%nat = Fin c /\ ~ a + c < 1.
Proof. exact (clamp_simplex_bad r). Qed.
(** Clamping does nothing for complex numbers of bounded modulus, bounded integers and the bounded disk. *)
Theorem C34_clamp_complex_refuted : exists t, finite_entries (tmap xre t) /\ finite_entries (tmap xim t) /\
  supp_clamp (ScalarS (ComplexF (BFloat 0) (Some (BFloat 1)))) (CA t) = Ok (CA t) /\ ~ supp_vals (ScalarS (ComplexF (BFloat 0) (Some (BFloat 1)))) true [] 1 (CA t).
Proof. exact clamp_complex_bad. Qed.
Theorem C34_clamp_integer_refuted : exists t, finite_entries t /\ supp_clamp (ScalarS (IntR (Some 1%Z) None)) (RA t) = Ok (RA t) /\ tget t [] = Fin (-3).
Proof. exact clamp_int_bad. Qed.
Theorem C34_clamp_disk_refuted : exists t, finite_entries t /\ supp_clamp (CircS 1) (RA t) = Ok (RA t) /\ ~ supp_vals (CircS 1) true [] 1 (RA t).
Proof. exact clamp_circ_bad. Qed.
(** A matrix that is not positive semidefinite is not changed by the positive semidefinite support. *)
Theorem C34_clamp_psd_refuted : exists t, finite_entries t /\ shp t = [1; 1]%nat /\
  supp_clamp (SymS real_field false true false) (RA t) = Ok (RA t) /\ tget t [0; 0]%nat = Fin (-1).
Proof. exact clamp_psd_bad. Qed.

(** * C35: generation *)
(** A support of scalars, vectors or symmetric / Hermitian matrices with usable bounds: whatever the generator draws, generate
    returns an array of the requested shape whose entries are in the support (semidefinite when declared so).
    Missing: the other supports (refuted below). *)
Theorem C35_generate_partial g s b n k : rng_ok g -> normal_nonzero g -> supp_ready s b -> exists k' x, supp_generate g s k b n = Ok (k', x) /\ supp_member s b n x.
Proof. intros Hg Hz. exact (supp_gen g Hg Hz s b n k). Qed.
Example C35_generate_example : rng_ok (const_rng 1 (1/2) (-5)) /\ normal_nonzero (const_rng 1 (1/2) (-5)) /\ supp_ready (SymS real_field false true false) [2]%nat.
Proof. split; [apply ex_gen_ok|split; [apply ex_gen_ok|now left]]. Qed.
(** the bounds kept by a real field are strictly inside the declared ones *)
Theorem C35_bounds_partial mn mx v : within (option_map adj_min mn) (option_map adj_max mx) v -> inside mn mx v.
Proof. exact (within_inside mn mx v). Qed.
Example C35_bounds_example : within (option_map adj_min (Some 0)) (option_map adj_max (Some 1)) (1/2).
Proof. exact ex_within. Qed.
(** Structure.generate_random: a distribution of the given structure and batch shape, every parameter in its support
    (as adjusted by the parameters generated before it).  Missing: von Mises-Fisher expectation parameters (refuted below). *)
Theorem C35_generate_random_partial g b k d infos : rng_ok g -> normal_nonzero g -> well_formed d = true -> create d = Ok infos ->
  (forall p q, In (p, q) (leaves [] d) -> dcls q <> EP VonMisesFisher) ->
  exists r, generate_random g infos k b = Ok r /\ well_formed r = true /\ same_skeleton d r /\
    (forall p q, In (p, q) (leaves [] r) -> leaf_member b q) /\
    (forall p q q', dist_at d p = Some q -> dist_at r p = Some q' -> dims_of q' = dims_of q).
Proof. exact (generate_ok g b k d infos). Qed.
Example C35_generate_random_example : rng_ok (const_rng 1 (1/2) (-5)) /\ normal_nonzero (const_rng 1 (1/2) (-5)) /\ well_formed ex_joint = true /\ (exists infos, create ex_joint = Ok infos) /\
  forall p q, In (p, q) (leaves [] ex_joint) -> dcls q <> EP VonMisesFisher.
Proof. exact ex_gen_ok. Qed.

(** Integers with a maximum: generate multiplies by ten and leaves the bounds. *)
Theorem C35_generate_integer_refuted : exists g k t z, rng_ok g /\ normal_nonzero g /\ supp_generate g (ScalarS (IntR (Some 0%Z) (Some 3%Z))) 0 [] 1 = Ok (k, RA t) /\ tget t [] = Fin (IZR z) /\ ~ (z <= 3)%Z.
Proof. exact gen_int_bad. Qed.
(** The disk of von Mises-Fisher means: generate draws from the whole space. *)
Theorem C35_generate_disk_refuted : exists g k x, rng_ok g /\ normal_nonzero g /\ supp_generate g (CircS 1) 0 [] 1 = Ok (k, x) /\ ~ supp_vals (CircS 1) true [] 1 x.
Proof. exact gen_circ_bad. Qed.
(** Complex numbers: a zero draw gives NaN. *)
Theorem C35_generate_zero_refuted : exists g k t, rng_ok g /\ supp_generate g (ScalarS complex_field) 0 [] 1 = Ok (k, CA t) /\ xre (tget t []) = NaN.
Proof. exact gen_zero_bad. Qed.
(** The simplex and square matrices cannot be generated at all. *)
Theorem C35_generate_missing_refuted g s k b n : (exists r, s = SimplexS r \/ s = SquareS r) -> supp_generate g s k b n = Err NotImplementedErr.
Proof. exact (gen_none g s k b n). Qed.
(** MultivariateDiagonalNormalVP declares its variance as any real, so a generated object can have a negative variance. *)
Theorem C35_generate_variance_refuted : exists g infos r t v, rng_ok g /\ normal_nonzero g /\ create ex_vp = Ok infos /\ generate_random g infos 0 [] = Ok r /\ param_at r ["variance"%string] = Some (RA t) /\ tget t [0]%nat = Fin v /\ v < 0.
Proof. exact gen_vp_bad. Qed.
