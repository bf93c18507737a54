(** Theorems for C01-C09, C11, C13-C15, C33, C39, C40: the generic structure code. *)
From Coq Require Import String List Bool Arith Reals Permutation.
From Verif Require Import Base XReal Tensor Support SupportSpec Dist DictFacts Iteration Structure Spec FlattenSpec AssembleFacts ParamFacts
  SupportRt FlattenThms Tools ToolThms MappingFacts Joint StructThms Laws Examples Refute1 StructProofs FlatObs.
Import ListNotations.
Local Open Scope list_scope.

(** ** C01 *)
Theorem C01_assemble_parameters b d : well_formed d = true -> shaped b d = true ->
  exists infos P r, create d = Ok infos /\ parameters d None = Ok P /\ assemble infos P = Ok r /\
    same_skeleton d r /\ (forall p, param_at r p = param_at d p) /\ (no_custom_minimizer d = true -> r = d).
Proof. exact (p_C01 b d). Qed.
Example C01_example : well_formed ex_joint = true /\ shaped [2] ex_joint = true /\ no_custom_minimizer ex_joint = true.
Proof. exact (conj ex_joint_wf (conj ex_joint_shaped ex_joint_default)). Qed.
(** the parameters may be given in any order, and the assembled object has exactly the given values *)
Theorem C01_assemble_any d infos P : well_formed d = true -> create d = Ok infos ->
  (forall p f, field_at d p = Some f -> exists v, dget P p = Some v) ->
  exists r, assemble infos P = Ok r /\ well_formed r = true /\ same_skeleton d r /\
    forall p f, field_at d p = Some f -> param_at r p = dget P p.
Proof. exact (p_C01_any d infos P). Qed.
Theorem C01_custom_minimizer_refuted : exists d infos P d', well_formed d = true /\ create d = Ok infos /\ parameters d None = Ok P /\
  assemble infos P = Ok d' /\ d' <> d.
Proof. exact (ex_intro _ ex_custom custom_lost). Qed.
Theorem C01_empty_joint_refuted : exists d infos P, create d = Ok infos /\ parameters d None = Ok P /\ assemble infos P = Err TypeError.
Proof. exact (ex_intro _ ex_empty empty_joint). Qed.

(** ** C02 *)
Theorem C02_parameters d fx : well_formed d = true ->
  exists P, parameters d fx = Ok P /\ NoDup (keys P) /\
    forall p v, In (p, v) P <-> param_at d p = Some v /\ exists f, field_at d p = Some f /\ fixed_ok fx f = true.
Proof. exact (p_C02 d fx). Qed.
Theorem C02_parameters_support d fx : well_formed d = true ->
  exists P, parameters_s d fx = Ok P /\ NoDup (keys P) /\
    forall p v s, In (p, (v, s)) P <-> param_at d p = Some v /\ exists f, field_at d p = Some f /\ fixed_ok fx f = true /\ fd_support f = s.
Proof. exact (p_C02s d fx). Qed.
Theorem C02_partition d all fx vr : well_formed d = true ->
  parameters d None = Ok all -> parameters d (Some true) = Ok fx -> parameters d (Some false) = Ok vr ->
  Permutation all (fx ++ vr) /\ (forall k, In k (keys fx) -> ~ In k (keys vr)).
Proof. exact (params_partition d all fx vr). Qed.
Example C02_example : well_formed ex_joint = true /\ (exists P, parameters ex_joint (Some true) = Ok P /\ length P = 1) /\
  (exists P, parameters ex_joint (Some false) = Ok P /\ length P = 5).
Proof. exact p_C02_ex. Qed.

(** ** C03 *)
Theorem C03_flatten_unflatten b d : well_formed d = true -> dist_vals false b d -> no_custom_minimizer d = true ->
  exists F t, flatten d false = Ok (F, t) /\ unflatten F t = Ok d.
Proof. exact (p_C03 b d). Qed.
Example C03_example : well_formed ex_joint = true /\ dist_vals false [2] ex_joint /\ no_custom_minimizer ex_joint = true.
Proof. exact (conj ex_joint_wf (conj (ex_joint_vals false) ex_joint_default)). Qed.
Theorem C03_custom_minimizer_refuted : exists d F t d', well_formed d = true /\ flatten d false = Ok (F, t) /\ unflatten F t = Ok d' /\ d' <> d.
Proof. exact (ex_intro _ ex_custom custom_lost_flatten). Qed.

(** ** C04 *)
Theorem C04_flatten_unflatten_mapped b d : well_formed d = true -> dist_vals true b d -> no_custom_minimizer d = true ->
  exists F t, flatten d true = Ok (F, t) /\ fin_tensor t /\ unflatten F t = Ok d.
Proof. exact (p_C04 b d). Qed.
Example C04_example : well_formed ex_joint = true /\ dist_vals true [2] ex_joint /\ no_custom_minimizer ex_joint = true.
Proof. exact (conj ex_joint_wf (conj (ex_joint_vals true) ex_joint_default)). Qed.
Example C04_example_complex : well_formed ex_complex = true /\ dist_vals true [1] ex_complex /\ no_custom_minimizer ex_complex = true.
Proof. exact (conj eq_refl (conj (ex_complex_vals true) eq_refl)). Qed.
(** a negative rate between minus the float epsilon and zero: inside the documented support, flattened to NaN *)
Theorem C04_near_bound_refuted : exists v F t, (v < 0)%R /\
  flatten (Dist (NP Exponential) DefaultMinimizer [("negative_rate"%string, vec [v] [] eq_refl)] []) true = Ok (F, t) /\ tget t [0] = NaN.
Proof. exact p_near. Qed.
(** a complex normal distribution with mean zero: flattened to NaN *)
Theorem C04_complex_zero_refuted : exists F t,
  flatten (Dist (NP ComplexUnitNormal) DefaultMinimizer [("two_mean_conjugate"%string, cvec [(0, 0)%R] [] eq_refl)] []) true = Ok (F, t) /\ tget t [0] = NaN.
Proof. exact complex_zero. Qed.

(** ** C05 *)
Theorem C05_flat_length m b d : well_formed d = true -> dist_vals m b d ->
  exists F t, flatten d m = Ok (F, t) /\ shp t = b ++ [flat_size d].
Proof. exact (p_C05 m b d). Qed.
Theorem C05_wrong_length m b d t n infos fixed : well_formed d = true -> create d = Ok infos -> parameters d (Some true) = Ok fixed ->
  shp t = b ++ [n] -> n <> flat_size d -> unflatten (Flattener infos fixed m) t = Err ValueError.
Proof. exact (unflatten_wrong_length m b d t n infos fixed). Qed.
Example C05_example : well_formed ex_joint = true /\ (exists infos, create ex_joint = Ok infos) /\ (exists fixed, parameters ex_joint (Some true) = Ok fixed) /\
  dist_vals true [2] ex_joint /\ flat_size ex_joint = 7.
Proof. exact p_C05_ex. Qed.

(** ** C06 *)
Theorem C06_unflatten_in_support b d t infos fixed : well_formed d = true -> create d = Ok infos -> parameters d (Some true) = Ok fixed ->
  plane_point true b d t ->
  exists d', unflatten (Flattener infos fixed true) t = Ok d' /\ well_formed d' = true /\ dist_vals true b d' /\
    flatten d' true = Ok (Flattener infos fixed true, t).
Proof. exact (p_C06 b d t infos fixed). Qed.
(** the hypotheses are met by the image of any in-support distribution, e.g. that of the nested joint *)
Example C06_example : exists F t, flatten ex_joint true = Ok (F, t) /\ plane_point true [2] ex_joint t.
Proof. exact p_C06_ex. Qed.
Theorem C06_complex_origin_refuted : exists d F t t0 d' v, flatten d true = Ok (F, t) /\ shp t0 = [2] /\ (forall i, inb [2] i = true -> tget t0 i = Fin 0) /\
  unflatten F t0 = Ok d' /\ dget (dparams d') "two_mean_conjugate"%string = Some (CA v) /\ xre (tget v []) = NaN.
Proof. exact (ex_intro _ ex_czero complex_zero_plane). Qed.
Theorem C06_semidefinite_refuted : exists d F t t0 d' v, flatten d true = Ok (F, t) /\ shp t0 = [2] /\ fin_tensor t0 /\
  unflatten F t0 = Ok d' /\ dget (dparams d') "negative_half_precision"%string = Some (RA v) /\ tget v [0; 0] = Fin 1 /\
  (exists r h p, dget (class_support (NP MultivariateNormal) None) "negative_half_precision"%string = Some (SymS r h p true)).
Proof. exact (ex_intro _ ex_mvn semidefinite). Qed.

(** ** C07 *)
Theorem C07_unflatten_flatten (V : Type) (kvs : list (string * nested V)) : nested_ok (Node kvs) = true ->
  forallb (fun kv : string * nested V => no_empty (snd kv)) kvs = true ->
  unflatten_mapping (flatten_mapping kvs) = Ok kvs.
Proof. exact (unflatten_flatten kvs). Qed.
Theorem C07_flatten_unflatten (V : Type) (d : dict (list string) V) : prefix_free (keys d) = true ->
  exists kvs, unflatten_mapping d = Ok kvs /\ nested_ok (Node kvs) = true /\
    (forall q, nested_get (Node kvs) q = dget d q) /\ (forall q, dget (flatten_mapping kvs) q = dget d q).
Proof. exact (flatten_unflatten d). Qed.
Theorem C07_flatten_get (V : Type) (kvs : list (string * nested V)) p : nested_ok (Node kvs) = true ->
  dget (flatten_mapping kvs) p = nested_get (Node kvs) p.
Proof. exact (flatten_mapping_get kvs p). Qed.
Example C07_example : let m := [("a", Node [("b", Leaf 1); ("c", Node [("d", Leaf 2)])]); ("e", Leaf 3)]%string in
  nested_ok (Node m) = true /\ forallb (fun kv : string * nested nat => no_empty (snd kv)) m = true /\ prefix_free (keys (flatten_mapping m)) = true.
Proof. exact (conj eq_refl (conj eq_refl eq_refl)). Qed.
Theorem C07_empty_refuted : exists kvs : list (string * nested nat), nested_ok (Node kvs) = true /\ unflatten_mapping (flatten_mapping kvs) = Ok [] /\ kvs <> [].
Proof. exact empty_submapping. Qed.
Theorem C07_prefix_refuted : unflatten_mapping [(["a"], 1); (["a"; "b"], 2)]%string = Err AttributeErr /\
  exists kvs, unflatten_mapping [(["a"; "b"], 2); (["a"], 1)]%string = Ok kvs /\ flatten_mapping kvs = [(["a"], 1)]%string.
Proof. exact path_conflict. Qed.

(** ** C08 *)
Theorem C08_join_mappings (K V : Type) (E : EqDec K) (fm : dict string (dict K V)) k n v :
  NoDup (keys fm) -> (forall m, In m (values fm) -> NoDup (keys m)) ->
  (exists inner, dget (join_mappings fm) k = Some inner /\ dget inner n = Some v) <-> (exists m, dget fm n = Some m /\ dget m k = Some v).
Proof. exact (join_get fm k n v). Qed.
Theorem C08_join_order (K V : Type) (E : EqDec K) (fm : dict string (dict K V)) :
  keys (join_mappings fm) = firsts (flat_map (fun nm => keys (snd nm)) fm).
Proof. exact (keys_join_firsts fm). Qed.
Example C08_example : let fm := [("x", [("a", 1); ("b", 2)]); ("y", [("c", 3); ("a", 4)])]%string in
  NoDup (keys fm) /\ (forall m, In m (values fm) -> NoDup (keys m)) /\ keys (join_mappings fm) = ["a"; "b"; "c"]%string.
Proof. exact p_C08_ex. Qed.

(** ** C09 *)
Theorem C09_parameter_map op x ys infos : well_formed x = true -> create x = Ok infos ->
  (forall y, In y ys -> well_formed y = true /\ same_skeleton x y) ->
  (forall p f v ws, field_at x p = Some f -> fd_fixed f = false -> param_at x p = Some v -> Forall2 (fun y w => param_at y p = Some w) ys ws ->
     exists u, op (v :: ws) = Ok u) ->
  exists r, parameter_map op x ys = Ok r /\ well_formed r = true /\ no_custom_minimizer r = true /\ same_skeleton x r /\
    forall p f v ws, field_at x p = Some f -> param_at x p = Some v -> Forall2 (fun y w => param_at y p = Some w) ys ws ->
      if fd_fixed f then param_at r p = Some v else exists u, op (v :: ws) = Ok u /\ param_at r p = Some u.
Proof. exact (parameter_map_spec op x ys infos). Qed.
Theorem C09_identity x infos : well_formed x = true -> no_custom_minimizer x = true -> create x = Ok infos -> parameter_map (unary (fun a => a)) x [] = Ok x.
Proof. exact (p_C09_id x infos). Qed.
Theorem C09_composition f g x infos r infos' : well_formed x = true -> create x = Ok infos ->
  parameter_map (unary g) x [] = Ok r -> create r = Ok infos' ->
  parameter_map (unary f) r [] = parameter_map (unary (fun a => f (g a))) x [].
Proof. exact (parameter_map_comp f g x infos r infos'). Qed.
Theorem C09_count op x ys P Q y : well_formed x = true -> (forall y, In y ys -> well_formed y = true) -> In y ys ->
  parameters x (Some false) = Ok P -> parameters y (Some false) = Ok Q -> length P <> length Q -> parameter_map op x ys = Err ValueError.
Proof. exact (parameter_map_count op x ys P Q y). Qed.
Example C09_example : exists infos, create ex_joint = Ok infos /\ well_formed ex_joint = true /\ same_skeleton ex_joint ex_joint /\
  exists r infos', parameter_map (unary (fun a => a)) ex_joint [] = Ok r /\ create r = Ok infos'.
Proof. exact p_C09_ex. Qed.

(** ** C11: false of the code: zip() pairs by position *)
Theorem C11_dot_product_order_refuted : exists x y y' t t',
  sub_distributions y' = rev (sub_distributions y) /\ dcls y' = dcls y /\
  parameter_dot_product x y = Ok t /\ parameter_dot_product x y' = Ok t' /\ tget t [] = Fin 13 /\ tget t' [] = Fin 11.
Proof. exact p_C11_dot. Qed.
Theorem C11_parameter_map_order_refuted : exists x y y' r r' v v',
  sub_distributions y' = rev (sub_distributions y) /\ dcls y' = dcls y /\
  parameter_map sub_op x [y] = Ok r /\ parameter_map sub_op x [y'] = Ok r' /\
  param_at r ["a"; "mean"]%string = Some (RA v) /\ param_at r' ["a"; "mean"]%string = Some (RA v') /\ tget v [] = Fin (-2) /\ tget v' [] = Fin (-4).
Proof. exact p_C11_map. Qed.

(** ** C13 *)
Theorem C13_reinterpret p q infos P Q : well_formed p = true -> create p = Ok infos ->
  parameters p None = Ok P -> parameters q None = Ok Q -> length P = length Q ->
  exists r R, reinterpret infos q = Ok r /\ well_formed r = true /\ no_custom_minimizer r = true /\ same_skeleton p r /\
    parameters r None = Ok R /\ keys R = keys P /\ values R = values Q.
Proof. exact (reinterpret_ok p q infos P Q). Qed.
Theorem C13_reinterpret_self p infos : well_formed p = true -> no_custom_minimizer p = true -> create p = Ok infos -> reinterpret infos p = Ok p.
Proof. exact (reinterpret_self p infos). Qed.
Theorem C13_reinterpret_count p q infos P Q : well_formed p = true -> create p = Ok infos ->
  parameters p None = Ok P -> parameters q None = Ok Q -> length P <> length Q -> reinterpret infos q = Err ValueError.
Proof. exact (reinterpret_count p q infos P Q). Qed.
Example C13_example : exists infos P, create ex_joint = Ok infos /\ parameters ex_joint None = Ok P /\ length P = 6.
Proof. exact p_C13_ex. Qed.

(** ** C14 *)
Theorem C14_general_sample (K : Type) (split : K -> nat -> list K) (sample : dist -> K -> option (list nat) -> result arr) d key sh vs :
  well_formed d = true -> is_joint (dcls d) = true ->
  let n := length (samplable_leaves d) in
  length (split key n) = n ->
  Forall2 (fun pk v => fst (fst pk) = fst v /\ sample (snd (fst pk)) (snd pk) sh = Ok (snd v))
          (combine (samplable_leaves d) (split key n)) vs ->
  exists r, general_sample split sample d key sh = Ok r /\ nested_ok (Node r) = true /\ flatten_mapping r = vs.
Proof. exact (general_sample_ok split sample d key sh vs). Qed.
(** hence: with a splitter that returns distinct keys, two leaves never get the same key *)
Theorem C14_distinct_keys (K : Type) (split : K -> nat -> list K) d key i j k p q :
  let ls := samplable_leaves d in
  length (split key (length ls)) = length ls -> NoDup (split key (length ls)) ->
  nth_error (combine ls (split key (length ls))) i = Some (p, k) -> nth_error (combine ls (split key (length ls))) j = Some (q, k) -> i = j.
Proof. exact (p_C14_distinct K split d key i j k p q). Qed.
Example C14_example : length (samplable_leaves ex_joint) = 3 /\ well_formed ex_joint = true /\ is_joint (dcls ex_joint) = true.
Proof. exact (conj eq_refl (conj eq_refl eq_refl)). Qed.
(** a leaf that cannot be sampled is silently missing from the sample *)
Theorem C14_missing_leaf_refuted : exists d, well_formed d = true /\ is_joint (dcls d) = true /\ length (leaves [] d) = 2 /\ length (samplable_leaves d) = 1.
Proof. exact p_C14_missing. Qed.

(** ** C15 *)
Theorem C15_flat_dict d : well_formed d = true ->
  exists D, flat_dict_of_parameters d = Ok D /\ NoDup (keys D) /\ forall p q, In (p, q) D <-> dist_at d p = Some q /\ is_joint (dcls q) = false.
Proof. exact (p_C15 d). Qed.
(** flat_dict_of_observations lists every array of a nested mapping of observations under its path, and an array alone under the empty path *)
Theorem C15_flat_dict_of_observations x : nested_ok x = true ->
  NoDup (keys (flat_dict_of_observations x)) /\ forall p, dget (flat_dict_of_observations x) p = nested_get x p.
Proof. exact (p_C15_obs x). Qed.
Example C15_observations_example a b : nested_ok (Node [("x", Node [("n", Leaf a)]); ("m", Leaf b)]%string) = true /\
  keys (flat_dict_of_observations (Node [("x", Node [("n", Leaf a)]); ("m", Leaf b)]%string)) = [["x"; "n"]; ["m"]]%string.
Proof. exact (conj eq_refl eq_refl). Qed.
Example C15_example : exists D, flat_dict_of_parameters ex_joint = Ok D /\ keys D = [["x"; "n"]; ["x"; "g"]; ["m"]]%string.
Proof. exact p_C15_ex. Qed.

(** ** C33 *)
Theorem C33_support_round_trip s m b n x : supp_vals s m b n x -> (forall r, s <> SimplexS r) ->
  exists t, supp_flattened s m x = Ok t /\ shp t = b ++ [supp_num_elements s n] /\ supp_unflattened s t n m = Ok x.
Proof. exact (supp_rt s m b n x). Qed.
Theorem C33_plane_round_trip s m b n t : supp_plane s m b n t ->
  exists x, supp_unflattened s t n m = Ok x /\ supp_vals s m b n x /\ supp_flattened s m x = Ok t.
Proof. exact (supp_rt_plane s m b n t). Qed.
Example C33_example : exists x, supp_vals (SymS real_field false true false) true [2] 3 x.
Proof. exact p_C33_ex. Qed.
Theorem C33_simplex_refuted r m b n (x : arr) t : ashape x = b ++ [n - 1] -> 1 <= n -> supp_flattened (SimplexS r) m x = Ok t -> ring_num_elements r 1 = 1 ->
  supp_unflattened (SimplexS r) t n m = Err AssertionError.
Proof. exact (simplex_rt r m b n x t). Qed.

(** ** C39 *)
Theorem C39_getitem d b i infos : well_formed d = true -> create d = Ok infos -> shaped b d = true ->
  inb (firstn (length i) b) i = true ->
  exists r, getitem d i = Ok r /\ well_formed r = true /\ no_custom_minimizer r = true /\ same_skeleton d r /\ shaped (skipn (length i) b) r = true /\
    forall p v, param_at d p = Some v -> exists w, param_at r p = Some w /\ arr_getitem i v = Ok w.
Proof. exact (getitem_shaped d b i infos). Qed.
Theorem C39_shape d b i infos r : well_formed d = true -> create d = Ok infos -> shaped b d = true ->
  inb (firstn (length i) b) i = true -> not_gamma_vp d -> getitem d i = Ok r ->
  dshape d = Ok b /\ dshape r = Ok (skipn (length i) b).
Proof. exact (p_C39_shape d b i infos r). Qed.
Theorem C39_getitem_getitem d b i j infos : well_formed d = true -> create d = Ok infos -> shaped b d = true ->
  inb (firstn (length (i ++ j)) b) (i ++ j) = true ->
  exists r r', getitem d i = Ok r /\ getitem r j = Ok r' /\ getitem d (i ++ j) = Ok r'.
Proof. exact (p_C39_twice d b i j infos). Qed.
Example C39_example : exists infos, create ex_joint = Ok infos /\ inb (firstn (length [1]) [2]) [1] = true.
Proof. exact p_C39_ex. Qed.
Theorem C39_gamma_vp_shape_refuted : exists d, well_formed d = true /\ shaped [2] d = true /\ dshape d = Ok [].
Proof. exact gamma_vp_shape. Qed.

(** ** C40 *)
Theorem C40_unflatten m b d t infos fixed : well_formed d = true -> create d = Ok infos -> parameters d (Some true) = Ok fixed ->
  shp t = b ++ [flat_size d] ->
  exists d', unflatten (Flattener infos fixed m) t = Ok d' /\ parameters d' (Some true) = Ok fixed.
Proof. exact (p_C40_unflatten m b d t infos fixed). Qed.
Theorem C40_parameter_map op x ys r infos fixed : well_formed x = true -> create x = Ok infos ->
  (forall y, In y ys -> well_formed y = true /\ same_skeleton x y) -> parameters x (Some true) = Ok fixed ->
  parameter_map op x ys = Ok r -> parameters r (Some true) = Ok fixed.
Proof. exact (p_C40_map op x ys r infos fixed). Qed.
