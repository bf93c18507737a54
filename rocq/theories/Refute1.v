(** Counterexamples: properties that are false of the code as it is, proved on the model. *)
From Coq Require Import String List Bool Arith Reals Lra.
From Verif Require Import Base XReal Tensor TensorFacts Support SupportSpec PlaneFacts SupportFacts Dist Iteration Structure Spec FlattenSpec Tools Joint Examples.
Import ListNotations.
Local Open Scope string_scope.

Definition sc (r : R) : arr := vec [r] [] eq_refl.
Definition csc (a b : R) : arr := cvec [(a, b)] [] eq_refl.

(** C01: a minimizer given by the user is lost *)
Definition ex_custom : dist := Dist (EP Gamma) (CustomMinimizer 7) [("mean", sc 1); ("mean_log", sc (-1))] [].
Lemma custom_lost : exists infos P d', well_formed ex_custom = true /\ create ex_custom = Ok infos /\ parameters ex_custom None = Ok P /\
  assemble infos P = Ok d' /\ d' <> ex_custom.
Proof. eexists _, _, _. split; [reflexivity|]. split; [reflexivity|]. split; [reflexivity|]. split; [reflexivity|]. discriminate. Qed.
Lemma custom_lost_flatten : exists F t d', well_formed ex_custom = true /\ flatten ex_custom false = Ok (F, t) /\ unflatten F t = Ok d' /\ d' <> ex_custom.
Proof. eexists _, _, _. split; [reflexivity|]. split; [reflexivity|]. split; [reflexivity|]. discriminate. Qed.
(** C01: a joint distribution without sub-distributions cannot be reassembled *)
Definition ex_empty : dist := Dist JointDistributionN DefaultMinimizer [] [].
Lemma empty_joint : exists infos P, create ex_empty = Ok infos /\ parameters ex_empty None = Ok P /\ assemble infos P = Err TypeError.
Proof. eexists _, _. split; [reflexivity|]. split; reflexivity. Qed.

(** C04: a negative rate closer to zero than the float epsilon flattens to NaN *)
Definition ex_near : dist := Dist (NP Exponential) DefaultMinimizer [("negative_rate", sc (- feps / 2))] [].
Lemma near_bound : (- feps / 2 < 0)%R /\ exists F t, flatten ex_near true = Ok (F, t) /\ tget t [0] = NaN.
Proof.
  pose proof feps_small. split; [lra|]. eexists _, _. split; [reflexivity|].
  change (real_to_plane None (Some (adj_max 0)) (Fin (- feps / 2)) = NaN). rewrite adj_max_0. cbn.
  assert (Hlt : (exp (- feps + - (- feps / 2)) + -1 < 0)%R). { pose proof (exp_increasing (- feps + - (- feps / 2)) 0). rewrite exp_0 in *. lra. }
  destruct (Rlt_dec 0 _); [exfalso; lra|]. destruct (Req_EM_T _ 0); [exfalso; lra|]. reflexivity.
Qed.
(** C04: a complex normal with mean zero flattens to NaN *)
Definition ex_czero : dist := Dist (NP ComplexUnitNormal) DefaultMinimizer [("two_mean_conjugate", csc 0 0)] [].
Lemma complex_zero : exists F t, flatten ex_czero true = Ok (F, t) /\ tget t [0] = NaN.
Proof.
  eexists _, _. split; [reflexivity|]. change (xre (c_to (Fin 0) None (cfin 0 0)) = NaN). apply c_to_zero.
Qed.
(** C06: and the plane's origin unflattens to NaN *)
Lemma complex_zero_plane : exists F t t0 d' v, flatten ex_czero true = Ok (F, t) /\ shp t0 = [2] /\ (forall i, inb [2] i = true -> tget t0 i = Fin 0) /\
  unflatten F t0 = Ok d' /\ dget (dparams d') "two_mean_conjugate" = Some (CA v) /\ xre (tget v []) = NaN.
Proof.
  eexists _, _, (@mkT xr [2] [Fin 0; Fin 0] eq_refl), _, _. split; [reflexivity|]. split; [reflexivity|]. split.
  { intros i Hi. apply in_indices in Hi. cbn in Hi. destruct Hi as [<-|[<-|[]]]; reflexivity. }
  split; [reflexivity|]. split; [reflexivity|].
  cbn. replace (0 * 0 + 0 * 0)%R with 0%R by lra. destruct (Rle_dec 0 0); [|exfalso; lra]. rewrite sqrt_0. cbn.
  destruct (Req_EM_T 0 0); [|exfalso; lra]. destruct (Req_EM_T _ 0); [reflexivity|exfalso; lra].
Qed.
(** C06: the symmetric matrix read from the plane need not be negative semidefinite although its support is declared so *)
Definition ex_mvn : dist := Dist (NP MultivariateNormal) DefaultMinimizer
  [("mean_times_precision", vec [0]%R [1] eq_refl); ("negative_half_precision", vec [-1]%R [1; 1] eq_refl)] [].
Lemma semidefinite : exists F t t0 d' v, flatten ex_mvn true = Ok (F, t) /\ shp t0 = [2] /\ fin_tensor t0 /\
  unflatten F t0 = Ok d' /\ dget (dparams d') "negative_half_precision" = Some (RA v) /\ tget v [0; 0] = Fin 1 /\
  (exists r h p, dget (class_support (NP MultivariateNormal) None) "negative_half_precision" = Some (SymS r h p true)).
Proof.
  eexists _, _, (@mkT xr [2] [Fin 0; Fin 1] eq_refl), _, _. split; [reflexivity|]. split; [reflexivity|]. split.
  { intros i Hi. apply in_indices in Hi. cbn in Hi. destruct Hi as [<-|[<-|[]]]; eexists; reflexivity. }
  split; [reflexivity|]. split; [reflexivity|]. split; [reflexivity|]. eexists _, _, _. reflexivity.
Qed.
(** C33: no point of a simplex survives the round trip *)
Lemma simplex_rt r m b n (x : arr) t : ashape x = (b ++ [n - 1])%list -> 1 <= n -> supp_flattened (SimplexS r) m x = Ok t -> ring_num_elements r 1 = 1 ->
  supp_unflattened (SimplexS r) t n m = Err AssertionError.
Proof.
  intros Hs Hn Hf Hr. cbn in Hf.
  assert (Ht : shp t = (b ++ [n - 1])%list).
  { destruct r; cbn in *; try discriminate Hr; destruct x as [x|x]; cbn in *; try discriminate; injection Hf as <-; try destruct m; exact Hs. }
  assert (Hx : exists y, ring_unflattened r m t = Ok y /\ ashape y = (b ++ [n - 1])%list).
  { destruct r; cbn in *; try discriminate Hr; eexists; (split; [reflexivity|]); try destruct m; exact Ht. }
  destruct Hx as (y & Hy & Hsy). cbn [supp_unflattened]. rewrite Hy. cbn [bind]. rewrite Hsy. unfold last_dim. rewrite rev_app_distr. cbn.
  destruct (Nat.eqb_spec (n - 1) n); [Lia.lia|reflexivity].
Qed.
(** C11: dot products of joints whose names come in different orders pair different sub-distributions *)
Definition un (v : R) : dist := Dist (NP UnitNormal) DefaultMinimizer [("mean", sc v)] [].
Definition ue (v : R) : dist := Dist (EP UnitNormal) DefaultMinimizer [("mean", sc v)] [].
Definition joint_n (l : list (string * dist)) : dist := Dist JointDistributionN DefaultMinimizer [] l.
Definition joint_e (l : list (string * dist)) : dist := Dist JointDistributionE DefaultMinimizer [] l.
Lemma mispaired : exists t t',
  parameter_dot_product (joint_n [("a", un 1); ("b", un 2)]) (joint_e [("a", ue 3); ("b", ue 5)]) = Ok t /\
  parameter_dot_product (joint_n [("a", un 1); ("b", un 2)]) (joint_e [("b", ue 5); ("a", ue 3)]) = Ok t' /\
  tget t [] = Fin 13 /\ tget t' [] = Fin 11.
Proof. eexists _, _. split; [reflexivity|]. split; [reflexivity|]. cbn. split; f_equal; lra. Qed.
Lemma mispaired_map : exists r r',
  parameter_map sub_op (joint_n [("a", un 1); ("b", un 2)]) [joint_n [("a", un 3); ("b", un 5)]] = Ok r /\
  parameter_map sub_op (joint_n [("a", un 1); ("b", un 2)]) [joint_n [("b", un 5); ("a", un 3)]] = Ok r' /\
  (exists v v', param_at r ["a"; "mean"] = Some (RA v) /\ param_at r' ["a"; "mean"] = Some (RA v') /\ tget v [] = Fin (-2) /\ tget v' [] = Fin (-4)).
Proof.
  eexists _, _. split; [reflexivity|]. split; [reflexivity|]. eexists _, _. split; [reflexivity|]. split; [reflexivity|]. cbn. split; f_equal; lra.
Qed.
(** C07: an empty sub-mapping is lost; a path that extends another one is an error; a path that is a prefix of another one replaces it *)
Lemma empty_submapping : exists kvs : list (string * nested nat), nested_ok (Node kvs) = true /\ unflatten_mapping (flatten_mapping kvs) = Ok [] /\ kvs <> [].
Proof. exists [("a", Node [])]. split; [reflexivity|]. split; [reflexivity|]. discriminate. Qed.
Lemma path_conflict : unflatten_mapping [(["a"], 1); (["a"; "b"], 2)] = Err AttributeErr /\
  exists kvs, unflatten_mapping [(["a"; "b"], 2); (["a"], 1)] = Ok kvs /\ flatten_mapping kvs = [(["a"], 1)].
Proof. split; [reflexivity|]. eexists. split; reflexivity. Qed.
(** C39: the shape of a GammaVP drops the last batch axis *)
Lemma gamma_vp_shape : exists d, well_formed d = true /\ shaped [2] d = true /\ dshape d = Ok [].
Proof.
  exists (Dist GammaVP DefaultMinimizer [("mean", vec [1; 2]%R [2] eq_refl); ("variance", vec [1; 2]%R [2] eq_refl)] []).
  split; [reflexivity|]. split; reflexivity.
Qed.
