(** Small derivations behind the statements of PropStruct.v. *)
From Coq Require Import FinFun String List Bool Arith Lia Reals Lra Permutation.
From Verif Require Import Base XReal Tensor TensorFacts Support SupportSpec Dist DictFacts Iteration Structure Spec FlattenSpec StructFacts AssembleFacts
  ParamFacts ReplaceFacts SupportRt FlattenThms Tools ToolThms MappingFacts Joint StructThms Laws SumSpec MapFacts Examples Refute1.
Import ListNotations.
Local Open Scope list_scope.

Lemma p_C01 b d : well_formed d = true -> shaped b d = true ->
  exists infos P r, create d = Ok infos /\ parameters d None = Ok P /\ assemble infos P = Ok r /\
    same_skeleton d r /\ (forall p, param_at r p = param_at d p) /\ (no_custom_minimizer d = true -> r = d).
Proof.
  intros H1 H2. destruct (create_shaped b d H1 H2) as [infos Hc]. destruct (assemble_parameters d infos H1 Hc) as (P & HP & Ha).
  exists infos, P, (default_minimizers d). repeat (split; [assumption|]). split; [apply default_skel|]. split; [intros p; apply default_param|].
  now apply default_minimizers_id.
Qed.
Lemma p_C01_any d infos P : well_formed d = true -> create d = Ok infos ->
  (forall p f, field_at d p = Some f -> exists v, dget P p = Some v) ->
  exists r, assemble infos P = Ok r /\ well_formed r = true /\ same_skeleton d r /\
    forall p f, field_at d p = Some f -> param_at r p = dget P p.
Proof.
  intros H1 H2 H3. destruct (assemble_dict d infos P H1 H2 H3) as (r & R1 & R2 & R3 & R4 & R5). exists r. split; [exact R1|]. split; [exact R2|]. split; [exact R4|].
  intros p f Hf. rewrite R5. destruct (field_param d p f H1 Hf) as [v ->]. reflexivity.
Qed.
Lemma p_C02 d fx : well_formed d = true ->
  exists P, parameters d fx = Ok P /\ NoDup (keys P) /\
    forall p v, In (p, v) P <-> param_at d p = Some v /\ exists f, field_at d p = Some f /\ fixed_ok fx f = true.
Proof. intros H. destruct (params_total d fx H) as [P HP]. exists P. split; [exact HP|]. now apply params_listed. Qed.
Lemma p_C02s d fx : well_formed d = true ->
  exists P, parameters_s d fx = Ok P /\ NoDup (keys P) /\
    forall p v s, In (p, (v, s)) P <-> param_at d p = Some v /\ exists f, field_at d p = Some f /\ fixed_ok fx f = true /\ fd_support f = s.
Proof. intros H. eexists. split; [now apply parameters_s_ok|]. apply params_support_listed; [exact H|now apply parameters_s_ok]. Qed.
Lemma p_C02_ex : well_formed ex_joint = true /\ (exists P, parameters ex_joint (Some true) = Ok P /\ length P = 1) /\
  (exists P, parameters ex_joint (Some false) = Ok P /\ length P = 5).
Proof. split; [reflexivity|]. split; eexists; split; reflexivity. Qed.
Lemma p_C03 b d : well_formed d = true -> dist_vals false b d -> no_custom_minimizer d = true ->
  exists F t, flatten d false = Ok (F, t) /\ unflatten F t = Ok d.
Proof. intros H1 H2 H3. destruct (flatten_round_trip false b d H1 H2) as (F & t & A & B & C & _). exists F, t. rewrite default_minimizers_id in C by exact H3. auto. Qed.
Lemma p_C04 b d : well_formed d = true -> dist_vals true b d -> no_custom_minimizer d = true ->
  exists F t, flatten d true = Ok (F, t) /\ fin_tensor t /\ unflatten F t = Ok d.
Proof. intros H1 H2 H3. destruct (flatten_round_trip true b d H1 H2) as (F & t & A & B & C & D). exists F, t. rewrite default_minimizers_id in C by exact H3. auto. Qed.
Lemma p_near : exists v F t, (v < 0)%R /\
  flatten (Dist (NP Exponential) DefaultMinimizer [("negative_rate"%string, vec [v] [] eq_refl)] []) true = Ok (F, t) /\ tget t [0] = NaN.
Proof. destruct near_bound as (H & F & t & H1 & H2). exists (- feps / 2)%R, F, t. auto. Qed.
Lemma p_C05 m b d : well_formed d = true -> dist_vals m b d -> exists F t, flatten d m = Ok (F, t) /\ shp t = b ++ [flat_size d].
Proof. intros H1 H2. destruct (flatten_round_trip m b d H1 H2) as (F & t & A & B & _). eauto. Qed.
Lemma p_C05_ex : well_formed ex_joint = true /\ (exists infos, create ex_joint = Ok infos) /\ (exists fixed, parameters ex_joint (Some true) = Ok fixed) /\
  dist_vals true [2] ex_joint /\ flat_size ex_joint = 7.
Proof. split; [reflexivity|]. split; [eexists; reflexivity|]. split; [eexists; reflexivity|]. split; [apply ex_joint_vals|reflexivity]. Qed.
Lemma p_C06 b d t infos fixed : well_formed d = true -> create d = Ok infos -> parameters d (Some true) = Ok fixed ->
  plane_point true b d t ->
  exists d', unflatten (Flattener infos fixed true) t = Ok d' /\ well_formed d' = true /\ dist_vals true b d' /\
    flatten d' true = Ok (Flattener infos fixed true, t).
Proof.
  intros H1 H2 H3 [H4 H5]. destruct (unflatten_any true true b d t infos fixed H1 H2 H3 H4 (fun _ => H5)) as (d' & A & B & _ & _ & _ & _ & C).
  destruct (C eq_refl) as [D E]. eauto 6.
Qed.
Lemma p_C06_ex : exists F t, flatten ex_joint true = Ok (F, t) /\ plane_point true [2] ex_joint t.
Proof.
  destruct (flatten_round_trip true [2] ex_joint ex_joint_wf (ex_joint_vals true)) as (F & t & A & B & _ & D). exists F, t. split; [exact A|]. split; [exact B|].
  specialize (D eq_refl).
  assert (Hsl : forall a b, (a <= b <= 7)%nat -> shp (tslice a b t) = [2; b - a] /\ fin_tensor (tslice a b t)).
  { intros a b Hab. rewrite ex_joint_size in B.
    assert (Hshape : shp (tslice a b t) = [2; b - a]) by (cbn; rewrite B; cbn [removelast last app]; rewrite !Nat.min_l by lia; reflexivity).
    split; [exact Hshape|]. intros i Hi. rewrite Hshape in Hi. unfold tslice. rewrite tget_tbuild.
    - apply D. rewrite B. destruct i as [|i0 [|i1 [|]]]; cbn in Hi; rewrite ?andb_false_r in Hi; try discriminate. cbn [removelast app last].
      apply andb_prop in Hi as [Hi0 Hi1]. rewrite andb_true_r in Hi1. cbn. rewrite andb_true_r. rewrite Hi0. cbn. apply Nat.ltb_lt in Hi1. apply Nat.leb_le. lia.
    - rewrite B. cbn [removelast last app]. rewrite !Nat.min_l by lia. exact Hi. }
  cbn.
  repeat match goal with |- _ /\ _ => split end; try exact I;
  match goal with |- ring_plane _ _ _ _ (tslice ?a ?b t) => destruct (Hsl a b ltac:(lia)) as [S1 S2] end;
  (split; [exact S1|]); intros _; (split; [exact I|exact S2]).
Qed.
Lemma p_C08_ex : let fm := [("x", [("a", 1); ("b", 2)]); ("y", [("c", 3); ("a", 4)])]%string in
  NoDup (keys fm) /\ (forall m, In m (values fm) -> NoDup (keys m)) /\ keys (join_mappings fm) = ["a"; "b"; "c"]%string.
Proof.
  cbn. split; [|split; [|reflexivity]].
  - repeat constructor; cbn; intuition discriminate.
  - intros m [<-|[<-|[]]]; repeat constructor; cbn; intuition discriminate.
Qed.
Lemma p_C09_id x infos : well_formed x = true -> no_custom_minimizer x = true -> create x = Ok infos -> parameter_map (unary (fun a => a)) x [] = Ok x.
Proof. intros H1 H2 H3. rewrite (parameter_map_id x infos H1 H3). now rewrite default_minimizers_id. Qed.
Lemma p_C09_ex : exists infos, create ex_joint = Ok infos /\ well_formed ex_joint = true /\ same_skeleton ex_joint ex_joint /\
  exists r infos', parameter_map (unary (fun a => a)) ex_joint [] = Ok r /\ create r = Ok infos'.
Proof. eexists. split; [reflexivity|]. split; [reflexivity|]. split; [intros p; auto|]. eexists _, _. split; reflexivity. Qed.
Lemma p_C11_dot : exists x y y' t t',
  sub_distributions y' = rev (sub_distributions y) /\ dcls y' = dcls y /\
  parameter_dot_product x y = Ok t /\ parameter_dot_product x y' = Ok t' /\ tget t [] = Fin 13 /\ tget t' [] = Fin 11.
Proof. destruct mispaired as (t & t' & H1 & H2 & H3 & H4). eexists _, _, _, t, t'. split; [|split; [|split; [exact H1|split; [exact H2|auto]]]]; reflexivity. Qed.
Lemma p_C11_map : exists x y y' r r' v v',
  sub_distributions y' = rev (sub_distributions y) /\ dcls y' = dcls y /\
  parameter_map sub_op x [y] = Ok r /\ parameter_map sub_op x [y'] = Ok r' /\
  param_at r ["a"; "mean"]%string = Some (RA v) /\ param_at r' ["a"; "mean"]%string = Some (RA v') /\ tget v [] = Fin (-2) /\ tget v' [] = Fin (-4).
Proof. destruct mispaired_map as (r & r' & H1 & H2 & v & v' & H3). eexists _, _, _, r, r', v, v'. split; [|split; [|split; [exact H1|split; [exact H2|exact H3]]]]; reflexivity. Qed.
Lemma p_C13_ex : exists infos P, create ex_joint = Ok infos /\ parameters ex_joint None = Ok P /\ length P = 6.
Proof. eexists _, _. split; [reflexivity|]. split; reflexivity. Qed.
Lemma nth_error_combine {A B} (l : list A) (m : list B) i a b : nth_error (combine l m) i = Some (a, b) -> nth_error l i = Some a /\ nth_error m i = Some b.
Proof.
  revert m i. induction l as [|x l IH]; intros [|y m] [|i] H; cbn in H; try discriminate; [now injection H as <- <-|]. exact (IH m i H).
Qed.
Lemma p_C14_distinct (K : Type) (split : K -> nat -> list K) d key i j k p q :
  let ls := samplable_leaves d in
  length (split key (length ls)) = length ls -> NoDup (split key (length ls)) ->
  nth_error (combine ls (split key (length ls))) i = Some (p, k) -> nth_error (combine ls (split key (length ls))) j = Some (q, k) -> i = j.
Proof.
  intros ls Hl Hn H1 H2. apply nth_error_combine in H1 as [_ H1]. apply nth_error_combine in H2 as [_ H2].
  eapply NoDup_nth_error; [exact Hn| |congruence]. apply nth_error_Some. congruence.
Qed.
Lemma p_C14_missing : exists d, well_formed d = true /\ is_joint (dcls d) = true /\ length (leaves [] d) = 2 /\ length (samplable_leaves d) = 1.
Proof.
  exists (joint_n [("a", un 1); ("b", Dist (NP Logarithmic) DefaultMinimizer [("log_probability", sc (-1))] [])]%string).
  split; [reflexivity|]. split; [reflexivity|]. split; reflexivity.
Qed.
Lemma p_C15 d : well_formed d = true ->
  exists D, flat_dict_of_parameters d = Ok D /\ NoDup (keys D) /\ forall p q, In (p, q) D <-> dist_at d p = Some q /\ is_joint (dcls q) = false.
Proof.
  intros H. exists (leaves [] d). split; [now apply flat_dict_leaves|]. split; [now apply nodup_leaves|]. intros p q. exact (leaves_iff d [] p q H).
Qed.
Lemma p_C15_ex : exists D, flat_dict_of_parameters ex_joint = Ok D /\ keys D = [["x"; "n"]; ["x"; "g"]; ["m"]]%string.
Proof. eexists. split; reflexivity. Qed.
Lemma p_C33_ex : exists x, supp_vals (SymS real_field false true false) true [2] 3 x.
Proof.
  exists (RA (tbuild [2; 3; 3] (fun i => Fin (INR (nth 1 i 0 + nth 2 i 0))))). split; [reflexivity|]. split.
  - intros _ i Hi. rewrite tget_tbuild by exact Hi. eexists. split; [reflexivity|]. split; exact I.
  - intros j k l Hj Hk Hl. destruct j as [|j [|]]; cbn in Hj; rewrite ?andb_false_r in Hj; try discriminate. rewrite andb_true_r in Hj. change ((j <? 2) = true) in Hj.
    assert (Hk3 : k <? 3 = true) by (apply Nat.ltb_lt; lia). assert (Hl3 : l <? 3 = true) by (apply Nat.ltb_lt; lia).
    rewrite !tget_tbuild by (cbn [app inb]; now rewrite Hj, Hk3, Hl3). cbn. now rewrite Nat.add_comm.
Qed.
Lemma skel_not_gamma d r : well_formed d = true -> well_formed r = true -> same_skeleton d r -> not_gamma_vp d -> not_gamma_vp r.
Proof.
  intros H1 H2 H3 H4 p q Hi. apply (leaves_iff r [] p q H2) in Hi as [Hq Hj]. destruct (skel_leaf_class d r H3 p q Hq) as (q0 & Hq0 & Hc).
  rewrite <- Hc. apply (H4 p). apply (leaves_iff d [] p q0 H1). now rewrite Hc.
Qed.
Lemma p_C39_shape d b i infos r : well_formed d = true -> create d = Ok infos -> shaped b d = true ->
  inb (firstn (length i) b) i = true -> not_gamma_vp d -> getitem d i = Ok r ->
  dshape d = Ok b /\ dshape r = Ok (skipn (length i) b).
Proof.
  intros H1 H2 H3 H4 H5 H6. destruct (getitem_shaped d b i infos H1 H2 H3 H4) as (r' & A1 & A2 & A3 & A4 & A5 & _). rewrite H6 in A1. injection A1 as <-.
  split; [now apply shaped_dshape|]. apply shaped_dshape; auto. now apply (skel_not_gamma d).
Qed.
Lemma p_C39_twice d b i j infos : well_formed d = true -> create d = Ok infos -> shaped b d = true ->
  inb (firstn (length (i ++ j)) b) (i ++ j) = true ->
  exists r r', getitem d i = Ok r /\ getitem r j = Ok r' /\ getitem d (i ++ j) = Ok r'.
Proof.
  intros H1 H2 H3 H4. pose proof (inb_firstn_le _ _ H4) as Hle. rewrite app_length in Hle.
  assert (E : inb (firstn (length i) b) i = true /\ inb (firstn (length j) (skipn (length i) b)) j = true).
  { rewrite app_length in H4. rewrite <- (firstn_skipn (length i) b) in H4 at 1. rewrite firstn_app, firstn_firstn, firstn_length in H4.
    replace (Nat.min (length i + length j) (length i)) with (length i) in H4 by lia.
    replace (length i + length j - Nat.min (length i) (length b)) with (length j) in H4 by lia.
    rewrite inb_app in H4 by (rewrite firstn_length; lia). now apply andb_prop in H4. }
  destruct E as [Hi Hj].
  destruct (getitem_shaped d b i infos H1 H2 H3 Hi) as (r & A1 & A2 & A3 & A4 & A5 & A6). destruct (create_shaped _ _ A2 A5) as [infos' Hc'].
  destruct (getitem_shaped r _ j infos' A2 Hc' A5 Hj) as (r' & B1 & B2 & B3 & B4 & B5 & B6).
  destruct (getitem_getitem d i j infos r infos' H1 H2 A1 Hc') as (r2 & C1 & C2).
  { intros p v Hp. destruct (A6 p v Hp) as (w & Hw & Hw'). destruct (B6 p w Hw) as (u & _ & Hu). eauto. }
  exists r, r2. auto.
Qed.
Lemma p_C39_ex : exists infos, create ex_joint = Ok infos /\ inb (firstn (length [1]) [2]) [1] = true.
Proof. eexists. split; reflexivity. Qed.
Lemma p_C40_unflatten m b d t infos fixed : well_formed d = true -> create d = Ok infos -> parameters d (Some true) = Ok fixed ->
  shp t = b ++ [flat_size d] ->
  exists d', unflatten (Flattener infos fixed m) t = Ok d' /\ parameters d' (Some true) = Ok fixed.
Proof.
  intros H1 H2 H3 H4. destruct (unflatten_any false m b d t infos fixed H1 H2 H3 H4) as (d' & A & B & C & D & _); [discriminate|]. eauto.
Qed.
Lemma p_C40_map op x ys r infos fixed : well_formed x = true -> create x = Ok infos ->
  (forall y, In y ys -> well_formed y = true /\ same_skeleton x y) -> parameters x (Some true) = Ok fixed ->
  parameter_map op x ys = Ok r -> parameters r (Some true) = Ok fixed.
Proof.
  intros H1 H2 H3 H4 H5.
  destruct (parameter_map_ok op x ys infos H1 H2 H3) as (r' & R1 & R2 & R3 & R4 & R5).
  { intros p f Hf Hv. destruct (op (pv x p :: map (fun y => pv y p) ys)) as [v|e] eqn:E; [eauto|].
    destruct (parameter_map_fails op x ys infos p f e H1 H2 H3 Hf Hv E) as [e' He]. congruence. }
  rewrite H5 in R1. injection R1 as <-. destruct (params_total r (Some true) R2) as [R HR]. rewrite HR. f_equal.
  pose proof (skel_params_keys x r (Some true) fixed R H1 R2 R4 H4 HR) as Hk.
  destruct (params_listed x _ _ H1 H4) as [N1 L1]. destruct (params_listed r _ _ R2 HR) as [N2 L2].
  apply dict_ext; auto. intros k. destruct (dget R k) as [v|] eqn:E.
  - symmetry. apply In_dget; [exact N1|]. apply dget_In in E. apply L2 in E as (Hp & f & Hf & Hx). apply L1.
    rewrite <- (skeleton_field x r k R4) in Hf. specialize (R5 k f Hf). cbn in Hx. apply eqb_prop in Hx. rewrite Hx, Hp in R5. split; [now symmetry|]. exists f. split; [exact Hf|]. cbn. now rewrite Hx.
  - symmetry. apply dget_None. apply dget_None in E. now rewrite Hk.
Qed.
