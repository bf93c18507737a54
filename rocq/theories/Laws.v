(** Laws of join_mappings, parameter_map and indexing (C08, C09, C39, C40). *)
From Coq Require Import FinFun String List Bool Arith Lia.
From Verif Require Import Base XReal Tensor TensorFacts TensorFacts2 Support Dist DictFacts Iteration Structure Spec StructFacts AssembleFacts
  ParamFacts ReplaceFacts Tools ToolThms MappingFacts Joint StructThms.
Import ListNotations.

(** ** join_mappings *)
Lemma join_get {K V} `{EqDec K} (fm : dict string (dict K V)) k n v : NoDup (keys fm) -> (forall m, In m (values fm) -> NoDup (keys m)) ->
  (exists inner, dget (join_mappings fm) k = Some inner /\ dget inner n = Some v) <-> (exists m, dget fm n = Some m /\ dget m k = Some v).
Proof.
  intros Hn Hm. assert (Hm' : Forall (fun nm => NoDup (keys (snd nm))) fm).
  { apply Forall_forall. intros nm Hi. apply Hm. unfold values. now apply in_map. }
  rewrite (join_spec fm Hn Hm' k).
  assert (E : dget (inner_of fm k) n = Some v <-> (exists m, dget fm n = Some m /\ dget m k = Some v)).
  { assert (Hni : NoDup (keys (inner_of fm k))).
    { clear Hm Hm'. induction fm as [|[n1 m1] fm IH]; [constructor|]. cbn in Hn. inversion Hn; subst. unfold inner_of. cbn [flat_map fst snd].
      destruct (dget m1 k); cbn [app]; [|now apply IH]. constructor; [|now apply IH]. intros Hi. now apply keys_inner in Hi. }
    split.
    - intros Hg. apply dget_In in Hg. apply in_flat_map in Hg as ([n1 m1] & Hi & Hg). cbn [fst snd] in Hg. destruct (dget m1 k) eqn:Ek; [|destruct Hg].
      destruct Hg as [Hg|[]]. injection Hg as <- <-. exists m1. split; [|exact Ek]. now apply In_dget.
    - intros (m & Hg & Hk). apply In_dget; [exact Hni|]. apply in_flat_map. exists (n, m). split; [now apply dget_In|]. cbn [fst snd]. rewrite Hk. now left. }
  destruct (inner_of fm k) as [|a l] eqn:Ei.
  - split; [intros (inner & Hx & _); discriminate|]. intros Hx. apply E in Hx. discriminate.
  - rewrite <- E. split; [intros (inner & Hx & Hy); injection Hx as <-; exact Hy|eauto].
Qed.
(** the keys of join_mappings: each key once, in the order of first appearance *)
Fixpoint firsts {K} `{EqDec K} (l : list K) : list K :=
  match l with
  | [] => []
  | k :: l' => k :: filter (fun j => if keq k j then false else true) (firsts l')
  end.
Lemma fold_firsts {K} `{EqDec K} (l : list K) : forall acc,
  fold_left (fun ks k => if in_dec keq k ks then ks else ks ++ [k]) l acc = acc ++ filter (fun j => if in_dec keq j acc then false else true) (firsts l).
Proof.
  induction l as [|k l IH]; intros acc; [cbn; now rewrite app_nil_r|]. cbn [fold_left firsts filter]. rewrite IH. destruct (in_dec keq k acc) as [i|i].
  - f_equal. clear IH. induction (firsts l) as [|j m IHm]; [reflexivity|]. cbn [filter]. destruct (keq k j) as [<-|Hne]; [destruct (in_dec keq k acc); [exact IHm|contradiction]|].
    cbn [filter]. now rewrite IHm.
  - rewrite <- app_assoc. cbn [app]. do 2 f_equal. clear IH. induction (firsts l) as [|j m IHm]; [reflexivity|]. cbn [filter].
    destruct (keq k j) as [<-|Hne].
    + destruct (in_dec keq k (acc ++ [k])) as [|Hx]; [exact IHm|]. destruct Hx. apply in_or_app. right. now left.
    + cbn [filter]. destruct (in_dec keq j (acc ++ [k])) as [Hj|Hj], (in_dec keq j acc) as [Hk|Hk]; rewrite IHm; try reflexivity.
      * apply in_app_or in Hj as [Hj|[Hj|[]]]; contradiction.
      * destruct Hj. apply in_or_app. now left.
Qed.
Lemma keys_join_firsts {K V} `{EqDec K} (fm : dict string (dict K V)) : keys (join_mappings fm) = firsts (flat_map (fun nm => keys (snd nm)) fm).
Proof.
  rewrite keys_join, fold_firsts. cbn [app]. induction (firsts _) as [|a l IH]; [reflexivity|]. cbn [filter]. destruct (in_dec keq a []) as [[]|]. now rewrite IH.
Qed.

(** ** parameter_map *)
Lemma pv_some d p v : param_at d p = Some v -> pv d p = v.
Proof. intros H. unfold pv. now rewrite H. Qed.
Lemma ys_values x ys p v : (forall y, In y ys -> well_formed y = true /\ same_skeleton x y) -> well_formed x = true -> param_at x p = Some v ->
  Forall2 (fun y w => param_at y p = Some w) ys (map (fun y => pv y p) ys).
Proof.
  intros Hys Hx Hp. induction ys as [|y ys IH]; constructor; [|apply IH; intros; apply Hys; now right].
  destruct (Hys y (or_introl eq_refl)) as [Hy Hs]. destruct (param_field x p v Hx Hp) as [f Hf].
  rewrite (skeleton_field x y p Hs) in Hf. destruct (field_param y p f Hy Hf) as [w Hw]. now rewrite (pv_some y p w Hw).
Qed.
Lemma F2_pv ys p ws : Forall2 (fun y w => param_at y p = Some w) ys ws -> map (fun y => pv y p) ys = ws.
Proof. intros H. induction H as [|y w l l' H _ IH]; [reflexivity|]. cbn. now rewrite IH, (pv_some y p w H). Qed.
Lemma parameter_map_spec op x ys infos : well_formed x = true -> create x = Ok infos ->
  (forall y, In y ys -> well_formed y = true /\ same_skeleton x y) ->
  (forall p f v ws, field_at x p = Some f -> fd_fixed f = false -> param_at x p = Some v -> Forall2 (fun y w => param_at y p = Some w) ys ws ->
     exists u, op (v :: ws) = Ok u) ->
  exists r, parameter_map op x ys = Ok r /\ well_formed r = true /\ no_custom_minimizer r = true /\ same_skeleton x r /\
    forall p f v ws, field_at x p = Some f -> param_at x p = Some v -> Forall2 (fun y w => param_at y p = Some w) ys ws ->
      if fd_fixed f then param_at r p = Some v else exists u, op (v :: ws) = Ok u /\ param_at r p = Some u.
Proof.
  intros Hwf Hc Hys Hop. destruct (parameter_map_ok op x ys infos Hwf Hc Hys) as (r & R1 & R2 & R3 & R4 & R5).
  - intros p f Hf Hv. destruct (field_param x p f Hwf Hf) as [v Hp]. rewrite (pv_some x p v Hp). apply (Hop p f v); auto. now apply (ys_values x ys p v).
  - exists r. split; [exact R1|]. split; [exact R2|]. split; [exact R3|]. split; [exact R4|]. intros p f v ws Hf Hp Hws. specialize (R5 p f Hf).
    rewrite (pv_some x p v Hp), (F2_pv ys p ws Hws) in R5. destruct (fd_fixed f) eqn:E; [now rewrite R5|].
    destruct (Hop p f v ws Hf E Hp Hws) as [u Hu]. rewrite Hu in R5. eauto.
Qed.
Definition unary (g : arr -> arr) (l : list arr) : result arr := match l with [a] => Ok (g a) | _ => Err TypeError end.
Lemma parameter_map_id x infos : well_formed x = true -> create x = Ok infos -> parameter_map (unary (fun a => a)) x [] = Ok (default_minimizers x).
Proof.
  intros Hwf Hc. destruct (parameter_map_ok (unary (fun a => a)) x [] infos Hwf Hc) as (r & R1 & R2 & R3 & R4 & R5).
  - intros y [].
  - intros p f _ _. cbn. eauto.
  - rewrite R1. f_equal. apply tree_ext; auto.
    + now rewrite default_wf.
    + apply default_default.
    + eapply skel_trans; [apply skel_sym; exact R4|apply default_skel].
    + intros p. rewrite default_param. destruct (param_at x p) as [v|] eqn:E.
      * destruct (param_field x p v Hwf E) as [f Hf]. rewrite (R5 p f Hf). destruct (fd_fixed f); [exact E|]. cbn. now rewrite (pv_some x p v E).
      * destruct (param_at r p) as [v|] eqn:E2; [|reflexivity]. destruct (param_field r p v R2 E2) as [f Hf].
        rewrite <- (skeleton_field x r p R4) in Hf. destruct (field_param x p f Hwf Hf) as [w Hw]. congruence.
Qed.
Lemma parameter_map_comp f g x infos r infos' : well_formed x = true -> create x = Ok infos ->
  parameter_map (unary g) x [] = Ok r -> create r = Ok infos' ->
  parameter_map (unary f) r [] = parameter_map (unary (fun a => f (g a))) x [].
Proof.
  intros Hwf Hc Hr Hc'. destruct (parameter_map_ok (unary g) x [] infos Hwf Hc) as (r0 & R1 & R2 & R3 & R4 & R5); [intros y []|intros; cbn; eauto|].
  rewrite Hr in R1. injection R1 as <-.
  destruct (parameter_map_ok (unary f) r [] infos' R2 Hc') as (s & S1 & S2 & S3 & S4 & S5); [intros y []|intros; cbn; eauto|].
  destruct (parameter_map_ok (unary (fun a => f (g a))) x [] infos Hwf Hc) as (t & T1 & T2 & T3 & T4 & T5); [intros y []|intros; cbn; eauto|].
  rewrite S1, T1. f_equal. apply tree_ext; auto.
  - eapply skel_trans; [apply skel_sym; exact S4|]. eapply skel_trans; [apply skel_sym; exact R4|exact T4].
  - assert (Hsx : same_skeleton x s) by (eapply skel_trans; [exact R4|exact S4]).
    intros p. destruct (field_at x p) as [fd|] eqn:Ef.
    + assert (Efr : field_at r p = Some fd) by now rewrite <- (skeleton_field x r p R4).
      rewrite (S5 p fd Efr), (T5 p fd Ef). pose proof (R5 p fd Ef) as R. destruct (fd_fixed fd); [exact R|].
      cbn in R |- *. now rewrite (pv_some r p _ R).
    + destruct (param_at s p) as [v|] eqn:E1.
      * destruct (param_field s p v S2 E1) as [f1 Hf1]. rewrite <- (skeleton_field x s p Hsx) in Hf1. congruence.
      * destruct (param_at t p) as [v|] eqn:E2; [|reflexivity]. destruct (param_field t p v T2 E2) as [f1 Hf1]. rewrite <- (skeleton_field x t p T4) in Hf1. congruence.
Qed.

(** ** indexing: shapes *)
Lemma skel_leaf_class d e : same_skeleton d e -> forall p q, dist_at e p = Some q -> exists q0, dist_at d p = Some q0 /\ dcls q0 = dcls q.
Proof.
  intros H p q Hq. destruct (H p) as [H1 _]. rewrite Hq in H1. destruct (dist_at d p) as [q0|]; [|discriminate]. cbn in H1. injection H1 as H1. eauto.
Qed.
Lemma param_at_dist d p q n : dist_at d p = Some q -> param_at d (p ++ [n]) = dget (dparams q) n.
Proof.
  revert d. induction p as [|k p IH]; intros d H; cbn [dist_at] in H; [injection H as <-; reflexivity|].
  cbn [app]. destruct (dget (sub_distributions d) k) as [s|] eqn:E; [|discriminate].
  assert (Hne : exists a l, p ++ [n] = a :: l) by (destruct p; cbn; eauto). destruct Hne as (a & l & Hne).
  specialize (IH s H). rewrite Hne in IH |- *. change (match dget (sub_distributions d) k with Some s => param_at s (a :: l) | None => None end = dget (dparams q) n).
  now rewrite E.
Qed.
Lemma dims_field_in c n : dimensions_field c = Some n -> exists f, In f (fields c) /\ fd_name f = n /\ supp_axes (fd_support f) <> 0.
Proof. destruct c as [[]|[]| | | | | | |]; cbn; intros H; try discriminate; injection H as <-; eexists; (split; [left; reflexivity|]); split; cbn; (reflexivity || lia). Qed.
Lemma shaped_of_leaves b d : forall base, well_formed d = true -> (forall p q, In (p, q) (leaves base d) -> leaf_shaped b q = true) -> shaped b d = true.
Proof.
  induction d as [c m ps subs IH] using dist_rect'. intros base Hwf H. apply wf_inv in Hwf as (_ & _ & Hsb & Hsub). cbn [shaped leaves] in *. destruct (is_joint c) eqn:E.
  - cbn [andb]. apply forallb_forall. intros ns Hi. rewrite Forall_forall in IH, Hsub. apply (IH _ Hi (base ++ [fst ns])); [auto|].
    intros p q Hpq. apply (H p). apply in_flat_map. eauto.
  - rewrite (Hsb eq_refl) in *. rewrite (H base (Dist c m ps [])) by now left. reflexivity.
Qed.
Lemma last_dim_app s t : t <> [] -> last_dim (s ++ t) = last_dim t.
Proof. intros H. unfold last_dim. rewrite rev_app_distr. destruct (rev t) eqn:E; [|reflexivity]. apply (f_equal (@length _)) in E. rewrite rev_length in E. now destruct t. Qed.
Lemma supp_shape_nil s n : supp_axes s <> 0 -> supp_shape s n <> [].
Proof. destruct s; cbn; congruence. Qed.
Lemma skipn_app_le {A} k (s t : list A) : k <= length s -> skipn k (s ++ t) = skipn k s ++ t.
Proof. intros H. rewrite skipn_app. replace (k - length s) with 0 by lia. reflexivity. Qed.
Lemma arr_getitem_shape i a w : arr_getitem i a = Ok w -> ashape w = skipn (length i) (ashape a).
Proof. unfold arr_getitem. destruct (inb _ i); [|discriminate]. intros H; injection H as <-. now destruct a. Qed.
Lemma arr_getitem_ok i a b s : ashape a = b ++ s -> length i <= length b -> inb (firstn (length i) b) i = true -> exists w, arr_getitem i a = Ok w.
Proof.
  intros Hs Hl Hi. unfold arr_getitem. rewrite Hs, firstn_app. replace (length i - length b) with 0 by lia. cbn [firstn]. rewrite app_nil_r, Hi. eauto.
Qed.
Lemma getitem_shaped d b i infos : well_formed d = true -> create d = Ok infos -> shaped b d = true ->
  inb (firstn (length i) b) i = true ->
  exists r, getitem d i = Ok r /\ well_formed r = true /\ no_custom_minimizer r = true /\ same_skeleton d r /\ shaped (skipn (length i) b) r = true /\
    forall p v, param_at d p = Some v -> exists w, param_at r p = Some w /\ arr_getitem i v = Ok w.
Proof.
  intros Hwf Hc Hs Hi. assert (Hl : length i <= length b) by now apply inb_firstn_le.
  pose proof (shaped_leaves b d [] Hs) as HL. rewrite Forall_forall in HL.
  assert (Hv : forall p v, param_at d p = Some v -> exists w, arr_getitem i v = Ok w).
  { intros p v Hp. destruct (param_field d p v Hwf Hp) as [f Hf].
    assert (Hpd : exists p0 n q, p = p0 ++ [n] /\ dist_at d p0 = Some q).
    { clear -Hp. revert d Hp. induction p as [|k p IH]; intros d Hp; [discriminate|]. destruct p as [|k2 p]; [exists [], k, d; auto|].
      change (match dget (sub_distributions d) k with Some s => param_at s (k2 :: p) | None => None end = Some v) in Hp.
      destruct (dget (sub_distributions d) k) as [s|] eqn:E; [|discriminate]. destruct (IH s Hp) as (p0 & n & q & H1 & H2).
      exists (k :: p0), n, q. cbn [app dist_at]. rewrite E, H1. auto. }
    destruct Hpd as (p0 & n & q & -> & Hq). rewrite (param_at_dist d p0 q n Hq) in Hp.
    destruct (is_joint (dcls q)) eqn:Ej.
    - assert (Hwq : well_formed q = true).
      { clear -Hwf Hq. revert d Hwf Hq. induction p0 as [|k p IH]; intros d Hwf Hq; cbn in Hq; [now injection Hq as <-|].
        destruct (dget (sub_distributions d) k) as [s|] eqn:E; [|discriminate]. apply (IH s); [|exact Hq]. destruct d as [c m ps subs]. apply wf_inv in Hwf as (_ & _ & _ & Hsub).
        rewrite Forall_forall in Hsub. cbn in E. apply dget_In in E. exact (Hsub _ E). }
      destruct q as [c m ps subs]. apply wf_inv in Hwq as (Hps & _). cbn in *. rewrite (joint_no_fields c Ej) in Hps. destruct ps; [discriminate|discriminate].
    - assert (Hin : In (p0, q) (leaves [] d)) by (apply (leaves_iff d [] p0 q Hwf); auto).
      specialize (HL _ Hin). cbn [snd] in HL. unfold leaf_shaped in HL. destruct (dims_of q) as [m|]; [|discriminate]. apply andb_prop in HL as [_ HL]. rewrite forallb_forall in HL.
      assert (Hfq : In f (fields (dcls q)) /\ fd_name f = n).
      { clear -Hf Hq. revert d Hf Hq. induction p0 as [|k p IH]; intros d Hf Hq; cbn in Hq.
        - injection Hq as <-. cbn in Hf. now apply find_field_inv in Hf.
        - destruct (dget (sub_distributions d) k) as [s|] eqn:E; [|discriminate]. apply (IH s); [|exact Hq]. cbn [app] in Hf.
          assert (Hne : exists a l, p ++ [n] = a :: l) by (destruct p; cbn; eauto). destruct Hne as (a & l & Hne). rewrite Hne in Hf |- *.
          change (match dget (sub_distributions d) k with Some s => field_at s (a :: l) | None => None end = Some f) in Hf. now rewrite E in Hf. }
      destruct Hfq as [Hfi <-]. specialize (HL f Hfi). rewrite Hp in HL. apply andb_prop in HL as [HL _]. apply shape_eqb_eq in HL.
      exact (arr_getitem_ok i v b _ HL Hl Hi). }
  destruct (getitem_ok d i infos Hwf Hc Hv) as (r & R1 & R2 & R3 & R4 & R5). exists r. split; [exact R1|]. split; [exact R2|]. split; [exact R3|]. split; [exact R4|]. split.
  - apply (shaped_of_leaves _ _ []); [exact R2|]. intros p q Hpq. apply (leaves_iff r [] p q R2) in Hpq as [Hq Hj].
    destruct (skel_leaf_class d r R4 p q Hq) as (q0 & Hq0 & Hcl). assert (Hin : In (p, q0) (leaves [] d)) by (apply (leaves_iff d [] p q0 Hwf); rewrite Hcl; auto).
    specialize (HL _ Hin). cbn [snd] in HL. unfold leaf_shaped in *. destruct (dims_of q0) as [n|] eqn:Ed; [|discriminate]. apply andb_prop in HL as [Hok HL]. rewrite forallb_forall in HL.
    assert (Hpar : forall f, In f (fields (dcls q)) -> exists v w, dget (dparams q0) (fd_name f) = Some v /\ dget (dparams q) (fd_name f) = Some w /\ arr_getitem i v = Ok w /\ ashape v = b ++ supp_shape (fd_support f) n /\ kind_ok (fd_support f) v = true).
    { intros f Hf. rewrite <- Hcl in Hf. specialize (HL f Hf). destruct (dget (dparams q0) (fd_name f)) as [v|] eqn:Ev; [|discriminate]. apply andb_prop in HL as [H1 H2]. apply shape_eqb_eq in H1.
      rewrite <- (param_at_dist d p q0 _ Hq0) in Ev. destruct (Hv _ _ Ev) as [w Hw]. exists v, w. split; [reflexivity|].
      rewrite <- (param_at_dist r p q _ Hq), R5, Ev, Hw. auto. }
    assert (Hd : dims_of q = Ok n).
    { unfold dims_of in Ed |- *. rewrite Hcl in Ed. destruct (dimensions_field (dcls q)) as [nm|] eqn:Edf; [|exact Ed].
      destruct (dims_field_in _ _ Edf) as (f & Hf & <- & Hax). destruct (Hpar f Hf) as (v & w & H1 & H2 & H3 & H4 & _). unfold attr in *. rewrite H1 in Ed. rewrite H2. cbn [opt_err bind] in *.
      rewrite (arr_getitem_shape i v w H3), H4, skipn_app_le by exact Hl. rewrite H4 in Ed. rewrite last_dim_app in Ed |- * by now apply supp_shape_nil. exact Ed. }
    rewrite Hd. rewrite Hcl in Hok. rewrite Hok. cbn [andb]. apply forallb_forall. intros f Hf. destruct (Hpar f Hf) as (v & w & H1 & H2 & H3 & H4 & H5). rewrite H2.
    rewrite (arr_getitem_shape i v w H3), H4, skipn_app_le by exact Hl. apply andb_true_intro. split; [now apply shape_eqb_eq|].
    unfold arr_getitem in H3. destruct (inb (firstn (length i) (ashape v)) i); [|discriminate]. injection H3 as <-. clear -H5. unfold kind_ok in *. destruct (supp_ring _), v; exact H5.
  - intros p v Hp. rewrite R5, Hp. destruct (Hv p v Hp) as [w ->]. eauto.
Qed.
