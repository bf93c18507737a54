(** C03-C06, C40: flattening and unflattening whole distributions. *)
From Coq Require Import String List Bool Arith Reals Lia Lra.
From Verif Require Import Base XReal Tensor TensorFacts TensorFacts2 Support SupportSpec PlaneFacts SupportFacts SupportRt
  Dist DictFacts Iteration Structure Spec FlattenSpec StructFacts AssembleFacts FlattenFacts RefillFacts.
Import ListNotations.

Lemma F2_impl {A B} (R S : A -> B -> Prop) l m : (forall x y, R x y -> S x y) -> Forall2 R l m -> Forall2 S l m.
Proof. intros H. induction 1; constructor; auto. Qed.
Lemma variable_nonempty c : is_joint c = false -> variable_fields c <> [].
Proof. destruct c as [[]|[]| | | | | | |]; cbn; congruence. Qed.
Lemma leaves_nonempty d : forall base, well_formed d = true -> leaves base d <> [].
Proof.
  induction d as [c m ps subs IH] using dist_rect'. intros base Hwf. apply wf_inv in Hwf as (_ & Hj & _ & Hsub). cbn [leaves].
  destruct (is_joint c); [|congruence]. destruct (Hj eq_refl) as [Hne _]. destruct subs as [|[n s] subs]; [congruence|].
  inversion IH; subst. inversion Hsub; subst. cbn [flat_map fst snd] in *. intros E. apply app_eq_nil in E as [E _].
  now apply (H1 (base ++ [n]) H3).
Qed.
Lemma own_rt_length fl m b n c own : forall kw ts, own_rt fl m b n c kw own ts -> length ts = length own.
Proof. induction own as [|[nm [v s0]] own IH]; intros kw [|[t k] ts] H; try contradiction; [reflexivity|]. destruct H as [_ H]. cbn. f_equal. eauto. Qed.

Lemma tss_nonempty fl m b d tss : well_formed d = true -> Forall2 (tree_rt fl m b) (leaves [] d) tss -> concat tss <> [].
Proof.
  intros Hwf H. pose proof (leaves_nonempty d [] Hwf) as Hne. pose proof (leaves_simple d [] Hwf) as Hsi.
  inversion H as [|[p q] ts l ? Ht Hr E1]; [congruence|]. subst. rewrite <- E1 in Hsi. inversion Hsi as [|? ? [Hj Hq] _]; subst.
  destruct Ht as (n & _ & Ho). cbn [snd] in *. apply own_rt_length in Ho. cbn [concat]. intros E. apply app_eq_nil in E as [-> _].
  cbn in Ho. symmetry in Ho. apply length_zero_iff_nil in Ho. destruct q as [c mm ps subs]. apply wf_inv in Hq as (Hps & _).
  cbn [dcls] in Hj. apply (f_equal (map fst)) in Ho. rewrite own_list_names, variable_fields_eq in Ho by exact Hps.
  apply map_eq_nil in Ho. now apply (variable_nonempty c Hj).
Qed.

Lemma fixed_dict d k v : well_formed d = true ->
  In (k, v) (drop_support (flat_map (leaf_items (Some true)) (leaves [] d))) ->
  dget (drop_support (flat_map (leaf_items (Some true)) (leaves [] d))) k = Some v.
Proof. intros Hwf Hi. apply In_dget; [|exact Hi]. rewrite keys_drop. now apply nodup_leaf_items. Qed.

Lemma holds_at_get b (c c' : tensor xr) M ts : shp c = b ++ [M] -> shp c' = b ++ [M] -> forall off, off + total ts <= M ->
  holds_at b c off ts -> holds_at b c' off ts -> forall j k, inb b j = true -> k < total ts -> tget c (j ++ [off + k]) = tget c' (j ++ [off + k]).
Proof.
  intros S S'. induction ts as [|[t n] ts IH]; intros off HM H H' j k Hj Hk; [cbn in Hk; lia|]. rewrite total_cons in *.
  destruct H as (_ & E & H). destruct H' as (_ & E' & H'). destruct (lt_dec k n) as [Hl|Hl].
  - rewrite <- (tget_tslice b M off (off + n) c) by (auto; lia). rewrite <- (tget_tslice b M off (off + n) c') by (auto; lia). congruence.
  - replace (off + k) with ((off + n) + (k - n)) by lia. apply (IH (off + n)); auto; lia.
Qed.
Lemma holds_at_fin b (c : tensor xr) M ts : shp c = b ++ [M] -> Forall (fun tk => fin_tensor (fst tk)) ts -> forall off, off + total ts <= M ->
  holds_at b c off ts -> forall j k, inb b j = true -> k < total ts -> exists v, tget c (j ++ [off + k]) = Fin v.
Proof.
  intros S Hf. induction ts as [|[t n] ts IH]; intros off HM H j k Hj Hk; [cbn in Hk; lia|]. rewrite total_cons in *.
  inversion Hf as [|? ? F1 F2]; subst. cbn [fst] in F1.
  destruct H as (Sh & E & H). destruct (lt_dec k n) as [Hl|Hl].
  - rewrite <- (tget_tslice b M off (off + n) c) by (auto; lia). rewrite E. apply F1. rewrite Sh. now apply inb_snoc_intro.
  - replace (off + k) with ((off + n) + (k - n)) by lia. apply (IH F2 (off + n)); auto; lia.
Qed.
Lemma own_rt_fin b n c own : forall kw ts, own_rt true true b n c kw own ts -> Forall (fun tk => fin_tensor (fst tk)) ts.
Proof.
  induction own as [|[nm [v s0]] own IH]; intros kw [|[t k] ts] H; try contradiction; constructor.
  - destruct H as [(s & H1 & H2 & H2' & H3 & H4 & H5) _]. now apply H5.
  - destruct H as [_ H]. eauto.
Qed.
Lemma holds_at_inj b ts (c c' : tensor xr) : shp c = b ++ [total ts] -> shp c' = b ++ [total ts] ->
  holds_at b c 0 ts -> holds_at b c' 0 ts -> c = c'.
Proof.
  intros S S' H H'. apply tensor_ext; [congruence|]. intros i Hi. rewrite S in Hi. destruct (inb_snoc _ _ _ Hi) as (j & k & -> & Hj & Hk).
  apply (holds_at_get b c c' _ ts S S' 0); auto.
Qed.

(** the flat array of a distribution whose leaves round trip, and back *)
Lemma flatten_of_tree m b d infos tss : well_formed d = true -> create d = Ok infos ->
  Forall2 (tree_rt true m b) (leaves [] d) tss -> 
  exists fixed t, parameters d (Some true) = Ok fixed /\ flatten d m = Ok (Flattener infos fixed m, t) /\
    shp t = b ++ [total (concat tss)] /\ holds_at b t 0 (concat tss).
Proof.
  intros Hwf Hc Hrt. destruct (walk_flat m b d [] tss Hwf Hrt) as (xss & Hx & Hcx).
  assert (Hsh : Forall (fun tk => shp (fst tk) = b ++ [snd tk]) (concat tss)).
  { clear -Hrt. induction Hrt as [|pq ts l l' (n & _ & Ho) _ IH]; [constructor|]. cbn [concat]. apply Forall_app. split; [|exact IH].
    eapply own_rt_shapes; eauto. }
  destruct (reduce_append b (concat tss)) as (t & Ht & Hs & Hh); [now apply (tss_nonempty true m b d)|exact Hsh|].
  eexists _, t. split; [now apply parameters_ok|]. split; [|auto].
  unfold flatten. rewrite Hx. cbn [bind]. rewrite Hcx. rewrite Ht. cbn [bind]. rewrite Hc. cbn [bind]. rewrite parameters_ok by exact Hwf. reflexivity.
Qed.

Lemma unflatten_of_tree fl m b d infos tss F t : well_formed d = true -> create d = Ok infos ->
  f_infos F = infos -> f_mapped F = m -> f_fixed F = drop_support (flat_map (leaf_items (Some true)) (leaves [] d)) ->
  Forall2 (tree_rt fl m b) (leaves [] d) tss -> shp t = b ++ [total (concat tss)] -> holds_at b t 0 (concat tss) ->
  unflatten F t = Ok (default_minimizers d).
Proof.
  intros Hwf Hc Hi <- Hf Hrt Hs Hh. unfold unflatten. rewrite Hs, last_dim_snoc. cbn [opt_err bind].
  destruct (unflatten_main fl b (total (concat tss)) t F d [] [] infos tss 0 Hwf Hc Hrt) as (D & E & G & _).
  { intros k v Hk. rewrite Hf. now apply fixed_dict. }
  { exact Hh. }
  { lia. }
  rewrite Hi. match goal with |- context [foldM ?f ?x ?l] => replace (foldM f x l) with (@Ok (nat * dict path dist) (0 + total (concat tss), D)) by (symmetry; exact E) end. cbn [bind plus]. rewrite Nat.eqb_refl. cbn [negb]. unfold dindex. now rewrite G.
Qed.

Lemma tree_total fl m b d tss : well_formed d = true -> Forall2 (tree_rt fl m b) (leaves [] d) tss -> total (concat tss) = flat_size d.
Proof.
  intros Hwf H. pose proof (leaves_simple d [] Hwf) as Hsi. unfold flat_size, flat_fields.
  induction H as [|[p q] ts l l' (n & Hn & Ho) _ IH]; [reflexivity|]. inversion Hsi as [|? ? [Hj Hq] Hsi']; subst. cbn [concat flat_map snd] in *.
  rewrite fields_size_app. unfold total in *. rewrite map_app, list_sum_app. rewrite (IH Hsi'). f_equal.
  pose proof (own_rt_total _ _ _ _ _ _ _ _ Ho) as Et. unfold total in Et. rewrite Et. f_equal. unfold leaf_fields. rewrite Hn.
  destruct q as [c mm ps subs]. apply wf_inv in Hq as (Hps & _). cbn [dcls]. unfold own_list. cbn [dcls dparams]. rewrite variable_fields_eq.
  assert (Hg : forall fs, incl fs (fields c) -> map (fun nv => (snd (snd nv), n)) (flat_map (fun f => match dget ps (fd_name f) with
     | Some a => [(fd_name f, (a, fd_support f))] | None => [] end) fs) = map (fun f => (fd_support f, n)) fs).
  { induction fs as [|f fs IHf]; intros Hi; [reflexivity|]. cbn [flat_map map]. destruct (dget_combine_ok ps (fd_name f)) as [v Hv].
    { rewrite Hps. apply in_map, Hi. now left. }
    rewrite Hv. cbn [app map snd]. rewrite IHf; [reflexivity|]. intros x Hx; apply Hi; now right. }
  apply Hg. intros x Hx. now apply variable_in.
Qed.

(** C03, C04 *)
Theorem flatten_round_trip m b d : well_formed d = true -> dist_vals m b d ->
  exists F t, flatten d m = Ok (F, t) /\ shp t = b ++ [flat_size d] /\ unflatten F t = Ok (default_minimizers d) /\
    (m = true -> fin_tensor t).
Proof.
  intros Hwf Hv.
  assert (Hrt : exists tss, Forall2 (tree_rt true m b) (leaves [] d) tss).
  { pose proof (leaves_simple d [] Hwf) as Hsi. unfold dist_vals in Hv. induction (leaves [] d) as [|[p q] l IH]; [exists []; constructor|].
    inversion Hsi as [|? ? [Hj Hq] Hsi']; subst. cbn [snd] in *. destruct IH as [tss Ht]; [intros p' q' Hi; apply (Hv p'); now right|exact Hsi'|].
    destruct (Hv p q (or_introl eq_refl)) as (n & Hn & Hvn).
    destruct (leaf_rt m b q n Hq Hj Hn) as [ts Hts]; [exists n; auto|]. exists (ts :: tss). constructor; [|exact Ht]. exists n. auto. }
  destruct Hrt as [tss Hrt].
  assert (Hc : exists infos, create d = Ok infos).
  { apply create_ok_of; [exact Hwf|]. apply Forall_forall. intros [p q] Hi. destruct (Hv p q Hi) as (n & Hn & _). eauto. }
  destruct Hc as [infos Hc].
  destruct (flatten_of_tree m b d infos tss Hwf Hc Hrt) as (fixed & t & Hp & Hf & Hs & Hh).
  rewrite parameters_ok in Hp by exact Hwf. injection Hp as <-.
  eexists _, t. split; [exact Hf|]. rewrite <- (tree_total true m b d tss Hwf Hrt). split; [exact Hs|].
  split; [eapply unflatten_of_tree; eauto|]. intros ->.
  assert (Hfin : Forall (fun tk => fin_tensor (fst tk)) (concat tss)).
  { clear -Hrt. induction Hrt as [|pq ts l l' (n & _ & Ho) _ IH]; [constructor|]. cbn [concat]. apply Forall_app. split; [|exact IH].
    eapply own_rt_fin; eauto. }
  intros i Hi. rewrite Hs in Hi. destruct (inb_snoc _ _ _ Hi) as (j & k & -> & Hj & Hk).
  exact (holds_at_fin b t _ _ Hs Hfin 0 (le_n _) Hh j k Hj Hk).
Qed.

(** the shape of d's result: same tree, classes, dimensions and fixed parameters; variable parameters of batch shape b *)
Definition leaf_like (b : shape) (q' q : dist) : Prop :=
  dcls q' = dcls q /\ dims_of q' = dims_of q /\
  forall f, In f (variable_fields (dcls q')) -> exists v n, dims_of q' = Ok n /\ dget (dparams q') (fd_name f) = Some v /\
    ashape v = b ++ supp_shape (fd_support f) n /\ kind_ok (fd_support f) v = true.

(** C05, C06, C40: a flat array of the right length *)
Theorem unflatten_any fl m b d t infos fixed : well_formed d = true -> create d = Ok infos -> parameters d (Some true) = Ok fixed ->
  shp t = b ++ [flat_size d] -> (fl = true -> plane_list m b t 0 (flat_fields d)) ->
  exists d', unflatten (Flattener infos fixed m) t = Ok d' /\ well_formed d' = true /\ create d' = Ok infos /\
    parameters d' (Some true) = Ok fixed /\ no_custom_minimizer d' = true /\ 
    Forall2 (fun pq' pq => fst pq' = fst pq /\ leaf_like b (snd pq') (snd pq)) (leaves [] d') (leaves [] d) /\
    (fl = true -> dist_vals m b d' /\ flatten d' m = Ok (Flattener infos fixed m, t)).
Proof.
  intros Hwf Hc Hp Hs Hpl.
  destruct (refill fl m b t (flat_size d) d [] 0 infos Hwf Hc Hs (le_n _) Hpl) as (d' & tss & A1 & A2 & A3 & A4 & A5 & A6 & A7 & A8 & A9 & A10 & A11).
  rewrite parameters_ok in Hp by exact Hwf. injection Hp as <-.
  assert (Hp' : parameters d' (Some true) = Ok (drop_support (flat_map (leaf_items (Some true)) (leaves [] d)))).
  { rewrite parameters_ok by exact A1. now rewrite A6. }
  exists d'. split.
  { erewrite (unflatten_of_tree fl m b d' infos tss); [now rewrite default_minimizers_id|exact A1|exact A5|reflexivity|reflexivity| |exact A7| |exact A8].
    - cbn [f_fixed]. now rewrite A6.
    - now rewrite A9. }
  split; [exact A1|]. split; [exact A5|]. split; [exact Hp'|]. split; [exact A2|]. split.
  { eapply F2_impl; [|exact A10]. intros x y (E1 & E2 & E3 & E4). split; [exact E1|]. split; [exact E2|]. split; assumption. }
  intros E. specialize (A11 E). subst fl. split.
  { intros p q Hi. rewrite Forall_forall in A11. exact (A11 _ Hi). }
  destruct (flatten_of_tree m b d' infos tss A1 A5 A7) as (fixed & t' & P & Fl & Hs' & Hh). rewrite Hp' in P. injection P as <-.
  rewrite Fl. do 2 f_equal. apply (holds_at_inj b (concat tss)); [exact Hs'|now rewrite Hs, A9|exact Hh|exact A8].
Qed.

(** ** the wrong length *)
Lemma params_short_gen m b n c t0 N i : c <> NP ComplexNormal -> i_type i = c -> i_dims i = n -> shp t0 = b ++ [N] ->
  forall fs kw off, incl fs (variable_fields c) -> off <= N -> N < off + fields_size (map (fun f => (fd_support f, n)) fs) ->
  foldM (fun (st : nat * dict string arr) name =>
           let '(consumed, kwargs) := st in
           let* s := adjust_support (i_type i) name kwargs in
           let k := supp_num_elements s (i_dims i) in
           if N <? consumed + k then Err ValueError else
           let* v := supp_unflattened s (tslice consumed (consumed + k) t0) (i_dims i) m in
           Ok (consumed + k, dset kwargs name v))
        (off, kw) (map fd_name fs) = Err ValueError.
Proof.
  intros Hc <- <- Hs. induction fs as [|f fs IH]; intros kw off Hi Ho HN; [cbn in HN; lia|].
  cbn [map] in HN. rewrite fields_size_cons in HN. cbn [map foldM].
  assert (Hf : In f (fields (i_type i))) by (apply variable_in, Hi; now left).
  rewrite (adjust_default (i_type i) f kw Hc Hf). cbn [bind].
  destruct (N <? off + supp_num_elements (fd_support f) (i_dims i)) eqn:E; [reflexivity|]. apply Nat.ltb_ge in E.
  destruct (supp_un_ok (fd_support f) m b (i_dims i) (tslice off (off + supp_num_elements (fd_support f) (i_dims i)) t0)) as (v & U & _ & _).
  { now apply field_no_simplex with (c := i_type i). }
  { rewrite (shp_tslice b N) by (auto; lia). do 2 f_equal. lia. }
  { now apply field_bounds with (c := i_type i). }
  rewrite U. cbn [bind]. apply IH; [intros x Hx; apply Hi; now right| |]; lia.
Qed.

Lemma params_short m b n c t0 N i off : i_type i = c -> i_dims i = n -> shp t0 = b ++ [N] ->
  off <= N -> N < off + fields_size (map (fun f => (fd_support f, n)) (variable_fields c)) ->
  unflatten_params m t0 N i off = Err ValueError.
Proof.
  intros Ht Hd Hs Ho HN. unfold unflatten_params. rewrite Ht, class_support_names_fx, variable_fields_eq.
  destruct (cls_eq_dec c (NP ComplexNormal)) as [->|Hc].
  - cbn in HN. cbn [variable_fields fields filter fd_fixed negb map fd_name var foldM].
    rewrite Hd.
    assert (B0 : bound_pre (BFloat 0) b) by now exists b.
    change (adjust_support (NP ComplexNormal) "mean_times_precision" []) with (@Ok support (ScalarS complex_field)). cbn [bind].
    change (supp_num_elements (ScalarS complex_field) n) with 2.
    destruct (N <? off + 2) eqn:E1; [reflexivity|]. apply Nat.ltb_ge in E1.
    destruct (supp_un_ok (ScalarS complex_field) m b n (tslice off (off + 2) t0)) as (v1 & U1 & _ & _); [discriminate| |split; [exact B0|discriminate]|].
    { rewrite (shp_tslice b N) by (auto; lia). do 2 f_equal. cbn; lia. }
    rewrite U1. cbn [bind].
    match goal with |- context [adjust_support ?c ?nm ?kw] => change (adjust_support c nm kw) with (@Ok support (ScalarS negative_support)) end. cbn [bind].
    change (supp_num_elements (ScalarS negative_support) n) with 1.
    destruct (N <? off + 2 + 1) eqn:E2; [reflexivity|]. apply Nat.ltb_ge in E2.
    destruct (supp_un_ok (ScalarS negative_support) m b n (tslice (off + 2) (off + 2 + 1) t0)) as (v2 & U2 & S2 & K2); [discriminate| |exact I|].
    { rewrite (shp_tslice b N) by (auto; lia). do 2 f_equal. cbn; lia. }
    rewrite U2. cbn [bind]. destruct v2 as [np|]; [|discriminate K2].
    match goal with |- context [adjust_support ?c ?nm ?kw] => change (adjust_support c nm kw) with
      (@Ok support (ScalarS (ComplexF (BFloat 0) (Some (BArr (tmap (fun v => xabs (xneg v)) np)))))) end. cbn [bind].
    match goal with |- context [supp_num_elements ?s n] => change (supp_num_elements s n) with 2 end.
    destruct (N <? off + 2 + 1 + 2) eqn:E3; [reflexivity|]. apply Nat.ltb_ge in E3. lia.
  - rewrite <- Ht. apply (params_short_gen m b n c t0 N i Hc Ht Hd Hs (variable_fields c) [] off (incl_refl _) Ho HN) || (rewrite Ht;
      pose proof (params_short_gen m b n c t0 N i Hc Ht Hd Hs (variable_fields c) [] off (incl_refl _) Ho HN) as E; rewrite Ht in E; exact E).
Qed.

Lemma unflatten_short b N t0 F d : shp t0 = b ++ [N] -> forall base D infos off, well_formed d = true -> walk make_info d base = Ok infos ->
  (forall k v, In (k, v) (drop_support (flat_map (leaf_items (Some true)) (leaves base d))) -> dget (f_fixed F) k = Some v) ->
  off <= N -> N < off + flat_size d ->
  foldM (unflatten_step F t0 N) (off, D) infos = Err ValueError.
Proof.
  intros Hs. induction d as [c mm ps subs IH] using dist_rect'. intros base D infos off Hwf Hw HF Ho HN. pose proof Hwf as Hwf0.
  apply wf_inv in Hwf as (Hps & Hj & Hsb & Hsub). rewrite walk_unfold in Hw.
  apply bind_Ok in Hw as (rest & Hrest & Hw). apply bind_Ok in Hw as (i & Hi & Hw). injection Hw as <-.
  rewrite foldM_app. unfold flat_size, flat_fields in HN. cbn [leaves] in HF, HN. destruct (is_joint c) eqn:Ej.
  - assert (Hm : foldM (unflatten_step F t0 N) (off, D) (concat rest) = Err ValueError).
    { clear Hi Hj Hsb Hps Hwf0. revert D rest off Hrest HF Ho HN. induction subs as [|[n s] subs IHs]; intros D rest off Hrest HF Ho HN; [cbn in HN; lia|].
      inversion IH as [|? ? Hn IH']; subst. inversion Hsub as [|? ? Hws Hsub']; subst. cbn [snd fst] in *.
      cbn [mapM fst snd] in Hrest. apply bind_Ok in Hrest as (r1 & Hr1 & Hrest). apply bind_Ok in Hrest as (rs & Hrs & Hrest).
      injection Hrest as <-. cbn [concat]. rewrite foldM_app. cbn [flat_map fst snd] in HF, HN.
      rewrite flat_map_app in HF, HN. unfold drop_support in HF. rewrite map_app in HF.
      rewrite (leaves_fields s ([] ++ [n]) []), fields_size_app in HN. fold (flat_fields s) in HN. fold (flat_size s) in HN.
      destruct (le_lt_dec (off + flat_size s) N) as [Hle|Hlt].
      - destruct (refill false (f_mapped F) b t0 N s (base ++ [n]) off r1 Hws Hr1 Hs Hle) as (s' & tss & A1 & A2 & A3 & A4 & A5 & A6 & A7 & A8 & A9 & _).
        { discriminate. }
        destruct (unflatten_main false b N t0 F s' (base ++ [n]) D r1 tss off A1 A5 A7) as (D1 & E1 & _).
        { intros k v Hk. apply HF, in_or_app. left. rewrite <- A6. exact Hk. }
        { exact A8. }
        { now rewrite A9. }
        rewrite E1. cbn [bind]. apply IHs; auto.
        + intros k v Hk. apply HF, in_or_app. now right.
        + now rewrite A9.
        + rewrite A9. lia.
      - rewrite (Hn (base ++ [n]) D r1 off Hws Hr1); auto. intros k v Hk. apply HF, in_or_app. now left. }
    rewrite Hm. reflexivity.
  - rewrite (Hsb eq_refl) in *. cbn in Hrest. injection Hrest as <-. cbn [concat foldM bind].
    unfold make_info in Hi. apply bind_Ok in Hi as (n & Hn & Hi). injection Hi as <-.
    cbn [flat_map snd] in HN. rewrite app_nil_r in HN. unfold leaf_fields in HN. rewrite Hn in HN. cbn [dcls] in HN.
    unfold unflatten_step. rewrite (params_short (f_mapped F) b n c t0 N _ off); auto.
Qed.

(** C05: every other length is rejected *)
Theorem unflatten_wrong_length m b d t n infos fixed : well_formed d = true -> create d = Ok infos -> parameters d (Some true) = Ok fixed ->
  shp t = b ++ [n] -> n <> flat_size d -> unflatten (Flattener infos fixed m) t = Err ValueError.
Proof.
  intros Hwf Hc Hp Hs Hne. rewrite parameters_ok in Hp by exact Hwf. injection Hp as <-.
  unfold unflatten. rewrite Hs, last_dim_snoc. cbn [opt_err bind f_infos].
  destruct (le_lt_dec (flat_size d) n) as [Hle|Hlt].
  - destruct (refill false m b t n d [] 0 infos Hwf Hc Hs Hle) as (d' & tss & A1 & A2 & A3 & A4 & A5 & A6 & A7 & A8 & A9 & _); [discriminate|].
    match goal with |- context [Flattener ?a ?b ?c] => set (F := Flattener a b c) end.
    destruct (unflatten_main false b n t F d' [] [] infos tss 0 A1 A5 A7) as (D & E & _).
    { intros k v Hk. rewrite A6 in Hk. cbn [f_fixed F]. now apply fixed_dict. }
    { exact A8. }
    { now rewrite A9. }
    match goal with |- context [foldM ?f ?x ?l] => replace (foldM f x l) with (@Ok (nat * dict path dist) (0 + total (concat tss), D)) by (symmetry; exact E) end. cbn [bind]. rewrite A9. replace (0 + flat_size d =? n) with false by (symmetry; apply Nat.eqb_neq; lia). reflexivity.
  - match goal with |- context [Flattener ?a ?b ?c] => set (F := Flattener a b c) end.
    assert (E : foldM (unflatten_step F t n) (0, []) infos = Err ValueError).
    { apply (unflatten_short b n t F d Hs [] [] infos 0); auto; [|lia]. intros k v Hk. cbn [f_fixed F]. now apply fixed_dict. }
    match goal with |- context [foldM ?f ?x ?l] => replace (foldM f x l) with (@Err (nat * dict path dist) ValueError) by (symmetry; exact E) end. reflexivity.
Qed.
