(** C35: Structure.generate_random. *)
From Coq Require Import String List Bool Arith Reals ZArith Lra Lia.
From Verif Require Import Base XReal Tensor TensorFacts TensorFacts2 BroadcastFacts Support SupportSpec PlaneFacts SupportFacts ClampThms
  Dist DictFacts Iteration Structure Spec StructFacts AssembleFacts ParamFacts ParamFacts StructThms FlattenFacts ToolThms Laws MapFacts DotSpec PointSpec Val Generate GenSpec GenFacts.
Import ListNotations.
Local Open Scope R_scope.

Lemma class_ready c f b : c <> EP VonMisesFisher -> In f (fields c) -> supp_ready (fd_support f) b.
Proof.
  intros Hc. assert (H0 : ring_ready complex_field b).
  { cbn. split; [now exists b|]. split; [intros M HM; discriminate|]. intros j _. exists 0, None. repeat split; try reflexivity; lra. }
  pose proof feps_small. pose proof feps_pos.
  assert (U : ring_ready unit_interval b).
  { cbn. split; [lra|]. unfold adj_min, adj_max. rewrite !Rmult_0_l. unfold copysign, rltb. destruct (Rlt_dec (Ropp 1) 0); [|lra]. rewrite (Rabs_pos_eq feps) by lra. unfold Rmax, Rmin. repeat destruct Rle_dec; lra. }
  destruct c as [[]|[]| | | | | | |]; try congruence; cbn [fields In]; intros Hf; repeat destruct Hf as [<-|Hf]; try contradiction; cbn [fd_support var fixd supp_ready];
    try exact H0; try exact U; try (left; reflexivity); try (right; split; reflexivity); cbn; try (split; [lra|exact Logic.I]); split; try reflexivity; lia.
Qed.
Lemma adjust_ext c nm kw kw' : (forall k, dget kw k = dget kw' k) -> adjust_support c nm kw = adjust_support c nm kw'.
Proof. intros H. unfold adjust_support, dindex. now rewrite (H "negative_precision"%string). Qed.

Section T.
  Context (g : rng) (Hg : rng_ok g) (Hz : normal_nonzero g).
  Let step b p n c := (fun (st : nat * dict path arr * dict string arr) name =>
               let '(k, vals, kwargs) := st in
               let* s := adjust_support c name kwargs in
               let* (k', v) := supp_generate g s k b n in
               Ok (k', dset vals (p ++ [name])%list v, dset kwargs name v)).
  Lemma snoc_inj {A} (p : list A) x y : (p ++ [x] = p ++ [y])%list -> x = y.
  Proof. intros H. apply app_inv_head in H. now injection H. Qed.
  Lemma leaf_gen_default b p n c fs : c <> EP VonMisesFisher -> c <> NP ComplexNormal -> incl fs (fields c) -> NoDup (map fd_name fs) ->
    forall k V kw, (forall f, In f fs -> ~ In (fd_name f) (keys kw)) ->
    exists k' V' vs, foldM (step b p n c) (k, V, kw) (map fd_name fs) = Ok (k', V', kw ++ combine (map fd_name fs) vs)%list /\
      Forall2 (fun f v => supp_member (fd_support f) b n v /\ dget V' (p ++ [fd_name f])%list = Some v) fs vs /\
      (forall q, (forall f, In f fs -> q <> (p ++ [fd_name f])%list) -> dget V' q = dget V q).
  Proof.
    intros C1 C2. induction fs as [|f fs IH]; intros Hi Hn k V kw Hk.
    - exists k, V, []. split; [cbn; now rewrite app_nil_r|]. split; [constructor|]. auto.
    - cbn [map foldM]. inversion Hn as [|? ? N1 N2]; subst. unfold step at 1. rewrite (adjust_default c f kw C2 (Hi f (or_introl eq_refl))). cbn [bind].
      destruct (supp_gen g Hg Hz (fd_support f) b n k (class_ready c f b C1 (Hi f (or_introl eq_refl)))) as (k1 & x & -> & M). cbn [bind].
      rewrite (dset_notin kw (fd_name f) x) by (apply Hk; now left).
      destruct (IH (fun a H => Hi a (or_intror H)) N2 k1 (dset V (p ++ [fd_name f])%list x) (kw ++ [(fd_name f, x)])%list) as (k' & V' & vs & E & F & P).
      { intros f' Hf' Hin. unfold keys in Hin. rewrite map_app in Hin. apply in_app_or in Hin as [Hin|[Hin|[]]]; [apply (Hk f' (or_intror Hf') Hin)|]. cbn in Hin. apply N1. rewrite Hin. now apply in_map. }
      exists k', V', (x :: vs). split; [rewrite E; cbn [combine]; now rewrite <- app_assoc|]. split.
      + constructor; [|exact F]. split; [exact M|]. rewrite P; [apply dget_dset_eq|]. intros f' Hf' E'. apply snoc_inj in E'. apply N1. rewrite E'. now apply in_map.
      + intros q Hq. rewrite P by (intros f' Hf'; apply Hq; now right). apply dget_dset_ne. apply Hq. now left.
  Qed.
  Definition leaf_done b n c (V' : dict path arr) p : Prop := exists ps, keys ps = map fd_name (fields c) /\ (forall nm v, dget ps nm = Some v -> dget V' (p ++ [nm])%list = Some v) /\
    forall f, In f (fields c) -> exists v s, dget ps (fd_name f) = Some v /\ adjust_support c (fd_name f) ps = Ok s /\ supp_member s b n v /\ supp_shape s n = supp_shape (fd_support f) n.
  Lemma leaf_gen b p n c k V : c <> EP VonMisesFisher ->
    exists k' V' kw, foldM (step b p n c) (k, V, []) (map fd_name (fields c)) = Ok (k', V', kw) /\ leaf_done b n c V' p /\
      (forall q, (forall f, In f (fields c) -> q <> (p ++ [fd_name f])%list) -> dget V' q = dget V q).
  Proof.
    intros C1. destruct (cls_eq_dec c (NP ComplexNormal)) as [->|C2].
    - cbn [fields map fd_name var foldM]. unfold step at 1.
      change (adjust_support (NP ComplexNormal) "mean_times_precision" []) with (@Ok support (ScalarS complex_field)). cbn [bind].
      destruct (supp_gen g Hg Hz (ScalarS complex_field) b n k (class_ready (NP ComplexNormal) (var "mean_times_precision" (ScalarS complex_field)) b C1 (or_introl eq_refl))) as (k1 & x1 & -> & M1). cbn [bind].
      unfold step at 1. match goal with |- context [adjust_support ?c ?nm ?kw] => change (adjust_support c nm kw) with (@Ok support (ScalarS negative_support)) end. cbn [bind].
      destruct (supp_gen g Hg Hz (ScalarS negative_support) b n k1 (class_ready (NP ComplexNormal) (var "negative_precision" (ScalarS negative_support)) b C1 (or_intror (or_introl eq_refl)))) as (k2 & x2 & -> & M2). cbn [bind].
      destruct M2 as [S2 M2]. destruct x2 as [np|]; [|contradiction]. cbn [ashape supp_shape] in S2. rewrite app_nil_r in S2. cbn [ring_member negative_support mk_real_field option_map] in M2.
      set (s3 := ScalarS (ComplexF (BFloat 0) (Some (BArr (tmap (fun v => xabs (xneg v)) np))))).
      unfold step. match goal with |- context [adjust_support ?c ?nm ?kw] => change (adjust_support c nm kw) with (@Ok support s3) end. cbn [bind].
      assert (R3 : supp_ready s3 b).
      { unfold s3. cbn [supp_ready ring_ready]. split; [now exists b|]. split; [intros M HM; injection HM as <-; exists []; cbn; now rewrite S2, app_nil_r|]. intros j Hj. destruct (M2 j) as (v & E & [_ W]); [now rewrite S2|].
        exists 0, (Some (Rabs (- v))). split; [reflexivity|]. split; [|split; [lra|]].
        - unfold mx_val, option_map, bval. cbn [bound_tensor]. rewrite firstn_all2. 2:{ unfold rank. change (shp (tmap (fun v0 : xr => xabs (xneg v0)) np)) with (shp np). rewrite S2, (inb_length _ _ Hj). lia. } rewrite tget_tmap by (now rewrite S2). now rewrite E.
        - pose proof (adj_max_below 0). apply Rabs_pos_lt. lra. }
      destruct (supp_gen g Hg Hz s3 b n k2 R3) as (k3 & x3 & -> & M3). cbn [bind].
      do 3 eexists. split; [reflexivity|]. split.
      + exists [("mean_times_precision"%string, x1); ("negative_precision"%string, RA np); ("pseudo_precision"%string, x3)]. split; [reflexivity|]. split.
        * intros nm v Hd. apply dget_In in Hd. cbn [In] in Hd. destruct Hd as [Hd|[Hd|[Hd|[]]]]; injection Hd as <- <-;
            repeat first [rewrite dget_dset_eq; reflexivity | rewrite dget_dset_ne by (intros E'; apply snoc_inj in E'; discriminate)].
        * intros f Hf. cbn [fields In] in Hf. repeat destruct Hf as [<-|Hf]; try contradiction; cbn [fd_name var fd_support].
          -- exists x1, (ScalarS complex_field). repeat split; try reflexivity; try exact M1; apply M1.
          -- exists (RA np), (ScalarS negative_support). split; [reflexivity|]. split; [reflexivity|]. split; [|reflexivity]. split; [cbn; now rewrite S2, app_nil_r|exact M2].
          -- exists x3, s3. repeat split; try reflexivity; try exact M3; apply M3.
      + intros q Hq. rewrite !dget_dset_ne; [reflexivity| | |].
        * apply (Hq (var "mean_times_precision" (ScalarS complex_field))). now left.
        * apply (Hq (var "negative_precision" (ScalarS negative_support))). right; now left.
        * apply (Hq (var "pseudo_precision" (ScalarS complex_field))). right; right; now left.
    - destruct (leaf_gen_default b p n c (fields c) C1 C2 (incl_refl _) (nodup_fields c) k V []) as (k' & V' & vs & E & F & P); [intros f _ []|].
      exists k', V', (combine (map fd_name (fields c)) vs). split; [exact E|]. split; [|exact P].
      assert (L : length (map fd_name (fields c)) = length vs) by (rewrite map_length; clear -F; induction F; cbn; auto).
      exists (combine (map fd_name (fields c)) vs). split; [now apply keys_combine|].
      assert (D : forall f v, In (f, v) (combine (fields c) vs) -> dget (combine (map fd_name (fields c)) vs) (fd_name f) = Some v).
      { intros f v Hin. apply In_dget; [rewrite keys_combine by exact L; apply nodup_fields|]. clear -Hin. revert vs Hin. induction (fields c) as [|a l IH]; intros [|w vs] H; cbn in *; try contradiction. destruct H as [H|H]; [injection H as -> ->; now left|right; auto]. }
      split.
      + intros nm v Hd. apply dget_In in Hd. clear -Hd F. induction F as [|f w fs vs [_ H] F IH]; cbn in Hd; [contradiction|]. destruct Hd as [Hd|Hd]; [injection Hd as <- <-; exact H|auto].
      + intros f Hf. assert (Hv : exists v, In (f, v) (combine (fields c) vs) /\ supp_member (fd_support f) b n v).
        { clear -F Hf. induction F as [|a w fs vs [H _] F IH]; [contradiction|]. destruct Hf as [->|Hf]; [exists w; split; [now left|exact H]|]. destruct (IH Hf) as (v & A & B). exists v. split; [now right|exact B]. }
        destruct Hv as (v & Hin & M). exists v, (fd_support f). split; [now apply D|]. split; [now apply adjust_default|]. auto.
  Qed.
  Definition below (p q : path) : Prop := exists r, q = (p ++ r)%list.
  Lemma gen_walk b d : forall base infos k V, well_formed d = true -> walk make_info d base = Ok infos -> (forall p q, In (p, q) (leaves base d) -> dcls q <> EP VonMisesFisher) ->
    exists k' V', foldM (generate_info g b) (k, V) infos = Ok (k', V') /\
      (forall p q n, In (p, q) (leaves base d) -> dims_of q = Ok n -> leaf_done b n (dcls q) V' p) /\
      (forall q, ~ below base q -> dget V' q = dget V q).
  Proof.
    induction d as [c mm ps subs IH] using dist_rect'. intros base infos k V Hwf Hw Hc. apply wf_inv in Hwf as (Hps & Hj & Hsb & Hsub). rewrite walk_unfold in Hw.
    apply bind_Ok in Hw as (rest & Hrest & Hw). apply bind_Ok in Hw as (i & Hi & Hw). injection Hw as <-.
    rewrite foldM_app. cbn [leaves] in *. destruct (is_joint c) eqn:Ej.
    - destruct (Hj eq_refl) as [_ Hnd].
      assert (Main : exists k' V', foldM (generate_info g b) (k, V) (concat rest) = Ok (k', V') /\
         (forall p q n, In (p, q) (flat_map (fun ns => leaves (base ++ [fst ns]) (snd ns)) subs) -> dims_of q = Ok n -> leaf_done b n (dcls q) V' p) /\
         (forall q, ~ below base q -> dget V' q = dget V q) /\ (forall q, (forall ns, In ns subs -> ~ below (base ++ [fst ns]) q) -> dget V' q = dget V q)).
      { clear Hj Hsb Hps Hi. revert rest k V Hrest Hc. induction subs as [|[nm s] subs IHs]; intros rest k V Hrest Hc.
        - cbn in Hrest. injection Hrest as <-. exists k, V. split; [reflexivity|]. split; [contradiction|]. auto.
        - inversion IH as [|? ? Hn IH']; subst. inversion Hsub as [|? ? Hws Hsub']; subst. cbn [snd fst] in *. cbn [map fst] in Hnd. inversion Hnd as [|? ? N1 N2]; subst.
          cbn [mapM fst snd] in Hrest. apply bind_Ok in Hrest as (r1 & Hr1 & Hrest). apply bind_Ok in Hrest as (rs & Hrs & Hrest). injection Hrest as <-. cbn [concat]. rewrite foldM_app.
          cbn [flat_map fst snd] in Hc. destruct (Hn (base ++ [nm])%list r1 k V Hws Hr1) as (k1 & V1 & E1 & L1 & P1); [intros p q Hin; apply (Hc p q); apply in_or_app; now left|].
          rewrite E1. cbn [bind]. destruct (IHs IH' Hsub' N2 rs k1 V1 Hrs) as (k2 & V2 & E2 & L2 & P2 & P3); [intros p q Hin; apply (Hc p q); apply in_or_app; now right|].
          exists k2, V2. split; [exact E2|]. split; [|split].
          + intros p q n Hin Hn'. cbn [flat_map fst snd] in Hin. apply in_app_or in Hin as [Hin|Hin]; [|now apply (L2 p q n)]. destruct (L1 p q n Hin Hn') as (ps' & A & B & C). exists ps'. split; [exact A|]. split; [|exact C].
            intros nm' v Hv. rewrite P3; [now apply B|]. intros [nm2 s2] Hin2 [r Er]. cbn [fst] in Er.
            destruct (proj1 (Forall_forall _ _) (leaves_prefix s (base ++ [nm])%list) (p, q) Hin) as [r' Ep]. cbn [fst] in Ep. subst p. rewrite <- !app_assoc in Er. apply app_inv_head in Er. cbn in Er. injection Er as Er _. apply N1. rewrite Er. now apply (in_map fst) in Hin2.
          + intros q Hq. rewrite P2 by exact Hq. apply P1. intros [r ->]. apply Hq. exists ([nm] ++ r)%list. now rewrite app_assoc.
          + intros q Hq. rewrite P3 by (intros ns Hns; apply Hq; now right). apply P1. apply (Hq (nm, s)). now left. }
      destruct Main as (k' & V' & E & L & P & _). rewrite E. cbn [bind foldM].
      assert (Hi' : generate_info g b (k', V') i = Ok (k', V')).
      { unfold make_info in Hi. apply bind_Ok in Hi as (n & _ & Hi). injection Hi as <-. unfold generate_info. cbn [i_type dcls]. rewrite class_support_names, (joint_no_fields c Ej). reflexivity. }
      rewrite Hi'. cbn [bind]. exists k', V'. auto.
    - rewrite (Hsb eq_refl) in *. cbn in Hrest. injection Hrest as <-. cbn [concat foldM bind].
      unfold make_info in Hi. apply bind_Ok in Hi as (n & Hn & Hi). injection Hi as <-. cbn [dcls sub_distributions map].
      destruct (leaf_gen b base n c k V) as (k' & V' & kw & E & L & P); [apply (Hc base (Dist c mm ps [])); now left|].
      unfold generate_info. cbn [i_type i_dims i_path fst snd]. rewrite class_support_names. unfold step in E. rewrite E. cbn [bind]. exists k', V'. split; [reflexivity|]. split.
      + intros p q n' [Hin|[]] Hn'. injection Hin as <- <-. rewrite Hn in Hn'. injection Hn' as <-. exact L.
      + intros q Hq. apply P. intros f Hf ->. apply Hq. now exists [fd_name f].
  Qed.
End T.
Lemma create_dims d : forall base infos, well_formed d = true -> walk make_info d base = Ok infos -> forall p q, In (p, q) (leaves base d) -> exists n, dims_of q = Ok n.
Proof.
  induction d as [c mm ps subs IH] using dist_rect'. intros base infos Hwf Hw p q Hin. apply wf_inv in Hwf as (Hps & Hj & Hsb & Hsub). rewrite walk_unfold in Hw.
  apply bind_Ok in Hw as (rest & Hrest & Hw). apply bind_Ok in Hw as (i & Hi & Hw). cbn [leaves] in Hin. destruct (is_joint c) eqn:Ej.
  - apply in_flat_map in Hin as ([nm s] & H1 & H2). cbn [fst snd] in H2. apply mapM_Forall2 in Hrest. destruct (Forall2_in_l _ _ _ _ Hrest H1) as (r1 & _ & Hr1). rewrite Forall_forall in IH, Hsub.
    exact (IH _ H1 _ _ (Hsub _ H1) Hr1 p q H2).
  - destruct Hin as [Hin|[]]. injection Hin as <- <-. unfold make_info in Hi. apply bind_Ok in Hi as (n & Hn & _). eauto.
Qed.
Lemma field_leaf d : forall p f, well_formed d = true -> field_at d p = Some f -> exists p0 q nm, p = (p0 ++ [nm])%list /\ dist_at d p0 = Some q /\ is_joint (dcls q) = false /\ In f (fields (dcls q)) /\ fd_name f = nm.
Proof.
  intros p. revert d. induction p as [|n p IH]; intros [c m ps subs] f Hwf H; [discriminate|]. apply wf_inv in Hwf as (Hps & _ & _ & Hsub). destruct p as [|n2 p].
  - cbn in H. apply find_field_inv in H as [H <-]. exists [], (Dist c m ps subs), (fd_name f). repeat split; auto. cbn [dcls]. destruct (is_joint c) eqn:E; [|reflexivity]. rewrite (joint_no_fields c E) in H. contradiction.
  - change (match dget subs n with Some s => field_at s (n2 :: p) | None => None end = Some f) in H. destruct (dget subs n) as [s|] eqn:E; [|discriminate H]. pose proof E as E0. apply dget_In in E. rewrite Forall_forall in Hsub.
    destruct (IH s f (Hsub _ E) H) as (p0 & q & nm & -> & A & B). exists (n :: p0), q, nm. split; [reflexivity|]. split; [|exact B]. cbn [dist_at sub_distributions]. now rewrite E0.
Qed.
Lemma dims_field c nm : dimensions_field c = Some nm -> exists f, In f (fields c) /\ fd_name f = nm /\ forall n, exists s, supp_shape (fd_support f) n = (s ++ [n])%list.
Proof.
  destruct c as [[]|[]| | | | | | |]; cbn [dimensions_field]; intros H; try discriminate H; injection H as <-;
    (eexists; split; [cbn [fields In]; first [left; reflexivity|right; left; reflexivity]|split; [reflexivity|]]; intros n; cbn; first [now exists []|now exists [n]]).
Qed.
Theorem generate_ok g b k d infos : rng_ok g -> normal_nonzero g -> well_formed d = true -> create d = Ok infos ->
  (forall p q, In (p, q) (leaves [] d) -> dcls q <> EP VonMisesFisher) ->
  exists r, generate_random g infos k b = Ok r /\ well_formed r = true /\ same_skeleton d r /\
    (forall p q, In (p, q) (leaves [] r) -> leaf_member b q) /\
    (forall p q q', dist_at d p = Some q -> dist_at r p = Some q' -> dims_of q' = dims_of q).
Proof.
  intros Hg Hz W Hc HV. destruct (gen_walk g Hg Hz b d [] infos k [] W Hc HV) as (k' & V & E & L & _).
  assert (Dm : forall p q, In (p, q) (leaves [] d) -> exists n, dims_of q = Ok n).
  { intros p q Hin. exact (create_dims d [] infos W Hc p q Hin). }
  destruct (assemble_dict d infos V W Hc) as (r & A & Wr & _ & Sk & P).
  { intros p f Hf. destruct (field_leaf d p f W Hf) as (p0 & q & nm & -> & Hd & Hj & Hfn). assert (Hin : In (p0, q) (leaves [] d)) by (now apply leaf_in).
    destruct (Dm _ _ Hin) as [n Hn]. destruct (L _ _ n Hin Hn) as (ps & K1 & K2 & K3). destruct Hfn as [Hf1 <-]. destruct (K3 f Hf1) as (v & s & G & _). exists v. now apply K2. }
  exists r. unfold generate_random. match goal with |- context [foldM ?f ?x ?l] => replace (foldM f x l) with (@Ok (nat * dict path arr) (k', V)) by (symmetry; exact E) end. cbn [bind]. split; [exact A|]. split; [exact Wr|]. split; [exact Sk|].
  assert (Lf : forall p q', dist_at r p = Some q' -> is_joint (dcls q') = false -> exists q n ps, dist_at d p = Some q /\ dcls q = dcls q' /\ dims_of q = Ok n /\ (forall nm, dget (dparams q') nm = dget ps nm) /\
      forall f, In f (fields (dcls q')) -> exists v s, dget ps (fd_name f) = Some v /\ adjust_support (dcls q') (fd_name f) ps = Ok s /\ supp_member s b n v /\ supp_shape s n = supp_shape (fd_support f) n).
  { intros p q' Hd' Hj'. destruct (Sk p) as [S1 _]. rewrite Hd' in S1. destruct (dist_at d p) as [q|] eqn:Hd; [|discriminate S1]. cbn in S1. injection S1 as S1.
    assert (Hj : is_joint (dcls q) = false) by (now rewrite S1). assert (Hin : In (p, q) (leaves [] d)) by (now apply leaf_in). destruct (Dm _ _ Hin) as [n Hn]. destruct (L _ _ n Hin Hn) as (ps & K1 & K2 & K3). rewrite S1 in *.
    exists q, n, ps. split; [reflexivity|]. split; [exact S1|]. split; [exact Hn|]. split; [|exact K3].
    assert (Wq : well_formed q = true) by (now apply (dist_at_wf d p)). assert (Wq' : well_formed q' = true) by (now apply (dist_at_wf r p)).
    intros nm. rewrite <- (param_at_dist r p q' nm Hd'), P. rewrite (param_at_dist d p q nm Hd).
    assert (Kq : keys (dparams q) = map fd_name (fields (dcls q'))). { destruct q as [c m pq sq]. cbn in S1. subst c. apply wf_inv in Wq as (X & _). exact X. }
    destruct (dget (dparams q) nm) as [v|] eqn:G.
    - apply dget_In in G. apply (in_map fst) in G. cbn [fst] in G. change (In nm (keys (dparams q))) in G. rewrite Kq, <- K1 in G.
      destruct (dget ps nm) as [w|] eqn:G2; [now apply K2|]. apply dget_None in G2. contradiction.
    - apply dget_None in G. symmetry. apply dget_None. now rewrite K1, <- Kq. }
  split.
  - intros p q' Hin. apply (leaf_in r p q' Wr) in Hin as [Hd' Hj']. destruct (Lf p q' Hd' Hj') as (q & n & ps & Hd & Ec & Hn & G & F).
    exists n. split.
    + unfold dims_of in *. rewrite Ec in Hn. destruct (dimensions_field (dcls q')) as [nm|] eqn:Df; [|exact Hn]. destruct (dims_field _ _ Df) as (f & Hf & <- & Hs). destruct (F f Hf) as (v & s & G1 & _ & [M1 _] & M2).
      unfold attr. rewrite G, G1. cbn [opt_err bind]. rewrite M1, M2. destruct (Hs n) as [s0 ->]. now rewrite app_assoc, last_dim_snoc.
    + intros f Hf. destruct (F f Hf) as (v & s & G1 & G2 & M1 & M2). exists v, s. rewrite G. split; [exact G1|]. split; [|exact M1]. rewrite <- G2. now apply adjust_ext.
  - intros p q q' Hd Hd'. destruct (Sk p) as [S1 _]. rewrite Hd, Hd' in S1. cbn in S1. injection S1 as S1. destruct (is_joint (dcls q')) eqn:Hj'.
    + unfold dims_of. rewrite S1. destruct (dcls q'); try discriminate Hj'; reflexivity.
    + destruct (Lf p q' Hd' Hj') as (q0 & n & ps & Hd0 & Ec & Hn & G & F). rewrite Hd in Hd0. injection Hd0 as <-. rewrite Hn.
      unfold dims_of in *. rewrite Ec in Hn. destruct (dimensions_field (dcls q')) as [nm|] eqn:Df; [|exact Hn]. destruct (dims_field _ _ Df) as (f & Hf & <- & Hs). destruct (F f Hf) as (v & s & G1 & _ & [M1 _] & M2).
      unfold attr. rewrite G, G1. cbn [opt_err bind]. rewrite M1, M2. destruct (Hs n) as [s0 ->]. now rewrite app_assoc, last_dim_snoc.
Qed.
