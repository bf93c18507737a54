(** C02: what parameters() lists. *)
From Coq Require Import String List Bool Arith Permutation Lia.
From Verif Require Import Base XReal Tensor Support Dist DictFacts Iteration Structure Spec StructFacts AssembleFacts.
Import ListNotations.

Lemma find_field c f : In f (fields c) -> find (fun g => String.eqb (fd_name g) (fd_name f)) (fields c) = Some f.
Proof.
  pose proof (nodup_fields c) as Hn. induction (fields c) as [|g l IH]; intros Hi; [destruct Hi|]. cbn in *. inversion Hn; subst.
  destruct Hi as [->|Hi]; [now rewrite String.eqb_refl|]. destruct (String.eqb (fd_name g) (fd_name f)) eqn:E; [|now apply IH].
  apply String.eqb_eq in E. exfalso. apply H1. rewrite E. now apply in_map.
Qed.
Lemma find_field_inv c n f : find (fun g => String.eqb (fd_name g) n) (fields c) = Some f -> In f (fields c) /\ fd_name f = n.
Proof. intros H. apply find_some in H as [H1 H2]. apply String.eqb_eq in H2. auto. Qed.

Lemma own_list_iff fx c m ps subs n v s : map fst ps = map fd_name (fields c) ->
  In (n, (v, s)) (own_list fx (Dist c m ps subs)) <->
  dget ps n = Some v /\ exists f, find (fun g => String.eqb (fd_name g) n) (fields c) = Some f /\ fixed_ok fx f = true /\ fd_support f = s.
Proof.
  intros H. unfold own_list. cbn [dcls dparams]. rewrite in_flat_map. split.
  - intros (f & Hf & Hi). apply filter_In in Hf as [Hf Hx]. destruct (dget ps (fd_name f)) eqn:E; [|destruct Hi].
    destruct Hi as [He|[]]. injection He as <- <- <-. split; [exact E|]. exists f. split; [now apply find_field|auto].
  - intros (E & f & Hf & Hx & <-). apply find_field_inv in Hf as [Hf <-]. exists f. split; [now apply filter_In|]. rewrite E. now left.
Qed.

Lemma leaf_items_iff fx d : forall base p v s, well_formed d = true ->
  In (base ++ p, (v, s)) (flat_map (leaf_items fx) (leaves base d)) <->
  param_at d p = Some v /\ exists f, field_at d p = Some f /\ fixed_ok fx f = true /\ fd_support f = s.
Proof.
  induction d as [c m ps subs IH] using dist_rect'. intros base p v s Hwf. pose proof Hwf as Hwf0.
  apply wf_inv in Hwf as (Hps & Hj & Hsb & Hsub). cbn [leaves]. destruct (is_joint c) eqn:Ej.
  - destruct (Hj eq_refl) as [_ Hnd]. rewrite (joint_no_fields c Ej) in Hps. destruct ps; [|discriminate Hps].
    assert (Hd : forall p', (exists ns, In ns subs /\ In (base ++ p', (v, s)) (flat_map (leaf_items fx) (leaves (base ++ [fst ns]) (snd ns)))) <->
      exists n q ss, p' = n :: q /\ dget subs n = Some ss /\ param_at ss q = Some v /\ exists f, field_at ss q = Some f /\ fixed_ok fx f = true /\ fd_support f = s).
    { intros p'. split.
      - intros ([n ss] & Hi & Hin). cbn [fst snd] in Hin.
        assert (Hq : exists q, p' = n :: q).
        { apply in_flat_map in Hin as ([bp q] & Hl & Hin). pose proof (leaves_prefix ss (base ++ [n])) as Hp. rewrite Forall_forall in Hp.
          specialize (Hp _ Hl). cbn in Hp. destruct Hp as [r ->]. unfold leaf_items in Hin. apply in_map_iff in Hin as ([n' x] & He & _).
          injection He as He _. cbn in He. rewrite <- !app_assoc in He. apply app_inv_head in He. eauto. }
        destruct Hq as [q ->]. exists n, q, ss. rewrite Forall_forall in IH, Hsub. specialize (IH _ Hi (base ++ [n]) q v s (Hsub _ Hi)). cbn [fst snd] in *.
        rewrite <- app_assoc in IH. cbn [app] in IH. split; [reflexivity|]. split; [now apply In_dget|]. now apply IH.
      - intros (n & q & ss & -> & Hg & Hr). apply dget_In in Hg. exists (n, ss). split; [exact Hg|]. cbn [fst snd].
        rewrite Forall_forall in IH, Hsub. specialize (IH _ Hg (base ++ [n]) q v s (Hsub _ Hg)). cbn [fst snd] in *.
        rewrite <- app_assoc in IH. cbn [app] in IH. now apply IH. }
    rewrite in_flat_map. split.
    + intros (pq & Hi & Hin). apply in_flat_map in Hi as (ns & Hns & Hl).
      assert (Hex : exists ns, In ns subs /\ In (base ++ p, (v, s)) (flat_map (leaf_items fx) (leaves (base ++ [fst ns]) (snd ns)))).
      { exists ns. split; [exact Hns|]. apply in_flat_map. eauto. }
      apply Hd in Hex as (n & q & ss & -> & Hg & Hr). destruct q as [|n2 q].
      * destruct Hr as [Hr _]. discriminate Hr.
      * cbn [param_at field_at sub_distributions]. rewrite Hg. exact Hr.
    + intros Hr. destruct p as [|n q]; [destruct Hr as [Hr _]; discriminate Hr|].
      destruct q as [|n2 q]; [cbn in Hr; destruct Hr as [Hr _]; discriminate Hr|].
      cbn [param_at field_at sub_distributions] in Hr. destruct (dget subs n) as [ss|] eqn:Hg; [|destruct Hr as [Hr _]; discriminate Hr].
      assert (Hex : exists n' q' ss, n :: n2 :: q = n' :: q' /\ dget subs n' = Some ss /\ param_at ss q' = Some v /\ exists f, field_at ss q' = Some f /\ fixed_ok fx f = true /\ fd_support f = s) by eauto 10.
      apply Hd in Hex as (ns & Hns & Hin). apply in_flat_map in Hin as (pq & Hl & Hin). exists pq. split; [|exact Hin].
      apply in_flat_map. eauto.
  - rewrite (Hsb eq_refl) in *. cbn [flat_map]. rewrite app_nil_r. unfold leaf_items. cbn [fst snd]. rewrite in_map_iff.
    split.
    + intros ([n x] & He & Hi). cbn in He. injection He as He ->. apply app_inv_head in He. subst p. apply own_list_iff in Hi; [|exact Hps]. exact Hi.
    + intros Hr. destruct p as [|n [|n2 q]]; cbn in Hr; try (destruct Hr as [Hr _]; discriminate Hr). exists (n, (v, s)). split; [reflexivity|].
      apply own_list_iff; [exact Hps|]. exact Hr.
Qed.

Lemma in_drop {K} (l : list (K * (arr * support))) k v : In (k, v) (drop_support l) <-> exists s, In (k, (v, s)) l.
Proof.
  unfold drop_support. rewrite in_map_iff. split.
  - intros ([k' [v' s]] & He & Hi). injection He as <- <-. eauto.
  - intros [s Hi]. exists (k, (v, s)). auto.
Qed.

Lemma params_listed d fx P : well_formed d = true -> parameters d fx = Ok P ->
  NoDup (keys P) /\ forall p v, In (p, v) P <-> param_at d p = Some v /\ exists f, field_at d p = Some f /\ fixed_ok fx f = true.
Proof.
  intros Hwf HP. rewrite parameters_ok in HP by exact Hwf. injection HP as <-. split.
  - rewrite keys_drop. now apply nodup_leaf_items.
  - intros p v. rewrite in_drop. split.
    + intros [s Hi]. pose proof (leaf_items_iff fx d [] p v s Hwf) as E. cbn [app] in E. apply E in Hi as (H1 & f & H2 & H3 & _). eauto.
    + intros (H1 & f & H2 & H3). exists (fd_support f). apply (leaf_items_iff fx d [] p v (fd_support f) Hwf). eauto.
Qed.
Lemma params_support_listed d fx P : well_formed d = true -> parameters_s d fx = Ok P ->
  NoDup (keys P) /\ forall p v s, In (p, (v, s)) P <-> param_at d p = Some v /\ exists f, field_at d p = Some f /\ fixed_ok fx f = true /\ fd_support f = s.
Proof.
  intros Hwf HP. rewrite parameters_s_ok in HP by exact Hwf. injection HP as <-. split; [now apply nodup_leaf_items|].
  intros p v s. apply (leaf_items_iff fx d [] p v s Hwf).
Qed.
Lemma params_total d fx : well_formed d = true -> exists P, parameters d fx = Ok P.
Proof. intros H. rewrite parameters_ok by exact H. eauto. Qed.

(** the split into fixed and variable parameters *)
Lemma params_partition d all fx vr : well_formed d = true -> parameters d None = Ok all -> parameters d (Some true) = Ok fx -> parameters d (Some false) = Ok vr ->
  Permutation all (fx ++ vr) /\ (forall k, In k (keys fx) -> ~ In k (keys vr)).
Proof.
  intros Hwf HA HF HV. destruct (params_listed d _ _ Hwf HA) as [NA LA]. destruct (params_listed d _ _ Hwf HF) as [NF LF]. destruct (params_listed d _ _ Hwf HV) as [NV LV].
  assert (Hdis : forall k, In k (keys fx) -> ~ In k (keys vr)).
  { intros k H1 H2. apply in_map_iff in H1 as ([k1 v1] & E1 & H1). apply in_map_iff in H2 as ([k2 v2] & E2 & H2). cbn in *. subst k1 k2.
    apply LF in H1 as (_ & f & Hf & Hx). apply LV in H2 as (_ & g & Hg & Hy). rewrite Hf in Hg. injection Hg as <-. cbn in *.
    destruct (fd_fixed f); discriminate. }
  split; [|exact Hdis]. apply NoDup_Permutation.
  - apply NoDup_map_inv with (f := fst). exact NA.
  - apply NoDup_map_inv with (f := fst). rewrite map_app. apply NoDup_app_intro; [exact NF|exact NV|exact Hdis].
  - intros [p v]. rewrite in_app_iff, LA, LF, LV. split.
    + intros (H1 & f & Hf & _). destruct (fd_fixed f) eqn:E; [left|right]; (split; [exact H1|]; exists f; split; [exact Hf|]; cbn; now rewrite E).
    + intros [(H1 & f & Hf & _)|(H1 & f & Hf & _)]; (split; [exact H1|]; exists f; auto).
Qed.
