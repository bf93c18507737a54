(** Round trips of supports (C33, C04, C06). *)
From Coq Require Import List Arith Bool Reals ZArith Lia Lra.
From Verif Require Import Base XReal Tensor TensorFacts TensorFacts2 BroadcastFacts Support SupportSpec PlaneFacts SupportFacts.
Import ListNotations.

(** every entry of y is an entry of x (or its conjugate) at an index with the same batch part *)
Definition arr_from (b : shape) (x y : arr) : Prop :=
  match x, y with
  | RA t, RA u => forall i, inb (shp u) i = true -> exists i', inb (shp t) i' = true /\ tget u i = tget t i' /\ firstn (length b) i = firstn (length b) i'
  | CA t, CA u => forall i, inb (shp u) i = true -> exists i', inb (shp t) i' = true /\ (tget u i = tget t i' \/ tget u i = cconj (tget t i')) /\ firstn (length b) i = firstn (length b) i'
  | _, _ => False
  end.
Lemma ring_vals_from r m b x y : arr_from b x y -> ring_vals r m b x -> ring_vals r m b y.
Proof.
  intros H Hv. destruct r as [mn mx sc|mn mx| |mn mx], x as [t|t], y as [u|u]; cbn in *; try contradiction.
  - intros Hm i Hi. destruct (H i Hi) as (i' & H1 & H2 & _). destruct (Hv Hm i' H1) as (v & E & Hin). exists v. now rewrite H2.
  - intros Hm. destruct (Hv Hm) as (H1 & H2 & H3). split; [exact H1|]. split; [exact H2|]. intros i Hi.
    destruct (H i Hi) as (i' & K1 & K2 & K3). destruct (H3 i' K1) as (lo & hi & re & im & E1 & E2 & E3 & L & Hin).
    rewrite K3. destruct K2 as [K2|K2].
    + exists lo, hi, re, im. rewrite K2. auto.
    + exists lo, hi, re, (- im)%R. rewrite K2, E3. repeat split; auto; try apply Hin.
      * unfold cmag in *. replace (re * re + - im * - im)%R with (re * re + im * im)%R by ring. apply Hin.
      * unfold cmag in *. replace (re * re + - im * - im)%R with (re * re + im * im)%R by ring. apply Hin.
  - intros i Hi. destruct (H i Hi) as (i' & H1 & H2 & _). rewrite H2. now apply Hv.
  - intros i Hi. destruct (H i Hi) as (i' & H1 & H2 & _). rewrite H2. now apply Hv.
Qed.
Ltac arrcase x := destruct x as [?t|?t].

Lemma from_newaxis x : arr_from (ashape x) x (arr_newaxis x).
Proof.
  destruct x as [t|t]; cbn [arr_from arr_newaxis ashape]; intros i Hi; destruct (inb_snoc _ _ _ Hi) as (j & l & -> & Hj & Hl); exists j;
    pose proof (inb_length _ _ Hj) as Hlen; (split; [exact Hj|]; split;
    [try left; unfold tnewaxis; rewrite tget_tbuild by exact Hi; now rewrite removelast_snoc
    | rewrite firstn_pre by exact Hlen; now rewrite <- Hlen, firstn_all]).
Qed.
Lemma from_last b x : ashape x = b ++ [1] -> arr_from b x (arr_last 0 x).
Proof.
  intros Hs. destruct x as [t|t]; cbn [arr_from arr_last ashape] in *; intros i Hi; exists (i ++ [0]);
    assert (Hi' : inb b i = true) by (cbn [shp tlast tbuild] in Hi; now rewrite Hs, removelast_snoc in Hi);
    pose proof (inb_length _ _ Hi') as Hlen;
    (split; [rewrite Hs; apply inb_snoc_intro; [exact Hi'|lia]|]; split;
     [try left; unfold tlast; now rewrite tget_tbuild by exact Hi | rewrite firstn_pre by exact Hlen; now rewrite <- Hlen, firstn_all]).
Qed.
Lemma from_gather b n x : ashape x = b ++ [n; n] -> arr_from b x (arr_gather_triu n x).
Proof.
  assert (Hin : forall k, k < comb2 n -> fst (nth k (triu n) (0, 0)) < n /\ snd (nth k (triu n) (0, 0)) < n).
  { intros k Hk. assert (H : In (nth k (triu n) (0, 0)) (triu n)) by (apply nth_In; now rewrite length_triu).
    destruct (nth k (triu n) (0, 0)) as [p q]. apply in_triu in H. cbn. lia. }
  intros Hs. destruct x as [t|t]; cbn [arr_from arr_gather_triu ashape] in *; intros i Hi; rewrite (gather_shape b n t Hs) in Hi;
    destruct (inb_snoc _ _ _ Hi) as (j & k & -> & Hj & Hk); destruct (Hin k Hk); pose proof (inb_length _ _ Hj) as Hlen;
    eexists; (split; [|split; [try left; apply (tget_gather b n); assumption|]]);
    [rewrite Hs; now apply inb_snoc2_intro | now rewrite !firstn_pre by exact Hlen
    |rewrite Hs; now apply inb_snoc2_intro | now rewrite !firstn_pre by exact Hlen].
Qed.
Lemma ravel_snoc b n j k : inb b j = true -> ravel (b ++ [n]) (j ++ [k]) = ravel b j * n + k.
Proof.
  revert j. induction b as [|m b IH]; intros [|a j] H; try discriminate; cbn in *; [lia|].
  apply andb_true_iff in H as [_ H]. rewrite IH by exact H. rewrite prods_app. cbn. nia.
Qed.
Lemma ravel_snoc2 b n m j k l : inb b j = true -> k < n -> ravel (b ++ [n; m]) (j ++ [k; l]) = ravel b j * (n * m) + (k * m + l).
Proof.
  intros Hj Hk. rewrite !snoc2, ravel_snoc, ravel_snoc by (try apply inb_snoc_intro; assumption). nia.
Qed.
Lemma from_reshape b n x y : ashape x = b ++ [n; n] -> arr_reshape (b ++ [n * n]) x = Ok y -> arr_from b x y /\ ashape y = b ++ [n * n].
Proof.
  assert (Hsq : forall l, l < n * n -> l / n < n /\ l mod n < n /\ l / n * n + l mod n = l).
  { intros l Hl. assert (n <> 0) by (intros ->; lia). split; [apply Nat.div_lt_upper_bound; lia|]. split; [now apply Nat.mod_upper_bound|].
    pose proof (Nat.div_mod l n). lia. }
  intros Hs Hy. destruct x as [t|t]; cbn [arr_reshape ashape] in *; destruct (treshape (b ++ [n * n]) t) as [u|] eqn:E; try discriminate;
    injection Hy as <-; destruct (treshape_ok (b ++ [n * n]) t) as (u' & E' & Hsu & Hd);
    try (rewrite Hs, !prods_app; cbn; lia); rewrite E in E'; injection E' as ->; (split; [|exact Hsu]); cbn; intros i Hi; rewrite Hsu in Hi;
    destruct (inb_snoc _ _ _ Hi) as (j & l & -> & Hj & Hl); destruct (Hsq l Hl) as (L1 & L2 & L3); pose proof (inb_length _ _ Hj) as Hlen;
    exists (j ++ [l / n; l mod n]);
    (split; [rewrite Hs; now apply inb_snoc2_intro|]; split; [try left|now rewrite !firstn_pre by exact Hlen]);
    unfold tget; rewrite Hd, Hsu, Hs, ravel_snoc, ravel_snoc2, L3 by assumption; reflexivity.
Qed.
Lemma from_reshape_back b n x y : ashape x = b ++ [n * n] -> arr_reshape (b ++ [n; n]) x = Ok y -> arr_from b x y /\ ashape y = b ++ [n; n].
Proof.
  intros Hs Hy. destruct x as [t|t]; cbn [arr_reshape ashape] in *; destruct (treshape (b ++ [n; n]) t) as [u|] eqn:E; try discriminate;
    injection Hy as <-; destruct (treshape_ok (b ++ [n; n]) t) as (u' & E' & Hsu & Hd);
    try (rewrite Hs, !prods_app; cbn; lia); rewrite E in E'; injection E' as ->; (split; [|exact Hsu]); cbn; intros i Hi; rewrite Hsu in Hi;
    destruct (inb_snoc2 _ _ _ _ Hi) as (j & k & l & -> & Hj & Hk & Hl); pose proof (inb_length _ _ Hj) as Hlen;
    exists (j ++ [k * n + l]);
    (split; [rewrite Hs; apply inb_snoc_intro; [exact Hj|nia]|]; split; [try left|now rewrite !firstn_pre by exact Hlen]);
    unfold tget; rewrite Hd, Hsu, Hs, ravel_snoc, ravel_snoc2 by assumption; reflexivity.
Qed.
Lemma reshape_back s x y : arr_reshape s x = Ok y -> arr_reshape (ashape x) y = Ok x.
Proof.
  destruct x as [t|t]; cbn; destruct (treshape s t) as [u|] eqn:E; try discriminate; intros H; injection H as <-; cbn;
    now rewrite (treshape_back _ _ _ E).
Qed.
Lemma reshape_ok s x : prods s = prods (ashape x) -> exists y, arr_reshape s x = Ok y /\ ashape y = s.
Proof.
  intros H. destruct x as [t|t]; destruct (treshape_ok s t H) as (u & E & Hs & _); cbn; rewrite E; eexists; split; [reflexivity|exact Hs|reflexivity|exact Hs].
Qed.

(** ** circular support *)
Lemma xsum_squares l : xsum (map xsquare (map Fin l)) = Fin (sumsq l).
Proof. induction l as [|a l IH]; [reflexivity|]. cbn [map xsum fold_right] in *. unfold xsum in *. cbn. rewrite IH. reflexivity. Qed.
Lemma sumsq_nonneg l : (0 <= sumsq l)%R.
Proof. induction l as [|a l IH]; [cbn; lra|]. change (sumsq (a :: l)) with (a * a + sumsq l)%R. pose proof (Rle_0_sqr a) as H. unfold Rsqr in H. lra. Qed.
Lemma sumsq_scale c l : sumsq (map (Rmult c) l) = (c * c * sumsq l)%R.
Proof. induction l as [|a l IH]; [cbn; ring|]. cbn [map]. change (sumsq ((c * a)%R :: map (Rmult c) l)) with (c * a * (c * a) + sumsq (map (Rmult c) l))%R. rewrite IH. change (sumsq (a :: l)) with (a * a + sumsq l)%R. ring. Qed.
Lemma norm2_scale c l : (0 <= c)%R -> norm2 (map (Rmult c) l) = (c * norm2 l)%R.
Proof.
  intros H. unfold norm2. rewrite sumsq_scale, sqrt_mult by (try apply sumsq_nonneg; apply Rmult_le_pos; assumption).
  now rewrite sqrt_square.
Qed.
Lemma vec_map (t : tensor xr) j n l : vec_at t j n l -> map (fun k => tget t (j ++ [k])) (seq 0 n) = map Fin l.
Proof.
  intros [Hl H]. apply nth_ext with (d := Fin 0) (d' := Fin 0); [now rewrite !map_length, seq_length|].
  intros k Hk. rewrite map_length, seq_length in Hk. rewrite (nth_indep _ _ (tget t (j ++ [0]))) by now rewrite map_length, seq_length.
  rewrite (map_nth (fun k => tget t (j ++ [k]))), seq_nth by exact Hk. cbn [plus]. rewrite H by exact Hk.
  now rewrite map_nth.
Qed.
Lemma norm_at b n (t : tensor xr) j l : shp t = b ++ [n] -> inb b j = true -> vec_at t j n l ->
  tget (tfold_last (fun v => xsqrt (xsum (map xsquare v))) t) j = Fin (norm2 l).
Proof.
  intros Hs Hj Hv. unfold tfold_last. rewrite tget_tbuild by (now rewrite Hs, removelast_snoc).
  rewrite Hs, last_snoc, (vec_map t j n l Hv), xsum_squares. apply xsqrt_Fin. apply sumsq_nonneg.
Qed.
(** elementwise form of the two maps: a function of the norm scales the vector *)
Lemma scale_last b n (g : xr -> xr) (t : tensor xr) : shp t = b ++ [n] ->
  let mg := tfold_last (fun v => xsqrt (xsum (map xsquare v))) t in
  (let magnitude := norm_last t in let cm := tmap g magnitude in
   let* p := tmap2 xmul t cm in tmap2 xdiv p magnitude)
  = Ok (tbuild (b ++ [n]) (fun i => xdiv (xmul (tget t i) (g (tget mg (removelast i)))) (tget mg (removelast i)))).
Proof.
  intros Hs mg. unfold norm_last. fold mg. assert (Hm : shp mg = b) by (cbn; now rewrite Hs, removelast_snoc).
  assert (E : tmap g (tnewaxis mg) = Nat.iter (length [n]) tnewaxis (tmap g mg)).
  { cbn [length Nat.iter]. unfold tnewaxis, tmap. cbn [shp tbuild]. apply tbuild_ext. intros i Hi. rewrite tget_tbuild by exact Hi.
    destruct (inb_snoc _ _ _ Hi) as (j & l & -> & Hj & Hl). rewrite removelast_snoc. now rewrite tget_tbuild. }
  cbn zeta. rewrite E. rewrite (tmap2_prefix xmul t (tmap g mg) b [n]) by (auto; now rewrite shp_tmap). cbn [bind].
  change (tnewaxis mg) with (Nat.iter (length [n]) tnewaxis mg). rewrite (tmap2_prefix xdiv _ mg b [n]) by auto.
  f_equal. apply tbuild_ext. intros i Hi. rewrite tget_tbuild by exact Hi.
  destruct (inb_snoc _ _ _ Hi) as (j & l & -> & Hj & Hl). rewrite removelast_snoc, firstn_pre by now apply inb_length.
  now rewrite tget_tmap by now rewrite Hm.
Qed.
Lemma scale_vec b n (g : xr -> xr) (h : R -> R) (t : tensor xr) : shp t = b ++ [n] ->
  let mg := tfold_last (fun v => xsqrt (xsum (map xsquare v))) t in
  let u := tbuild (b ++ [n]) (fun i => xdiv (xmul (tget t i) (g (tget mg (removelast i)))) (tget mg (removelast i))) in
  forall j l, inb b j = true -> vec_at t j n l -> norm2 l <> 0%R -> g (Fin (norm2 l)) = Fin (h (norm2 l)) ->
  vec_at u j n (map (Rmult (h (norm2 l) / norm2 l)) l).
Proof.
  intros Hs mg u j l Hj Hv Hne Hg. split; [rewrite map_length; apply Hv|]. intros k Hk. unfold u.
  rewrite tget_tbuild by now apply inb_snoc_intro. rewrite removelast_snoc. unfold mg. rewrite (norm_at b n t j l Hs Hj Hv), Hg.
  destruct Hv as [Hl Hv]. rewrite Hv by exact Hk. cbn [xmul]. rewrite xdiv_Fin by exact Hne. f_equal.
  replace 0%R with (h (norm2 l) / norm2 l * 0)%R at 2 by ring. rewrite map_nth. field. exact Hne.
Qed.
Lemma vec_unique b n (t u : tensor xr) : shp t = b ++ [n] -> shp u = b ++ [n] ->
  (forall j, inb b j = true -> exists l, vec_at t j n l /\ vec_at u j n l) -> t = u.
Proof.
  intros Ht Hu H. apply tensor_ext; [congruence|]. rewrite Ht. intros i Hi. destruct (inb_snoc _ _ _ Hi) as (j & k & -> & Hj & Hk).
  destruct (H j Hj) as (l & [_ H1] & [_ H2]). now rewrite H1, H2.
Qed.
Local Open Scope R_scope.
Definition circ_g (radius : R) (m : xr) : xr := xlogit (xadd (xmul (xdiv m (Fin radius)) (Fin (1/2))) (Fin (1/2))).
Definition circ_k (radius : R) (c : xr) : xr := xmul (xmul (Fin radius) (xsub (xexpit c) (Fin (1/2)))) (Fin 2).
Lemma circ_g_Fin radius r : 0 < r < radius -> circ_g radius (Fin r) = Fin (to_mag 0 (Some radius) r).
Proof.
  intros H. unfold circ_g, to_mag. rewrite xdiv_Fin by lra. cbn [xmul xadd].
  pose proof (div_range 0 radius r) as Hr. rewrite Rminus_0_r in *. rewrite xlogit_Fin; [reflexivity|]. rewrite Rplus_0_l in Hr. specialize (Hr ltac:(lra) ltac:(lra)). lra.
Qed.
Lemma circ_k_Fin radius c : circ_k radius (Fin c) = Fin (from_mag 0 (Some radius) c).
Proof. unfold circ_k, from_mag. cbn. f_equal. ring. Qed.
Lemma circ_inside radius r : 0 < r < radius -> mag_inside 0 (Some radius) r.
Proof. intros H. unfold mag_inside. lra. Qed.
Lemma map_scale_id c d l : c * d = 1 -> map (Rmult c) (map (Rmult d) l) = l.
Proof. intros H. rewrite map_map. rewrite <- (map_id l) at 2. apply map_ext. intros a. rewrite <- Rmult_assoc, H. ring. Qed.

Lemma circ_rt radius b n (t : tensor xr) : shp t = b ++ [n] -> 0 < radius ->
  (forall j, inb b j = true -> exists l, vec_at t j n l /\ 0 < norm2 l < radius) ->
  exists u, circ_to_plane radius t = Ok u /\ shp u = b ++ [n] /\ circ_from_plane radius u = Ok t /\
    forall j, inb b j = true -> exists l, vec_at u j n l.
Proof.
  intros Hs Hr H. change (circ_to_plane radius t) with (let magnitude := norm_last t in let cm := tmap (circ_g radius) magnitude in
    let* p := tmap2 xmul t cm in tmap2 xdiv p magnitude).
  rewrite (scale_last b n _ t Hs). eexists. split; [reflexivity|]. split; [reflexivity|].
  set (u := tbuild _ _). assert (Hu : shp u = b ++ [n]) by reflexivity.
  change (circ_from_plane radius u) with (let magnitude := norm_last u in let cm := tmap (circ_k radius) magnitude in
    let* p := tmap2 xmul u cm in tmap2 xdiv p magnitude).
  rewrite (scale_last b n _ u Hu). split.
  2:{ intros j Hj. destruct (H j Hj) as (l & Hv & Hn). eexists.
      exact (scale_vec b n _ (to_mag 0 (Some radius)) t Hs j l Hj Hv ltac:(lra) (circ_g_Fin radius _ Hn)). }
  f_equal. apply (vec_unique b n); [reflexivity|exact Hs|]. intros j Hj.
  destruct (H j Hj) as (l & Hv & Hn). exists l. split; [|exact Hv].
  pose proof (scale_vec b n _ (to_mag 0 (Some radius)) t Hs j l Hj Hv ltac:(lra) (circ_g_Fin radius _ Hn)) as Hv1. fold u in Hv1.
  set (l1 := map _ l) in Hv1. pose proof (to_mag_pos 0 (Some radius) _ (circ_inside _ _ Hn)) as Hp.
  assert (Hn1 : norm2 l1 = to_mag 0 (Some radius) (norm2 l)).
  { unfold l1. rewrite norm2_scale by (apply Rlt_le, Rdiv_lt_0_compat; lra). field. lra. }
  pose proof (scale_vec b n _ (from_mag 0 (Some radius)) u Hu j l1 Hj Hv1 ltac:(lra) (circ_k_Fin radius _)) as Hv2.
  rewrite Hn1, from_to_mag in Hv2 by now apply circ_inside. unfold l1 in Hv2. rewrite map_scale_id in Hv2 by (field; split; lra). exact Hv2.
Qed.
Lemma circ_rt_plane radius b n (t : tensor xr) : shp t = b ++ [n] -> 0 < radius ->
  (forall j, inb b j = true -> exists l, vec_at t j n l /\ 0 < norm2 l) ->
  exists u, circ_from_plane radius t = Ok u /\ shp u = b ++ [n] /\
    (forall j, inb b j = true -> exists l, vec_at u j n l /\ 0 < norm2 l < radius) /\ circ_to_plane radius u = Ok t.
Proof.
  intros Hs Hr H. change (circ_from_plane radius t) with (let magnitude := norm_last t in let cm := tmap (circ_k radius) magnitude in
    let* p := tmap2 xmul t cm in tmap2 xdiv p magnitude).
  rewrite (scale_last b n _ t Hs). eexists. split; [reflexivity|]. split; [reflexivity|].
  set (u := tbuild _ _). assert (Hu : shp u = b ++ [n]) by reflexivity.
  assert (Hvec : forall j l, inb b j = true -> vec_at t j n l -> 0 < norm2 l ->
    let l1 := map (Rmult (from_mag 0 (Some radius) (norm2 l) / norm2 l)) l in
    vec_at u j n l1 /\ norm2 l1 = from_mag 0 (Some radius) (norm2 l) /\ 0 < norm2 l1 < radius).
  { intros j l Hj Hv Hn. pose proof (scale_vec b n _ (from_mag 0 (Some radius)) t Hs j l Hj Hv ltac:(lra) (circ_k_Fin radius _)) as Hv1.
    fold u in Hv1. cbn zeta. pose proof (from_mag_inside 0 (Some radius) _ Hr Hn) as [Hi1 Hi2].
    assert (E : norm2 (map (Rmult (from_mag 0 (Some radius) (norm2 l) / norm2 l)) l) = from_mag 0 (Some radius) (norm2 l)).
    { rewrite norm2_scale by (apply Rlt_le, Rdiv_lt_0_compat; lra). field. lra. }
    split; [exact Hv1|]. split; [exact E|]. rewrite E. lra. }
  split.
  - intros j Hj. destruct (H j Hj) as (l & Hv & Hn). destruct (Hvec j l Hj Hv Hn) as (H1 & _ & H3). eauto.
  - change (circ_to_plane radius u) with (let magnitude := norm_last u in let cm := tmap (circ_g radius) magnitude in
      let* p := tmap2 xmul u cm in tmap2 xdiv p magnitude).
    rewrite (scale_last b n _ u Hu). f_equal. apply (vec_unique b n); [reflexivity|exact Hs|]. intros j Hj.
    destruct (H j Hj) as (l & Hv & Hn). exists l. split; [|exact Hv]. destruct (Hvec j l Hj Hv Hn) as (Hv1 & Hn1 & Hr1).
    pose proof (scale_vec b n _ (to_mag 0 (Some radius)) u Hu j _ Hj Hv1 ltac:(lra) (circ_g_Fin radius _ Hr1)) as Hv2.
    rewrite Hn1, to_from_mag in Hv2 by exact Hr. rewrite map_scale_id in Hv2; [exact Hv2|]. rewrite <- Hn1. field. split; lra.
Qed.
Close Scope R_scope.

(** ** supports *)
Lemma ashape_newaxis x : ashape (arr_newaxis x) = ashape x ++ [1].
Proof. now destruct x. Qed.
Lemma arr_last_newaxis x : arr_last 0 (arr_newaxis x) = x.
Proof. destruct x; cbn [arr_last arr_newaxis]; now rewrite tlast_newaxis. Qed.
Lemma arr_newaxis_last b x : ashape x = b ++ [1] -> arr_newaxis (arr_last 0 x) = x.
Proof. destruct x; cbn [arr_last arr_newaxis ashape]; intros H; now rewrite (tnewaxis_last b _ H). Qed.
Lemma ashape_last b x : ashape x = b ++ [1] -> ashape (arr_last 0 x) = b.
Proof. destruct x; cbn; intros H; now rewrite H, removelast_snoc. Qed.
Lemma ashape_gather b n x : ashape x = b ++ [n; n] -> ashape (arr_gather_triu n x) = b ++ [comb2 n].
Proof. destruct x; cbn [ashape arr_gather_triu]; intros H; now rewrite (gather_shape b n _ H). Qed.
Lemma arr_sym_rt h b n x : ashape x = b ++ [n; n] -> arr_symmetric h b n x -> arr_sym_unflatten h (arr_gather_triu n x) = Ok x.
Proof. destruct x; cbn [ashape arr_gather_triu arr_sym_unflatten arr_symmetric]; intros Hs H; now rewrite (sym_rt _ _ b n _ Hs H). Qed.

Lemma supp_rt s m b n x : supp_vals s m b n x -> (forall r, s <> SimplexS r) ->
  exists t, supp_flattened s m x = Ok t /\ shp t = b ++ [supp_num_elements s n] /\ supp_unflattened s t n m = Ok x.
Proof.
  intros [Hs Hv] Hsx. destruct s as [r|r|r|r h psd nsd|r|radius]; cbn [supp_shape] in Hs.
  - rewrite app_nil_r in Hs. subst b. assert (Hv' : ring_vals r m (ashape x) (arr_newaxis x)) by exact (ring_vals_from _ _ _ _ _ (from_newaxis x) Hv).
    destruct (ring_rt r m _ (ashape x) 1 Hv' (ashape_newaxis x)) as (t & H1 & H2 & H3). exists t. split; [exact H1|]. split; [exact H2|].
    cbn [supp_unflattened]. rewrite H3. cbn [bind]. rewrite ashape_newaxis, last_dim_snoc. cbn [opt_err bind Nat.eqb]. f_equal. apply arr_last_newaxis.
  - destruct (ring_rt r m x b n Hv Hs) as (t & H1 & H2 & H3). exists t. split; [exact H1|]. split; [exact H2|].
    cbn [supp_unflattened]. rewrite H3. cbn [bind]. rewrite Hs, last_dim_snoc. cbn [opt_err bind]. now rewrite Nat.eqb_refl.
  - exfalso. now apply (Hsx r).
  - destruct Hv as [Hv Hsym]. pose proof (ring_vals_from _ _ _ _ _ (from_gather b n x Hs) Hv) as Hv'.
    destruct (ring_rt r m _ b (comb2 n) Hv' (ashape_gather b n x Hs)) as (t & H1 & H2 & H3). exists t.
    split; [|split; [exact H2|]].
    + cbn [supp_flattened]. rewrite Hs, rev_app_distr. cbn [rev app]. rewrite Nat.eqb_refl. exact H1.
    + cbn [supp_unflattened]. rewrite H3. cbn [bind]. now apply arr_sym_rt with (b := b).
  - destruct (reshape_ok (b ++ [n * n]) x) as (y & Hy & Hsy); [rewrite Hs, !prods_app; cbn; lia|].
    destruct (from_reshape b n x y Hs Hy) as [Hf _].
    destruct (ring_rt r m y b (n * n) (ring_vals_from _ _ _ _ _ Hf Hv) Hsy) as (t & H1 & H2 & H3). exists t. split; [|split; [exact H2|]].
    + cbn [supp_flattened]. rewrite Hs, snoc2, !removelast_snoc, !last_snoc. rewrite Hy. exact H1.
    + cbn [supp_unflattened]. rewrite H3. cbn [bind]. rewrite Hsy, removelast_snoc, <- Hs. exact (reshape_back _ _ _ Hy).
  - destruct x as [t|]; [|contradiction]. cbn [supp_flattened as_real bind]. destruct m.
    + destruct (Hv eq_refl) as [Hr Hvec]. destruct (circ_rt radius b n t Hs Hr Hvec) as (u & H1 & H2 & H3 & _). exists u.
      split; [exact H1|]. split; [exact H2|]. cbn [supp_unflattened]. rewrite H2, last_dim_snoc. cbn [opt_err bind]. now rewrite Nat.eqb_refl, H3.
    + exists t. split; [reflexivity|]. split; [exact Hs|reflexivity].
Qed.

(** flattening to the plane gives finite numbers *)
Lemma ring_flat_fin r x b k t : ring_vals r true b x -> ashape x = b ++ [k] -> ring_flattened r true x = Ok t -> fin_tensor t.
Proof.
  intros Hv Hs. destruct r as [mn mx sc|mn mx| |mn mx], x as [u|c]; cbn in Hv; try contradiction; cbn [ashape] in Hs.
  - cbn [ring_flattened as_real bind]. intros H i Hi. injection H as <-. change (inb (shp u) i = true) in Hi.
    unfold tmap. rewrite tget_tbuild by exact Hi. destruct (Hv eq_refl i Hi) as (v & -> & Hin).
    rewrite real_to_plane_Fin by exact Hin. eauto.
  - cbn [ring_flattened as_complex]. destruct (Hv eq_refl) as (Hmn & Hmx & Hel).
    assert (Hmn' : bound_pre mn (shp c)) by (rewrite Hs; now apply bound_pre_app).
    assert (Hmx' : mx_pre mx (shp c)) by (rewrite Hs; now apply mx_pre_app).
    rewrite complex_to_plane_elem by assumption. cbn [bind].
    set (y := tbuild _ _). assert (Hy : shp y = b ++ [k]) by exact Hs. intros Ht.
    assert (Hye : forall i, inb (shp c) i = true -> exists a a', tget y i = cfin a a').
    { intros i Hi. unfold y. rewrite tget_tbuild by exact Hi.
      destruct (Hel i Hi) as (mm & M & a & bb & E1 & E2 & -> & Hm & Hin). rewrite Hs in Hi.
      rewrite (bval_firstn _ _ [k]) in E1 by assumption. rewrite (mx_val_firstn _ _ [k]) in E2 by assumption.
      rewrite E1, E2, c_to_Fin by assumption. eauto. }
    destruct (complex_split b k y Hy) as (t' & H1 & H2 & H3 & H4 & H5). rewrite H1 in Ht. injection Ht as <-.
    destruct (complex_join b k t' H2) as (c' & C1 & C2 & C3 & C4). rewrite H5 in C1. injection C1 as <-.
    intros i Hi. rewrite H2 in Hi. destruct (inb_snoc _ _ _ Hi) as (j & q & -> & Hj & Hq).
    destruct (lt_dec q k) as [Hlt|Hge].
    + specialize (C4 j q Hj Hlt). destruct (Hye (j ++ [q])) as (a & a' & E); [rewrite Hs; now apply inb_snoc_intro|].
      rewrite E in C4. injection C4 as C4 _. rewrite <- C4. eauto.
    + replace q with (k + (q - k))%nat by lia. assert (Hlt : (q - k < k)%nat) by lia. specialize (C4 j (q - k)%nat Hj Hlt).
      destruct (Hye (j ++ [(q - k)%nat])) as (a & a' & E); [rewrite Hs; now apply inb_snoc_intro|].
      rewrite E in C4. injection C4 as _ C4. rewrite <- C4. eauto.
  - cbn. intros H i Hi. injection H as <-. destruct (Hv i Hi) as [-> | ->]; eauto.
  - cbn. intros H i Hi. injection H as <-. destruct (Hv i Hi) as [z ->]; eauto.
Qed.
Lemma supp_flat_fin s b n x t : supp_vals s true b n x -> supp_flattened s true x = Ok t -> fin_tensor t.
Proof.
  intros [Hs Hv]. destruct s as [r|r|r|r h psd nsd|r|radius]; cbn [supp_shape] in Hs; cbn [supp_flattened].
  - rewrite app_nil_r in Hs. subst b. apply (ring_flat_fin r _ (ashape x) 1); [|apply ashape_newaxis].
    exact (ring_vals_from _ _ _ _ _ (from_newaxis x) Hv).
  - now apply (ring_flat_fin r x b n).
  - now apply (ring_flat_fin r x b (n - 1)).
  - destruct Hv as [Hv _]. rewrite Hs, rev_app_distr. cbn [rev app]. rewrite Nat.eqb_refl.
    apply (ring_flat_fin r _ b (comb2 n)); [exact (ring_vals_from _ _ _ _ _ (from_gather b n x Hs) Hv)|now apply ashape_gather].
  - destruct (reshape_ok (b ++ [n * n]) x) as (y & Hy & Hsy); [rewrite Hs, !prods_app; cbn; lia|].
    destruct (from_reshape b n x y Hs Hy) as [Hf _].
    rewrite Hs, snoc2, !removelast_snoc, !last_snoc, Hy. cbn [bind].
    apply (ring_flat_fin r y b (n * n)); [exact (ring_vals_from _ _ _ _ _ Hf Hv)|exact Hsy].
  - destruct x as [u|]; [|contradiction]. cbn [as_real bind]. destruct (Hv eq_refl) as [Hr Hvec].
    destruct (circ_rt radius b n u Hs Hr Hvec) as (w & H1 & H2 & H3 & H4). rewrite H1. intros H. injection H as <-.
    intros i Hi. rewrite H2 in Hi. destruct (inb_snoc _ _ _ Hi) as (j & q & -> & Hj & Hq).
    destruct (H4 j Hj) as (l & _ & Hl). rewrite (Hl q Hq). eauto.
Qed.

Lemma from_sym h b n x y : ashape x = b ++ [comb2 n] -> arr_sym_unflatten h x = Ok y ->
  arr_from b x y /\ ashape y = b ++ [n; n] /\ arr_symmetric h b n y /\ arr_gather_triu n y = x.
Proof.
  intros Hs Hy. destruct x as [t|t]; cbn [arr_sym_unflatten ashape] in *.
  - destruct (sym_unflatten_ok (Fin 0) (fun v => v) b n t Hs) as (u & H1 & H2 & H3 & H4). rewrite H1 in Hy. injection Hy as <-.
    split; [|split; [exact H2|split]].
    + cbn. intros i Hi. rewrite H2 in Hi. destruct (inb_snoc2 _ _ _ _ Hi) as (j & k & l & -> & Hj & Hk & Hl).
      pose proof (inb_length _ _ Hj) as Hlen.
      destruct (Nat.le_gt_cases k l) as [Hkl|Hkl].
      * destruct (pos_lt n k l Hkl Hl) as [Hp _]. eexists. split; [rewrite Hs; apply inb_snoc_intro; [exact Hj|exact Hp]|].
        split; [now apply H3|now rewrite !firstn_pre by exact Hlen].
      * destruct (pos_lt n l k ltac:(lia) Hk) as [Hp _]. eexists. split; [rewrite Hs; apply inb_snoc_intro; [exact Hj|exact Hp]|].
        split; [now apply H4|now rewrite !firstn_pre by exact Hlen].
    + cbn. intros j k l Hj Hk Hl. rewrite H4, H3 by (assumption || lia). reflexivity.
    + cbn. f_equal. exact (gather_unflatten _ _ b n t u Hs H1).
  - set (cj := if h then cconj else fun v => v) in *.
    assert (Hcj : forall v, cj v = v \/ cj v = cconj v) by (unfold cj; destruct h; auto).
    destruct (sym_unflatten_ok (XC (Fin 0) (Fin 0)) cj b n t Hs) as (u & H1 & H2 & H3 & H4). rewrite H1 in Hy. injection Hy as <-.
    split; [|split; [exact H2|split]].
    + cbn. intros i Hi. rewrite H2 in Hi. destruct (inb_snoc2 _ _ _ _ Hi) as (j & k & l & -> & Hj & Hk & Hl).
      pose proof (inb_length _ _ Hj) as Hlen.
      destruct (Nat.le_gt_cases k l) as [Hkl|Hkl].
      * destruct (pos_lt n k l Hkl Hl) as [Hp _]. eexists. split; [rewrite Hs; apply inb_snoc_intro; [exact Hj|exact Hp]|].
        split; [left; now apply H3|now rewrite !firstn_pre by exact Hlen].
      * destruct (pos_lt n l k ltac:(lia) Hk) as [Hp _]. eexists. split; [rewrite Hs; apply inb_snoc_intro; [exact Hj|exact Hp]|].
        split; [rewrite H4 by assumption; apply Hcj|now rewrite !firstn_pre by exact Hlen].
    + cbn. intros j k l Hj Hk Hl. rewrite H4, H3 by (assumption || lia). reflexivity.
    + cbn. f_equal. exact (gather_unflatten _ _ b n t u Hs H1).
Qed.

Lemma supp_rt_plane s m b n t : supp_plane s m b n t ->
  exists x, supp_unflattened s t n m = Ok x /\ supp_vals s m b n x /\ supp_flattened s m x = Ok t.
Proof.
  unfold supp_vals. intros H. destruct s as [r|r|r|r h psd nsd|r|radius]; cbn [supp_plane supp_shape] in *.
  - destruct (ring_rt_plane r m t b 1 H) as (x & H1 & H2 & H3 & H4). cbn [supp_unflattened]. rewrite H1. cbn [bind].
    rewrite H2, last_dim_snoc. cbn [opt_err bind Nat.eqb]. eexists. split; [reflexivity|].
    rewrite (ashape_last b), app_nil_r by exact H2. split; [split; [reflexivity|]|].
    + exact (ring_vals_from _ _ _ _ _ (from_last b x H2) H3).
    + cbn [supp_flattened]. now rewrite (arr_newaxis_last b) by exact H2.
  - destruct (ring_rt_plane r m t b n H) as (x & H1 & H2 & H3 & H4). cbn [supp_unflattened]. rewrite H1. cbn [bind].
    rewrite H2, last_dim_snoc. cbn [opt_err bind]. rewrite Nat.eqb_refl. eexists. split; [reflexivity|]. split; [now split|exact H4].
  - contradiction.
  - destruct (ring_rt_plane r m t b (comb2 n) H) as (x & H1 & H2 & H3 & H4). cbn [supp_unflattened]. rewrite H1. cbn [bind].
    assert (E : exists y, arr_sym_unflatten h x = Ok y).
    { destruct x as [u|u]; cbn [arr_sym_unflatten ashape] in *.
      - destruct (sym_unflatten_ok (Fin 0) (fun v => v) b n u H2) as (v & -> & _). eexists; reflexivity.
      - destruct (sym_unflatten_ok (XC (Fin 0) (Fin 0)) (if h then cconj else fun v => v) b n u H2) as (v & -> & _). eexists; reflexivity. }
    destruct E as [y Hy]. exists y. split; [exact Hy|]. destruct (from_sym h b n x y H2 Hy) as (F1 & F2 & F3 & F4).
    split; [split; [exact F2|split; [exact (ring_vals_from _ _ _ _ _ F1 H3)|exact F3]]|].
    cbn [supp_flattened]. rewrite F2, rev_app_distr. cbn [rev app]. rewrite Nat.eqb_refl, F4. exact H4.
  - destruct (ring_rt_plane r m t b (n * n) H) as (x & H1 & H2 & H3 & H4). cbn [supp_unflattened]. rewrite H1. cbn [bind].
    rewrite H2, removelast_snoc. destruct (reshape_ok (b ++ [n; n]) x) as (y & Hy & Hsy); [rewrite H2, !prods_app; cbn; lia|].
    destruct (from_reshape_back b n x y H2 Hy) as [F _]. exists y. split; [exact Hy|]. split; [split; [exact Hsy|exact (ring_vals_from _ _ _ _ _ F H3)]|].
    cbn [supp_flattened]. rewrite Hsy, snoc2, !removelast_snoc, !last_snoc. rewrite <- H2. rewrite (reshape_back _ _ _ Hy). exact H4.
  - destruct H as [Hs H]. cbn [supp_unflattened]. destruct m.
    + destruct (H eq_refl) as [Hr Hv]. rewrite Hs, last_dim_snoc. cbn [opt_err bind]. rewrite Nat.eqb_refl.
      destruct (circ_rt_plane radius b n t Hs Hr Hv) as (u & H1 & H2 & H3 & H4). rewrite H1. cbn [rmap]. eexists. split; [reflexivity|].
      split; [split; [exact H2|intros _; now split]|]. exact H4.
    + eexists. split; [reflexivity|]. split; [split; [exact Hs|discriminate]|reflexivity].
Qed.
