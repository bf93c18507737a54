(** Round trips of rings and supports (C33, C04, C06). *)
From Coq Require Import FinFun List Arith Bool Reals ZArith Lia Lra.
From Verif Require Import Base XReal Tensor TensorFacts TensorFacts2 BroadcastFacts Support SupportSpec PlaneFacts Dist Spec StructFacts.
Import ListNotations.

(** ** complex fields, one element *)
Definition c_to (mn : xr) (mx : option xr) (z : xc) : xc :=
  let d := xsub (cabs z) mn in
  let c := match mx with
           | None => d
           | Some M => xlogit (xadd (xmul (xdiv d M) (Fin (1/2))) (Fin (1/2)))
           end in
  cdivr (cscale c z) (cabs z).
Definition c_from (mn : xr) (mx : option xr) (y : xc) : xc :=
  let c := cabs y in
  let m := match mx with
           | None => xadd c mn
           | Some M => xadd (xmul (xmul M (xsub (xexpit c) (Fin (1/2)))) (Fin 2)) mn
           end in
  cdivr (cscale m y) c.

Lemma fix_bound_iter b s s2 : s = shp (bound_tensor b) ++ s2 ->
  fix_bound b (length s) = Nat.iter (length s2) tnewaxis (bound_tensor b).
Proof.
  intros ->. unfold fix_bound. fold (bound_tensor b). unfold rank. rewrite app_length.
  now replace (length (shp (bound_tensor b)) + length s2 - length (shp (bound_tensor b))) with (length s2) by lia.
Qed.
Lemma tmap2_bound {A C} {DA : Dflt A} (f : A -> xr -> C) (x : tensor A) b : bound_pre b (shp x) -> forall n, n = length (shp x) ->
  tmap2 f x (fix_bound b n) = Ok (tbuild (shp x) (fun i => f (tget x i) (bval b i))).
Proof.
  intros [s2 Hs] n ->. rewrite (fix_bound_iter b _ s2 Hs).
  rewrite (tmap2_prefix f x (bound_tensor b) (shp (bound_tensor b)) s2 Hs eq_refl). now rewrite <- Hs.
Qed.
Lemma tmap2_bound_l {A C} {DA : Dflt A} (f : xr -> A -> C) (x : tensor A) b : bound_pre b (shp x) -> forall n, n = length (shp x) ->
  tmap2 f (fix_bound b n) x = Ok (tbuild (shp x) (fun i => f (bval b i) (tget x i))).
Proof.
  intros [s2 Hs] n ->. rewrite (fix_bound_iter b _ s2 Hs).
  rewrite (tmap2_prefix_l f x (bound_tensor b) (shp (bound_tensor b)) s2 Hs eq_refl). now rewrite <- Hs.
Qed.

Ltac tg Hi := repeat first [rewrite tget_tbuild by exact Hi | rewrite tget_tmap by exact Hi].
Lemma complex_to_plane_elem mn mx x : bound_pre mn (shp x) -> mx_pre mx (shp x) ->
  complex_to_plane mn mx x = Ok (tbuild (shp x) (fun i => c_to (bval mn i) (mx_val mx i) (tget x i))).
Proof.
  intros Hmn Hmx. unfold complex_to_plane.
  rewrite tmap2_bound by (exact Hmn || reflexivity). cbn [bind].
  set (d := tbuild _ _).
  assert (Hd : forall i, inb (shp x) i = true -> tget d i = xsub (cabs (tget x i)) (bval mn i)).
  { intros i Hi. unfold d. now tg Hi. }
  destruct mx as [M|].
  -  rewrite tmap2_bound by (reflexivity || (apply Hmx; reflexivity)). cbn [bind].
    rewrite tmap2_same by reflexivity. cbn [bind]. rewrite tmap2_same by reflexivity. f_equal.
    apply tbuild_ext. intros i Hi. tg Hi. rewrite Hd by exact Hi. reflexivity.
  - cbn [bind]. rewrite tmap2_same by reflexivity. cbn [bind]. rewrite tmap2_same by reflexivity. f_equal.
    apply tbuild_ext. intros i Hi. tg Hi. rewrite Hd by exact Hi. reflexivity.
Qed.
Lemma complex_from_plane_elem mn mx y : bound_pre mn (shp y) -> mx_pre mx (shp y) ->
  complex_from_plane mn mx y = Ok (tbuild (shp y) (fun i => c_from (bval mn i) (mx_val mx i) (tget y i))).
Proof.
  intros Hmn Hmx. unfold complex_from_plane.
  destruct mx as [M|].
  -  rewrite (tmap2_bound_l _ (tmap cabs y)) by (reflexivity || (apply Hmx; reflexivity)). cbn [bind].
    rewrite tmap2_bound by (exact Hmn || reflexivity). cbn [bind].
    rewrite tmap2_same by reflexivity. cbn [bind]. rewrite tmap2_same by reflexivity. f_equal.
    apply tbuild_ext. intros i Hi. tg Hi. reflexivity.
  -  rewrite tmap2_bound by (exact Hmn || reflexivity). cbn [bind].
    rewrite tmap2_same by reflexivity. cbn [bind]. rewrite tmap2_same by reflexivity. f_equal.
    apply tbuild_ext. intros i Hi. tg Hi. reflexivity.
Qed.

Local Open Scope R_scope.
Lemma c_scale_div k r a b : r <> 0 -> cdivr (cscale (Fin k) (cfin a b)) (Fin r) = cfin (k / r * a) (k / r * b).
Proof.
  intros H. unfold cdivr, cscale, cfin. cbn [xre xim xmul]. rewrite !xdiv_Fin by exact H. f_equal; f_equal; field; exact H.
Qed.
Lemma cmag_scale k a b : 0 <= k -> cmag (k * a) (k * b) = k * cmag a b.
Proof. apply sqrt_scale. Qed.

Definition to_mag (m : R) (M : option R) (r : R) : R :=
  match M with None => r - m | Some M => logit ((r - m) / M * (1 / 2) + 1 / 2) end.
Definition from_mag (m : R) (M : option R) (c : R) : R :=
  match M with None => c + m | Some M => M * (expit c - 1 / 2) * 2 + m end.

Lemma div_range m M r : m < r -> r < m + M -> 1 / 2 < (r - m) / M * (1 / 2) + 1 / 2 < 1.
Proof.
  intros H1 H2. assert (HM : 0 < M) by lra. assert (H : 0 < (r - m) / M < 1).
  { split; [apply Rdiv_lt_0_compat; lra|]. apply Rmult_lt_reg_r with M; [lra|]. unfold Rdiv. rewrite Rmult_assoc, Rinv_l by lra. lra. }
  lra.
Qed.
Lemma c_to_Fin m M a b : 0 <= m -> mag_inside m M (cmag a b) ->
  c_to (Fin m) (option_map Fin M) (cfin a b)
  = cfin (to_mag m M (cmag a b) / cmag a b * a) (to_mag m M (cmag a b) / cmag a b * b).
Proof.
  intros Hm [H1 H2]. assert (Hr : cmag a b <> 0) by lra. unfold c_to.
  unfold cfin at 1 2 4. rewrite cabs_Fin. fold (cmag a b). rewrite xsub_Fin.
  destruct M as [M|]; cbn [option_map].
  - rewrite xdiv_Fin by lra. cbn [xmul xadd]. rewrite xlogit_Fin.
    + fold (cfin a b). rewrite c_scale_div by exact Hr. reflexivity.
    + pose proof (div_range m M _ H1 H2). lra.
  - fold (cfin a b). rewrite c_scale_div by exact Hr. reflexivity.
Qed.
Lemma c_from_Fin m M a b : cmag a b <> 0 ->
  c_from (Fin m) (option_map Fin M) (cfin a b)
  = cfin (from_mag m M (cmag a b) / cmag a b * a) (from_mag m M (cmag a b) / cmag a b * b).
Proof.
  intros Hr. unfold c_from. unfold cfin at 1 2 4. rewrite cabs_Fin. fold (cmag a b).
  destruct M as [M|]; cbn [option_map xexpit]; rewrite ?xsub_Fin; cbn [xmul xadd]; fold (cfin a b);
    rewrite c_scale_div by exact Hr; reflexivity.
Qed.
Lemma to_mag_pos m M r : mag_inside m M r -> 0 < to_mag m M r.
Proof.
  intros [H1 H2]. destruct M as [M|]; cbn; [|lra]. apply logit_pos. now apply div_range.
Qed.
Lemma from_mag_inside m M c : match M with Some M => 0 < M | None => True end -> 0 < c -> mag_inside m M (from_mag m M c).
Proof.
  intros HM Hc. destruct M as [M|]; cbn; unfold mag_inside; [|lra].
  pose proof (expit_half c Hc). pose proof (expit_range c). split; nra.
Qed.
Lemma from_to_mag m M r : mag_inside m M r -> from_mag m M (to_mag m M r) = r.
Proof.
  intros [H1 H2]. destruct M as [M|]; cbn; [|lra]. rewrite expit_logit.
  - field. lra.
  - pose proof (div_range m M r H1 H2). lra.
Qed.
Lemma to_from_mag m M c : match M with Some M => 0 < M | None => True end -> to_mag m M (from_mag m M c) = c.
Proof.
  intros HM. destruct M as [M|]; cbn; [|lra].
  replace ((M * (expit c - 1 / 2) * 2 + m - m) / M * (1 / 2) + 1 / 2) with (expit c) by (field; lra). apply logit_expit.
Qed.
Lemma cmag_nonneg a b : 0 <= cmag a b. Proof. apply sqrt_pos. Qed.
Lemma c_from_to m M a b : 0 <= m -> mag_inside m M (cmag a b) ->
  c_from (Fin m) (option_map Fin M) (c_to (Fin m) (option_map Fin M) (cfin a b)) = cfin a b.
Proof.
  intros Hm H. rewrite c_to_Fin by assumption. pose proof (to_mag_pos m M _ H) as Hp.
  assert (Hr : 0 < cmag a b) by (destruct H; lra).
  set (k := to_mag m M (cmag a b) / cmag a b). assert (Hk : 0 < k) by (apply Rdiv_lt_0_compat; lra).
  assert (Hmag : cmag (k * a) (k * b) = to_mag m M (cmag a b)).
  { rewrite cmag_scale by lra. unfold k. field. lra. }
  rewrite c_from_Fin by (rewrite Hmag; lra). rewrite Hmag, from_to_mag by exact H.
  unfold cfin; f_equal; f_equal; unfold k; field; split; lra.
Qed.
Lemma c_to_from m M a b : 0 <= m -> match M with Some M => 0 < M | None => True end -> cmag a b <> 0 ->
  c_to (Fin m) (option_map Fin M) (c_from (Fin m) (option_map Fin M) (cfin a b)) = cfin a b /\
  exists a' b', c_from (Fin m) (option_map Fin M) (cfin a b) = cfin a' b' /\ mag_inside m M (cmag a' b').
Proof.
  intros Hm HM Hne. pose proof (cmag_nonneg a b). assert (Hr : 0 < cmag a b) by lra.
  rewrite c_from_Fin by exact Hne.
  set (k := from_mag m M (cmag a b) / cmag a b).
  pose proof (from_mag_inside m M _ HM Hr) as Hin. assert (Hpos : 0 < from_mag m M (cmag a b)) by (destruct Hin; lra).
  assert (Hk : 0 < k) by (apply Rdiv_lt_0_compat; lra).
  assert (Hmag : cmag (k * a) (k * b) = from_mag m M (cmag a b)).
  { rewrite cmag_scale by lra. unfold k. field. lra. }
  split.
  - rewrite c_to_Fin; rewrite ?Hmag; try assumption. rewrite to_from_mag by exact HM.
    unfold cfin; f_equal; f_equal; unfold k; field; split; lra.
  - exists (k * a), (k * b). split; [reflexivity|]. now rewrite Hmag.
Qed.
Lemma c_to_zero mx : xre (c_to (Fin 0) mx (cfin 0 0)) = NaN.
Proof.
  unfold c_to, cfin. rewrite cabs_Fin. replace (0 * 0 + 0 * 0) with 0 by ring. rewrite sqrt_0.
  unfold cdivr, cscale. cbn [xre xim].
  destruct (match mx with None => _ | Some M => _ end) as [r| | |]; cbn [xmul].
  - rewrite Rmult_0_r. cbn. destruct (Req_EM_T 0 0); [|lra]. destruct (Req_EM_T 0 0); [reflexivity|lra].
  - unfold inf_mul. destruct (Req_EM_T 0 0); [reflexivity|lra].
  - unfold inf_mul. destruct (Req_EM_T 0 0); [reflexivity|lra].
  - reflexivity.
Qed.
Close Scope R_scope.

(** ** rings *)
Lemma Int_part_IZR z : Int_part (IZR z) = z.
Proof.
  unfold Int_part. rewrite <- (tech_up (IZR z) (z + 1)); [lia| |]; rewrite plus_IZR; lra.
Qed.
Lemma rtrunc_IZR z : rtrunc (IZR z) = z.
Proof.
  unfold rtrunc. destruct (Rle_dec 0 (IZR z)); [apply Int_part_IZR|]. rewrite <- opp_IZR, Int_part_IZR. lia.
Qed.

Lemma bound_pre_ext mn s t : bound_pre mn s -> s = t -> bound_pre mn t.
Proof. now intros H <-. Qed.

Lemma xc_eta z : XC (xre z) (xim z) = z. Proof. now destruct z. Qed.

Lemma complex_split b k (c : tensor xc) : shp c = b ++ [k] ->
  exists t, tappend (tmap xre c) (tmap xim c) = Ok t /\ shp t = b ++ [k * 2] /\
    (k * 2) mod 2 = 0 /\ k * 2 / 2 = k /\
    tmap2 XC (tslice 0 k t) (tslice k (k * 2) t) = Ok c.
Proof.
  intros Hs. destruct (tappend_slices b k k (tmap xre c) (tmap xim c) Hs Hs) as (t & H1 & H2 & H3 & H4).
  exists t. split; [exact H1|]. replace (k * 2) with (k + k) by lia. split; [exact H2|].
  split; [|split].
  - replace (k + k) with (k * 2) by lia. apply Nat.mod_mul. lia.
  - replace (k + k) with (k * 2) by lia. apply Nat.div_mul. lia.
  - rewrite H3, H4. rewrite tmap2_same by reflexivity. f_equal. apply tbuild_is; [reflexivity|].
    intros i Hi. rewrite !tget_tmap by exact Hi. apply xc_eta.
Qed.

Lemma bound_pre_app b s s2 : bound_pre b s -> bound_pre b (s ++ s2).
Proof. intros [s3 ->]. exists (s3 ++ s2). now rewrite app_assoc. Qed.
Lemma mx_pre_app mx s s2 : mx_pre mx s -> mx_pre mx (s ++ s2).
Proof. intros H M HM. apply bound_pre_app. now apply H. Qed.
Lemma bval_firstn b s s2 i : bound_pre b s -> inb (s ++ s2) i = true -> bval b (firstn (length s) i) = bval b i.
Proof.
  intros [s3 Hs] Hi. unfold bval. f_equal. rewrite firstn_firstn. f_equal.
  rewrite Hs, app_length. unfold rank. lia.
Qed.
Lemma mx_val_firstn mx s s2 i : mx_pre mx s -> inb (s ++ s2) i = true -> mx_val mx (firstn (length s) i) = mx_val mx i.
Proof. intros H Hi. destruct mx as [M|]; [|reflexivity]. cbn. f_equal. apply (bval_firstn M s s2); auto. Qed.

Lemma ring_rt r m x b k : ring_vals r m b x -> ashape x = b ++ [k] ->
  exists t, ring_flattened r m x = Ok t /\ shp t = b ++ [ring_num_elements r k] /\ ring_unflattened r m t = Ok x.
Proof.
  intros Hv Hs. destruct r as [mn mx sc|mn mx| |mn mx], x as [t|c]; cbn in Hv; try contradiction; cbn [ashape] in Hs.
  - cbn [ring_flattened as_real bind ring_num_elements ring_unflattened].
    eexists. split; [reflexivity|]. destruct m.
    + split; [exact Hs|]. rewrite tmap_tmap. do 2 f_equal. apply tmap_id. intros i Hi.
      destruct (Hv eq_refl i Hi) as (v & -> & Hin). rewrite real_to_plane_Fin, real_from_plane_Fin by exact Hin.
      now rewrite r_from_to.
    + split; [exact Hs|reflexivity].
  - cbn [ring_flattened as_complex ring_num_elements ring_unflattened]. destruct m.
    + destruct (Hv eq_refl) as (Hmn & Hmx & Hel).
      assert (Hmn' : bound_pre mn (shp c)) by (rewrite Hs; now apply bound_pre_app).
      assert (Hmx' : mx_pre mx (shp c)) by (rewrite Hs; now apply mx_pre_app).
      rewrite complex_to_plane_elem by assumption. cbn [bind].
      set (y := tbuild _ _). assert (Hy : shp y = b ++ [k]) by exact Hs.
      destruct (complex_split b k y Hy) as (t & H1 & H2 & H3 & H4 & H5). exists t. split; [exact H1|]. split; [exact H2|].
      rewrite H2, last_dim_snoc. cbn [opt_err bind]. rewrite H3. cbn [Nat.eqb negb]. rewrite H4, H5. cbn [bind].
      rewrite complex_from_plane_elem by assumption. cbn [rmap]. do 2 f_equal. apply tbuild_is; [reflexivity|].
      intros i Hi. unfold y. rewrite tget_tbuild by exact Hi.
      destruct (Hel i Hi) as (mm & M & a & bb & E1 & E2 & -> & Hm & Hin).
      change (shp y) with (shp c) in Hi. rewrite Hs in Hi.
      rewrite (bval_firstn _ _ [k]) in E1 by assumption. rewrite (mx_val_firstn _ _ [k]) in E2 by assumption.
      rewrite E1, E2. now apply c_from_to.
    + cbn [bind]. destruct (complex_split b k c Hs) as (t & H1 & H2 & H3 & H4 & H5). exists t.
      split; [exact H1|]. split; [exact H2|].
      rewrite H2, last_dim_snoc. cbn [opt_err bind]. rewrite H3. cbn [Nat.eqb negb]. rewrite H4, H5. reflexivity.
  - cbn. eexists. split; [reflexivity|]. split; [exact Hs|]. do 2 f_equal. apply tmap_id. intros i Hi.
    destruct (Hv i Hi) as [-> | ->]; cbn; destruct (Req_EM_T _ _); try reflexivity; exfalso; lra.
  - cbn. eexists. split; [reflexivity|]. split; [exact Hs|]. do 2 f_equal. apply tmap_id. intros i Hi.
    destruct (Hv i Hi) as [z ->]. cbn. now rewrite rtrunc_IZR.
Qed.

(** the other direction: a point of the plane *)
Lemma complex_join b k (t : tensor xr) : shp t = b ++ [k * 2] ->
  exists c, tmap2 XC (tslice 0 k t) (tslice k (k * 2) t) = Ok c /\ shp c = b ++ [k] /\
    tappend (tmap xre c) (tmap xim c) = Ok t /\
    forall j l, inb b j = true -> l < k -> tget c (j ++ [l]) = XC (tget t (j ++ [l])) (tget t (j ++ [k + l])).
Proof.
  intros Hs. replace (k * 2) with (k + k) in * by lia.
  assert (S1 : shp (tslice 0 k t) = b ++ [k]) by (rewrite (shp_tslice b (k + k)) by (auto; lia); now rewrite Nat.sub_0_r).
  assert (S2 : shp (tslice k (k + k) t) = b ++ [k]).
  { rewrite (shp_tslice b (k + k)) by (auto; lia). do 2 f_equal. lia. }
  rewrite tmap2_same by congruence. eexists. split; [reflexivity|]. split; [exact S1|]. split.
  - rewrite <- (tappend_halves b k k t Hs). f_equal.
    + apply tbuild_is; [reflexivity|]. cbn [shp tbuild]. intros i Hi. now rewrite tget_tbuild by exact Hi.
    + apply tbuild_is; [rewrite S2; symmetry; exact S1|]. cbn [shp tbuild]. intros i Hi. now rewrite tget_tbuild by exact Hi.
  - intros j l Hj Hl. rewrite tget_tbuild by (rewrite S1; now apply inb_snoc_intro). f_equal.
    + rewrite (tget_tslice b (k + k)) by (auto; lia). reflexivity.
    + rewrite (tget_tslice b (k + k)) by (auto; lia). reflexivity.
Qed.
Lemma firstn_pre {A} (j i : list A) n : length j = n -> firstn n (j ++ i) = j.
Proof. intros <-. rewrite firstn_app, Nat.sub_diag, firstn_all. cbn. apply app_nil_r. Qed.

Lemma ring_rt_plane r m t b k : ring_plane r m b k t ->
  exists x, ring_unflattened r m t = Ok x /\ ashape x = b ++ [k] /\ ring_vals r m b x /\ ring_flattened r m x = Ok t.
Proof.
  intros [Hs Hp]. destruct r as [mn mx sc|mn mx| |mn mx]; cbn [ring_num_elements] in Hs.
  - cbn [ring_unflattened]. eexists. split; [reflexivity|]. split; [destruct m; exact Hs|]. destruct m.
    + destruct (Hp eq_refl) as [Hpr Hf]. split.
      * cbn [ring_vals]. intros _ i Hi. destruct (Hf i Hi) as [v Hv]. exists (r_from_plane mn mx v).
        rewrite tget_tmap by exact Hi. rewrite Hv, real_from_plane_Fin. split; [reflexivity|]. now apply r_from_plane_inside.
      * cbn [ring_flattened as_real bind]. f_equal. rewrite tmap_tmap. apply tmap_id. intros i Hi. destruct (Hf i Hi) as [v Hv]. rewrite Hv, real_from_plane_Fin.
        rewrite real_to_plane_Fin by now apply r_from_plane_inside. f_equal. now apply r_to_from.
    + split; [cbn; discriminate|reflexivity].
  - cbn [ring_unflattened]. destruct (complex_join b k t Hs) as (c & H1 & H2 & H3 & H4).
    rewrite Hs, last_dim_snoc. cbn [opt_err bind].
    rewrite Nat.mod_mul, Nat.div_mul by lia. cbn [Nat.eqb negb]. rewrite H1. cbn [bind]. destruct m.
    + destruct (Hp eq_refl) as (Hmn & Hmx & Hel).
      assert (Hmn' : bound_pre mn (shp c)) by (rewrite H2; now apply bound_pre_app).
      assert (Hmx' : mx_pre mx (shp c)) by (rewrite H2; now apply mx_pre_app).
      assert (Hel' : forall i, inb (shp c) i = true -> exists lo hi re im, bval mn i = Fin lo /\ mx_val mx i = option_map Fin hi /\
         (0 <= lo)%R /\ match hi with Some M => (0 < M)%R | None => True end /\ tget c i = cfin re im /\ cmag re im <> 0%R).
      { intros i Hi. rewrite H2 in Hi. destruct (inb_snoc _ _ _ Hi) as (j & l & -> & Hj & Hl).
        destruct (Hel j l Hj Hl) as (lo & hi & re & im & E1 & E2 & L1 & L2 & T1 & T2 & Hne).
        exists lo, hi, re, im. rewrite H4 by assumption. rewrite T1, T2.
        rewrite <- (bval_firstn mn b [k] (j ++ [l])), <- (mx_val_firstn mx b [k] (j ++ [l])) by assumption.
        rewrite firstn_pre by now apply inb_length. repeat split; assumption. }
      rewrite complex_from_plane_elem by assumption. cbn [rmap]. eexists. split; [reflexivity|]. split; [exact H2|]. split.
      * cbn [ring_vals]. intros _. split; [exact Hmn|]. split; [exact Hmx|]. intros i Hi.
        destruct (Hel' i Hi) as (lo & hi & re & im & E1 & E2 & L1 & L2 & T & Hne).
        destruct (c_to_from lo hi re im L1 L2 Hne) as [_ (a' & b' & E & Hin)]. exists lo, hi, a', b'.
        rewrite tget_tbuild by exact Hi. rewrite E1, E2, T, E. rewrite H2 in Hi.
        rewrite (bval_firstn mn b [k]), (mx_val_firstn mx b [k]) by assumption. auto.
      * cbn [ring_flattened as_complex]. rewrite complex_to_plane_elem by assumption. cbn [bind].
        rewrite <- H3. f_equal; f_equal; apply tbuild_is; try reflexivity; cbn [shp tbuild]; intros i Hi; rewrite tget_tbuild by exact Hi;
        destruct (Hel' i Hi) as (lo & hi & re & im & E1 & E2 & L1 & L2 & T & Hne);
        destruct (c_to_from lo hi re im L1 L2 Hne) as [E _]; rewrite E1, E2, T; exact E.
    + eexists. split; [reflexivity|]. split; [exact H2|]. split; [cbn; discriminate|]. exact H3.
  - cbn [ring_unflattened]. assert (E : tmap xbool t = t).
    { apply tmap_id. intros i Hi. destruct (Hp i Hi) as [-> | ->]; cbn; destruct (Req_EM_T _ _); try reflexivity; exfalso; lra. }
    rewrite E. eexists. split; [reflexivity|]. now split.
  - cbn [ring_unflattened]. assert (E : tmap xtrunc t = t).
    { apply tmap_id. intros i Hi. destruct (Hp i Hi) as [z ->]. cbn. now rewrite rtrunc_IZR. }
    rewrite E. eexists. split; [reflexivity|]. now split.
Qed.

(** ** upper triangles *)
Lemma pos_of_nth p l : In p l -> pos_of p l < length l /\ nth (pos_of p l) l (0, 0) = p.
Proof.
  induction l as [|q l IH]; intros H; [destruct H|]. cbn.
  destruct ((fst p =? fst q) && (snd p =? snd q)) eqn:E.
  - apply andb_true_iff in E as [E1 E2]. apply Nat.eqb_eq in E1, E2. split; [lia|]. destruct p, q; cbn in *; congruence.
  - destruct H as [->|H]; [rewrite !Nat.eqb_refl in E; discriminate|]. destruct (IH H) as [H1 H2]. split; [lia|exact H2].
Qed.
Lemma in_triu n k j : In (k, j) (triu n) <-> k <= j < n.
Proof.
  unfold triu. rewrite filter_In, in_prod_iff, !in_seq. cbn. rewrite Nat.leb_le. lia.
Qed.
Lemma length_filter_prod (n : nat) : forall l : list nat, (forall a, In a l -> a < n) ->
  length (filter (fun p => fst p <=? snd p) (list_prod l (seq 0 n))) = list_sum (map (fun a => n - a) l).
Proof.
  assert (Hrow : forall a m s, length (filter (fun p => fst p <=? snd p) (map (fun y => (a, y)) (seq s m))) = (s + m) - Nat.max s a - (if s <=? a then if a <=? s + m then 0 else 0 else 0)).
  { intros a m. induction m as [|m IH]; intros s; cbn [seq map filter length]; [destruct (s <=? a); try destruct (a <=? _); lia|].
    cbn [fst snd]. destruct (Nat.leb_spec a s); cbn [length]; rewrite IH; repeat match goal with |- context [if ?c then 0 else 0] => destruct c end; repeat match goal with |- context [if ?c then _ else 0] => destruct c end; lia. }
  induction l as [|a l IH]; intros H; [reflexivity|]. cbn [list_prod map list_sum fold_right].
  rewrite filter_app, app_length, IH by (intros; apply H; now right). rewrite Hrow.
  change (list_sum (n - a :: map (fun a0 => n - a0) l)) with (n - a + list_sum (map (fun a0 => n - a0) l)).
  f_equal. specialize (H a (or_introl eq_refl)). destruct (0 <=? a); [destruct (a <=? 0 + n)|]; lia.
Qed.
Lemma sum_desc n m : m <= n -> 2 * list_sum (map (fun a => n - a) (seq 0 m)) + m * m = 2 * n * m + m.
Proof.
  induction m as [|m IH]; intros H; [cbn; lia|]. rewrite seq_S, map_app, list_sum_app. cbn [map].
  change (list_sum [n - (0 + m)]) with (n - (0 + m) + 0). cbn [plus]. specialize (IH ltac:(lia)). nia.
Qed.
Lemma length_triu n : length (triu n) = comb2 n.
Proof.
  unfold triu. rewrite length_filter_prod by (intros a Ha; apply in_seq in Ha; lia).
  pose proof (sum_desc n n (le_n n)). unfold comb2. set (x := list_sum _) in *.
  replace ((n + 1) * n) with (x * 2) by nia. now rewrite Nat.div_mul.
Qed.
Lemma sqrt_comb2 n : Nat.sqrt (1 + 8 * comb2 n) = 2 * n + 1.
Proof.
  assert (H : 1 + 8 * comb2 n = (2 * n + 1) * (2 * n + 1)).
  { pose proof (length_triu n) as Hl. unfold triu in Hl. rewrite length_filter_prod in Hl by (intros a Ha; apply in_seq in Ha; lia).
    rewrite <- Hl. pose proof (sum_desc n n (le_n n)). set (x := list_sum _) in *. nia. }
  rewrite H. apply Nat.sqrt_square.
Qed.
Lemma sq_comb2 n : (2 * n + 1) * (2 * n + 1) = 1 + 8 * comb2 n.
Proof.
  pose proof (length_triu n) as Hl. unfold triu in Hl. rewrite length_filter_prod in Hl by (intros a Ha; apply in_seq in Ha; lia).
  rewrite <- Hl. pose proof (sum_desc n n (le_n n)). set (x := list_sum _) in *. nia.
Qed.

Lemma snoc2 {A} (b : list A) x y : b ++ [x; y] = (b ++ [x]) ++ [y].
Proof. now rewrite <- app_assoc. Qed.
Lemma inb_snoc2 s n m i : inb (s ++ [n; m]) i = true ->
  exists j k l, i = j ++ [k; l] /\ inb s j = true /\ k < n /\ l < m.
Proof.
  rewrite snoc2. intros H. destruct (inb_snoc _ _ _ H) as (j & l & -> & Hj & Hl).
  destruct (inb_snoc _ _ _ Hj) as (j' & k & -> & Hj' & Hk). exists j', k, l. now rewrite snoc2.
Qed.
Lemma inb_snoc2_intro s n m j k l : inb s j = true -> k < n -> l < m -> inb (s ++ [n; m]) (j ++ [k; l]) = true.
Proof. intros. rewrite !snoc2. apply inb_snoc_intro; [now apply inb_snoc_intro|assumption]. Qed.
Lemma swap_last2_snoc {A} (b : list A) x y : swap_last2 (b ++ [x; y]) = b ++ [y; x].
Proof. unfold swap_last2. rewrite rev_app_distr. cbn. rewrite rev_involutive, <- app_assoc. reflexivity. Qed.

Lemma NoDup_prod {A B} (l : list A) (l' : list B) : NoDup l -> NoDup l' -> NoDup (list_prod l l').
Proof.
  intros Hl Hl'. induction l as [|a l IH]; cbn; [constructor|]. inversion Hl; subst. apply NoDup_app_intro.
  - apply FinFun.Injective_map_NoDup; [|assumption]. intros ? ? H; congruence.
  - auto.
  - intros [a1 b1] H H'. apply in_map_iff in H as (? & H & _). injection H as <- <-. apply in_prod_iff in H' as [H' _]. contradiction.
Qed.
Section Sym.
  Context {A : Type} {DA : Dflt A} (z : A) (conj : A -> A).
  Lemma gather_shape b n (x : tensor A) : shp x = b ++ [n; n] -> shp (gather_triu n x) = b ++ [comb2 n].
  Proof. intros H. unfold gather_triu. rewrite shp_tbuild, H, snoc2, !removelast_snoc, length_triu. reflexivity. Qed.
  Lemma tget_gather b n (x : tensor A) j k : shp x = b ++ [n; n] -> inb b j = true -> k < comb2 n ->
    tget (gather_triu n x) (j ++ [k]) = tget x (j ++ [fst (nth k (triu n) (0, 0)); snd (nth k (triu n) (0, 0))]).
  Proof.
    intros H Hj Hk. unfold gather_triu. rewrite tget_tbuild.
    - rewrite last_snoc, removelast_snoc. reflexivity.
    - rewrite H, snoc2, !removelast_snoc, length_triu. now apply inb_snoc_intro.
  Qed.
  Lemma sym_unflatten_ok b n (y : tensor A) : shp y = b ++ [comb2 n] ->
    exists x, sym_unflatten z conj y = Ok x /\ shp x = b ++ [n; n] /\
      (forall j k l, inb b j = true -> k <= l -> l < n -> tget x (j ++ [k; l]) = tget y (j ++ [pos_of (k, l) (triu n)])) /\
      (forall j k l, inb b j = true -> k < l -> l < n -> tget x (j ++ [l; k]) = conj (tget y (j ++ [pos_of (k, l) (triu n)]))).
  Proof.
    intros Hs. unfold sym_unflatten. rewrite Hs, last_dim_snoc. cbn [opt_err bind].
    rewrite sqrt_comb2, sq_comb2, Nat.eqb_refl. cbn [negb].
    replace ((2 * n + 1) mod 2) with 1 by (rewrite Nat.add_comm, Nat.mul_comm, Nat.mod_add; [reflexivity|lia]).
    cbn [Nat.eqb negb]. replace ((2 * n + 1 - 1) / 2) with n by (rewrite Nat.add_sub, Nat.mul_comm, Nat.div_mul; lia).
    rewrite removelast_snoc. eexists. split; [reflexivity|].
    set (empty := tfull (b ++ [n; n]) z).
    assert (Hsh : shp (tmap conj (tswap (scatter_triu n empty y))) = b ++ [n; n]).
    { cbn. apply swap_last2_snoc. }
    split; [exact Hsh|]. split.
    - intros j k l Hj Hk Hl. unfold scatter_triu at 1. rewrite tget_tbuild.
      + rewrite snoc2, !last_snoc, !removelast_snoc, last_snoc. destruct (Nat.leb_spec k l); [reflexivity|lia].
      + rewrite Hsh. apply inb_snoc2_intro; [exact Hj|lia|exact Hl].
    - intros j k l Hj Hk Hl. unfold scatter_triu at 1. rewrite tget_tbuild.
      + rewrite snoc2, !last_snoc, !removelast_snoc, last_snoc. destruct (Nat.leb_spec l k); [lia|].
        rewrite <- snoc2. rewrite tget_tmap.
        2:{ change (shp (tswap (scatter_triu n empty y))) with (swap_last2 (b ++ [n; n])). rewrite swap_last2_snoc.
            apply inb_snoc2_intro; [exact Hj|exact Hl|lia]. }
        f_equal. unfold tswap. rewrite tget_tbuild.
        2:{ change (shp (scatter_triu n empty y)) with (b ++ [n; n]). rewrite swap_last2_snoc.
            apply inb_snoc2_intro; [exact Hj|exact Hl|lia]. }
        rewrite swap_last2_snoc. unfold scatter_triu. rewrite tget_tbuild.
        2:{ apply inb_snoc2_intro; [exact Hj|lia|exact Hl]. }
        rewrite snoc2, !last_snoc, !removelast_snoc, last_snoc. destruct (Nat.leb_spec k l); [reflexivity|lia].
      + rewrite Hsh. apply inb_snoc2_intro; [exact Hj|exact Hl|lia].
  Qed.
  Lemma pos_lt n k l : k <= l -> l < n -> pos_of (k, l) (triu n) < comb2 n /\ nth (pos_of (k, l) (triu n)) (triu n) (0, 0) = (k, l).
  Proof. intros H1 H2. rewrite <- length_triu. apply pos_of_nth. apply in_triu. lia. Qed.
  Lemma sym_rt b n (x : tensor A) : shp x = b ++ [n; n] -> symmetric conj b n x -> sym_unflatten z conj (gather_triu n x) = Ok x.
  Proof.
    intros Hs Hsym. destruct (sym_unflatten_ok b n (gather_triu n x) (gather_shape b n x Hs)) as (u & H1 & H2 & H3 & H4).
    rewrite H1. f_equal. apply tensor_ext; [congruence|]. rewrite H2. intros i Hi.
    destruct (inb_snoc2 _ _ _ _ Hi) as (j & k & l & -> & Hj & Hk & Hl).
    destruct (Nat.le_gt_cases k l) as [Hkl|Hkl].
    - rewrite H3 by assumption. destruct (pos_lt n k l Hkl Hl) as [Hp Hn]. rewrite (tget_gather b n) by assumption. now rewrite Hn.
    - rewrite H4 by assumption. destruct (pos_lt n l k ltac:(lia) Hk) as [Hp Hn]. rewrite (tget_gather b n) by assumption. rewrite Hn.
      symmetry. cbn [fst snd]. now apply Hsym.
  Qed.
  (** and the other way round: the upper triangle of the unflattened matrix *)
  Lemma gather_unflatten b n (y x : tensor A) : shp y = b ++ [comb2 n] -> sym_unflatten z conj y = Ok x -> gather_triu n x = y.
  Proof.
    intros Hs Hx. destruct (sym_unflatten_ok b n y Hs) as (u & H1 & H2 & H3 & _). rewrite H1 in Hx. injection Hx as ->.
    apply tensor_ext; [rewrite (gather_shape b n x H2); congruence|]. rewrite (gather_shape b n x H2). intros i Hi.
    destruct (inb_snoc _ _ _ Hi) as (j & k & -> & Hj & Hk). rewrite (tget_gather b n) by assumption.
    assert (Hin : In (nth k (triu n) (0, 0)) (triu n)) by (apply nth_In; now rewrite length_triu).
    destruct (nth k (triu n) (0, 0)) as [p q] eqn:E. apply in_triu in Hin. cbn [fst snd]. rewrite H3 by (assumption || lia).
    do 3 f_equal. destruct (pos_lt n p q ltac:(lia) ltac:(lia)) as [Hp Hn].
    assert (Hnd : NoDup (triu n)) by (unfold triu; apply NoDup_filter, NoDup_prod; apply seq_NoDup).
    refine (proj1 (NoDup_nth (triu n) (0, 0)) Hnd _ _ _ _ _); rewrite ?length_triu; [assumption|assumption|congruence].
  Qed.
End Sym.
