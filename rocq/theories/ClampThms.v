(** C34: Support.clamp. *)
From Coq Require Import List Arith Bool Reals ZArith Lia Lra.
From Verif Require Import Base XReal Tensor TensorFacts TensorFacts2 BroadcastFacts Support SupportSpec PlaneFacts SupportFacts.
Import ListNotations.
Local Open Scope R_scope.

Lemma feps_pos : 0 < feps. Proof. unfold feps. apply Rinv_0_lt_compat. apply pow_lt. lra. Qed.
Lemma feps_small : feps < 1 / 8. Proof. unfold feps. cbn [pow]. lra. Qed.
Lemma xmax_Fin a b : xmax (Fin a) (Fin b) = Fin (Rmax a b).
Proof. cbn. unfold rltb, Rmax. destruct (Rlt_dec a b), (Rle_dec a b); trivial; try lra. f_equal; lra. Qed.
Lemma xmin_Fin a b : xmin (Fin a) (Fin b) = Fin (Rmin a b).
Proof. cbn. unfold rltb, Rmin. destruct (Rlt_dec a b), (Rle_dec a b); trivial; try lra. f_equal; lra. Qed.
Definition rclip (mn mx : option R) (v : R) : R :=
  let y := match mn with Some a => Rmax v a | None => v end in match mx with Some b => Rmin y b | None => y end.
Lemma xclip_Fin mn mx v : xclip (option_map Fin mn) (option_map Fin mx) (Fin v) = Fin (rclip mn mx v).
Proof. destruct mn, mx; unfold xclip, rclip; cbn [option_map]; now rewrite ?xmax_Fin, ?xmin_Fin. Qed.
Lemma rclip_spec mn mx v : roomy mn mx -> let w := rclip (option_map (fun m => m + feps) mn) (option_map (fun m => m - feps) mx) v in
  clear_of mn mx w /\ (clear_of mn mx v -> w = v).
Proof.
  intros H. unfold rclip, clear_of, roomy in *. destruct mn as [m|], mx as [M|]; cbn [option_map]; unfold Rmax, Rmin; repeat destruct Rle_dec; split; try split; try lra; intros [? ?]; lra.
Qed.
Lemma clear_inside mn mx v : clear_of mn mx v -> inside mn mx v.
Proof. pose proof feps_pos. unfold clear_of, inside. destruct mn, mx; lra. Qed.
(** a support whose ring is a real field *)
Definition real_support (s : support) (mn mx : option R) (sc : R) : Prop :=
  s = ScalarS (RealF mn mx sc) \/ s = VectorS (RealF mn mx sc) \/ s = SquareS (RealF mn mx sc) \/ exists h p n, s = SymS (RealF mn mx sc) h p n.
Theorem clamp_real s mn mx sc b n t : real_support s mn mx sc -> roomy mn mx -> shp t = (b ++ supp_shape s n)%list -> finite_entries t ->
  (forall r h p q, s = SymS r h p q -> arr_symmetric h b n (RA t)) ->
  exists t', supp_clamp s (RA t) = Ok (RA t') /\ supp_vals s true b n (RA t') /\ forall i v, inb (shp t) i = true -> tget t i = Fin v -> clear_of mn mx v -> tget t' i = Fin v.
Proof.
  intros Hs Hr Sh F Sy. exists (tmap (xclip (option_map (fun m => Fin (m + feps)) mn) (option_map (fun m => Fin (m - feps)) mx)) t).
  assert (G : forall i v, inb (shp t) i = true -> tget t i = Fin v -> tget (tmap (xclip (option_map (fun m => Fin (m + feps)) mn) (option_map (fun m => Fin (m - feps)) mx)) t) i = Fin (rclip (option_map (fun m => m + feps) mn) (option_map (fun m => m - feps) mx) v)).
  { intros i v Hi E. rewrite tget_tmap by exact Hi. rewrite E, <- xclip_Fin. destruct mn, mx; reflexivity. }
  split; [destruct Hs as [->|[->|[->|(h & p & q & ->)]]]; reflexivity|]. split.
  - assert (V : ring_vals (RealF mn mx sc) true b (RA (tmap (xclip (option_map (fun m => Fin (m + feps)) mn) (option_map (fun m => Fin (m - feps)) mx)) t))).
    { intros _ i Hi. cbn [shp tmap] in Hi. destruct (F i Hi) as [v E]. eexists. split; [exact (G i v Hi E)|]. apply clear_inside. now apply rclip_spec. }
    split; [exact Sh|]. destruct Hs as [->|[->|[->|(h & p & q & ->)]]]; try exact V. split; [exact V|]. specialize (Sy _ _ _ _ eq_refl). cbn [arr_symmetric] in *. intros j k l Hj Kl Ln.
    cbn [supp_shape] in Sh. assert (I1 : inb (shp t) (j ++ [k; l])%list = true) by (rewrite Sh; apply inb_snoc2_intro; auto; lia).
    assert (I2 : inb (shp t) (j ++ [l; k])%list = true) by (rewrite Sh; apply inb_snoc2_intro; auto; lia).
    rewrite !tget_tmap by assumption. now rewrite (Sy j k l Hj Kl Ln).
  - intros i v Hi E C. rewrite (G i v Hi E). f_equal. now apply rclip_spec.
Qed.
(** SimplexSupport *)
Theorem clamp_simplex r b n t : shp t = (b ++ [n])%list -> finite_entries t ->
  exists t', supp_clamp (SimplexS r) (RA t) = Ok (RA t') /\ shp t' = shp t /\
    (forall i, inb (shp t) i = true -> exists v, tget t' i = Fin v /\ feps <= v <= 1 - feps) /\
    (forall j, inb b j = true -> (forall k, (k < n)%nat -> exists v, tget t (j ++ [k])%list = Fin v /\ feps <= v <= 1 - feps) ->
       (exists s, xsum (map (fun k => tget t (j ++ [k])%list) (seq 0 n)) = Fin s /\ s <= 1 - feps) -> forall k, (k < n)%nat -> tget t' (j ++ [k])%list = tget t (j ++ [k])%list).
Proof.
  intros Sh F. pose proof feps_pos as E0. pose proof feps_small as E1.
  set (sm := tfold_last xsum t). assert (Hm : shp sm = b) by (cbn; now rewrite Sh, removelast_snoc).
  set (g := fun v : xr => xmin (Fin 1) (xdiv (Fin (1 - feps)) v)).
  assert (E : tmap g (tnewaxis sm) = Nat.iter (length [n]) tnewaxis (tmap g sm)).
  { cbn [length Nat.iter]. unfold tnewaxis, tmap. cbn [shp tbuild]. apply tbuild_ext. intros i Hi. rewrite tget_tbuild by exact Hi.
    apply inb_snoc in Hi as (j & k & -> & Hj & Hk). rewrite removelast_snoc. now rewrite tget_tbuild. }
  assert (M : tmap2 xmul t (tmap g (tnewaxis sm)) = Ok (tbuild (b ++ [n]) (fun i => xmul (tget t i) (tget (tmap g sm) (firstn (length b) i))))).
  { rewrite E. now rewrite (tmap2_prefix xmul t (tmap g sm) b [n]). }
  assert (FS : forall j, inb b j = true -> exists s, tget sm j = Fin s /\ xsum (map (fun k => tget t (j ++ [k])%list) (seq 0 n)) = Fin s).
  { intros j Hj. unfold sm, tfold_last. rewrite tget_tbuild by (now rewrite Sh, removelast_snoc). rewrite Sh, last_last.
    assert (X : forall l, (forall k, In k l -> (k < n)%nat) -> exists s, xsum (map (fun k => tget t (j ++ [k])%list) l) = Fin s).
    { induction l as [|k l IH]; intros Hl; [eexists; reflexivity|]. destruct IH as [s IH]; [intros; apply Hl; now right|]. destruct (F (j ++ [k])%list) as [v Ev]. { rewrite Sh. apply inb_snoc_intro; [exact Hj|]. apply Hl. now left. }
      exists (v + s). cbn [map xsum fold_right]. fold (xsum (map (fun k => tget t (j ++ [k])%list) l)). now rewrite IH, Ev. }
    destruct (X (seq 0 n)) as [s Es]; [intros k Hk; apply in_seq in Hk; lia|]. exists s. auto. }
  assert (GF : forall s, exists c, g (Fin s) = Fin c /\ (s <= 1 - feps -> 0 < s -> c = 1)).
  { intros s. unfold g. unfold xdiv. destruct (Req_EM_T s 0) as [->|N].
    - destruct (Req_EM_T (1 - feps) 0); [lra|]. unfold rltb. destruct (Rlt_dec (1 - feps) 0); [lra|]. eexists. split; [reflexivity|lra].
    - rewrite xmin_Fin. eexists. split; [reflexivity|]. intros S1 S2. apply Rmin_left. apply (Rmult_le_reg_r s); [lra|]. unfold Rdiv. rewrite Rmult_assoc, Rinv_l by lra. lra. }
  exists (tmap (xclip (Some (Fin feps)) (Some (Fin (1 - feps)))) (tbuild (b ++ [n]) (fun i => xmul (tget t i) (tget (tmap g sm) (firstn (length b) i))))).
  assert (V : forall j k, inb b j = true -> (k < n)%nat -> exists v s c, tget t (j ++ [k])%list = Fin v /\ tget sm j = Fin s /\ g (Fin s) = Fin c /\ (s <= 1 - feps -> 0 < s -> c = 1) /\
     tget (tmap (xclip (Some (Fin feps)) (Some (Fin (1 - feps)))) (tbuild (b ++ [n]) (fun i => xmul (tget t i) (tget (tmap g sm) (firstn (length b) i))))) (j ++ [k])%list = Fin (rclip (Some feps) (Some (1 - feps)) (v * c))).
  { intros j k Hj Hk. assert (Hjk : inb (b ++ [n])%list (j ++ [k])%list = true) by (now apply inb_snoc_intro). destruct (F (j ++ [k])%list) as [v Ev]; [now rewrite Sh|]. destruct (FS j Hj) as (s & S1 & _). destruct (GF s) as (c & C1 & C2).
    exists v, s, c. repeat (split; [assumption|]). rewrite tget_tmap by exact Hjk. rewrite tget_tbuild by exact Hjk. rewrite Ev, firstn_pre by (now apply inb_length). rewrite tget_tmap by (now rewrite Hm). rewrite S1, C1. cbn [xmul].
    rewrite <- xclip_Fin. reflexivity. }
  split; [|split; [cbn; now rewrite Sh|split]].
  - unfold supp_clamp, as_real. cbn [bind]. unfold simplex_clamp. fold sm. fold g. rewrite M. reflexivity.
  - intros i Hi. rewrite Sh in Hi. apply inb_snoc in Hi as (j & k & -> & Hj & Hk). destruct (V j k Hj Hk) as (v & s & c & _ & _ & _ & _ & R). eexists. split; [exact R|]. unfold rclip, Rmax, Rmin. repeat destruct Rle_dec; lra.
  - intros j Hj Hv (s0 & S0 & Sle) k Hk. destruct (V j k Hj Hk) as (v & s & c & V1 & V2 & V3 & V4 & R). destruct (FS j Hj) as (s' & S1 & S2). rewrite S0 in S2. injection S2 as <-. rewrite V2 in S1. injection S1 as ->.
    assert (Sp : 0 < s0).
    { assert (X : forall l, (forall k, In k l -> (k < n)%nat) -> forall z, xsum (map (fun k => tget t (j ++ [k])%list) l) = Fin z -> INR (length l) * feps <= z).
      { induction l as [|a l IH]; intros Hl z Ez; [cbn in Ez; injection Ez as <-; cbn; lra|]. destruct (Hv a (Hl a (or_introl eq_refl))) as (w & W1 & W2).
        cbn [map xsum fold_right] in Ez. fold (xsum (map (fun k => tget t (j ++ [k])%list) l)) in Ez. rewrite W1 in Ez. destruct (xsum (map (fun k0 : nat => tget t (j ++ [k0])%list) l)) as [y| | |] eqn:Y; cbn in Ez; try discriminate Ez. injection Ez as <-.
        specialize (IH (fun k H => Hl k (or_intror H)) y eq_refl). cbn [length]. rewrite S_INR. lra. }
      assert (Y := X (seq 0 n) (fun k H => proj2 (proj1 (in_seq n 0 k) H)) s0 S0). rewrite seq_length in Y. assert (1 <= INR n) by (apply (le_INR 1); lia). nra. }
    rewrite R, V1. f_equal. rewrite (V4 Sle Sp). destruct (Hv k Hk) as (v' & W1 & W2). rewrite V1 in W1. injection W1 as <-. unfold rclip, Rmax, Rmin. repeat destruct Rle_dec; lra.
Qed.
