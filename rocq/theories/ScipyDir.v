(** The density of ScipyDirichlet (C59). *)
From Coquelicot Require Import Coquelicot.
From Coq Require Import String List Bool Arith ZArith Reals Lra Lia.
From Verif Require Import Base XReal Tensor TensorFacts BroadcastFacts DictFacts Support Dist Iteration Structure Tools Joint Spec SumSpec DotSpec PointSpec PointFacts DensSpec SpecFun Expr FamTy Val Fam FamR FamVal DerivFacts DensVal DensThms ConvFacts LeafVal ConvThms IntSpec IntFacts IntFam
  DotFacts DotLaws MatFacts MatVal MatDeriv IntMat DetInv TextSpec TextFacts TextVec TextMat TextThms IntThms SampleThms VarThms BlockDet Scipy ScipyShaped ScipyFacts ScipyThms ScipyAgree ScipyRest.
Import ListNotations.
Local Unset Asymmetric Patterns.
Local Open Scope string_scope.
Local Open Scope R_scope.
Local Notation C := Complex.C (only parsing).
Local Existing Instance Scipy.Dflt_C.
Local Existing Instance Scipy.Dflt_R.

Lemma dirichlet_pdf_ext n a y z : (forall k, (k < n)%nat -> y k = z k) -> dirichlet_pdf n a y = dirichlet_pdf n a z.
Proof. intros H. unfold dirichlet_pdf, prodR. f_equal. f_equal. f_equal. apply map_ext_in. intros k Hk. apply in_seq in Hk. now rewrite H by lia. Qed.
Lemma density_eq L b i q x d d' : density L b i q x d -> d = d' -> density L b i q x d'. Proof. now intros H <-. Qed.

Section Dir.
  Context {G : Type}.
  Notation draws := (list nat -> shape -> G -> tensor R * G).

  (** the components are positive and sum to one *)
  Definition on_simplex (n : nat) (y : nat -> R) : Prop := (forall k, (k < n)%nat -> 0 < y k) /\ sumR n y = 1.
  Lemma simplex_le n y : on_simplex n y -> forall k, (k < n)%nat -> 0 < y k <= 1.
  Proof. intros [P Q] k Hk. split; [now apply P|]. rewrite <- Q. apply sumR_term; [intros j Hj; left; now apply P|exact Hk]. Qed.

  Lemma simplex_pos n y : on_simplex n y -> (0 < n)%nat.
  Proof. intros [P Q]. destruct n; [|lia]. rewrite sumR_0 in Q. lra. Qed.

  Theorem dirichlet_pdf_ok b n (alpha : tensor R) (draw : draws) (x : tensor C) : shp alpha = (b ++ [n])%list -> shp x = (b ++ [n])%list ->
    (forall i, inb b i = true -> on_simplex n (fun k => fst (tget x (i ++ [k])%list))) ->
    exists d r, dirichlet_dist alpha draw = Ok d /\ dirichlet_dist_pdf d x = Ok r /\ shp r = b /\
      forall i, inb b i = true -> tget r i = dirichlet_pdf n (fun k => tget alpha (i ++ [k])%list) (fun k => fst (tget x (i ++ [k])%list)).
  Proof.
    intros Ea Ex H. unfold dirichlet_dist. rewrite Ea, app_length. rewrite (proj2 (Nat.eqb_neq _ 0)) by (cbn; lia). rewrite last_snoc, removelast_snoc.
    match goal with |- exists d r, Ok ?w = Ok d /\ _ => set (D := w); exists D end. unfold dirichlet_dist_pdf. rewrite Ex, last_snoc, removelast_snoc.
    match goal with |- context [if ?t then _ else _] => replace t with true end.
    2:{ symmetry. apply forallb_forall. intros i Hi. apply in_indices in Hi. destruct (H i Hi) as [_ Q]. unfold sumR in Q. rewrite Q. replace (1 - 1) with 0 by ring. rewrite Rabs_R0. destruct (Rle_dec 0 (1 / 100000)); [reflexivity|lra]. }
    assert (K : forall i, inb b i = true -> exists w, o_pdf (sd_objects D i) (tsub x i) = Ok w /\ shp w = [] /\ tget w [] = dirichlet_pdf n (fun k => tget alpha (i ++ [k])%list) (fun k => fst (tget x (i ++ [k])%list))).
    { intros i Hi. cbn [D sd_objects dirichlet_obj o_pdf]. destruct (tindex_ok b [n] x i Ex Hi) as (_ & T2 & T3). rewrite T2. cbn [length Nat.eqb].
      pose proof (H i Hi) as Hs. pose proof (simplex_pos _ _ Hs) as Hn.
      destruct (scipy_row n (fun k => tget alpha (i ++ [k])%list) (tsub x i) [] Hn T2) as (r & R1 & R2 & R3).
      - intros j Hj. destruct j; [|discriminate]. split.
        + intros k Hk. rewrite T3 by now apply in1. now apply (simplex_le n _ Hs).
        + rewrite <- (proj2 Hs). apply sumR_exti. intros k Hk. now rewrite T3 by now apply in1.
      - exists r. split; [exact R1|]. split; [exact R2|]. rewrite R3 by reflexivity. apply dirichlet_pdf_ext. intros k Hk. now rewrite T3 by now apply in1. }
    destruct (pdf_spec D x [n] Ex) as (r & P1 & P2 & P3).
    - intros i Hi. destruct (K i Hi) as (w & W1 & W2 & _). eauto.
    - exists r. split; [reflexivity|]. split; [exact P1|]. split; [exact P2|]. intros i Hi. destruct (K i Hi) as (w & W1 & W2 & W3). specialize (P3 i Hi). rewrite W1 in P3. injection P3 as ->. rewrite <- W3. reflexivity.
  Qed.

  (** a sum that is off by more than 1e-5 is rejected *)
  Theorem dirichlet_reject d (x : tensor C) b n i : shp x = (b ++ [n])%list -> inb b i = true -> Rabs (sumR n (fun k => fst (tget x (i ++ [k])%list)) - 1) > 1 / 100000 -> @dirichlet_dist_pdf G d x = Err ValueError.
  Proof.
    intros Ex Hi H. unfold dirichlet_dist_pdf. rewrite Ex, last_snoc, removelast_snoc. match goal with |- context [if ?t then _ else _] => replace t with false end; [reflexivity|]. symmetry. apply not_true_iff_false. intros T. rewrite forallb_forall in T.
    specialize (T i (proj2 (in_indices b i) Hi)). cbn beta in T. unfold sumR in H. destruct (Rle_dec _ _) as [L|] in T; [lra|discriminate].
  Qed.

  (** a vector alpha and a matrix of observations: one density for each row *)
  Theorem dirichlet_pdf_matrix m n (alpha : tensor R) (draw : draws) (x : tensor C) : shp alpha = [n] -> shp x = [m; n] -> (0 < n)%nat ->
    (forall a, (a < m)%nat -> on_simplex n (fun k => fst (tget x [a; k]))) ->
    exists d r, dirichlet_dist alpha draw = Ok d /\ dirichlet_dist_pdf d x = Ok r /\ shp r = [m] /\
      forall a, (a < m)%nat -> tget r [a] = dirichlet_pdf n (fun k => tget alpha [k]) (fun k => fst (tget x [a; k])).
  Proof.
    intros Ea Ex Hn H. unfold dirichlet_dist. rewrite Ea. cbn [length Nat.eqb last removelast]. match goal with |- exists d r, Ok ?w = Ok d /\ _ => set (D := w); exists D end. unfold dirichlet_dist_pdf. rewrite Ex. cbn [last removelast].
    match goal with |- context [if ?t then _ else _] => replace t with true end.
    2:{ symmetry. apply forallb_forall. intros i Hi. apply in_indices in Hi. destruct i as [|a [|? ?]]; try (cbn in Hi; try rewrite andb_false_r in Hi; discriminate). assert (Ha : (a < m)%nat) by (cbn in Hi; rewrite andb_true_r in Hi; now apply Nat.ltb_lt). destruct (H a Ha) as [_ Q]. unfold sumR in Q. cbn [app]. rewrite Q. replace (1 - 1) with 0 by ring. rewrite Rabs_R0. destruct (Rle_dec 0 (1 / 100000)); [reflexivity|lra]. }
    destruct (tindex_ok [] [m; n] x [] Ex eq_refl) as (T1 & T2 & T3). unfold sd_pdf. cbn [D sd_shape]. fold D. rewrite T1. cbn [bind]. cbn [D sd_objects dirichlet_obj o_pdf]. rewrite T2. cbn [length Nat.eqb].
    assert (Sw : forall k a, (k < n)%nat -> (a < m)%nat -> tget (tswap (tsub x [])) [k; a] = tget x [a; k]).
    { intros k a Hk Ha. unfold tswap. rewrite tget_tbuild; [change (swap_last2 [k; a]) with [a; k]; apply (T3 [a; k]); apply (inb_snoc_intro [m] n [a] k); [now apply in1|exact Hk]|rewrite T2; change (swap_last2 [m; n]) with [n; m]; apply (inb_snoc_intro [n] m [k] a); [now apply in1|exact Ha]]. }
    destruct (scipy_row n (fun k => tget alpha [k]) (tswap (tsub x [])) [m] Hn) as (r & R1 & R2 & R3).
    - unfold tswap. rewrite shp_tbuild, T2. reflexivity.
    - intros j Hj. destruct j as [|a [|? ?]]; try (cbn in Hj; try rewrite andb_false_r in Hj; discriminate). assert (Ha : (a < m)%nat) by (cbn in Hj; rewrite andb_true_r in Hj; now apply Nat.ltb_lt). pose proof (H a Ha) as Hs. split.
      + intros k Hk. rewrite Sw by assumption. now apply (simplex_le n _ Hs).
      + rewrite <- (proj2 Hs). apply sumR_exti. intros k Hk. now rewrite Sw.
    - exists r. split; [reflexivity|]. split; [exact R1|]. split; [exact R2|]. intros a Ha. rewrite R3 by now apply in1. apply dirichlet_pdf_ext. intros k Hk. now rewrite Sw.
  Qed.

  (** more batch axes do not work: the components are looked for along the first axis *)
  Theorem dirichlet_pdf_axes m1 m2 s n (alpha : tensor R) (draw : draws) (x : tensor C) d : shp alpha = [n] -> shp x = (m1 :: m2 :: s ++ [n])%list -> m1 <> n -> Datatypes.S m1 <> n -> dirichlet_dist alpha draw = Ok d -> dirichlet_dist_pdf d x = Err ValueError.
  Proof.
    intros Ea Ex N1 N2 Hd. unfold dirichlet_dist in Hd. rewrite Ea in Hd. cbn [length Nat.eqb last removelast] in Hd. injection Hd as <-. unfold dirichlet_dist_pdf. destruct (forallb _ _); [|reflexivity].
    destruct (tindex_ok [] (m1 :: m2 :: s ++ [n])%list x [] Ex eq_refl) as (T1 & T2 & _). unfold sd_pdf. cbn [sd_shape]. rewrite T1. cbn [bind sd_objects dirichlet_obj o_pdf]. rewrite T2.
    replace (length (m1 :: m2 :: s ++ [n]) =? 2)%nat with false by (symmetry; apply Nat.eqb_neq; cbn [length]; rewrite app_length; cbn; lia). unfold dirichlet_scipy. rewrite T2, (proj2 (Nat.eqb_neq _ _) N1), (proj2 (Nat.eqb_neq _ _) N2). reflexivity.
  Qed.

  (** agreement with DirichletNP.pdf on all but the last component *)
  Theorem agree_dirichlet solve b q n (alpha : tensor R) (draw : draws) (x : tensor C) : (forall i, inb b i = true -> proper b i Dirichlet q) -> dims_of q = Ok n ->
    shp alpha = (b ++ [n])%list -> (forall i k, inb b i = true -> (k < n)%nat -> tget alpha (i ++ [k])%list = par q i "alpha_minus_one" [k] + 1) ->
    shp x = (b ++ [n])%list -> (forall i, inb b i = true -> on_simplex n (fun k => fst (tget x (i ++ [k])%list))) ->
    exists d r, dirichlet_dist alpha draw = Ok d /\ dirichlet_dist_pdf d x = Ok r /\ shp r = b /\
      forall i xe, inb b i = true -> observed b i q xe (obs_at x i) -> density (fam_methods solve) b i q xe (tget r i).
  Proof.
    intros Pq D Ea Ha Ex H. destruct (dirichlet_pdf_ok b n alpha draw x Ea Ex H) as (d & r & R1 & R2 & R3 & R4). exists d, r. split; [exact R1|]. split; [exact R2|]. split; [exact R3|]. intros i xe Hi O. rewrite (R4 i Hi).
    pose proof (H i Hi) as Hs. pose proof (simplex_pos _ _ Hs) as Hn. destruct Hs as [S1 S2]. destruct n as [|n]; [lia|]. rewrite sumR_S in S2.
    set (a := fun k => tget alpha (i ++ [k])%list). set (y := fun k => fst (tget x (i ++ [k])%list)) in *.
    destruct (proper_dims b i _ q (Pq i Hi)) as (n' & D1 & D2 & D3 & D4 & _). assert (n' = Datatypes.S n) by congruence. subst n'. cbn [nat_dom] in D3.
    apply (density_eq (fam_methods solve) b i q xe (dirichlet_pdf (Datatypes.S n) a (fun k => if (k <? Datatypes.S n - 1)%nat then obs_at x i false [k] else 1 - sumR (Datatypes.S n - 1) (fun k => obs_at x i false [k])))).
    - apply (textbook solve b i Dirichlet q (Datatypes.S n) xe (obs_at x i) (fun o => dirichlet_pdf (Datatypes.S n) a (fun k => if (k <? Datatypes.S n - 1)%nat then o false [k] else 1 - sumR (Datatypes.S n - 1) (fun k => o false [k]))) (Pq i Hi) D O).
      + cbn [sample_space]. replace (Datatypes.S n - 1)%nat with n by lia. split; [intros k Hk; apply S1; lia|]. change (sumR n y < 1). pose proof (S1 n ltac:(lia)) as Sn. change (0 < y n) in Sn. change (sumR n y + y n = 1) in S2. lra.
      + cbn [classical]. exists a. split; [|reflexivity]. intros k Hk. unfold a. rewrite Ha by assumption. change (point_of q i false "alpha_minus_one" [k]) with (par q i "alpha_minus_one" [k]). split; [|ring]. destruct D3 as [_ D3]. specialize (D3 k Hk). unfold par. lra.
    - apply dirichlet_pdf_ext. intros k Hk. replace (Datatypes.S n - 1)%nat with n by lia. destruct (Nat.ltb_spec k n) as [L|L]; [reflexivity|]. replace k with n by lia. change (1 - sumR n y = y n). change (sumR n y + y n = 1) in S2. lra.
  Qed.
End Dir.
