(** Examples and counterexamples for clamp. *)
From Coq Require Import List Bool Arith Reals ZArith Lra Lia.
From Verif Require Import Base XReal Tensor TensorFacts TensorFacts2 Support SupportSpec ClampThms.
Import ListNotations.
Local Open Scope R_scope.

Lemma clamp_free s t : supp_ring s = real_field -> (forall r, s <> SimplexS r) -> supp_clamp s (RA t) = Ok (RA t).
Proof.
  intros E N. assert (H : ring_clamp (supp_ring s) (RA t) = Ok (RA t)).
  { rewrite E. cbn. do 2 f_equal. now apply tmap_id. }
  destruct s; try exact H. now destruct (N r).
Qed.
Definition ex_clamp : tensor xr := mkT [2; 2]%nat [Fin 3; Fin (-1); Fin (1/2); Fin 0] eq_refl.
Lemma ex_clamp_ok : real_support (VectorS (RealF (Some 0) (Some 1) 1)) (Some 0) (Some 1) 1 /\ roomy (Some 0) (Some 1) /\
  shp ex_clamp = ([2] ++ supp_shape (VectorS (RealF (Some 0%R) (Some 1%R) 1%R)) 2)%nat%list /\ finite_entries ex_clamp.
Proof.
  split; [right; left; reflexivity|]. split; [pose proof feps_small; cbn; lra|]. split; [reflexivity|].
  intros i Hi. destruct i as [|[|[|i]] [|[|[|j]] [|]]]; cbn in Hi; try discriminate Hi; eexists; reflexivity.
Qed.
Lemma clamp_simplex_bad r : exists t t' a c, shp t = [2]%nat /\ finite_entries t /\ supp_clamp (SimplexS r) (RA t) = Ok (RA t') /\
  tget t' [0]%nat = Fin a /\ tget t' [1]%nat = Fin c /\ ~ a + c < 1.
Proof.
  pose proof feps_pos as P. pose proof feps_small as Q.
  eexists (mkT [2]%nat [Fin 1; Fin 0] eq_refl), _, (1 - feps), feps.
  split; [reflexivity|]. split; [intros [|[|[|i]] [|]] Hi; cbn in Hi; try discriminate Hi; eexists; reflexivity|].
  split; [reflexivity|].
  cbn -[xclip xdiv feps xmin]. cbn [xadd]. unfold xdiv. destruct (Req_EM_T (1 + (0 + 0)) 0); [lra|]. rewrite xmin_Fin. cbn [xmul].
  assert (M : Rmin 1 ((1 - feps) / (1 + (0 + 0))) = 1 - feps) by (rewrite !Rplus_0_r; unfold Rdiv; rewrite Rinv_1, Rmult_1_r; unfold Rmin; destruct Rle_dec; lra). rewrite M.
  rewrite !(xclip_Fin (Some feps) (Some (1 - feps))). unfold rclip. split; [|split; [|lra]]; f_equal; unfold Rmax, Rmin; repeat destruct Rle_dec; lra.
Qed.
Lemma clamp_complex_bad : exists t, finite_entries (tmap xre t) /\ finite_entries (tmap xim t) /\
  supp_clamp (ScalarS (ComplexF (BFloat 0) (Some (BFloat 1)))) (CA t) = Ok (CA t) /\ ~ supp_vals (ScalarS (ComplexF (BFloat 0) (Some (BFloat 1)))) true [] 1 (CA t).
Proof.
  exists (tscalar (cfin 5 0)). split; [|split; [|split; [reflexivity|]]].
  1,2: intros [|] Hi; cbn in Hi; try discriminate Hi; eexists; reflexivity.
  intros (_ & H). cbn in H. destruct (H eq_refl) as (_ & _ & H'). destruct (H' [] eq_refl) as (lo & hi & re & im & B1 & B2 & E & L & M1 & M2).
  cbn in B1, B2, E. unfold bval in B1, B2. cbn in B1, B2. injection B1 as <-. destruct hi as [hi|]; [|discriminate B2]. injection B2 as <-. injection E as <- <-.
  unfold cmag in M2. replace (5 * 5 + 0 * 0) with (5 * 5) in M2 by ring. rewrite sqrt_square in M2 by lra. lra.
Qed.
Lemma clamp_int_bad : exists t, finite_entries t /\ supp_clamp (ScalarS (IntR (Some 1%Z) None)) (RA t) = Ok (RA t) /\ tget t [] = Fin (-3).
Proof. exists (tscalar (Fin (-3))). split; [|split; reflexivity]. intros [|] Hi; cbn in Hi; try discriminate Hi; eexists; reflexivity. Qed.
Lemma clamp_circ_bad : exists t, finite_entries t /\ supp_clamp (CircS 1) (RA t) = Ok (RA t) /\ ~ supp_vals (CircS 1) true [] 1 (RA t).
Proof.
  exists (mkT [1]%nat [Fin 5] eq_refl). split; [|split; [now apply clamp_free|]].
  - intros [|[|i] [|]] Hi; cbn in Hi; try discriminate Hi; eexists; reflexivity.
  - intros (_ & H). destruct (H eq_refl) as (_ & H'). destruct (H' [] eq_refl) as (l & (L & V) & N1 & N2). destruct l as [|v [|]]; try discriminate L.
    specialize (V 0%nat (Nat.lt_0_1)). cbn in V. injection V as <-. unfold norm2, sumsq in N2. cbn in N2. rewrite Rplus_0_r, sqrt_square in N2 by lra. lra.
Qed.
Lemma clamp_psd_bad : exists t, finite_entries t /\ shp t = [1; 1]%nat /\
  supp_clamp (SymS real_field false true false) (RA t) = Ok (RA t) /\ tget t [0; 0]%nat = Fin (-1).
Proof.
  exists (mkT [1; 1]%nat [Fin (-1)] eq_refl). split; [|split; [reflexivity|split; [now apply clamp_free|reflexivity]]].
  intros [|[|i] [|[|j] [|]]] Hi; cbn in Hi; try discriminate Hi; eexists; reflexivity.
Qed.
