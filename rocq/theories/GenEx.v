(** Examples and counterexamples for generation. *)
From Coq Require Import String List Bool Arith Reals ZArith Lra Lia.
From Verif Require Import Base XReal Tensor TensorFacts Support SupportSpec ClampThms Dist Iteration Structure Spec DotSpec PointSpec Generate GenSpec GenFacts GenThms Examples.
Import ListNotations.
Local Open Scope R_scope.

(** a generator whose draws are constant *)
Definition const_rng (e u z : R) : rng :=
  Rng (fun _ s => tfull s (Fin e)) (fun _ s => tfull s (Fin u)) (fun _ s => tfull s (Fin z)) (fun _ s => tfull s (Fin 1)).
Lemma full_entries (P : R -> Prop) s v : P v -> all_entries P s (tfull s (Fin v)).
Proof. intros H. split; [reflexivity|]. intros i Hi. exists v. split; [|exact H]. unfold tfull. now rewrite tget_tbuild. Qed.
Lemma const_rng_ok e u z : 0 <= e -> 0 <= u < 1 -> rng_ok (const_rng e u z).
Proof. intros He Hu. constructor; intros k s; apply full_entries; auto. Qed.
Lemma const_rng_nonzero e u z : z <> 0 -> normal_nonzero (const_rng e u z).
Proof. intros H k s. now apply full_entries. Qed.
Lemma ex_gen_ok : rng_ok (const_rng 1 (1/2) (-5)) /\ normal_nonzero (const_rng 1 (1/2) (-5)) /\ well_formed ex_joint = true /\ (exists infos, create ex_joint = Ok infos) /\
  forall p q, In (p, q) (leaves [] ex_joint) -> dcls q <> EP VonMisesFisher.
Proof.
  split; [apply const_rng_ok; lra|]. split; [apply const_rng_nonzero; lra|]. split; [reflexivity|]. split; [eexists; reflexivity|].
  intros p q Hi. cbn in Hi. repeat destruct Hi as [Hi|Hi]; try contradiction; injection Hi as <- <-; discriminate.
Qed.
Lemma gen_int_bad : exists g k t z, rng_ok g /\ normal_nonzero g /\ supp_generate g (ScalarS (IntR (Some 0%Z) (Some 3%Z))) 0 [] 1 = Ok (k, RA t) /\ tget t [] = Fin (IZR z) /\ ~ (z <= 3)%Z.
Proof.
  pose proof feps_pos as P. pose proof ClampThms.feps_small as Q. exists (const_rng 1 (1/2) 2). do 3 eexists. split; [apply const_rng_ok; lra|]. split; [apply const_rng_nonzero; lra|]. split; [reflexivity|]. split; [reflexivity|].
  apply Zlt_not_le. set (a := adj_min 0). set (c := adj_max 3). assert (A : 0 < a) by apply adj_min_above.
  assert (C : 1 < c). { unfold c, adj_max, copysign. destruct (Rlt_dec (- (3)) 0); [|lra]. rewrite Rabs_pos_eq by lra. unfold Rmin. destruct Rle_dec; lra. }
  assert (Z : (5 <= rtrunc ((a + (c - a) * (1 / 2)) * 10))%Z) by (apply trunc_ge; [lia|lra]). change (3 < rtrunc ((a + (c - a) * (1 / 2)) * 10))%Z. lia.
Qed.
Lemma gen_circ_bad : exists g k x, rng_ok g /\ normal_nonzero g /\ supp_generate g (CircS 1) 0 [] 1 = Ok (k, x) /\ ~ supp_vals (CircS 1) true [] 1 x.
Proof.
  exists (const_rng 1 (1/2) 5). do 2 eexists. split; [apply const_rng_ok; lra|]. split; [apply const_rng_nonzero; lra|]. split; [reflexivity|].
  intros (_ & H). destruct (H eq_refl) as (_ & H'). destruct (H' [] eq_refl) as (l & (L & V) & N1 & N2). destruct l as [|v [|]]; try discriminate L.
  specialize (V 0%nat (Nat.lt_0_1)). cbn in V. injection V as <-. unfold norm2, sumsq in N2. cbn in N2. rewrite Rplus_0_r, sqrt_square in N2 by lra. lra.
Qed.
Lemma gen_zero_bad : exists g k t, rng_ok g /\ supp_generate g (ScalarS complex_field) 0 [] 1 = Ok (k, CA t) /\ xre (tget t []) = NaN.
Proof.
  exists (const_rng 1 (1/2) 0). do 2 eexists. split; [apply const_rng_ok; lra|]. split; [reflexivity|].
  cbn. unfold cdivr, cscale. cbn [xre xim xmul xadd xneg]. unfold cabs. cbn. unfold xsquare. cbn.
  replace (0 * 0 + 0 * 0) with 0 by ring. rewrite sqrt_0. rewrite ?Rplus_0_r, ?Rmult_0_r, ?Rmult_0_l. destruct (Rle_dec 0 0); [|lra]. cbn. rewrite Rmult_0_r. destruct (Req_EM_T 0 0); [reflexivity|lra].
Qed.
Lemma gen_none g s k b n : (exists r, s = SimplexS r \/ s = SquareS r) -> supp_generate g s k b n = Err NotImplementedErr.
Proof. intros [r [->| ->]]; reflexivity. Qed.
Definition ex_vp : dist := Dist MultivariateDiagonalNormalVP DefaultMinimizer [("mean"%string, vec [0] [1]%nat eq_refl); ("variance"%string, vec [1] [1]%nat eq_refl)] [].
Lemma gen_vp_bad : exists g infos r t v, rng_ok g /\ normal_nonzero g /\ create ex_vp = Ok infos /\ generate_random g infos 0 [] = Ok r /\ param_at r ["variance"%string] = Some (RA t) /\ tget t [0]%nat = Fin v /\ v < 0.
Proof.
  exists (const_rng 1 (1/2) (-5)). do 4 eexists. split; [apply const_rng_ok; lra|]. split; [apply const_rng_nonzero; lra|]. split; [reflexivity|]. split; [reflexivity|]. split; [reflexivity|]. split; [reflexivity|]. lra.
Qed.
Lemma within_inside mn mx v : within (option_map adj_min mn) (option_map adj_max mx) v -> inside mn mx v.
Proof.
  intros [A B]. split; [destruct mn as [m|]|destruct mx as [M|]]; try exact Logic.I; cbn in *.
  - pose proof (adj_min_above m). lra.
  - pose proof (adj_max_below M). lra.
Qed.
Lemma ex_within : within (option_map adj_min (Some 0)) (option_map adj_max (Some 1)) (1/2).
Proof.
  pose proof feps_pos. pose proof ClampThms.feps_small. cbn. unfold adj_min, adj_max, copysign. destruct (Rlt_dec 0 0); [lra|]. destruct (Rlt_dec (- (1)) 0); [|lra]. rewrite !Rabs_pos_eq by lra. unfold Rmin, Rmax. split; repeat destruct Rle_dec; lra.
Qed.
