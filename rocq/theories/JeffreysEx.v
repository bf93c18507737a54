(** Concrete cases for C46. *)
From Coquelicot Require Import Coquelicot.
From Coq Require Import String List Bool Arith Reals Lia Lra.
From Verif Require Import Base XReal Tensor TensorFacts Support Dist Iteration Structure Spec Tools Joint SpecFun Expr Fam SumSpec DotSpec Examples JointEx PointSpec ConvEx MatEx SupportSpec FlattenSpec Fisher FisherSpec TraceEx Jeffreys FisherMat2 PointFacts Val FamR FamVal LeafVal.
Import ListNotations.
Local Unset Asymmetric Patterns.
Local Open Scope string_scope.
Local Open Scope R_scope.

(** a multivariate normal and a Poisson distribution, without batch dimensions *)
Lemma ex_tr_dom i : inb [] i = true -> tree_in_domain ex_tr i.
Proof.
  intros Hi. destruct i; [|discriminate Hi]. intros p l H. cbn in H. destruct H as [H|[H|[]]]; injection H as <- <-.
  - exists 2%nat. split; [reflexivity|]. split; [finc_|]. apply spd2; cbn; lra.
  - leaf_ 1%nat. exact Logic.I.
Qed.
Lemma ex_tr_nc p l : In (p, l) (leaves [] ex_tr) -> dcls l <> NP ComplexCircularlySymmetricNormal.
Proof. intros H. cbn in H. destruct H as [H|[H|[]]]; injection H as <- <-; discriminate. Qed.

(** circularly symmetric normal distributions of one and of two dimensions *)
Definition cs1 (x : R) : dist := Dist (NP ComplexCircularlySymmetricNormal) DefaultMinimizer [("negative_precision", cvec [(x, 0)] [1; 1]%nat eq_refl)] [].
Definition cs2 : dist := Dist (NP ComplexCircularlySymmetricNormal) DefaultMinimizer [("negative_precision", cvec [(-1, 0); (0, 0); (0, 0); (-1, 0)] [2; 2]%nat eq_refl)] [].
Lemma cs1_dom x : x < 0 -> tree_in_domain (cs1 x) [].
Proof.
  intros X p l H. cbn in H. destruct H as [H|[]]. injection H as <- <-. exists 1%nat. split; [reflexivity|]. split; [finc_|]. split.
  - intros [|a] [|b] Ha Hb; try lia. cbn. split; ring.
  - intros u v (a & Ha & Z). destruct a as [|a]; [|lia]. unfold sumR. cbn. ring_simplify. assert (Sq : forall w, w <> 0 -> 0 < w * w) by (intros; apply Rsqr_pos_lt; assumption). assert (Sq0 : forall w, 0 <= w * w) by (intros w; exact (Rle_0_sqr w)).
    pose proof (Sq0 (u 0%nat)). pose proof (Sq0 (v 0%nat)). destruct Z as [Z|Z]; pose proof (Sq _ Z); nra.
Qed.
Lemma cs2_dom : tree_in_domain cs2 [].
Proof. intros p l H. cbn in H. destruct H as [H|[]]. injection H as <- <-. exists 2%nat. split; [reflexivity|]. split; [finc_|]. apply hpd2; cbn; lra. Qed.
Definition cs1_F (x : R) : tensor xr := @mkT xr [2; 2]%nat [Fin (/ (x * x)); Fin 0; Fin 0; Fin 0] eq_refl.
Definition cs2_F : tensor xr := @mkT xr [6; 6]%nat (map Fin
  [1; 0; 0; 0; 0; 0;
   0; 2; 0; 0; 0; 0;
   0; 0; 1; 0; 0; 0;
   0; 0; 0; 0; 0; 1;
   0; 0; 0; 0; 2; 0;
   0; 0; 0; 1; 0; 0]) eq_refl.
Lemma bool_uip (b : bool) (e e' : b = true) : e = e'. Proof. apply Eqdep_dec.UIP_dec. exact Bool.bool_dec. Qed.
Ltac uip := repeat f_equal; apply bool_uip.
Ltac tens := apply tensor_eq; [reflexivity|]; cbn; repeat (apply (f_equal2 cons); [apply (f_equal Fin); ring|]); reflexivity.
Definition cs1v (u v : R) : dist := Dist (NP ComplexCircularlySymmetricNormal) DefaultMinimizer [("negative_precision", cvec [(u, v)] [1; 1]%nat eq_refl)] [].
Definition cs2v (u0 u1 u2 v0 v1 v2 : R) : dist := Dist (NP ComplexCircularlySymmetricNormal) DefaultMinimizer
  [("negative_precision", cvec [(u0, v0); (u1, v1); (u1, - v1); (u2, v2)] [2; 2]%nat eq_refl)] [].
Definition fl1 := Eval vm_compute in match flatten (cs1 0) false with Ok (fl, _) => fl | _ => Flattener [] [] false end.
Definition fl2 := Eval vm_compute in match flatten cs2 false with Ok (fl, _) => fl | _ => Flattener [] [] false end.
Lemma cs1_flat x : flatten (cs1 x) false = Ok (fl1, @mkT xr [2]%nat [Fin x; Fin 0] eq_refl).
Proof. vm_compute. uip. Qed.
Lemma cs2_flat : flatten cs2 false = Ok (fl2, @mkT xr [6]%nat [Fin (-1); Fin 0; Fin (-1); Fin 0; Fin 0; Fin 0] eq_refl).
Proof. vm_compute. uip. Qed.
Lemma cs1_unflat u v : unflatten fl1 (@mkT xr [2]%nat [Fin u; Fin v] eq_refl) = Ok (cs1v u v).
Proof. vm_compute. uip. Qed.
Lemma cs2_unflat u0 u1 u2 v0 v1 v2 : unflatten fl2 (@mkT xr [6]%nat [Fin u0; Fin u1; Fin u2; Fin v0; Fin v1; Fin v2] eq_refl) = Ok (cs2v u0 u1 u2 v0 v1 v2).
Proof. vm_compute. uip. Qed.
Section S.
  Variable solve : minimizer -> dist -> nat -> xr.
  Notation L := (fam_methods solve).
  Lemma cs1_ln u v : 0 < - u -> exists y, log_normalizer L (cs1v u v) = Ok y /\ tget y [] = Fin (- ln (- u) + 1 * ln PI).
  Proof.
    intros P. assert (A : at_pt [] [] (cs1v u v) (NP ComplexCircularlySymmetricNormal) 1 (point_of (cs1v u v) [])). { apply at_pt_self; try reflexivity. finc_. }
    assert (E : fst (cdet 1 (fun a b => Copp (cpt (point_of (cs1v u v) []) "negative_precision" [a; b]%nat))) = - u) by (cbn; ring).
    destruct (ln_at_d solve [] [] _ _ _ _ eq_refl A) as (t & T1 & _ & T3); [cbn [ln_dom]; now rewrite E|]. exists t. split; [exact T1|]. rewrite T3. cbn [lnR]. now rewrite E.
  Qed.
  Lemma cs2_ln u0 u1 u2 v0 v1 v2 : 0 < u0 * u2 - v0 * v2 - u1 * u1 - v1 * v1 -> exists y, log_normalizer L (cs2v u0 u1 u2 v0 v1 v2) = Ok y /\ tget y [] = Fin (- ln (u0 * u2 - v0 * v2 - u1 * u1 - v1 * v1) + 2 * ln PI).
  Proof.
    intros P. set (d := cs2v u0 u1 u2 v0 v1 v2). assert (A : at_pt [] [] d (NP ComplexCircularlySymmetricNormal) 2 (point_of d [])). { apply at_pt_self; try reflexivity. finc_. }
    assert (E : fst (cdet 2 (fun a b => Copp (cpt (point_of d []) "negative_precision" [a; b]%nat))) = u0 * u2 - v0 * v2 - u1 * u1 - v1 * v1) by (cbn; ring).
    destruct (ln_at_d solve [] [] _ _ _ _ eq_refl A) as (t & T1 & _ & T3); [cbn [ln_dom]; now rewrite E|]. exists t. split; [exact T1|]. rewrite T3. cbn [lnR]. rewrite E. reflexivity.
  Qed.
  Lemma cs1_matrix x : x < 0 -> fisher_matrix_of L (cs1 x) (cs1_F x).
  Proof.
    intros X. eexists _, _, [], 2%nat. split; [apply cs1_flat|]. split; [reflexivity|]. split; [reflexivity|].
    intros i a c Hi Ha Hc. destruct i; [|discriminate Hi].
    set (p := if (a =? 0)%nat then 1 else 0). set (r := if (c =? 0)%nat then 1 else 0).
    exists (fun s t => - ln (- (x + p * s + r * t)) + 1 * ln PI), (fun s => - r / (x + p * s)), (p * r / (x * x)), (- x / 4). split; [lra|].
    assert (P : 0 <= p <= 1) by (unfold p; destruct (a =? 0)%nat; lra). assert (Q : 0 <= r <= 1) by (unfold r; destruct (c =? 0)%nat; lra).
    assert (K : forall s t, Rabs s < - x / 4 -> Rabs t < - x / 4 -> 0 < - (x + p * s + r * t)).
    { intros s t Hs Ht. apply Rabs_lt_between in Hs. apply Rabs_lt_between in Ht. nra. }
    assert (R0 : Rabs 0 < - x / 4) by (rewrite Rabs_R0; lra).
    split; [|split; [|split]].
    - intros s t Hs Ht. specialize (K s t Hs Ht).
      destruct (cs1_ln (x + p * s + r * t) ((1 - p) * s + (1 - r) * t) K) as (y & Y1 & Y2). exists (cs1v (x + p * s + r * t) ((1 - p) * s + (1 - r) * t)), y. split; [|split; assumption].
      rewrite <- cs1_unflat. f_equal. destruct a as [|[|a]]; [| |lia]; (destruct c as [|[|c]]; [| |lia]); cbn in p, r; subst p r; tens.
    - intros s Hs. specialize (K s 0 Hs R0). apply is_derive_Reals. auto_derive; [exact K|]. field. lra.
    - apply is_derive_Reals. specialize (K 0 0 R0 R0). auto_derive; [lra|]. field. lra.
    - destruct a as [|[|a]]; [| |lia]; (destruct c as [|[|c]]; [| |lia]); cbn in p, r; subst p r; cbn; f_equal; field; lra.
  Qed.
  (** in two dimensions: the real part of the determinant of minus the matrix is a quadratic form in the flattened parameters *)
  Definition qf (u v : nat -> R) : R := (u 0%nat * v 2%nat + u 2%nat * v 0%nat) / 2 - (u 3%nat * v 5%nat + u 5%nat * v 3%nat) / 2 - u 1%nat * v 1%nat - u 4%nat * v 4%nat.
  Definition un (a j : nat) : R := if (a =? j)%nat then 1 else 0.
  Definition x0 (j : nat) : R := nth j [-1; 0; -1; 0; 0; 0] 0.
  Lemma cs2_matrix : fisher_matrix_of L cs2 cs2_F.
  Proof.
    eexists _, _, [], 6%nat. split; [apply cs2_flat|]. split; [reflexivity|]. split; [reflexivity|].
    intros i a c Hi Ha Hc. destruct i; [|discriminate Hi].
    set (p := 2 * qf x0 (un a)). set (r := 2 * qf x0 (un c)). set (A := qf (un a) (un a)). set (B := qf (un c) (un c)). set (E := 2 * qf (un a) (un c)).
    set (Q := fun s t => 1 + p * s + r * t + A * s * s + E * s * t + B * t * t).
    assert (I1 : -1 <= p <= 1) by (unfold p, qf, x0; do 6 (destruct a as [|a]; [cbn; lra|]); lia).
    assert (I2 : -1 <= r <= 1) by (unfold r, qf, x0; do 6 (destruct c as [|c]; [cbn; lra|]); lia).
    assert (I3 : -1 <= A <= 1) by (unfold A, qf; do 6 (destruct a as [|a]; [cbn; lra|]); lia).
    assert (I4 : -1 <= B <= 1) by (unfold B, qf; do 6 (destruct c as [|c]; [cbn; lra|]); lia).
    assert (I5 : -2 <= E <= 2) by (unfold E, qf; do 6 (destruct a as [|a]; [do 6 (destruct c as [|c]; [cbn; lra|]); lia|]); lia).
    assert (K : forall s t, Rabs s < 1 / 8 -> Rabs t < 1 / 8 -> 0 < Q s t).
    { intros s t Hs Ht. unfold Q.
      assert (M : forall u w, Rabs u <= 2 -> Rabs w < 1 / 8 -> - (1 / 4) < u * w < 1 / 4).
      { intros u w Hu Hw. apply Rabs_lt_between. rewrite Rabs_mult. pose proof (Rabs_pos u). pose proof (Rabs_pos w). nra. }
      assert (M1 : forall u w, Rabs u <= 1 -> Rabs w < 1 / 8 -> Rabs (u * w) < 1 / 8).
      { intros u w Hu Hw. rewrite Rabs_mult. pose proof (Rabs_pos u). pose proof (Rabs_pos w). nra. }
      assert (S1 : Rabs (p * s) < 1 / 8) by (apply M1; [apply Rabs_le; lra|exact Hs]). assert (S2 : Rabs (r * t) < 1 / 8) by (apply M1; [apply Rabs_le; lra|exact Ht]).
      assert (S3 : Rabs (A * s) < 1 / 8) by (apply M1; [apply Rabs_le; lra|exact Hs]). assert (S4 : Rabs (B * t) < 1 / 8) by (apply M1; [apply Rabs_le; lra|exact Ht]).
      assert (S5 : Rabs (s * t) < 1 / 8) by (apply M1; [lra|exact Ht]).
      assert (T3 : Rabs (A * s * s) < 1 / 8) by (apply M1; [lra|exact Hs]). assert (T4 : Rabs (B * t * t) < 1 / 8) by (apply M1; [lra|exact Ht]).
      assert (T5 : -(1/4) < E * (s * t) < 1 / 4) by (apply M; [apply Rabs_le; lra|exact S5]).
      apply Rabs_lt_between in S1. apply Rabs_lt_between in S2. apply Rabs_lt_between in T3. apply Rabs_lt_between in T4. rewrite <- Rmult_assoc in T5. lra. }
    assert (R0 : Rabs 0 < 1 / 8) by (rewrite Rabs_R0; lra).
    exists (fun s t => - ln (Q s t) + 2 * ln PI), (fun s => - (r + E * s) / Q s 0), (p * r - E), (1 / 8). split; [lra|].
    split; [|split; [|split]].
    - intros s t Hs Ht. specialize (K s t Hs Ht). set (z := fun j => x0 j + s * un a j + t * un c j).
      assert (EQ : Q s t = z 0%nat * z 2%nat - z 3%nat * z 5%nat - z 1%nat * z 1%nat - z 4%nat * z 4%nat) by (unfold Q, p, r, A, B, E, qf, z; cbn [x0 nth]; unfold x0; cbn [nth]; field).
      rewrite EQ in K |- *. destruct (cs2_ln _ _ _ _ _ _ K) as (y & Y1 & Y2). eexists _, y. split; [|split; eassumption].
      rewrite <- cs2_unflat. f_equal. unfold z, x0, un. clear - Ha Hc. do 6 (destruct a as [|a]; [do 6 (destruct c as [|c]; [tens|]); lia|]); lia.
    - intros s Hs. specialize (K s 0 Hs R0). apply is_derive_Reals. unfold Q in *. auto_derive; [exact K|]. field. lra.
    - apply is_derive_Reals. specialize (K 0 0 R0 R0). unfold Q in *. auto_derive; [lra|]. field.
    - unfold p, r, E, qf, x0. do 6 (destruct a as [|a]; [do 6 (destruct c as [|c]; [cbn; f_equal; field|]); lia|]); lia.
  Qed.
End S.
Lemma cs2_det : rdet 6 (entries 0 6 [1; 0; 0; 0; 0; 0; 0; 2; 0; 0; 0; 0; 0; 0; 1; 0; 0; 0; 0; 0; 0; 0; 0; 1; 0; 0; 0; 0; 2; 0; 0; 0; 0; 1; 0; 0]) = -4.
Proof. unfold rdet, entries. cbn. ring. Qed.
Lemma cs1_prior x : exists t, jeffreys_prior (fun _ => Ok (cs1_F x)) (cs1 x) = Ok t /\ shp t = [] /\ tget t [] = Fin 0.
Proof.
  eexists. split; [reflexivity|]. split; [reflexivity|]. change (tget _ []) with (xsqrt (Fin (rdet 2 (entries 0 2 [/ (x * x); 0; 0; 0])))).
  assert (E : rdet 2 (entries 0 2 [/ (x * x); 0; 0; 0]) = 0) by (unfold rdet, entries; cbn; ring). rewrite E. cbn [xsqrt]. destruct (Rle_dec 0 0) as [|N]; [|exfalso; apply N; lra]. now rewrite sqrt_0.
Qed.
Lemma cs2_prior : exists t, jeffreys_prior (fun _ => Ok cs2_F) cs2 = Ok t /\ shp t = [] /\ tget t [] = NaN.
Proof.
  eexists. split; [reflexivity|]. split; [reflexivity|].
  change (tget _ []) with (xsqrt (Fin (rdet 6 (entries 0 6 [1; 0; 0; 0; 0; 0; 0; 2; 0; 0; 0; 0; 0; 0; 1; 0; 0; 0; 0; 0; 0; 0; 0; 1; 0; 0; 0; 0; 2; 0; 0; 0; 0; 1; 0; 0])))).
  rewrite cs2_det. cbn [xsqrt]. destruct (Rle_dec 0 (-4)) as [N|]; [exfalso; lra|reflexivity].
Qed.
Lemma cs2_indefinite : ~ exists M : nat -> nat -> R, (forall a c, (a < 6)%nat -> (c < 6)%nat -> tget cs2_F [a; c] = Fin (M a c)) /\
  forall z : nat -> R, 0 <= sumR 6 (fun a => sumR 6 (fun c => z a * M a c * z c)).
Proof.
  intros (M & E & P). specialize (P (fun a => if (a =? 3)%nat then 1 else if (a =? 5)%nat then -1 else 0)).
  assert (E1 : M 3%nat 3%nat = 0) by (specialize (E 3 3 ltac:(lia) ltac:(lia))%nat; cbn in E; injection E as E; now symmetry).
  assert (E2 : M 3%nat 5%nat = 1) by (specialize (E 3 5 ltac:(lia) ltac:(lia))%nat; cbn in E; injection E as E; now symmetry).
  assert (E3 : M 5%nat 3%nat = 1) by (specialize (E 5 3 ltac:(lia) ltac:(lia))%nat; cbn in E; injection E as E; now symmetry).
  assert (E4 : M 5%nat 5%nat = 0) by (specialize (E 5 5 ltac:(lia) ltac:(lia))%nat; cbn in E; injection E as E; now symmetry).
  unfold sumR in P. cbn in P. rewrite E1, E2, E3, E4 in P. lra.
Qed.
Lemma t_psd_refuted solve : exists q F, well_formed q = true /\ nat_tree q = true /\ shaped [] q = true /\ tree_in_domain q [] /\ flat_size q = 6%nat /\ fisher_matrix_of (fam_methods solve) q F /\
  (~ exists M : nat -> nat -> R, (forall a c, (a < 6)%nat -> (c < 6)%nat -> tget F [a; c] = Fin (M a c)) /\ forall z : nat -> R, 0 <= sumR 6 (fun a => sumR 6 (fun c => z a * M a c * z c))) /\
  exists t, jeffreys_prior (fun _ => Ok F) q = Ok t /\ shp t = [] /\ tget t [] = NaN.
Proof.
  exists cs2, cs2_F. do 3 (split; [reflexivity|]). split; [exact cs2_dom|]. split; [reflexivity|]. split; [apply cs2_matrix|]. split; [exact cs2_indefinite|exact cs2_prior].
Qed.
Lemma t_jeffreys_zero solve x : x < 0 -> exists F t, tree_in_domain (cs1 x) [] /\ fisher_matrix_of (fam_methods solve) (cs1 x) F /\
  jeffreys_prior (fun _ => Ok F) (cs1 x) = Ok t /\ shp t = [] /\ tget t [] = Fin 0.
Proof. intros X. destruct (cs1_prior x) as (t & T). exists (cs1_F x), t. split; [now apply cs1_dom|]. split; [now apply cs1_matrix|exact T]. Qed.
