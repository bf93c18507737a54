(** C20: derivatives of determinants and inverses, and of the log-normalizers of the two families with a matrix parameter. *)
From Coquelicot Require Import Coquelicot.
From Coq Require Import String List Bool Arith Reals Lia Lra.
From Verif Require Import Base XReal Tensor TensorFacts Support Dist Iteration Spec SumSpec DotSpec SpecFun GammaFn BesselFn Expr Fam ExprFacts FamTy FamFacts DotFacts PointSpec PointFacts DetFacts MatFacts Val FamR FamVal ConvFacts DerivFacts.
Import ListNotations.
Local Unset Asymmetric Patterns.
Local Open Scope string_scope.
Local Open Scope R_scope.
Local Notation C := Complex.C (only parsing).

(** ** complex values and derivatives at 0 of a function of a real variable *)
Definition DVC (g : R -> C) (v d : C) : Prop := DV (fun s => fst (g s)) (fst v) (fst d) /\ DV (fun s => snd (g s)) (snd v) (snd d).
Lemma Ceq (a b : C) : fst a = fst b -> snd a = snd b -> a = b. Proof. destruct a, b. cbn. now intros -> ->. Qed.
Lemma DVC_val g v d : DVC g v d -> g 0 = v. Proof. intros [[A _] [B _]]. now apply Ceq. Qed.
Lemma DVC_ext g h v d : (forall s, g s = h s) -> DVC g v d -> DVC h v d.
Proof. intros E [A B]. split; (eapply DV_ext; [|eassumption]); intros s; cbv beta; now rewrite E. Qed.
Lemma DVC_ext_loc g h v d : locally 0 (fun s => g s = h s) -> DVC g v d -> DVC h v d.
Proof. intros E [A B]. split; (eapply DV_ext_loc; [|eassumption]); (eapply filter_imp; [|exact E]); cbv beta; now intros s ->. Qed.
Lemma DVC_eq g v d v' d' : DVC g v d -> v = v' -> d = d' -> DVC g v' d'. Proof. now intros H -> ->. Qed.
Lemma DVC_const c : DVC (fun _ => c) c (RtoC 0). Proof. split; apply DV_const. Qed.
Lemma DVC_pair g h a b c d : DV g a b -> DV h c d -> DVC (fun s => (g s, h s)) (a, c) (b, d). Proof. intros A B. split; assumption. Qed.
Lemma DVC_RtoC g a b : DV g a b -> DVC (fun s => RtoC (g s)) (RtoC a) (RtoC b). Proof. intros A. split; [exact A|apply DV_const]. Qed.
Lemma DVC_plus g h a b c d : DVC g a b -> DVC h c d -> DVC (fun s => g s + h s)%C (a + c)%C (b + d)%C.
Proof. intros [A1 A2] [B1 B2]. split; apply DV_plus; assumption. Qed.
Lemma DVC_opp g a b : DVC g a b -> DVC (fun s => - g s)%C (- a)%C (- b)%C.
Proof. intros [A1 A2]. split; apply DV_opp; assumption. Qed.
Lemma DVC_mult g h a b c d : DVC g a b -> DVC h c d -> DVC (fun s => g s * h s)%C (a * c)%C (b * c + a * d)%C.
Proof.
  intros [A1 A2] [B1 B2]. split; cbn [fst snd Cmult Cplus]; (eapply DV_eq; [first [eapply DV_minus|eapply DV_plus]; eapply DV_mult; eassumption|reflexivity|ring]).
Qed.
Lemma DVC_sum n (g : nat -> R -> C) v d : (forall k, (k < n)%nat -> DVC (g k) (v k) (d k)) -> DVC (fun s => csum n (fun k => g k s)) (csum n v) (csum n d).
Proof.
  induction n as [|n IH]; intros H; [apply DVC_const|]. rewrite !csum_S. eapply DVC_ext; [intros s; symmetry; apply csum_S|]. apply DVC_plus; [apply IH; intros; apply H; lia|apply H; lia].
Qed.
Lemma DVC_alt j g v d : DVC g v d -> DVC (fun s => alt Copp j (g s)) (alt Copp j v) (alt Copp j d).
Proof. intros H. unfold alt. destruct (Nat.even j); [exact H|now apply DVC_opp]. Qed.
Lemma DVC_inv g v d : DVC g v d -> v <> RtoC 0 -> exists e, DVC (fun s => / g s)%C (/ v)%C e.
Proof.
  intros [A B] N. assert (P : 0 < fst v * fst v + snd v * snd v).
  { destruct (Req_dec (fst v) 0) as [E|E]; [|pose proof (Rsqr_pos_lt _ E); pose proof (Rle_0_sqr (snd v)); unfold Rsqr in *; lra]. destruct (Req_dec (snd v) 0) as [E'|E'].
    - exfalso. apply N. now apply Ceq.
    - pose proof (Rsqr_pos_lt _ E'); pose proof (Rle_0_sqr (fst v)); unfold Rsqr in *; lra. }
  assert (Dn : exists e, DV (fun s => fst (g s) ^ 2 + snd (g s) ^ 2) (fst v ^ 2 + snd v ^ 2) e).
  { eexists. eapply DV_ext with (g := fun s => fst (g s) * fst (g s) + snd (g s) * snd (g s)); [intros; cbn [pow]; ring|]. eapply DV_eq; [eapply DV_plus; eapply DV_mult; eassumption|cbn [pow]; ring|reflexivity]. }
  destruct Dn as [e Dn]. assert (Q : fst v ^ 2 + snd v ^ 2 <> 0) by (cbn [pow]; lra).
  eexists (_, _). split; cbn [fst snd Cinv]; eapply DV_div; first [exact A|exact Dn|exact Q|eapply DV_opp; exact B].
Qed.
(** the determinant *)
Lemma DVC_det n : forall (m : R -> nat -> nat -> C) v d, (forall a b, (a < n)%nat -> (b < n)%nat -> DVC (fun s => m s a b) (v a b) (d a b)) ->
  DVC (fun s => cdet n (m s)) (cdet n v) (csum n (fun k => cdet n (upd v k (d k)))).
Proof.
  induction n as [|n IH]; intros m v d H; [apply DVC_const|].
  eapply DVC_eq with (v := csum (S n) (fun j => alt Copp j (v O j * cdet n (minor O j v)))%C)
    (d := csum (S n) (fun j => alt Copp j (d O j * cdet n (minor O j v) + v O j * csum n (fun k => cdet n (upd (minor O j v) k (minor O j d k)))))%C).
  - apply (DVC_sum (S n) (fun j s => alt Copp j (m s O j * cdet n (minor O j (m s)))%C)). intros j Hj. apply DVC_alt, DVC_mult; [apply H; lia|].
    apply (IH (fun s => minor O j (m s))). intros a b Ha Hb. unfold minor. apply H; now apply skip_lt.
  - reflexivity.
  - rewrite (csum_ext (S n) _ (fun j => alt Copp j (d O j * cdet n (minor O j v)) + alt Copp j (v O j * csum n (fun k => cdet n (upd (minor O j v) k (minor O j d k)))))%C) by (intros; apply (alt_plus _ _ _ _ _ _ Cth)).
    rewrite csum_plus. transitivity (cdet (S n) (upd v O (d O)) + csum n (fun k => cdet (S n) (upd v (S k) (d (S k)))))%C; [|symmetry; apply (gs_Sl (RtoC 0) Cplus)]. f_equal.
    rewrite (csum_ext (S n) _ (fun j => csum n (fun k => alt Copp j (v O j * cdet n (upd (minor O j v) k (minor O j d k)))))%C).
    + rewrite csum_swap. apply csum_ext. intros k Hk. symmetry. etransitivity; [apply (D_S (RtoC 0) (RtoC 1) Cplus Cmult Copp)|]. apply csum_ext. intros j Hj. apply (f_equal (fun x => alt Copp j (v O j * x)%C)).
      apply (D_ext _ _ _ _ _ _ Cth). intros a b Ha Hb. unfold minor, upd. cbn [skip Nat.ltb Nat.leb Nat.eqb]. reflexivity.
    + intros j Hj. rewrite <- csum_scal. apply (alt_gs _ _ _ _ _ _ Cth).
Qed.
Lemma det_upd n v k r : cdet n v <> RtoC 0 -> (k < n)%nat -> cdet n (upd v k r) = (cdet n v * csum n (fun j => r j * cinv n v j k))%C.
Proof.
  intros N Hk. destruct n as [|n]; [lia|]. etransitivity; [apply (D_row _ _ _ _ _ _ Cth n k); exact Hk|]. rewrite <- csum_scal. apply csum_ext. intros j Hj. rewrite upd_same.
  rewrite (D_ext _ _ _ _ _ _ Cth n (minor k j (upd v k r)) (minor k j v)) by (intros; unfold minor; apply upd_other; apply skip_ne).
  change (cinv (S n) v j k) with (alt Copp (j + k) (cdet n (minor k j v)) * / cdet (S n) v)%C. rewrite (Nat.add_comm j k).
  rewrite (alt_mul _ _ _ _ _ _ Cth). change (gdet (RtoC 0) (RtoC 1) Cplus Cmult Copp) with cdet. field. exact N.
Qed.
Lemma DVC_det' n (m : R -> nat -> nat -> C) v d : (forall a b, (a < n)%nat -> (b < n)%nat -> DVC (fun s => m s a b) (v a b) (d a b)) -> cdet n v <> RtoC 0 ->
  DVC (fun s => cdet n (m s)) (cdet n v) (cdet n v * csum n (fun k => csum n (fun j => d k j * cinv n v j k)))%C.
Proof.
  intros H N. eapply DVC_eq; [apply DVC_det; exact H|reflexivity|]. rewrite <- csum_scal. apply csum_ext. intros k Hk. now apply det_upd.
Qed.
Lemma DVC_neq g v d : DVC g v d -> v <> RtoC 0 -> locally 0 (fun s => g s <> RtoC 0).
Proof.
  intros [A B] N. destruct (Req_dec (fst v) 0) as [E|E].
  - assert (E' : snd v <> 0) by (intros E'; apply N; now apply Ceq). eapply filter_imp; [|exact (loc_neq _ _ _ B E')]. cbv beta. intros s Hs Z. apply Hs. now rewrite Z.
  - eapply filter_imp; [|exact (loc_neq _ _ _ A E)]. cbv beta. intros s Hs Z. apply Hs. now rewrite Z.
Qed.
Lemma DVC_unique g v v' d d' : DVC g v d -> DVC g v' d' -> d = d'.
Proof. intros [[_ A] [_ B]] [[_ A'] [_ B']]. apply Ceq; [rewrite <- (is_derive_unique _ _ _ A); exact (is_derive_unique _ _ _ A')|rewrite <- (is_derive_unique _ _ _ B); exact (is_derive_unique _ _ _ B')]. Qed.
(** the inverse *)
Lemma DVC_inv_ex n (m : R -> nat -> nat -> C) v d i j : (forall a b, (a < n)%nat -> (b < n)%nat -> DVC (fun s => m s a b) (v a b) (d a b)) -> cdet n v <> RtoC 0 -> (i < n)%nat -> (j < n)%nat ->
  exists e, DVC (fun s => cinv n (m s) i j) (cinv n v i j) e.
Proof.
  intros H N Hi Hj. destruct n as [|n]; [lia|]. destruct (DVC_inv _ _ _ (DVC_det (S n) m v d H) N) as [e He]. eexists.
  apply (DVC_mult (fun s => alt Copp (i + j) (cdet n (minor j i (m s)))) (fun s => / cdet (S n) (m s))%C); [|exact He]. apply DVC_alt. apply DVC_det.
  intros a b Ha Hb. unfold minor. apply (H (skip j a) (skip i b)); now apply skip_lt.
Qed.
Lemma choice2 n (P : nat -> nat -> C -> Prop) : (forall i j, (i < n)%nat -> (j < n)%nat -> exists e, P i j e) -> exists B, forall i j, (i < n)%nat -> (j < n)%nat -> P i j (B i j).
Proof.
  intros H. assert (R1 : forall i, exists B, (i < n)%nat -> forall j, (j < n)%nat -> P i j (B j)).
  { intros i. destruct (lt_dec i n) as [Hi|Hi]; [|exists (fun _ => RtoC 0); intros; lia]. assert (X : forall k, (k <= n)%nat -> exists B, forall j, (j < k)%nat -> P i j (B j)).
    { induction k as [|k IH]; intros K; [exists (fun _ => RtoC 0); intros; lia|]. destruct IH as [B HB]; [lia|]. destruct (H i k Hi K) as [e He]. exists (fun j => if Nat.eqb j k then e else B j).
      intros j Hj. destruct (Nat.eqb_spec j k) as [->|Q]; [exact He|apply HB; lia]. }
    destruct (X n (le_n n)) as [B HB]. exists B. auto. }
  assert (X : forall k, (k <= n)%nat -> exists B, forall i, (i < k)%nat -> forall j, (j < n)%nat -> P i j (B i j)).
  { induction k as [|k IH]; intros K; [exists (fun _ _ => RtoC 0); intros; lia|]. destruct IH as [B HB]; [lia|]. destruct (R1 k) as [b Hb]. exists (fun i j => if Nat.eqb i k then b j else B i j).
    intros i Hi j Hj. destruct (Nat.eqb_spec i k) as [->|Q]; [apply Hb; [lia|exact Hj]|apply HB; lia]. }
  destruct (X n (le_n n)) as [B HB]. exists B. intros. now apply HB.
Qed.
Lemma DVC_cinv n (m : R -> nat -> nat -> C) v d i k : (forall a b, (a < n)%nat -> (b < n)%nat -> DVC (fun s => m s a b) (v a b) (d a b)) -> 
  (forall a b, (a < n)%nat -> (b < n)%nat -> v a b = Cconj (v b a)) -> cdet n v <> RtoC 0 -> (i < n)%nat -> (k < n)%nat ->
  DVC (fun s => cinv n (m s) i k) (cinv n v i k) (- csum n (fun l => cinv n v i l * csum n (fun j => d l j * cinv n v j k)))%C.
Proof.
  intros H Hm N Hi Hk. destruct (choice2 n (fun i j e => DVC (fun s => cinv n (m s) i j) (cinv n v i j) e)) as [B HB]; [intros; eapply DVC_inv_ex; eauto|].
  assert (E : forall l, (l < n)%nat -> (csum n (fun j => d l j * cinv n v j k) + csum n (fun j => v l j * B j k))%C = RtoC 0).
  { intros l Hl. rewrite <- csum_plus. assert (X : DVC (fun s => csum n (fun j => m s l j * cinv n (m s) j k)%C) (csum n (fun j => v l j * cinv n v j k)%C) (csum n (fun j => d l j * cinv n v j k + v l j * B j k)%C)).
    { apply (DVC_sum n (fun j s => m s l j * cinv n (m s) j k)%C). intros j Hj. apply DVC_mult; auto. }
    eapply DVC_unique; [exact X|]. eapply DVC_ext_loc; [|apply (DVC_const (dl l k))]. eapply filter_imp; [|exact (DVC_neq _ _ _ (DVC_det n m v d H) N)]. cbv beta. intros s Hs. symmetry. now apply cinv_right. }
  eapply DVC_eq; [apply HB; assumption|reflexivity|]. rewrite <- (csum_dl' n i (fun j => B j k) Hi).
  rewrite (csum_ext n _ (fun j => csum n (fun l => cinv n v i l * (v l j * B j k)))%C) by (intros j Hj; rewrite <- (cinv_left n v Hm N i j Hi Hj), <- csum_scal_r; apply csum_ext; intros; ring).
  rewrite csum_swap, <- csum_opp. apply csum_ext. intros l Hl. rewrite csum_scal. specialize (E l Hl).
  replace (csum n (fun j => v l j * B j k)%C) with (- csum n (fun j => d l j * cinv n v j k))%C; [ring|]. rewrite <- (Cplus_0_l (- _)%C), <- E. ring.
Qed.
(** ** real matrices *)
Lemma DV_rdet n (m : R -> nat -> nat -> R) v d : (forall a b, (a < n)%nat -> (b < n)%nat -> DV (fun s => m s a b) (v a b) (d a b)) -> rdet n v <> 0 ->
  DV (fun s => rdet n (m s)) (rdet n v) (rdet n v * sumR n (fun k => sumR n (fun j => d k j * rinv n v j k))).
Proof.
  intros H N. pose proof (DVC_det' n (fun s => cmat (m s)) (cmat v) (cmat d) (fun a b Ha Hb => DVC_RtoC _ _ _ (H a b Ha Hb)) (rdet_ne n v N)) as [A _].
  eapply DV_ext; [|eapply DV_eq; [exact A|..]].
  - intros s. cbv beta. now rewrite rdet_C.
  - now rewrite rdet_C.
  - rewrite rdet_C. rewrite (csum_ext n _ (fun k => RtoC (sumR n (fun j => d k j * rinv n v j k)))), <- RtoC_sum; [cbn; ring|].
    intros k Hk. rewrite RtoC_sum. apply csum_ext. intros j Hj. now rewrite rinv_C, RtoC_mult.
Qed.
Lemma DV_rinv n (m : R -> nat -> nat -> R) v d i k : (forall a b, (a < n)%nat -> (b < n)%nat -> DV (fun s => m s a b) (v a b) (d a b)) ->
  (forall a b, (a < n)%nat -> (b < n)%nat -> v a b = v b a) -> rdet n v <> 0 -> (i < n)%nat -> (k < n)%nat ->
  DV (fun s => rinv n (m s) i k) (rinv n v i k) (- sumR n (fun l => rinv n v i l * sumR n (fun j => d l j * rinv n v j k))).
Proof.
  intros H Hm N Hi Hk. pose proof (DVC_cinv n (fun s => cmat (m s)) (cmat v) (cmat d) i k (fun a b Ha Hb => DVC_RtoC _ _ _ (H a b Ha Hb)) (sym_C n v Hm) (rdet_ne n v N) Hi Hk) as [A _].
  eapply DV_ext_loc; [|eapply DV_eq; [exact A|..]].
  - eapply filter_imp; [|exact (loc_neq _ _ _ (DV_rdet n m v d H N) N)]. cbv beta. intros s Hs. now rewrite rinv_C.
  - now rewrite rinv_C.
  - rewrite (csum_ext n _ (fun l => RtoC (rinv n v i l * sumR n (fun j => d l j * rinv n v j k)))), <- RtoC_sum; [reflexivity|].
    intros l Hl. rewrite rinv_C, RtoC_mult, RtoC_sum by exact N. f_equal. apply csum_ext. intros j Hj. now rewrite rinv_C, RtoC_mult.
Qed.

(** ** the derivative of log_normalizer for the matrix families *)
Lemma rsum_indices2 n m g : rsum (map g (indices [n; m])) = sumR n (fun a => sumR m (fun b => g [a; b]%nat)).
Proof.
  unfold sumR at 1. change (indices [n; m]) with (flat_map (fun k => map (cons k) (indices [m])) (seq 0 n)). induction (seq 0 n) as [|k l IH]; [reflexivity|].
  cbn [flat_map map rsum fold_right]. rewrite map_app, rsum_app, IH. rewrite map_map, rsum_indices1. reflexivity.
Qed.
Section MvnD.
  Variables (n : nat) (p : point).
  Notation MV := MultivariateNormal.
  Definition hH (a b : nat) : R := p false "negative_half_precision" [a; b]%nat.
  Definition hE (a : nat) : R := p false "mean_times_precision" [a]%nat.
  Definition hI : nat -> nat -> R := rinv n hH.
  Definition hHe (a : nat) : R := sumR n (fun b => hI a b * hE b).
  Lemma mvn_expR_mean a : expR n p MV false "mean" [a]%nat = -1 / 2 * hHe a. Proof. reflexivity. Qed.
  Lemma mvn_expR_sec a b : expR n p MV false "second_moment" [a; b]%nat = 1 / 4 * (hHe a * hHe b) - 1 / 2 * hI a b. Proof. reflexivity. Qed.
  Lemma mvn_dot u : dotP (NP MV) (EP MV) n u (expR n p MV) =
    sumR n (fun a => u false "mean_times_precision" [a]%nat * (-1 / 2 * hHe a)) +
    sumR n (fun a => sumR n (fun b => u false "negative_half_precision" [a; b]%nat * (1 / 4 * (hHe a * hHe b) - 1 / 2 * hI a b))).
  Proof.
    unfold dotP, var_fields. cbn [filter fields fd_fixed var fixd negb combine map fst snd fd_name fd_support]. cbn [supp_shape]. rewrite rsum_indices1, rsum_indices2. cbn [rsum fold_right]. rewrite Rplus_0_r. f_equal.
    - apply sumR_ext. intros a Ha. mk. unfold hHe, hI, hH, hE. ring.
    - apply sumR_ext. intros a Ha. apply sumR_ext. intros b Hb. mk. unfold hHe, hI, hH, hE. ring.
  Qed.
End MvnD.
Lemma rswap n m (F : nat -> nat -> R) : sumR n (fun a => sumR m (fun b => F a b)) = sumR m (fun b => sumR n (fun a => F a b)).
Proof. apply RtoC_inj. rewrite !RtoC_sum. rewrite (csum_ext n _ (fun a => csum m (fun b => RtoC (F a b)))) by (intros; apply RtoC_sum). rewrite csum_swap. apply csum_ext. intros. symmetry. apply RtoC_sum. Qed.
Section MvnD2.
  Variables (n : nat) (p v : point).
  Notation MV := MultivariateNormal.
  Hypothesis P : nat_dom MV n p.
  Notation V := (hH v). Notation w := (hE v).
  Notation ps s := (padd (NP MV) p v s).
  Lemma hH_sym a b : (a < n)%nat -> (b < n)%nat -> hH p a b = hH p b a.
  Proof. intros Ha Hb. pose proof (proj1 P a b Ha Hb) as E. cbv beta in E. unfold hH. lra. Qed.
  Lemma hH_ne : rdet n (hH p) <> 0.
  Proof. exact (rdet_neg_ne n (hH p) (spd_ne _ _ P)). Qed.
  Lemma hI_sym a b : (a < n)%nat -> (b < n)%nat -> hI n p a b = hI n p b a.
  Proof. intros Ha Hb. apply rinv_sym; [exact hH_sym|exact hH_ne|exact Ha|exact Hb]. Qed.
  Lemma hH_dv a b : DV (fun s => hH (ps s) a b) (hH p a b) (V a b).
  Proof. unfold hH. adds. apply DV_lin. Qed.
  Lemma hE_dv a : DV (fun s => hE (ps s) a) (hE p a) (w a).
  Proof. unfold hE. adds. apply DV_lin. Qed.
  Definition dI (a b : nat) : R := - sumR n (fun l => hI n p a l * sumR n (fun j => V l j * hI n p j b)).
  Lemma hI_dv a b : (a < n)%nat -> (b < n)%nat -> DV (fun s => hI n (ps s) a b) (hI n p a b) (dI a b).
  Proof. intros Ha Hb. apply (DV_rinv n (fun s => hH (ps s)) (hH p) V a b); [intros; apply hH_dv|exact hH_sym|exact hH_ne|exact Ha|exact Hb]. Qed.
  Definition yv (l : nat) : R := w l - sumR n (fun j => V l j * hHe n p j).
  Definition dHe (a : nat) : R := sumR n (fun l => hI n p a l * yv l).
  Lemma hHe_dv a : (a < n)%nat -> DV (fun s => hHe n (ps s) a) (hHe n p a) (dHe a).
  Proof.
    intros Ha. unfold hHe at 1 2. eapply DV_eq; [apply (DV_sum n (fun b s => hI n (ps s) a b * hE (ps s) b)); intros b Hb; apply DV_mult; [apply hI_dv; assumption|apply hE_dv]|reflexivity|].
    rewrite sumR_add. unfold dHe. transitivity (sumR n (fun l => - (hI n p a l * sumR n (fun j => V l j * hHe n p j)) + hI n p a l * w l)); [|apply sumR_ext; intros; unfold yv; ring]. rewrite sumR_add. f_equal.
    transitivity (sumR n (fun b => sumR n (fun l => - (hI n p a l * sumR n (fun j => V l j * hI n p j b * hE p b))))).
    - apply sumR_ext. intros b Hb. unfold dI. rewrite Ropp_mult_distr_l_reverse. rewrite (Rmult_comm _ (hE p b)), <- sumR_scal, <- sumR_opp. apply sumR_ext. intros l Hl.
      rewrite <- Rmult_assoc, (Rmult_comm (hE p b)), Rmult_assoc, <- sumR_scal. do 2 f_equal. apply sumR_ext. intros. ring.
    - rewrite rswap. apply sumR_ext. intros l Hl. rewrite sumR_opp, sumR_scal, rswap. do 2 f_equal. apply sumR_ext. intros j Hj. unfold hHe. rewrite <- sumR_scal. apply sumR_ext. intros. ring.
  Qed.
  (** - log det *)
  Lemma hdet_dv : DV (fun s => ln (Rabs (rdet n (fun a b => - hH (ps s) a b)))) (ln (Rabs (rdet n (fun a b => - hH p a b)))) (sumR n (fun a => sumR n (fun b => V a b * hI n p a b))).
  Proof.
    pose proof (spd_det n _ P) as D. change (0 < rdet n (fun a b => - hH p a b)) in D.
    pose proof (DV_rdet n (fun s a b => - hH (ps s) a b) (fun a b => - hH p a b) (fun a b => - V a b) (fun a b _ _ => DV_opp _ _ _ (hH_dv a b)) (Rgt_not_eq _ _ D)) as X.
    rewrite Rabs_pos_eq by lra. eapply DV_ext_loc; [|eapply DV_eq; [eapply DV_ln; [exact X|exact D]|reflexivity|]].
    - eapply filter_imp; [|exact (loc_pos _ _ _ X D)]. cbv beta. intros s Hs. rewrite Rabs_pos_eq by lra. reflexivity.
    - unfold Rdiv. rewrite (Rmult_comm (rdet _ _)), Rmult_assoc, Rinv_r, Rmult_1_r by lra. apply sumR_ext. intros a Ha. apply sumR_ext. intros b Hb.
      rewrite rinv_opp by (exact hH_ne || assumption). change (rinv n (hH p) b a) with (hI n p b a). rewrite (hI_sym b a Hb Ha). ring.
  Qed.
  Lemma quad_sym (x y : nat -> R) : sumR n (fun a => x a * sumR n (fun l => hI n p a l * y l)) = sumR n (fun a => y a * sumR n (fun l => hI n p a l * x l)).
  Proof.
    transitivity (sumR n (fun a => sumR n (fun l => x a * (hI n p a l * y l)))); [apply sumR_ext; intros; now rewrite sumR_scal|]. rewrite rswap. apply sumR_exti. intros l Hl. rewrite <- sumR_scal. apply sumR_exti. intros a Ha. rewrite (hI_sym l a Hl Ha). ring.
  Qed.
  Lemma mvn_ln_dv : DV (fun s => lnR n (ps s) MV) (lnR n p MV) (dotP (NP MV) (EP MV) n v (expR n p MV)).
  Proof.
    rewrite mvn_dot.
    assert (E : forall q, lnR n q MV = -1 / 4 * sumR n (fun a => hE q a * hHe n q a) - 1 / 2 * ln (Rabs (rdet n (fun a b => - hH q a b))) + 1 / 2 * INR n * ln PI).
    { intros q. unfold lnR. fold (hH q). do 2 f_equal. f_equal. apply sumR_ext. intros a Ha. unfold hHe, hI. rewrite <- sumR_scal. apply sumR_ext. intros b Hb. unfold hE. fold (hH q). ring. }
    eapply DV_ext; [intros s; symmetry; apply E|]. rewrite (E p).
    eapply DV_eq; [apply DV_plus; [apply DV_minus; [apply DV_mult; [apply DV_const|apply (DV_sum n (fun a s => hE (ps s) a * hHe n (ps s) a)); intros a Ha; apply DV_mult; [apply hE_dv|apply hHe_dv, Ha]]|apply DV_mult; [apply DV_const|apply hdet_dv]]|apply DV_const]|reflexivity|].
    rewrite sumR_add. unfold dHe. rewrite quad_sym. change (fun a => yv a * sumR n (fun l => hI n p a l * hE p l)) with (fun a => yv a * hHe n p a).
    change (fun a => v false "mean_times_precision" [a]%nat * (-1 / 2 * hHe n p a)) with (fun a => w a * (-1 / 2 * hHe n p a)).
    rewrite (sumR_ext n (fun a => w a * (-1 / 2 * hHe n p a)) (fun a => -1 / 2 * (w a * hHe n p a))) by (intros; ring). rewrite sumR_scal.
    rewrite (sumR_ext n (fun a => sumR n (fun b => v false "negative_half_precision" [a; b]%nat * (1 / 4 * (hHe n p a * hHe n p b) - 1 / 2 * hI n p a b))) (fun a => 1 / 4 * (hHe n p a * sumR n (fun j => V a j * hHe n p j)) + - 1 / 2 * sumR n (fun b => V a b * hI n p a b))).
    2: { intros a Ha. rewrite <- !sumR_scal, <- sumR_add. apply sumR_ext. intros b Hb. unfold hH. field. }
    rewrite sumR_add, !sumR_scal. rewrite (sumR_ext n (fun a => yv a * hHe n p a) (fun a => w a * hHe n p a + - (hHe n p a * sumR n (fun j => V a j * hHe n p j)))) by (intros; unfold yv; ring). rewrite sumR_add, sumR_opp. field.
  Qed.
End MvnD2.
Section CcsD.
  Variables (n : nat) (p v : point).
  Notation CC := ComplexCircularlySymmetricNormal.
  Hypothesis P : nat_dom CC n p.
  Notation ps s := (padd (NP CC) p v s).
  Definition cV (u : point) (a b : nat) : C := (u false "negative_precision" [a; b]%nat, u true "negative_precision" [a; b]%nat).
  Lemma ccs_hpd : hpdC n (ccsP p). Proof. pose proof P as Q. cbn [nat_dom] in Q. apply hpd_C in Q. exact Q. Qed.
  Lemma cA_sym a b : (a < n)%nat -> (b < n)%nat -> cinv n (ccsP p) a b = Cconj (cinv n (ccsP p) b a).
  Proof. intros Ha Hb. exact (proj1 (hpd_inv n _ ccs_hpd) a b Ha Hb). Qed.
  Lemma ccs_dot q u : dotP (NP CC) (EP CC) n u (expR n q CC) = fst (csum n (fun a => csum n (fun b => cV u a b * Cconj (cinv n (ccsP q) a b))%C)).
  Proof.
    unfold dotP, var_fields. cbn [filter fields fd_fixed var fixd negb combine map fst snd fd_name fd_support]. cbn [supp_shape]. rewrite rsum_indices2. cbn [rsum fold_right]. rewrite Rplus_0_r, fst_csum.
    apply sumR_ext. intros a Ha. rewrite fst_csum. apply sumR_ext. intros b Hb. rewrite <- (ccs_var n q a b). reflexivity.
  Qed.
  Lemma ccsP_dv a b : DVC (fun s => ccsP (ps s) a b) (ccsP p a b) (- cV v a b)%C.
  Proof. unfold ccsP. apply DVC_pair; cbn [fst snd cV Copp]; adds; apply DV_opp, DV_lin. Qed.
  Lemma ccs_det_dv : exists r, 0 < r /\ cdet n (ccsP p) = RtoC r /\ DV (fun s => fst (cdet n (ccsP (ps s)))) r (- (r * fst (csum n (fun a => csum n (fun b => cV v a b * Cconj (cinv n (ccsP p) a b))%C)))).
  Proof.
    destruct (hpd_det _ _ ccs_hpd) as (r & R & E). exists r. split; [exact R|]. split; [exact E|].
    destruct (DVC_det' n (fun s => ccsP (ps s)) (ccsP p) (fun a b => - cV v a b)%C (fun a b _ _ => ccsP_dv a b) (hpd_det_ne _ _ ccs_hpd)) as [X _]. rewrite E in X. eapply DV_eq; [exact X|reflexivity|].
    rewrite (csum_ext n _ (fun a => - csum n (fun b => cV v a b * Cconj (cinv n (ccsP p) a b)))%C).
    - rewrite csum_opp. cbn [fst snd RtoC Cmult Copp]. ring.
    - intros a Ha. rewrite <- csum_opp. apply csum_ext. intros b Hb. rewrite (cA_sym b a Hb Ha). ring.
  Qed.
  Lemma ccs_ln_dv : DV (fun s => lnR n (ps s) CC) (lnR n p CC) (dotP (NP CC) (EP CC) n v (expR n p CC)).
  Proof.
    rewrite ccs_dot. destruct ccs_det_dv as (r & R & E & D). 
    change (DV (fun s => - ln (fst (cdet n (ccsP (ps s)))) + INR n * ln PI) (- ln (fst (cdet n (ccsP p))) + INR n * ln PI) (fst (csum n (fun a => csum n (fun b => cV v a b * Cconj (cinv n (ccsP p) a b))%C)))).
    rewrite E. cbn [fst RtoC]. eapply DV_eq; [apply DV_plus; [apply DV_opp, (DV_ln _ _ _ D R)|apply DV_const]|reflexivity|]. field. lra.
  Qed.
End CcsD.
Lemma ln_open f n p v : nat_dom f n p -> locally 0 (fun s => ln_dom f n (padd (NP f) p v s)).
Proof.
  intros H. destruct (mat f) eqn:M.
  - destruct f; try discriminate M; cbn [ln_dom].
    + destruct (ccs_det_dv n p v H) as (r & R & E & D). exact (loc_pos _ _ _ D R).
    + exact (loc_neq _ _ _ (DV_rdet n _ (fun a b => - hH p a b) (fun a b => - hH v a b) (fun a b _ _ => DV_opp _ _ _ (hH_dv p v a b)) (spd_ne _ _ H)) (spd_ne _ _ H)).
  - eapply filter_imp; [|exact (dom_open f n p v M H)]. cbv beta. intros s. apply ln_dom_nat.
Qed.
Theorem ln_dv_all f n p v : nat_dom f n p ->
  DV (fun s => lnR n (padd (NP f) p v s) f) (lnR n p f) (dotP (NP f) (EP f) n v (expR n p f)).
Proof.
  intros H. destruct (mat f) eqn:M; [|now apply ln_dv]. destruct f; try discriminate M; [now apply ccs_ln_dv|now apply mvn_ln_dv].
Qed.

(** ** definiteness is an open condition among Hermitian matrices *)
Lemma form_z n m z : (forall a, (a < n)%nat -> z a = RtoC 0) -> form n m z = RtoC 0.
Proof. intros E. unfold form. apply csum_zero. intros a Ha. apply csum_zero. intros b Hb. rewrite (E b Hb). apply Cmult_0_r. Qed.
Lemma Cconj_sq_pos (x : C) : x <> RtoC 0 -> 0 < fst (Cconj x * x)%C.
Proof.
  destruct x as [a b]. intros N. cbn. destruct (Req_dec a 0) as [->|A]; [|nra]. destruct (Req_dec b 0) as [->|B]; [|nra]. now contradiction N.
Qed.
Lemma Cconj_sq_nonneg (x : C) : 0 <= fst (Cconj x * x)%C. Proof. destruct x as [a b]. cbn. nra. Qed.
Lemma Cdec (x : C) : {x = RtoC 0} + {x <> RtoC 0}.
Proof. destruct x as [a b]. destruct (Req_EM_T a 0) as [->|A]; [destruct (Req_EM_T b 0) as [->|B]; [now left|]|]; right; intros E; injection E; intros; contradiction. Qed.
Lemma cvec_dec n (z : nat -> C) : (forall a, (a < n)%nat -> z a = RtoC 0) \/ exists a, (a < n)%nat /\ z a <> RtoC 0.
Proof.
  induction n as [|n [IH|(a & A & E)]]; [left; intros; lia| |right; exists a; split; [lia|exact E]].
  destruct (Cdec (z n)) as [E|E]; [left; intros a Ha; destruct (Nat.eq_dec a n) as [->|]; [exact E|apply IH; lia]|right; exists n; split; [lia|exact E]].
Qed.
Lemma hpd_of_schur n m r : (forall a b, (a < S n)%nat -> (b < S n)%nat -> m a b = Cconj (m b a)) -> m n n = RtoC r -> 0 < r -> hpdC n (schur n m) -> hpdC (S n) m.
Proof.
  intros H E R [_ K]. split; [exact H|]. intros z Hz. change (0 < fst (form (S n) m z)).
  assert (N : m n n <> RtoC 0) by (rewrite E; apply RtoC_neq; lra).
  set (Y := csum n (fun b => m n b * z b)%C).
  assert (X : csum n (fun a => Cconj (z a) * m a n)%C = Cconj Y). { unfold Y. rewrite Cconj_csum. apply csum_ext. intros a Ha. rewrite Cconj_mult, <- (H a n) by lia. ring. }
  assert (Q : form (S n) m z = (form n (schur n m) z + RtoC (/ r) * (Cconj (Y + RtoC r * z n) * (Y + RtoC r * z n)))%C).
  { rewrite form_S, (form_schur n m z N), X, E. fold Y. rewrite Cconj_plus, Cconj_mult, Cconj_R, RtoC_inv by lra. field. rewrite <- E. exact N. }
  rewrite Q. pose proof (Rinv_0_lt_compat _ R) as R'. 
  assert (F : forall x : C, fst (RtoC (/ r) * x)%C = / r * fst x) by (intros x; cbn; ring). cbn [fst Cplus]. rewrite F.
  destruct (cvec_dec n z) as [Z|Z].
  - rewrite (form_z n _ z Z). cbn [fst RtoC]. rewrite Rplus_0_l. apply Rmult_lt_0_compat; [exact R'|]. apply Cconj_sq_pos.
    assert (Y0 : Y = RtoC 0) by (apply csum_zero; intros b Hb; rewrite (Z b Hb); apply Cmult_0_r). rewrite Y0, Cplus_0_l. 
    destruct Hz as (a & A & Za). assert (a = n) by (destruct (Nat.eq_dec a n); [assumption|contradict Za; apply Z; lia]). subst a. apply Cmult_neq_0; [apply RtoC_neq; lra|exact Za].
  - pose proof (K z Z) as K'. change (0 < fst (form n (schur n m) z)) in K'. pose proof (Cconj_sq_nonneg (Y + RtoC r * z n)%C). assert (0 <= / r * fst (Cconj (Y + RtoC r * z n) * (Y + RtoC r * z n))%C) by (apply Rmult_le_pos; lra). lra.
Qed.
Lemma hpd_open n : forall (m : R -> nat -> nat -> C) v, (forall a b, (a < n)%nat -> (b < n)%nat -> exists d, DVC (fun s => m s a b) (v a b) d) ->
  (forall s a b, (a < n)%nat -> (b < n)%nat -> m s a b = Cconj (m s b a)) -> hpdC n v -> locally 0 (fun s => hpdC n (m s)).
Proof.
  induction n as [|n IH]; intros m v D H P.
  - apply filter_forall. intros s. split; [intros; lia|]. intros z (a & A & _). lia.
  - destruct (hpd_last n v P) as (r & R & E). assert (N : v n n <> RtoC 0) by (rewrite E; apply RtoC_neq; lra).
    destruct (D n n) as [dn Dn]; [lia|lia|].
    assert (O : locally 0 (fun s => hpdC n (schur n (m s)))).
    { apply (IH (fun s => schur n (m s)) (schur n v)); [| |now apply hpd_schur].
      - intros a b Ha Hb. destruct (D a b) as [d1 D1]; [lia|lia|]. destruct (D a n) as [d2 D2]; [lia|lia|]. destruct (D n b) as [d3 D3]; [lia|lia|]. destruct (DVC_inv _ _ _ Dn N) as [d4 D4].
        eexists. unfold schur. apply DVC_plus; [exact D1|]. apply DVC_opp, DVC_mult; [|exact D3]. unfold Cdiv. apply DVC_mult; [exact D2|exact D4].
      - intros s a b Ha Hb. unfold schur. rewrite Cconj_plus, Cconj_opp, Cconj_mult. unfold Cdiv. rewrite Cconj_mult, <- (H s a b), <- (H s a n), <- (H s n b) by lia.
        destruct (Cdec (m s n n)) as [Z|Z].
        + rewrite Z. replace (Cconj (/ RtoC 0)%C) with (/ RtoC 0)%C; [ring|]. unfold Cinv, Cconj, RtoC. cbn. f_equal; unfold Rdiv; ring.
        + assert (Cn : Cconj (/ m s n n)%C = (/ m s n n)%C). { pose proof (H s n n ltac:(lia) ltac:(lia)) as Q. destruct (m s n n) as [x y]. unfold Cconj in Q. cbn in Q. injection Q as Q. assert (y = 0) by lra. subst y. unfold Cinv, Cconj. cbn. f_equal. unfold Rdiv. ring. }
          rewrite Cn. ring. }
    destruct Dn as [D1 _]. rewrite E in D1. cbn [fst RtoC] in D1. pose proof (loc_pos _ _ _ D1 R) as O'. eapply filter_imp; [|exact (filter_and _ _ O O')]. cbv beta. intros s [A B].
    apply (hpd_of_schur n (m s) (fst (m s n n))); [intros; apply H; assumption| |exact B|exact A].
    pose proof (H s n n ltac:(lia) ltac:(lia)) as Q. destruct (m s n n) as [x y]. unfold Cconj in Q. cbn in Q. injection Q as Q. assert (y = 0) by lra. subst y. reflexivity.
Qed.
(** the directions that keep a matrix parameter Hermitian *)
Definition sym_dir (f : family) (n : nat) (v : point) : Prop :=
  match f with
  | MultivariateNormal => forall a b, (a < n)%nat -> (b < n)%nat -> v false "negative_half_precision" [a; b]%nat = v false "negative_half_precision" [b; a]%nat
  | ComplexCircularlySymmetricNormal => forall a b, (a < n)%nat -> (b < n)%nat -> v false "negative_precision" [a; b]%nat = v false "negative_precision" [b; a]%nat /\ v true "negative_precision" [a; b]%nat = - v true "negative_precision" [b; a]%nat
  | _ => True
  end.
Lemma sym_dir_mat f n v : mat f = false -> sym_dir f n v. Proof. intros M. destruct f; try discriminate M; exact Logic.I. Qed.
Lemma dom_open_s f n p v : sym_dir f n v -> nat_dom f n p -> locally 0 (fun s => nat_dom f n (padd (NP f) p v s)).
Proof.
  intros S H. destruct (mat f) eqn:M; [|now apply dom_open]. destruct f; try discriminate M; cbn [sym_dir] in S.
  - pose proof (ccs_hpd n p H) as K. assert (O : locally 0 (fun s => hpdC n (ccsP (padd (NP ComplexCircularlySymmetricNormal) p v s)))).
    { apply (hpd_open n _ (ccsP p)); [intros; eexists; apply ccsP_dv| |exact K]. intros s a b Ha Hb. destruct (S a b Ha Hb) as [S1 S2]. pose proof (proj1 K a b Ha Hb) as Q. unfold ccsP, Cconj in Q |- *. cbn [fst snd] in Q |- *.
      adds. pose proof (f_equal fst Q) as Q1. pose proof (f_equal snd Q) as Q2. cbn [fst snd] in Q1, Q2. apply Ceq; cbn [fst snd]; [rewrite S1; lra|rewrite S2; lra]. }
    eapply filter_imp; [|exact O]. cbv beta. intros s Hs. exact (C_hpd n _ Hs).
  - pose proof (spd_C _ _ H) as K. assert (O : locally 0 (fun s => hpdC n (cmat (fun a b => - hH (padd (NP MultivariateNormal) p v s) a b)))).
    { apply (hpd_open n _ (cmat (fun a b => - hH p a b))); [intros; eexists; apply DVC_RtoC, DV_opp, hH_dv| |exact K]. intros s. apply sym_C. intros a b Ha Hb. specialize (S a b Ha Hb). pose proof (hH_sym n p H a b Ha Hb) as Q. unfold hH in Q |- *. adds. rewrite S, Q. ring. }
    eapply filter_imp; [|exact O]. cbv beta. intros s Hs. exact (C_spd n _ Hs).
Qed.
