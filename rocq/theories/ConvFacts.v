(** C21, C22: the closed forms of to_exp and to_nat are inverse and map the domains into each other. *)
From Coquelicot Require Import Coquelicot.
From Coq Require Import String List Bool Arith Reals Lia Lra.
From Verif Require Import Base XReal Tensor TensorFacts Support Dist Iteration Spec SumSpec DotSpec SpecFun GammaFn BesselFn Expr Fam ExprFacts FamTy FamFacts PointSpec PointFacts DetFacts MatFacts Val FamR FamVal.
Import ListNotations.
Local Unset Asymmetric Patterns.
Local Open Scope string_scope.
Local Open Scope R_scope.

(** ** points *)
Definition pt_field (n : nat) (p q : point) (f : field_desc) : Prop := forall j, inb (supp_shape (fd_support f) n) j = true ->
  p false (fd_name f) j = q false (fd_name f) j /\ (kind_of (fd_support f) = KC -> p true (fd_name f) j = q true (fd_name f) j).
Lemma pt_intro c n p q : Forall (pt_field n p q) (fields c) -> pt_eq c n p q.
Proof.
  intros H m k s j E Hj. destruct (ctx_field _ _ _ _ _ E) as (f & I & <- & -> & ->). rewrite Forall_forall in H. destruct (H f I j Hj) as [A B]. unfold pvals.
  destruct (kind_of (fd_support f)); cbn [elt]; [now rewrite A|]. now rewrite A, (B eq_refl).
Qed.
Lemma pt_elim c n p q : pt_eq c n p q -> Forall (pt_field n p q) (fields c).
Proof. intros H. apply Forall_forall. intros f I j Hj. split; [exact (pt_re c n p q f j H I Hj)|]. intros K. exact (pt_im c n p q f j H I K Hj). Qed.
Ltac ptf := repeat (apply Forall_cons; [intros j Hj; first [apply inb0 in Hj; subst j | destruct (inb1 _ _ Hj) as (k & -> & Hk)]; cbn [fd_name fd_support var fixd kind_of]|]); try apply Forall_nil.
Ltac mk := cbv beta iota zeta delta [expR natR sumsq mkpt re cx cpt]; cbn [slook String.eqb Ascii.eqb Bool.eqb fst snd hd nth].
(** the values of the parameters, from pt_eq *)
Ltac pts H := apply pt_elim in H; repeat (apply Forall_cons_iff in H; let A := fresh "P" in destruct H as [A H]; red in A; cbn [fd_name fd_support var fixd supp_shape] in A;
  match type of A with context [kind_of ?s] => let k := eval hnf in (kind_of s) in change (kind_of s) with k in A end); clear H.
Lemma sc (n : nat) (P : list nat -> Prop) : (forall j, inb [] j = true -> P j) -> P []. Proof. intros H. now apply H. Qed.
Lemma vc (n : nat) (P : list nat -> Prop) : (forall j, inb [n] j = true -> P j) -> forall k, (k < n)%nat -> P [k]. Proof. intros H k K. apply H. now apply inb1_intro. Qed.
Ltac unp := repeat match goal with
  | A : forall j, inb [] j = true -> _ /\ (KC = KC -> _) |- _ => let B := fresh "Q" in let C := fresh "Q" in destruct (A [] eq_refl) as [B C]; specialize (C eq_refl); clear A
  | A : forall j, inb [] j = true -> _ /\ (KR = KC -> _) |- _ => let B := fresh "Q" in destruct (A [] eq_refl) as [B _]; clear A
  | A : forall j, inb [?n] j = true -> _ /\ (KC = KC -> _) |- _ => let B := fresh "Q" in pose proof (fun k K => proj1 (A [k] (inb1_intro n k K))) as B; let C := fresh "Q" in pose proof (fun k K => proj2 (A [k] (inb1_intro n k K)) eq_refl) as C; clear A; cbn beta in B, C
  | A : forall j, inb [?n] j = true -> _ /\ (KR = KC -> _) |- _ => let B := fresh "Q" in pose proof (fun k K => proj1 (A [k] (inb1_intro n k K))) as B; clear A; cbn beta in B
  end.
(** the families with a matrix parameter *)
Lemma pt_re2 c n p q f s a b m k : pt_eq c n p q -> In f (fields c) -> fd_name f = s -> supp_shape (fd_support f) n = [m; k]%nat -> (a < m)%nat -> (b < k)%nat -> p false s [a; b] = q false s [a; b].
Proof. intros E I <- S Ha Hb. apply (pt_re c n p q f [a; b] E I). rewrite S. cbn [inb]. now rewrite (proj2 (Nat.ltb_lt _ _) Ha), (proj2 (Nat.ltb_lt _ _) Hb). Qed.
Lemma pt_im2 c n p q f s a b m k : pt_eq c n p q -> In f (fields c) -> fd_name f = s -> kind_of (fd_support f) = KC -> supp_shape (fd_support f) n = [m; k]%nat -> (a < m)%nat -> (b < k)%nat -> p true s [a; b] = q true s [a; b].
Proof. intros E I <- K S Ha Hb. apply (pt_im c n p q f [a; b] E I K). rewrite S. cbn [inb]. now rewrite (proj2 (Nat.ltb_lt _ _) Ha), (proj2 (Nat.ltb_lt _ _) Hb). Qed.
Lemma pt_re1 c n p q f s a m : pt_eq c n p q -> In f (fields c) -> fd_name f = s -> supp_shape (fd_support f) n = [m]%nat -> (a < m)%nat -> p false s [a] = q false s [a].
Proof. intros E I <- S Ha. apply (pt_re c n p q f [a] E I). rewrite S. now apply inb1_intro. Qed.
Section MatDom.
  Variables (n : nat) (p q : point).
  Lemma mvn_dom_pt : nat_dom MultivariateNormal n p -> pt_eq (NP MultivariateNormal) n p q -> nat_dom MultivariateNormal n q.
  Proof. intros H E. cbn [nat_dom] in *. eapply spd_ext; [|exact H]. intros a b Ha Hb. cbn beta. f_equal. eapply (pt_re2 (NP MultivariateNormal) n p q _ _ a b n n E); [right; left; reflexivity|reflexivity|reflexivity|exact Ha|exact Hb]. Qed.
  Lemma mvn_edom_pt : exp_dom MultivariateNormal n p -> pt_eq (EP MultivariateNormal) n p q -> exp_dom MultivariateNormal n q.
  Proof.
    intros H E. cbn [exp_dom] in *. eapply spd_ext; [|exact H]. intros a b Ha Hb. cbn beta. f_equal; [|f_equal].
    - eapply (pt_re2 (EP MultivariateNormal) n p q _ _ a b n n E); [right; left; reflexivity|reflexivity|reflexivity|exact Ha|exact Hb].
    - eapply (pt_re1 (EP MultivariateNormal) n p q _ _ a n E); [left; reflexivity|reflexivity|reflexivity|exact Ha].
    - eapply (pt_re1 (EP MultivariateNormal) n p q _ _ b n E); [left; reflexivity|reflexivity|reflexivity|exact Hb].
  Qed.
  Lemma ccs_dom_pt : nat_dom ComplexCircularlySymmetricNormal n p -> pt_eq (NP ComplexCircularlySymmetricNormal) n p q -> nat_dom ComplexCircularlySymmetricNormal n q.
  Proof.
    intros H E. cbn [nat_dom] in *. eapply hpd_ext'; [|exact H]. intros a b Ha Hb. cbn beta. split; f_equal.
    - eapply (pt_re2 (NP ComplexCircularlySymmetricNormal) n p q _ _ a b n n E); [left; reflexivity|reflexivity|reflexivity|exact Ha|exact Hb].
    - eapply (pt_im2 (NP ComplexCircularlySymmetricNormal) n p q _ _ a b n n E); [left; reflexivity|reflexivity|reflexivity|reflexivity|exact Ha|exact Hb].
  Qed.
  Lemma ccs_edom_pt : exp_dom ComplexCircularlySymmetricNormal n p -> pt_eq (EP ComplexCircularlySymmetricNormal) n p q -> exp_dom ComplexCircularlySymmetricNormal n q.
  Proof.
    intros H E. cbn [exp_dom] in *. eapply hpd_ext'; [|exact H]. intros a b Ha Hb. cbn beta. split.
    - eapply (pt_re2 (EP ComplexCircularlySymmetricNormal) n p q _ _ a b n n E); [left; reflexivity|reflexivity|reflexivity|exact Ha|exact Hb].
    - eapply (pt_im2 (EP ComplexCircularlySymmetricNormal) n p q _ _ a b n n E); [left; reflexivity|reflexivity|reflexivity|reflexivity|exact Ha|exact Hb].
  Qed.
End MatDom.
Section Mvn.
  Variables (n : nat) (p : point).
  Let P a b := - p false "negative_half_precision" [a; b]%nat.
  Let e a := p false "mean_times_precision" [a]%nat.
  Hypothesis H : nat_dom MultivariateNormal n p.
  (** the covariance is half the inverse of minus the negative half precision *)
  Lemma mvn_hi a b : (a < n)%nat -> (b < n)%nat -> rinv n (fun a b => p false "negative_half_precision" [a; b]%nat) a b = - rinv n P a b.
  Proof.
    intros Ha Hb. rewrite <- (rinv_opp n P a b (spd_ne _ _ H) Ha Hb). apply rinv_ext; [|exact Ha|exact Hb]. intros. unfold P. ring.
  Qed.
  Lemma mvn_mean a : (a < n)%nat -> expR n p MultivariateNormal false "mean" [a]%nat = 1 / 2 * sumR n (fun b => rinv n P a b * e b).
  Proof.
    intros Ha. mk. rewrite (sumR_ext n _ (fun b => - (rinv n P a b * e b))); [rewrite sumR_opp; field|]. intros b Hb. rewrite mvn_hi by assumption. unfold e. ring.
  Qed.
  Lemma mvn_second a b : (a < n)%nat -> (b < n)%nat ->
    expR n p MultivariateNormal false "second_moment" [a; b]%nat = expR n p MultivariateNormal false "mean" [a]%nat * expR n p MultivariateNormal false "mean" [b]%nat + 1 / 2 * rinv n P a b.
  Proof. intros Ha Hb. mk. rewrite mvn_hi by assumption. field. Qed.
  Lemma mvn_exp_ok : exp_dom MultivariateNormal n (expR n p MultivariateNormal).
  Proof.
    cbn [exp_dom]. apply (spd_ext n (fun a b => 1 / 2 * rinv n P a b)); [|apply spd_scal; [lra|now apply spd_inv]].
    intros a b Ha Hb. rewrite mvn_second by assumption. ring.
  Qed.
End Mvn.
Section MvnE.
  Variables (n : nat) (p : point).
  Let V a b := p false "second_moment" [a; b]%nat - p false "mean" [a]%nat * p false "mean" [b]%nat.
  Lemma mvn_nhp a b : natR n p MultivariateNormal false "negative_half_precision" [a; b]%nat = -1 / 2 * rinv n V a b.
  Proof. reflexivity. Qed.
  Lemma mvn_mtp a : natR n p MultivariateNormal false "mean_times_precision" [a]%nat = sumR n (fun b => rinv n V a b * p false "mean" [b]%nat).
  Proof. reflexivity. Qed.
  Lemma mvn_nat_ok : exp_dom MultivariateNormal n p -> nat_dom MultivariateNormal n (natR n p MultivariateNormal).
  Proof.
    intros H. cbn [nat_dom]. apply (spd_ext n (fun a b => 1 / 2 * rinv n V a b)); [|apply spd_scal; [lra|now apply spd_inv]].
    intros a b Ha Hb. rewrite mvn_nhp. field.
  Qed.
End MvnE.
Lemma mvn_nat_exp n p : nat_dom MultivariateNormal n p -> pt_eq (NP MultivariateNormal) n (natR n (expR n p MultivariateNormal) MultivariateNormal) p.
Proof.
  intros H. set (P := fun a b => - p false "negative_half_precision" [a; b]%nat). set (e := expR n p MultivariateNormal).
  assert (W : forall a b, (a < n)%nat -> (b < n)%nat -> rinv n (fun a b => e false "second_moment" [a; b]%nat - e false "mean" [a]%nat * e false "mean" [b]%nat) a b = 2 * P a b).
  { intros a b Ha Hb. rewrite (rinv_ext n _ (fun a b => 1 / 2 * rinv n P a b)); [|intros c d Hc Hd; unfold e; rewrite mvn_second by assumption; fold P; ring|exact Ha|exact Hb].
    rewrite rinv_scal; [|lra|now apply spd_inv|exact Ha|exact Hb]. rewrite rinv_inv; [field|exact H|exact Ha|exact Hb]. }
  apply pt_intro. cbn [fields]. apply Forall_cons; [|apply Forall_cons; [|apply Forall_nil]]; intros j Hj; (split; [|intros KK; discriminate KK]); cbn [fd_name fd_support var fixd].
  - destruct (inb1 _ _ Hj) as (a & -> & Ha). rewrite mvn_mtp. rewrite (sumR_ext n _ (fun b => P a b * sumR n (fun c => rinv n P b c * p false "mean_times_precision" [c]%nat))).
    + apply (rapply_inv n P (fun c => p false "mean_times_precision" [c]%nat)); [now apply spd_ne|exact Ha].
    + intros b Hb. rewrite W by assumption. unfold e. rewrite (mvn_mean n p H) by assumption. fold P. field.
  - destruct (inb2 _ _ _ Hj) as (a & b & -> & Ha & Hb). rewrite mvn_nhp, W by assumption. unfold P. field.
Qed.
Lemma mvn_exp_nat n p : exp_dom MultivariateNormal n p -> pt_eq (EP MultivariateNormal) n (expR n (natR n p MultivariateNormal) MultivariateNormal) p.
Proof.
  intros H. set (V := fun a b => p false "second_moment" [a; b]%nat - p false "mean" [a]%nat * p false "mean" [b]%nat). set (q := natR n p MultivariateNormal).
  pose proof (mvn_nat_ok n p H) as Hq. fold q in Hq.
  assert (W : forall a b, (a < n)%nat -> (b < n)%nat -> rinv n (fun a b => - q false "negative_half_precision" [a; b]%nat) a b = 2 * V a b).
  { intros a b Ha Hb. rewrite (rinv_ext n _ (fun a b => 1 / 2 * rinv n V a b)); [|intros c d Hc Hd; unfold q; rewrite mvn_nhp; fold V; field|exact Ha|exact Hb].
    rewrite rinv_scal; [|lra|now apply spd_inv|exact Ha|exact Hb]. rewrite rinv_inv; [field|exact H|exact Ha|exact Hb]. }
  assert (Mn : forall a, (a < n)%nat -> expR n q MultivariateNormal false "mean" [a]%nat = p false "mean" [a]%nat).
  { intros a Ha. rewrite (mvn_mean n q Hq a Ha), <- sumR_scal. rewrite (sumR_ext n _ (fun b => V a b * sumR n (fun c => rinv n V b c * p false "mean" [c]%nat))).
    - apply (rapply_inv n V (fun c => p false "mean" [c]%nat)); [now apply spd_ne|exact Ha].
    - intros b Hb. rewrite W by assumption. unfold q. rewrite mvn_mtp. fold V. field. }
  apply pt_intro. cbn [fields]. apply Forall_cons; [|apply Forall_cons; [|apply Forall_nil]]; intros j Hj; (split; [|intros KK; discriminate KK]); cbn [fd_name fd_support var fixd].
  - destruct (inb1 _ _ Hj) as (a & -> & Ha). now apply Mn.
  - destruct (inb2 _ _ _ Hj) as (a & b & -> & Ha & Hb). rewrite (mvn_second n q Hq) by assumption. rewrite !Mn, W by assumption. unfold V. field.
Qed.
Lemma pair_eq (a b : R) (c : R * R) : (a, b) = c -> a = fst c /\ b = snd c.
Proof. now intros <-. Qed.
Section Ccs.
  Variables (n : nat) (p : point).
  Notation CCS := ComplexCircularlySymmetricNormal.
  Definition ccsP (a b : nat) : Complex.C := (- p false "negative_precision" [a; b]%nat, - p true "negative_precision" [a; b]%nat).
  Definition ccsV (a b : nat) : Complex.C := (p false "variance" [a; b]%nat, p true "variance" [a; b]%nat).
  Lemma ccs_var a b : (expR n p CCS false "variance" [a; b]%nat, expR n p CCS true "variance" [a; b]%nat) = Cconj (cinv n ccsP a b).
  Proof. reflexivity. Qed.
  Lemma ccs_np a b : (natR n p CCS false "negative_precision" [a; b]%nat, natR n p CCS true "negative_precision" [a; b]%nat) = Copp (Cconj (cinv n ccsV a b)).
  Proof. reflexivity. Qed.
  Lemma ccs_exp_ok : nat_dom CCS n p -> exp_dom CCS n (expR n p CCS).
  Proof. intros H. apply hpd_C in H. cbn [exp_dom]. exact (C_hpd n _ (hpd_conj n _ (hpd_inv n _ H))). Qed.
  Lemma ccs_nat_ok : exp_dom CCS n p -> nat_dom CCS n (natR n p CCS).
  Proof.
    intros H. apply hpd_C in H. cbn [nat_dom]. eapply hpd_ext'; [|exact (C_hpd n _ (hpd_conj n _ (hpd_inv n _ H)))].
    intros a b Ha Hb. pose proof (ccs_np a b) as E. apply pair_eq in E. destruct E as [-> ->]. unfold Cconj, Copp, ccsV. cbn [fst snd]. split; ring.
  Qed.
End Ccs.
Lemma ccs_nat_exp n p : nat_dom ComplexCircularlySymmetricNormal n p -> pt_eq (NP ComplexCircularlySymmetricNormal) n (natR n (expR n p ComplexCircularlySymmetricNormal) ComplexCircularlySymmetricNormal) p.
Proof.
  intros H. apply hpd_C in H. change (hpdC n (ccsP p)) in H. set (e := expR n p ComplexCircularlySymmetricNormal).
  assert (W : forall a b, (a < n)%nat -> (b < n)%nat -> cinv n (ccsV e) a b = Cconj (ccsP p a b)).
  { intros a b Ha Hb. rewrite (cinv_ext n (ccsV e) (fun a b => Cconj (cinv n (ccsP p) a b))); [|intros; apply ccs_var|exact Ha|exact Hb].
    rewrite cinv_conj, cinv_inv; auto. now apply hpd_inv. }
  apply pt_intro. cbn [fields]. apply Forall_cons; [|apply Forall_nil]; intros j Hj; cbn [fd_name fd_support var fixd].
  destruct (inb2 _ _ _ Hj) as (a & b & -> & Ha & Hb). pose proof (ccs_np n e a b) as E. rewrite W, Cconj_conj in E by assumption. unfold ccsP, Copp in E. cbn [fst snd] in E.
  apply pair_eq in E. destruct E as [-> ->]. cbn [fst snd]. split; [ring|intros _; ring].
Qed.
Lemma ccs_exp_nat n p : exp_dom ComplexCircularlySymmetricNormal n p -> pt_eq (EP ComplexCircularlySymmetricNormal) n (expR n (natR n p ComplexCircularlySymmetricNormal) ComplexCircularlySymmetricNormal) p.
Proof.
  intros H. apply hpd_C in H. change (hpdC n (ccsV p)) in H. set (q := natR n p ComplexCircularlySymmetricNormal).
  assert (W : forall a b, (a < n)%nat -> (b < n)%nat -> cinv n (ccsP q) a b = Cconj (ccsV p a b)).
  { intros a b Ha Hb. rewrite (cinv_ext n (ccsP q) (fun a b => Cconj (cinv n (ccsV p) a b))); [|intros c d Hc Hd|exact Ha|exact Hb].
    - rewrite cinv_conj, cinv_inv; auto. now apply hpd_inv.
    - pose proof (ccs_np n p c d) as E. unfold ccsP, q. apply pair_eq in E. destruct E as [-> ->]. unfold Cconj, Copp. cbn [fst snd]. f_equal; ring. }
  apply pt_intro. cbn [fields]. apply Forall_cons; [|apply Forall_nil]; intros j Hj; cbn [fd_name fd_support var fixd].
  destruct (inb2 _ _ _ Hj) as (a & b & -> & Ha & Hb). pose proof (ccs_var n q a b) as E. rewrite W, Cconj_conj in E by assumption. unfold ccsV in E.
  apply pair_eq in E. destruct E as [-> ->]. split; [reflexivity|intros _; reflexivity].
Qed.
(** the domains depend on the parameter values only *)
Lemma nat_dom_pt f n p q : nat_dom f n p -> pt_eq (NP f) n p q -> nat_dom f n q.
Proof.
  intros H E. destruct f; try exact (mvn_dom_pt n p q H E); try exact (ccs_dom_pt n p q H E); cbn [nat_dom] in *; trivial; cbn [fields] in E; pts E; unp.
  all: repeat match goal with Q : _ = _ :> R |- _ => rewrite <- Q; clear Q end; trivial.
  all: try (destruct H as [H H']; split; [exact H|]).
  all: try (intros k K; rewrite <- ?Q, <- ?Q0 by exact K; now auto).
  destruct H as (k & K & H). exists k. split; [exact K|]. now rewrite <- Q.
Qed.
Lemma exp_dom_pt f n p q : exp_dom f n p -> pt_eq (EP f) n p q -> exp_dom f n q.
Proof.
  intros H E. destruct f; try exact (mvn_edom_pt n p q H E); try exact (ccs_edom_pt n p q H E); cbn [exp_dom] in *; trivial; cbn [fields] in E; pts E; unp.
  all: repeat match goal with Q : _ = _ :> R |- _ => rewrite <- Q; clear Q end; trivial.
  all: try (destruct H as [H H']; split; [exact H|]).
  all: try (intros k K; rewrite <- ?Q, <- ?Q0 by exact K; now auto).
  - destruct H as [H1 H2]. split; [intros k K; rewrite <- Q by exact K; auto|]. rewrite (sumR_ext n _ (fun k => p false "probability" [k])); [exact H2|]. intros k K. match goal with X : forall _, _ -> _ = _ :> R |- _ => now rewrite X by exact K end.
  - rewrite (sumR_ext n _ (fun k => p false "mean" [k] * p false "mean" [k])); [exact H'|]. intros k K. match goal with X : forall _, _ -> _ = _ :> R |- _ => now rewrite X by exact K end.
  - rewrite (sumR_ext n _ (fun k => p false "mean" [k] * p false "mean" [k])); [now split|]. intros k K. match goal with X : forall _, _ -> _ = _ :> R |- _ => now rewrite X by exact K end.
Qed.
(** ** to_exp lands in the domain of the expectation parameters *)
Lemma digamma_lt_ln x : 0 < x -> digamma x < ln x.
Proof.
  intros Hx. destruct (MVT_cor2 lngamma digamma x (x + 1)) as (c & E & Hc); [lra|intros y Hy; apply is_derive_Reals; apply lngamma_derive; lra|].
  rewrite lngamma_succ in E by exact Hx. replace (ln x) with (digamma c) by lra. apply digamma_incr; lra.
Qed.
Lemma digamma_gt_ln x : 0 < x -> ln x < digamma (x + 1).
Proof.
  intros Hx. destruct (MVT_cor2 lngamma digamma x (x + 1)) as (c & E & Hc); [lra|intros y Hy; apply is_derive_Reals; apply lngamma_derive; lra|].
  rewrite lngamma_succ in E by exact Hx. replace (ln x) with (digamma c) by lra. apply digamma_incr; lra.
Qed.
Lemma sumR_gt n g k : (k < n)%nat -> (2 <= n)%nat -> (forall m, (m < n)%nat -> 0 < g m) -> g k < sumR n g.
Proof.
  intros K N H. destruct (Nat.eq_dec k 0) as [->|Nk].
  - destruct n; [lia|]. rewrite sumR_Sl. assert (0 < sumR n (fun m => g (S m))); [|lra]. apply sumR_pos; [|lia]. intros m Hm. apply H. lia.
  - destruct n; [lia|]. rewrite sumR_Sl. pose proof (H 0%nat ltac:(lia)). pose proof (sumR_term n (fun m => g (S m)) (k - 1)) as T. cbn beta in T. replace (S (k - 1)) with k in T by lia.
    assert (g k <= sumR n (fun m => g (S m))). 2: { eapply Rle_lt_trans; [exact H1|]. lra. } apply T; [|lia]. intros m Hm. apply Rlt_le, H. lia.
Qed.
Lemma exp_ok f n p : nat_dom f n p -> exp_dom f n (expR n p f).
Proof.
  intros H. destruct f; try exact (mvn_exp_ok n p H); try exact (ccs_exp_ok n p H); cbn [exp_dom nat_dom] in *; mk; trivial.
  - unfold expit. pose proof (exp_pos (- p false "log_odds" [])). split; [apply Rinv_0_lt_compat; lra|]. rewrite <- Rinv_1. apply Rinv_lt_contravar; lra.
  - destruct H as [N H]. intros k K. rewrite <- (Rmult_1_r (INR n)), <- sumR_const, <- sumR_plus.
    pose proof (digamma_incr (p false "alpha_minus_one" [k] + 1) (sumR n (fun k => p false "alpha_minus_one" [k] + 1))) as I. cbn beta in I.
    assert (A : forall m, (m < n)%nat -> 0 < p false "alpha_minus_one" [m] + 1) by (intros m Hm; specialize (H m Hm); lra).
    pose proof (sumR_gt n (fun m => p false "alpha_minus_one" [m] + 1) k K N A) as B. cbn beta in B. specialize (I (A k K) B). lra.
  - pose proof (cn_s_pos n p H) as S1. pose proof (cn_k_abs n p H) as [S2 E]. set (s := cnR_s p) in *. set (mu := cnR_mu p) in *.
    unfold csq_abs in *. unfold Cplus, Cmult, Cconj. cbn [fst snd]. set (r := cnR_r p) in *. set (k := cnR_k p) in *. split; [lra|].
    match goal with |- ?a < _ => replace a with (s * s * (fst r * fst r + snd r * snd r)) by ring end. rewrite E. match goal with |- _ < ?a => replace a with (s * s * 1) by ring end. apply Rmult_lt_compat_l; [nra|lra].
  - destruct H as [N H]. intros k K. rewrite <- (Rmult_1_r (INR n)), <- sumR_const, <- sumR_plus.
    pose proof (digamma_incr (p false "alpha_minus_one" [k] + 1) (sumR n (fun k => p false "alpha_minus_one" [k] + 1))) as I. cbn beta in I.
    assert (A : forall m, (m < n)%nat -> 0 < p false "alpha_minus_one" [m] + 1) by (intros m Hm; specialize (H m Hm); lra).
    pose proof (sumR_gt n (fun m => p false "alpha_minus_one" [m] + 1) k K N A) as B. cbn beta in B. specialize (I (A k K) B). lra.
  - replace (-1 / p false "negative_rate" []) with (1 / - p false "negative_rate" []) by (field; lra). apply Rdiv_lt_0_compat; lra.
  - destruct H as [H1 H2]. set (r := - p false "negative_rate" []). set (a := p false "shape_minus_one" [] + 1). assert (0 < r) by (unfold r; lra). assert (0 < a) by (unfold a; lra).
    replace (- a / p false "negative_rate" []) with (a / r) by (unfold r; field; lra). split; [now apply Rdiv_lt_0_compat|]. rewrite ln_div by assumption. pose proof (digamma_lt_ln a H0). lra.
  - intros k K. cbn [hd].
    assert (A : forall m, (m < n)%nat -> digamma (gdR_beta n p m) - digamma (gdR_alpha p m + gdR_beta n p m) < 0).
    { intros m Hm. pose proof (gd_alpha_pos n p H m Hm) as A1. pose proof (gd_beta_pos n p H m Hm) as A2. pose proof (digamma_incr (gdR_beta n p m) (gdR_alpha p m + gdR_beta n p m)). lra. }
    assert (B : forall k, (k <= n)%nat -> sumR k (fun m => digamma (gdR_beta n p m) - digamma (gdR_alpha p m + gdR_beta n p m)) <= 0).
    { intros k' K'. rewrite <- (Ropp_involutive (sumR k' _)), <- sumR_opp. apply Ropp_le_cancel. rewrite Ropp_0, Ropp_involutive. apply sumR_nonneg. intros m Hm. specialize (A m ltac:(lia)). lra. }
    split.
    + pose proof (gd_alpha_pos n p H k K) as A1. pose proof (gd_beta_pos n p H k K) as A2. pose proof (digamma_incr (gdR_alpha p k) (gdR_alpha p k + gdR_beta n p k)). specialize (B k ltac:(lia)). lra.
    + rewrite sumR_S. specialize (A k K). specialize (B k ltac:(lia)). lra.
  - apply Rdiv_lt_0_compat; [lra|]. assert (E : 0 < - p false "log_not_p" []) by lra. apply exp_increasing in E. rewrite exp_0 in E. lra.
  - pose proof (exp_lt1 _ H) as E1. pose proof (exp_pos (p false "log_probability" [])) as E2. set (x := exp (p false "log_probability" [])) in *.
    pose proof (log1m_neg x (conj E2 E1)) as E3. assert (E4 : ln (/ (1 - x)) < / (1 - x) - 1). { apply ln_lt_sub1; [apply Rinv_0_lt_compat; lra|]. intros E. apply (f_equal (fun y => y * (1 - x))) in E. rewrite Rinv_l in E by lra. lra. }
    rewrite ln_Rinv in E4 by lra. replace (1 + - x) with (1 - x) in * by lra. apply Rmult_lt_reg_r with ((x - 1) * ln (1 - x)); [nra|]. unfold Rdiv. rewrite Rmult_assoc, Rinv_l by nra.
    apply (Rmult_lt_compat_r (1 - x)) in E4; [|lra]. rewrite Rmult_minus_distr_r, Rinv_l in E4 by lra. lra.
  - assert (D : 0 < 1 + sumR n (fun k => exp (p false "log_odds" [k]))). { assert (0 <= sumR n (fun k => exp (p false "log_odds" [k]))); [apply sumR_nonneg; intros; apply Rlt_le, exp_pos|lra]. }
    split; [intros k K; apply Rdiv_lt_0_compat; [apply exp_pos|exact D]|]. unfold Rdiv. rewrite (sumR_ext n _ (fun k => / (1 + sumR n (fun k => exp (p false "log_odds" [k]))) * exp (p false "log_odds" [k]))) by (intros; ring).
    rewrite sumR_scal. apply Rmult_lt_reg_l with (1 + sumR n (fun k => exp (p false "log_odds" [k]))); [exact D|]. rewrite <- Rmult_assoc, Rinv_r by lra. lra.
  - intros k K. specialize (H k K). assert (0 < 1 / 2 / - p false "negative_half_precision" [k]) by (apply Rdiv_lt_0_compat; lra). replace (1 / 2 / p false "negative_half_precision" [k]) with (- (1 / 2 / - p false "negative_half_precision" [k])) by (field; lra). lra.
  - destruct H as [N H]. split; [exact N|]. assert (0 < INR n / (-2 * p false "negative_half_precision" [])); [|lra]. apply Rdiv_lt_0_compat; [apply lt_0_INR; lia|lra].
  - destruct H as [H (k & F)]. split; [|eauto]. apply Rdiv_lt_0_compat; [rewrite F; apply lt_0_INR; lia|]. assert (E : 0 < - p false "log_not_p" []) by lra. apply exp_increasing in E. rewrite exp_0 in E. lra.
  - assert (0 < 1 / 2 / - p false "negative_half_precision" []) by (apply Rdiv_lt_0_compat; lra). replace (1 / 2 / p false "negative_half_precision" []) with (- (1 / 2 / - p false "negative_half_precision" [])) by (field; lra). lra.
  - apply exp_pos.
  - replace (-1 / p false "eta" []) with (1 / - p false "eta" []) by (field; lra). apply Rdiv_lt_0_compat; lra.
  - assert (K : 0 < sumsq n p "mean_times_concentration") by now apply sumsq_pos. assert (K' : 0 < norm2 n p "mean_times_concentration") by now apply sqrt_lt_R0.
    assert (N : 1 <= INR n) by (destruct H as (k & H & _); destruct n; [lia|rewrite S_INR; pose proof (pos_INR n); lra]).
    pose proof (bessel_ratio_lt (INR n * (1 / 2) - 1) (norm2 n p "mean_times_concentration") ltac:(lra) K') as [B1 B2]. replace (INR n * (1 / 2) - 1 + 1) with (INR n * (1 / 2)) in * by ring.
    set (c := bessel_i (INR n * (1 / 2)) _ / bessel_i (INR n * (1 / 2) - 1) _) in *. set (kp := norm2 n p "mean_times_concentration") in *.
    rewrite (sumR_ext n _ (fun k => (c / kp * (c / kp)) * (p false "mean_times_concentration" [k] * p false "mean_times_concentration" [k]))) by (intros; ring). rewrite sumR_scal.
    change (sumR n (fun k => p false "mean_times_concentration" [k] * p false "mean_times_concentration" [k])) with (sumsq n p "mean_times_concentration").
    assert (E : sumsq n p "mean_times_concentration" = kp * kp) by (symmetry; apply sqrt_sqrt; lra). rewrite E. replace (c / kp * (c / kp) * (kp * kp)) with (c * c) by (field; lra). nra.
  - destruct H as [H1 H]. split; [exact H1|]. replace (-1 / p false "eta" []) with (1 / - p false "eta" []) by (field; lra). apply Rdiv_lt_0_compat; lra.
Qed.
(** ** to_nat lands in the domain of the natural parameters *)
Definition closed_nat (f : family) : bool := match nat_args f with Some _ => true | None => false end.
(** complex normal: the inverse correlation *)
Section ComplexNormalE.
  Variables (n : nat) (p : point).
  Hypothesis H : exp_dom ComplexNormal n p.
  Let mr := p false "mean" []. Let mi := p true "mean" [].
  Let w := p false "second_moment" [] - (mr * mr + mi * mi).
  Let u := p false "pseudo_second_moment" [] - (mr * mr - mi * mi).
  Let u' := p true "pseudo_second_moment" [] - 2 * mr * mi.
  Let d := w * w - (u * u + u' * u').
  Lemma cne_w : 0 < w. Proof. apply H. Qed.
  Lemma cne_d : 0 < d. Proof. destruct H as [_ K]. unfold d, w, u, u', mr, mi. cbn in K. lra. Qed.
  Let mean : Complex.C := (mr, mi).
  Let var := p false "second_moment" [] - csq_abs mean.
  Let pv := Cminus (p false "pseudo_second_moment" [], p true "pseudo_second_moment" []) (Cmult mean mean).
  Let r : Complex.C := (fst (Cconj pv) / var, snd (Cconj pv) / var).
  Let pc := Cminus (RtoC var) (Cconj (Cmult r pv)).
  Let pic : Complex.C := (fst pc / csq_abs pc, - snd pc / csq_abs pc).
  Lemma cne_pv : pv = (u, u').
  Proof. unfold pv, u, u', mean, Cminus, Cplus, Copp, Cmult. cbn [fst snd]. apply f_equal2; ring. Qed.
  Lemma cne_pic : pic = (w / d, 0).
  Proof.
    pose proof cne_w as W. pose proof cne_d as D. assert (X : pc = (d / w, 0)).
    { unfold pc, r. rewrite cne_pv. change var with w. unfold Cminus, Cplus, Copp, Cmult, Cconj, RtoC. cbn [fst snd]. unfold d. apply f_equal2; field; lra. }
    unfold pic. rewrite X. unfold csq_abs. cbn [fst snd]. apply f_equal2; field; lra.
  Qed.
  Lemma cne_np : natR n p ComplexNormal false "negative_precision" [] = - (w / d).
  Proof. change (- fst pic = - (w / d)). now rewrite cne_pic. Qed.
  Lemma cne_pp : natR n p ComplexNormal false "pseudo_precision" [] = u / d /\ natR n p ComplexNormal true "pseudo_precision" [] = - u' / d.
  Proof.
    pose proof cne_w as W. pose proof cne_d as D. change (fst (Cmult r pic) = u / d /\ snd (Cmult r pic) = - u' / d). rewrite cne_pic. unfold r. rewrite cne_pv. change var with w. unfold Cmult, Cconj. cbn [fst snd]. split; field; lra.
  Qed.
  Lemma cne_ok : nat_dom ComplexNormal n (natR n p ComplexNormal).
  Proof.
    pose proof cne_w as W. pose proof cne_d as D. destruct cne_pp as [P1 P2]. cbn [nat_dom]. rewrite cne_np, P1, P2. split; [assert (0 < w / d) by (now apply Rdiv_lt_0_compat); lra|].
    apply Rmult_lt_reg_r with (d * d); [nra|]. replace ((u / d * (u / d) + - u' / d * (- u' / d)) * (d * d)) with (u * u + u' * u') by (field; lra). replace (- (w / d) * - (w / d) * (d * d)) with (w * w) by (field; lra). unfold d in D. lra.
  Qed.
End ComplexNormalE.
Lemma nat_ok f n p : closed_nat f = true -> exp_dom f n p -> nat_dom f n (natR n p f).
Proof.
  intros C H. destruct f; try discriminate C; try exact (mvn_nat_ok n p H); try exact (ccs_nat_ok n p H); cbn [nat_dom].
  all: try exact (cne_ok n p H).
  all: mk; cbn [exp_dom] in H; trivial.
  - assert (0 < 1 / p false "mean" []) by (apply Rdiv_lt_0_compat; lra). replace (-1 / p false "mean" []) with (- (1 / p false "mean" [])) by (field; lra). lra.
  - assert (0 < 1 / p false "mean" []) by (apply Rdiv_lt_0_compat; lra). assert (0 < ln (1 + 1 / p false "mean" [])) by (rewrite <- ln_1; apply ln_increasing; lra). lra.
  - intros k K. specialize (H k K). assert (0 < 1 / 2 / (p false "second_moment" [k] - p false "mean" [k] * p false "mean" [k])) by (apply Rdiv_lt_0_compat; lra). replace (-1 / 2 / (p false "second_moment" [k] - p false "mean" [k] * p false "mean" [k])) with (- (1 / 2 / (p false "second_moment" [k] - p false "mean" [k] * p false "mean" [k]))) by (field; lra). lra.
  - destruct H as [N H]. split; [exact N|]. unfold sumsq. set (t := p false "total_second_moment" [] - _). assert (0 < t) by (unfold t; lra). assert (0 < INR n) by (apply lt_0_INR; lia). assert (0 < t / INR n) by now apply Rdiv_lt_0_compat.
    assert (0 < 1 / 2 / (t / INR n)) by (apply Rdiv_lt_0_compat; lra). replace (-1 / 2 / (t / INR n)) with (- (1 / 2 / (t / INR n))) by (field; lra). lra.
  - destruct H as [H (k & F)]. split; [|eauto]. assert (0 < p false "failures" [] / p false "mean" []) by (apply Rdiv_lt_0_compat; [rewrite F; apply lt_0_INR; lia|lra]). assert (0 < ln (1 + p false "failures" [] / p false "mean" [])) by (rewrite <- ln_1; apply ln_increasing; lra). lra.
  - assert (0 < 1 / 2 / (p false "second_moment" [] - p false "mean" [] * p false "mean" [])) by (apply Rdiv_lt_0_compat; lra). replace (-1 / 2 / (p false "second_moment" [] - p false "mean" [] * p false "mean" [])) with (- (1 / 2 / (p false "second_moment" [] - p false "mean" [] * p false "mean" []))) by (field; lra). lra.
  - assert (0 < 1 / p false "chi" []) by (apply Rdiv_lt_0_compat; lra). replace (-1 / p false "chi" []) with (- (1 / p false "chi" [])) by (field; lra). lra.
  - destruct H as [H1 H]. split; [exact H1|]. assert (0 < 1 / p false "chi" []) by (apply Rdiv_lt_0_compat; lra). replace (-1 / p false "chi" []) with (- (1 / p false "chi" [])) by (field; lra). lra.
Qed.
(** ** they are inverse *)
Lemma cne_mp n p : let q := natR n p ComplexNormal in
  natR n p ComplexNormal false "mean_times_precision" [] = -2 * (q false "negative_precision" [] * p false "mean" [] + (q false "pseudo_precision" [] * p false "mean" [] - q true "pseudo_precision" [] * p true "mean" [])) /\
  natR n p ComplexNormal true "mean_times_precision" [] = -2 * (q false "negative_precision" [] * - p true "mean" [] + (q false "pseudo_precision" [] * p true "mean" [] + q true "pseudo_precision" [] * p false "mean" [])).
Proof. split; reflexivity. Qed.
Section ComplexNormalRt.
  Variables (n : nat) (p : point).
  Let c := p false "negative_precision" []. Let a := p false "pseudo_precision" []. Let b := p true "pseudo_precision" [].
  Let x := p false "mean_times_precision" []. Let y := p true "mean_times_precision" [].
  Let dl := c * c - (a * a + b * b).
  Hypothesis H1 : c < 0. Hypothesis H2 : 0 < dl.
  Lemma cn_s_eq : cnR_s p = - c / dl.
  Proof. unfold cnR_s, cnR_r, cnR_np, csq_abs, cpt, Copp. cbn [fst snd]. fold a b c. unfold dl in *. field. split; [lra|]. split; [|lra]. intros E. lra. Qed.
  Lemma cn_mu_eq : cnR_mu p = (1 / 2 * ((a * x + b * y) - c * x) / dl, 1 / 2 * (c * y + (a * y - b * x)) / dl).
  Proof.
    unfold cnR_mu, cnR_l, cnR_k, cnR_np, csq_abs, cpt, Cminus, Cplus, Copp, Cmult, Cconj. cbn [fst snd]. fold a b c x y.
    replace ((a / c * (a / c) + b / c * (b / c) - 1) * c) with (- dl / c) by (unfold dl; field; lra). apply f_equal2; field; lra.
  Qed.
End ComplexNormalRt.
Lemma cn_nat_exp n p : nat_dom ComplexNormal n p -> let q := natR n (expR n p ComplexNormal) ComplexNormal in
  q false "negative_precision" [] = p false "negative_precision" [] /\ q false "pseudo_precision" [] = p false "pseudo_precision" [] /\ q true "pseudo_precision" [] = p true "pseudo_precision" [] /\
  q false "mean_times_precision" [] = p false "mean_times_precision" [] /\ q true "mean_times_precision" [] = p true "mean_times_precision" [].
Proof.
  intros H q. pose proof (exp_ok ComplexNormal n p H) as E. set (e := expR n p ComplexNormal) in *. destruct H as [H1 H2]. cbn zeta in H1, H2.
  pose proof (cn_s_eq p H1 ltac:(lra)) as S. pose proof (cn_mu_eq p H1 ltac:(lra)) as Mu.
  assert (Rr : cnR_r p = (- p false "pseudo_precision" [] / p false "negative_precision" [], - p true "pseudo_precision" [] / p false "negative_precision" [])) by reflexivity.
  set (c := p false "negative_precision" []) in *. set (a := p false "pseudo_precision" []) in *. set (b := p true "pseudo_precision" []) in *. set (x := p false "mean_times_precision" []) in *. set (y := p true "mean_times_precision" []) in *.
  set (dl := c * c - (a * a + b * b)) in *. assert (DL : 0 < dl) by (unfold dl; lra).
  assert (W : e false "second_moment" [] - (e false "mean" [] * e false "mean" [] + e true "mean" [] * e true "mean" []) = - c / dl). { unfold e. mk. unfold csq_abs. rewrite S. ring. }
  assert (U : e false "pseudo_second_moment" [] - (e false "mean" [] * e false "mean" [] - e true "mean" [] * e true "mean" []) = a / dl). { unfold e. mk. unfold Cplus, Cconj, Cmult. cbn [fst snd]. rewrite S, Rr. cbn [fst snd]. field. split; lra. }
  assert (U' : e true "pseudo_second_moment" [] - 2 * e false "mean" [] * e true "mean" [] = - b / dl). { unfold e. mk. unfold Cplus, Cconj, Cmult. cbn [fst snd]. rewrite S, Rr. cbn [fst snd]. field. split; lra. }
  pose proof (cne_np n e E) as N. destruct (cne_pp n e E) as [P1 P2]. rewrite W, U, U' in *.
  assert (DD : - c / dl * (- c / dl) - (a / dl * (a / dl) + - b / dl * (- b / dl)) = / dl). { transitivity ((c * c - (a * a + b * b)) / (dl * dl)); [field; lra|]. fold dl. field. lra. }
  rewrite DD in *. replace (- (- c / dl / / dl)) with c in N by (field; lra). replace (a / dl / / dl) with a in P1 by (field; lra). replace (- (- b / dl) / / dl) with b in P2 by (field; lra).
  fold q in N, P1, P2. split; [exact N|]. split; [exact P1|]. split; [exact P2|]. destruct (cne_mp n e) as [M1 M2]. fold q in M1, M2. rewrite N, P1, P2 in *.
  assert (E1 : e false "mean" [] = fst (cnR_mu p)) by reflexivity. assert (E2 : e true "mean" [] = snd (cnR_mu p)) by reflexivity. rewrite E1, E2, Mu in *. cbn [fst snd] in *. rewrite M1, M2. 
  split; unfold dl; field; fold dl; lra.
Qed.
Lemma cn_exp_nat n p : exp_dom ComplexNormal n p -> let q := expR n (natR n p ComplexNormal) ComplexNormal in
  q false "second_moment" [] = p false "second_moment" [] /\ q false "pseudo_second_moment" [] = p false "pseudo_second_moment" [] /\ q true "pseudo_second_moment" [] = p true "pseudo_second_moment" [] /\
  q false "mean" [] = p false "mean" [] /\ q true "mean" [] = p true "mean" [].
Proof.
  intros H q. pose proof (cne_ok n p H) as E. pose proof (cne_np n p H) as N. destruct (cne_pp n p H) as [P1 P2]. destruct (cne_mp n p) as [M1 M2]. pose proof (cne_w n p H) as W. pose proof (cne_d n p H) as D.
  set (e := natR n p ComplexNormal) in *. destruct E as [H1 H2]. cbn zeta in H1, H2. pose proof (cn_s_eq e H1 ltac:(lra)) as S. pose proof (cn_mu_eq e H1 ltac:(lra)) as Mu.
  assert (Rr : cnR_r e = (- e false "pseudo_precision" [] / e false "negative_precision" [], - e true "pseudo_precision" [] / e false "negative_precision" [])) by reflexivity.
  set (mr := p false "mean" []) in *. set (mi := p true "mean" []) in *. set (w := p false "second_moment" [] - (mr * mr + mi * mi)) in *. set (u := p false "pseudo_second_moment" [] - (mr * mr - mi * mi)) in *. set (u' := p true "pseudo_second_moment" [] - 2 * mr * mi) in *.
  set (d := w * w - (u * u + u' * u')) in *. clear H1 H2. rewrite N, P1, P2 in *.
  assert (DD : - (w / d) * - (w / d) - (u / d * (u / d) + - u' / d * (- u' / d)) = / d). { transitivity ((w * w - (u * u + u' * u')) / (d * d)); [field; lra|]. fold d. field. lra. } rewrite DD in *.
  replace (- - (w / d) / / d) with w in S by (field; lra).
  assert (Mu' : cnR_mu e = (mr, mi)). { rewrite Mu, M1, M2. apply f_equal2; unfold d; field; fold d; lra. }
  assert (E1 : q false "mean" [] = mr) by (change (fst (cnR_mu e) = mr); now rewrite Mu'). assert (E2 : q true "mean" [] = mi) by (change (snd (cnR_mu e) = mi); now rewrite Mu').
  assert (E3 : q false "second_moment" [] = cnR_s e + csq_abs (cnR_mu e)) by reflexivity. rewrite S, Mu' in E3. unfold csq_abs in E3. cbn [fst snd] in E3.
  split; [rewrite E3; unfold w; ring|]. 
  assert (E4 : q false "pseudo_second_moment" [] = fst (Cplus (Cconj (cnR_s e * fst (cnR_r e), cnR_s e * snd (cnR_r e))) (Cmult (cnR_mu e) (cnR_mu e)))) by reflexivity.
  assert (E5 : q true "pseudo_second_moment" [] = snd (Cplus (Cconj (cnR_s e * fst (cnR_r e), cnR_s e * snd (cnR_r e))) (Cmult (cnR_mu e) (cnR_mu e)))) by reflexivity.
  rewrite S, Rr, Mu' in E4, E5. unfold Cplus, Cconj, Cmult in E4, E5. cbn [fst snd] in E4, E5.
  split; [rewrite E4; unfold u; field; split; lra|]. split; [rewrite E5; unfold u'; field; split; lra|]. auto.
Qed.
Lemma nat_exp f n p : closed_nat f = true -> dims_ok (NP f) n = true -> nat_dom f n p -> pt_eq (NP f) n (natR n (expR n p f) f) p.
Proof.
  intros C D H. destruct f; try discriminate C; try exact (mvn_nat_exp n p H); try exact (ccs_nat_exp n p H); apply pt_intro; cbn [fields]; ptf.
  all: split; [|intros KK; try discriminate KK; clear KK].
  all: cbn [nat_dom] in H.
  all: try (mk; reflexivity).
  - mk. unfold expit. set (x := exp (- p false "log_odds" [])). assert (0 < x) by apply exp_pos. replace (/ (1 + x) / (1 - / (1 + x))) with (/ x) by (field; lra). unfold x. rewrite ln_Rinv, ln_exp by apply exp_pos. lra.
  - mk. field.
  - mk. field.
  - apply (cn_nat_exp n p H).
  - apply (cn_nat_exp n p H).
  - apply (cn_nat_exp n p H).
  - apply (cn_nat_exp n p H).
  - apply (cn_nat_exp n p H).
  - mk. field.
  - mk. field.
  - mk. field. lra.
  - mk. set (x := exp (- p false "log_not_p" [])). assert (1 < x). { unfold x. rewrite <- exp_0. apply exp_increasing. lra. } replace (1 + 1 / (1 / (x - 1))) with x by (field; lra). unfold x. rewrite ln_exp. lra.
  - mk. set (s := 1 + sumR n (fun k => exp (p false "log_odds" [k]))). assert (S : 0 < s). { unfold s. assert (0 <= sumR n (fun k => exp (p false "log_odds" [k]))); [apply sumR_nonneg; intros; apply Rlt_le, exp_pos|lra]. }
    unfold Rdiv at 3. rewrite (sumR_ext n _ (fun k => / s * exp (p false "log_odds" [k]))) by (intros; ring). rewrite sumR_scal. replace (sumR n (fun k => exp (p false "log_odds" [k]))) with (s - 1) by (unfold s; ring).
    replace (exp (p false "log_odds" [k]) / s / (1 - / s * (s - 1))) with (exp (p false "log_odds" [k])) by (field; lra). apply ln_exp.
  - mk. specialize (H k Hk). field. lra.
  - mk. specialize (H k Hk). field. lra.
  - mk. field. lra.
  - destruct H as [N H]. mk. unfold sumsq. set (pr := -2 * p false "negative_half_precision" []). assert (INR n <> 0) by (apply not_0_INR; lia).
    match goal with |- context [(?a + ?b - ?c) / INR n] => replace ((a + b - c) / INR n) with (/ pr) by (field; repeat split; first [assumption | unfold pr; lra]) end. field. unfold pr; lra.
  - destruct H as [N H]. mk. unfold sumsq. set (pr := -2 * p false "negative_half_precision" []). assert (INR n <> 0) by (apply not_0_INR; lia).
    match goal with |- context [(?a + ?b - ?c) / INR n] => replace ((a + b - c) / INR n) with (/ pr) by (field; repeat split; first [assumption | unfold pr; lra]) end. unfold pr. field. lra.
  - destruct H as [H (m & F)]. mk. rewrite F. assert (0 < INR (S m)) by (apply lt_0_INR; lia). set (x := exp (- p false "log_not_p" [])). assert (1 < x). { unfold x. rewrite <- exp_0. apply exp_increasing. lra. }
    replace (1 + INR (S m) / (INR (S m) / (x - 1))) with x by (field; split; lra). unfold x. rewrite ln_exp. lra.
  - mk. field. lra.
  - mk. field. lra.
  - mk. apply ln_exp.
  - mk. field. lra.
  - mk. field. lra.
Qed.
Lemma exp_nat f n p : closed_nat f = true -> dims_ok (EP f) n = true -> exp_dom f n p -> pt_eq (EP f) n (expR n (natR n p f) f) p.
Proof.
  intros C D H. destruct f; try discriminate C; try exact (mvn_exp_nat n p H); try exact (ccs_exp_nat n p H); apply pt_intro; cbn [fields]; ptf.
  all: split; [|intros KK; try discriminate KK; clear KK].
  all: cbn [exp_dom] in H.
  all: try (mk; reflexivity).
  - mk. unfold expit. set (x := p false "probability" []) in *. rewrite <- ln_Rinv by (apply Rdiv_lt_0_compat; lra). rewrite exp_ln by (apply Rinv_0_lt_compat; apply Rdiv_lt_0_compat; lra). field. lra.
  - mk. field.
  - mk. field.
  - apply (cn_exp_nat n p H).
  - apply (cn_exp_nat n p H).
  - apply (cn_exp_nat n p H).
  - apply (cn_exp_nat n p H).
  - apply (cn_exp_nat n p H).
  - mk. field.
  - mk. field.
  - mk. field. lra.
  - mk. rewrite Ropp_involutive. assert (0 < 1 / p false "mean" []) by (apply Rdiv_lt_0_compat; lra). rewrite exp_ln by lra. field. lra.
  - destruct H as [H1 H2]. mk. set (r := 1 - sumR n (fun k => p false "probability" [k])). assert (R0 : 0 < r) by (unfold r; lra).
    rewrite exp_ln by (apply Rdiv_lt_0_compat; auto). rewrite (sumR_ext n _ (fun k => / r * p false "probability" [k])) by (intros m Hm; rewrite exp_ln by (apply Rdiv_lt_0_compat; auto); unfold Rdiv; ring). rewrite sumR_scal.
    replace (sumR n (fun k => p false "probability" [k])) with (1 - r) by (unfold r; ring). field. lra.
  - mk. specialize (H k Hk). field. lra.
  - mk. specialize (H k Hk). field. lra.
  - mk. field. lra.
  - destruct H as [N H]. mk. unfold sumsq. assert (INR n <> 0) by (apply not_0_INR; lia). field. repeat split; first [assumption | lra].
  - destruct H as [N H]. mk. unfold sumsq. assert (INR n <> 0) by (apply not_0_INR; lia). set (v := (p false "total_second_moment" [] - sumR n (fun k => p false "mean" [k] * p false "mean" [k])) / INR n).
    assert (V : v <> 0). { unfold v. apply Rmult_integral_contrapositive. split; [lra|now apply Rinv_neq_0_compat]. }
    rewrite (sumR_ext n _ (fun k => p false "mean" [k] * p false "mean" [k])) by (intros m Hm; field; lra). replace (INR n / (-2 * (-1 / 2 / v))) with (INR n * v) by (field; lra). unfold v. field. assumption.
  - destruct H as [H (m & F)]. mk. rewrite F. assert (0 < INR (S m)) by (apply lt_0_INR; lia). rewrite Ropp_involutive. assert (0 < INR (S m) / p false "mean" []) by (apply Rdiv_lt_0_compat; lra). rewrite exp_ln by lra. field. split; lra.
  - mk. field. lra.
  - mk. field. lra.
  - mk. now apply exp_ln.
  - mk. field. lra.
  - mk. field. lra.
Qed.
