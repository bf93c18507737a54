(** C30, C19: the second derivatives of the log-normalizers of the two families with a matrix parameter are symmetric and positive. *)
From Coquelicot Require Import Coquelicot.
From Coq Require Import String List Bool Arith Reals Lia Lra.
From Verif Require Import Base XReal Tensor TensorFacts Support Dist Iteration Spec SumSpec DotSpec SpecFun GammaFn BesselFn Expr Fam ExprFacts FamTy FamFacts DotFacts PointSpec PointFacts DetFacts MatFacts Val FamR FamVal ConvFacts DerivFacts MatDeriv.
Import ListNotations.
Local Unset Asymmetric Patterns.
Local Open Scope string_scope.
Local Open Scope R_scope.
Local Notation C := Complex.C (only parsing).

(** ** tr (U A V A) *)
Definition trC (n : nat) (A U V : nat -> nat -> C) : C := csum n (fun a => csum n (fun b => csum n (fun j => csum n (fun l => U a b * A b j * V j l * A l a)))%C).
Definition trR (n : nat) (A U V : nat -> nat -> R) : R := sumR n (fun a => sumR n (fun b => sumR n (fun j => sumR n (fun l => U a b * A b j * V j l * A l a)))).
Lemma RtoC_tr n A U V : RtoC (trR n A U V) = trC n (cmat A) (cmat U) (cmat V).
Proof.
  unfold trR, trC. rewrite RtoC_sum. apply csum_ext. intros a _. rewrite RtoC_sum. apply csum_ext. intros b _. rewrite RtoC_sum. apply csum_ext. intros j _. rewrite RtoC_sum. apply csum_ext. intros l _. now rewrite !RtoC_mult.
Qed.
Lemma csum_swap4 n (F : nat -> nat -> nat -> nat -> C) : csum n (fun a => csum n (fun b => csum n (fun j => csum n (fun l => F a b j l)))) = csum n (fun j => csum n (fun l => csum n (fun a => csum n (fun b => F a b j l)))).
Proof.
  rewrite (csum_ext n _ (fun a => csum n (fun j => csum n (fun b => csum n (fun l => F a b j l))))) by (intros; apply csum_swap).
  rewrite csum_swap. apply csum_ext. intros j _. rewrite (csum_ext n _ (fun a => csum n (fun l => csum n (fun b => F a b j l)))) by (intros; apply csum_swap). apply csum_swap.
Qed.
Lemma trC_sym n A U V : trC n A U V = trC n A V U.
Proof. unfold trC. rewrite csum_swap4. apply csum_ext. intros a _. apply csum_ext. intros b _. apply csum_ext. intros j _. apply csum_ext. intros l _. ring. Qed.
Lemma trR_sym n A U V : trR n A U V = trR n A V U.
Proof. apply RtoC_inj. rewrite !RtoC_tr. apply trC_sym. Qed.
Lemma form_nonneg n m z : hpdC n m -> 0 <= fst (form n m z).
Proof.
  intros [H P]. destruct (cvec_dec n z) as [E|E]; [|left; exact (P z E)]. right. rewrite form_z by exact E. reflexivity.
Qed.
Lemma sumR_zero_inv n g : (forall k, (k < n)%nat -> 0 <= g k) -> sumR n g = 0 -> forall k, (k < n)%nat -> g k = 0.
Proof.
  induction n as [|n IH]; intros H E k K; [lia|]. rewrite sumR_S in E. pose proof (sumR_nonneg n g (fun k K => H k (Nat.lt_lt_succ_r _ _ K))). pose proof (H n (Nat.lt_succ_diag_r n)).
  destruct (Nat.eq_dec k n) as [->|]; [lra|]. apply IH; [intros; apply H; lia|lra|lia].
Qed.
Lemma trC_form n A V L : (forall a b, (a < n)%nat -> (b < n)%nat -> V a b = Cconj (V b a)) -> (forall a b, (a < n)%nat -> (b < n)%nat -> A a b = csum n (fun k => L a k * Cconj (L b k))%C) ->
  trC n A V V = csum n (fun k => form n A (fun j => csum n (fun l => V j l * L l k)%C)).
Proof.
  intros HV HA. symmetry. unfold form.
  transitivity (csum n (fun k => csum n (fun b => csum n (fun j => csum n (fun a => csum n (fun l => V a b * A b j * V j l * (L l k * Cconj (L a k)))%C))))).
  { apply csum_ext. intros k Hk. apply csum_ext. intros b Hb. apply csum_ext. intros j Hj. rewrite Cconj_csum, <- csum_scal_r, <- csum_scal_r. apply csum_ext. intros a Ha. rewrite Cconj_mult, <- (HV a b Ha Hb), <- csum_scal.
    apply csum_ext. intros l Hl. ring. }
  unfold trC. rewrite (csum_swap n n (fun a b => csum n (fun j => csum n (fun l => V a b * A b j * V j l * A l a)%C))).
  rewrite csum_swap. apply csum_ext. intros b Hb. rewrite csum_swap. rewrite (csum_swap n n (fun a j => csum n (fun l => V a b * A b j * V j l * A l a)%C)). apply csum_ext. intros j Hj.
  rewrite csum_swap. apply csum_ext. intros a Ha. rewrite csum_swap. apply csum_ext. intros l Hl. rewrite csum_scal, <- (HA l a Hl Ha). reflexivity.
Qed.
Lemma trC_nonneg n A V : hpdC n A -> (forall a b, (a < n)%nat -> (b < n)%nat -> V a b = Cconj (V b a)) -> 0 <= fst (trC n A V V).
Proof.
  intros P HV. destruct (cholesky n A P) as [L HL]. rewrite (trC_form n A V L HV HL), fst_csum. apply sumR_nonneg. intros k Hk. now apply form_nonneg.
Qed.
Lemma trC_pos n A V : hpdC n A -> (forall a b, (a < n)%nat -> (b < n)%nat -> V a b = Cconj (V b a)) -> (exists a b, (a < n)%nat /\ (b < n)%nat /\ V a b <> RtoC 0) -> 0 < fst (trC n A V V).
Proof.
  intros P HV (a & b & Ha & Hb & E). destruct (trC_nonneg n A V P HV) as [X|X]; [exact X|]. exfalso. apply E. clear E.
  destruct (cholesky n A P) as [L HL]. rewrite (trC_form n A V L HV HL), fst_csum in X.
  assert (Z : forall k, (k < n)%nat -> forall j, (j < n)%nat -> csum n (fun l => V j l * L l k)%C = RtoC 0).
  { intros k Hk. assert (F : fst (form n A (fun j => csum n (fun l => V j l * L l k)%C)) = 0). { pose proof (sumR_zero_inv n _ (fun k _ => form_nonneg n A (fun j => csum n (fun l => V j l * L l k)%C) P) (eq_sym X)) as Q. exact (Q k Hk). }
    destruct (cvec_dec n (fun j => csum n (fun l => V j l * L l k)%C)) as [Q|Q]; [exact Q|]. pose proof (proj2 P _ Q) as W. change (0 < fst (form n A (fun j => csum n (fun l => V j l * L l k)%C))) in W. lra. }
  assert (VA : forall c, (c < n)%nat -> csum n (fun l => V a l * A l c)%C = RtoC 0).
  { intros c Hc. rewrite (csum_ext n _ (fun l => csum n (fun k => V a l * L l k * Cconj (L c k)))%C) by (intros l Hl; rewrite (HL l c Hl Hc), <- csum_scal; apply csum_ext; intros; ring).
    rewrite csum_swap. apply csum_zero. intros k Hk. rewrite csum_scal_r, (Z k Hk a Ha). apply Cmult_0_l. }
  rewrite <- (csum_dl n b (V a) Hb). rewrite (csum_ext n _ (fun l => csum n (fun c => V a l * A l c * cinv n A c b))%C).
  - rewrite csum_swap. apply csum_zero. intros c Hc. rewrite csum_scal_r, (VA c Hc). apply Cmult_0_l.
  - intros l Hl. rewrite <- (cinv_right n A l b (hpd_det_ne _ _ P) Hl Hb), <- csum_scal. apply csum_ext. intros. ring.
Qed.

Lemma vecR_dec n (m : nat -> nat -> R) : (forall a b, (a < n)%nat -> (b < n)%nat -> m a b = 0) \/ exists a b, (a < n)%nat /\ (b < n)%nat /\ m a b <> 0.
Proof.
  assert (X : forall k, (forall a b, (a < k)%nat -> (b < n)%nat -> m a b = 0) \/ exists a b, (a < k)%nat /\ (b < n)%nat /\ m a b <> 0).
  { induction k as [|k [IH|(a & b & A & B & E)]]; [left; intros; lia| |right; exists a, b; split; [lia|auto]].
    destruct (cvec_dec n (fun b => RtoC (m k b))) as [Z|(b & B & E)].
    - left. intros a b Ha Hb. destruct (Nat.eq_dec a k) as [->|]; [exact (RtoC_0_inv _ (Z b Hb))|apply IH; lia].
    - right. exists k, b. split; [lia|]. split; [exact B|]. intros Q. apply E. now rewrite Q. }
  exact (X n).
Qed.
(** ** multivariate normal *)
Section MvnH.
  Variables (n : nat) (p : point).
  Notation MV := MultivariateNormal.
  Hypothesis P : nat_dom MV n p.
  Notation h := (hI n p). Notation he := (hHe n p).
  Definition mvnH (u v : point) : R :=
    - (1 / 2) * sumR n (fun a => yv n p u a * sumR n (fun l => h a l * yv n p v l)) + 1 / 2 * trR n h (hH u) (hH v).
  Lemma mvn_hess_dv u v : sym_dir MV n u -> sym_dir MV n v ->
    DV (fun s => dotP (NP MV) (EP MV) n u (expR n (padd (NP MV) p v s) MV)) (dotP (NP MV) (EP MV) n u (expR n p MV)) (mvnH u v).
  Proof.
    intros Su Sv. assert (HS := hI_sym n p P).
    eapply DV_ext; [intros s; symmetry; apply mvn_dot|]. rewrite mvn_dot.
    eapply DV_eq; [apply DV_plus; [apply (DV_sum n (fun a s => _ * (-1 / 2 * hHe n (padd (NP MV) p v s) a))); intros a Ha; apply DV_mult; [apply DV_const|apply DV_mult; [apply DV_const|apply (hHe_dv n p v P a Ha)]]|
      apply (DV_sum n (fun a s => sumR n (fun b => _ * (1 / 4 * (hHe n (padd (NP MV) p v s) a * hHe n (padd (NP MV) p v s) b) - 1 / 2 * hI n (padd (NP MV) p v s) a b)))); intros a Ha;
      apply (DV_sum n (fun b s => _ * (1 / 4 * (hHe n (padd (NP MV) p v s) a * hHe n (padd (NP MV) p v s) b) - 1 / 2 * hI n (padd (NP MV) p v s) a b))); intros b Hb;
      apply DV_mult; [apply DV_const|apply DV_minus; (apply DV_mult; [apply DV_const|]); [apply DV_mult; [apply (hHe_dv n p v P a Ha)|apply (hHe_dv n p v P b Hb)]|apply (hI_dv n p v P a b Ha Hb)]]]|reflexivity|].
    transitivity (sumR n (fun a => - (1 / 2) * (hE u a * dHe n p v a)) + (sumR n (fun a => 1 / 2 * (sumR n (fun b => hH u a b * he b) * dHe n p v a)) + sumR n (fun a => 1 / 2 * sumR n (fun b => hH u a b * sumR n (fun l => h a l * sumR n (fun j => hH v l j * h j b)))))).
    - f_equal; [apply sumR_ext; intros a Ha; unfold hE; field|].
      transitivity (sumR n (fun a => 1 / 4 * (sumR n (fun b => hH u a b * he b) * dHe n p v a)) + (sumR n (fun a => sumR n (fun b => 1 / 4 * (hH u a b * he a * dHe n p v b))) + sumR n (fun a => 1 / 2 * sumR n (fun b => hH u a b * sumR n (fun l => h a l * sumR n (fun j => hH v l j * h j b)))))).
      + rewrite <- !sumR_add. apply sumR_ext. intros a Ha. rewrite (Rmult_comm (sumR n (fun b => hH u a b * he b))), <- !sumR_scal, <- !sumR_add. apply sumR_ext. intros b Hb. unfold dI, hH. field.
      + rewrite <- Rplus_assoc. f_equal. rewrite rswap, <- sumR_add. apply sumR_ext. intros a Ha.
        rewrite (sumR_exti n (fun b => 1 / 4 * (hH u b a * he b * dHe n p v a)) (fun b => (1 / 4 * dHe n p v a) * (hH u a b * he b))) by (intros b Hb; rewrite (Su a b Ha Hb : hH u a b = hH u b a); ring). rewrite sumR_scal. field.
    - unfold mvnH. rewrite <- Rplus_assoc. f_equal.
      + rewrite <- sumR_add, <- sumR_scal. apply sumR_ext. intros a Ha. unfold yv at 1. fold (dHe n p v a). ring.
      + unfold trR. rewrite <- sumR_scal. apply sumR_exti. intros a Ha. f_equal. apply sumR_exti. intros b Hb. rewrite (rswap n n (fun j l => hH u a b * h b j * hH v j l * h l a)). rewrite <- sumR_scal. apply sumR_exti. intros l Hl. 
        transitivity (sumR n (fun j => hH u a b * (h a l * (hH v l j * h j b)))); [rewrite <- !sumR_scal; apply sumR_ext; intros; ring|]. apply sumR_exti. intros j Hj.
        rewrite (HS a l Ha Hl), (HS j b Hj Hb), (Sv l j Hl Hj : hH v l j = hH v j l). ring.
  Qed.
  Lemma mvnH_sym u v : mvnH u v = mvnH v u.
  Proof. unfold mvnH. rewrite (quad_sym n p P), trR_sym. reflexivity. Qed.
  Lemma hI_spd : spd n (fun a b => - h a b).
  Proof. apply (spd_ext n (rinv n (fun a b => - hH p a b))); [intros a b Ha Hb; unfold hI; apply rinv_opp; [exact (hH_ne n p P)|exact Ha|exact Hb]|]. apply spd_inv. exact P. Qed.
  Lemma mvnH_pos v : sym_dir MV n v -> (exists a, (a < n)%nat /\ hE v a <> 0) \/ (exists a b, (a < n)%nat /\ (b < n)%nat /\ hH v a b <> 0) -> 0 < mvnH v v.
  Proof.
    intros Sv N. pose proof hI_spd as K. pose proof (spd_C _ _ K) as KC.
    assert (T : trR n h (hH v) (hH v) = fst (trC n (cmat (fun a b => - h a b)) (cmat (hH v)) (cmat (hH v)))).
    { rewrite <- RtoC_tr. cbn [fst RtoC]. unfold trR. do 4 (apply sumR_ext; intros). ring. }
    assert (SV : forall a b, (a < n)%nat -> (b < n)%nat -> cmat (hH v) a b = Cconj (cmat (hH v) b a)) by (apply sym_C; exact Sv).
    assert (Q : - (1 / 2) * sumR n (fun a => yv n p v a * sumR n (fun l => h a l * yv n p v l)) = 1 / 2 * sumR n (fun a => sumR n (fun b => yv n p v a * (- h a b) * yv n p v b))).
    { rewrite <- !sumR_scal. apply sumR_ext. intros a Ha. rewrite <- !sumR_scal. apply sumR_ext. intros. ring. }
    unfold mvnH. rewrite Q, T.
    destruct (vecR_dec n (fun a b => hH v a b)) as [Z|Z].
    - destruct N as [(a & Ha & E)|(a & b & Ha & Hb & E)]; [|contradict E; now apply Z].
      pose proof (trC_nonneg n _ _ KC SV). assert (0 < sumR n (fun a => sumR n (fun b => yv n p v a * - h a b * yv n p v b))); [|lra].
      apply (proj2 K (yv n p v)). exists a. split; [exact Ha|]. unfold yv. rewrite sumR_z; [lra|]. intros j Hj. rewrite (Z a j Ha Hj). ring.
    - assert (0 < fst (trC n (cmat (fun a b => - h a b)) (cmat (hH v)) (cmat (hH v)))). { apply trC_pos; [exact KC|exact SV|]. destruct Z as (a & b & Ha & Hb & E). exists a, b. split; [exact Ha|]. split; [exact Hb|]. now apply RtoC_neq. }
      assert (0 <= sumR n (fun a => sumR n (fun b => yv n p v a * - h a b * yv n p v b))); [|lra].
      pose proof (form_nonneg n _ (fun a => RtoC (yv n p v a)) KC) as F. unfold form in F. rewrite fst_csum in F. replace (sumR n (fun a => sumR n (fun b => yv n p v a * - h a b * yv n p v b))) with (sumR n (fun k => fst (csum n (fun b => Cconj (RtoC (yv n p v k)) * RtoC (- h k b)%R * RtoC (yv n p v b))%C))); [exact F|]. apply sumR_exti. intros a Ha. rewrite fst_csum. apply sumR_exti. intros b Hb. cbn. ring.
  Qed.
End MvnH.

(** ** circularly symmetric complex normal *)
Section CcsH.
  Variables (n : nat) (p : point).
  Notation CC := ComplexCircularlySymmetricNormal.
  Hypothesis P : nat_dom CC n p.
  Notation A := (cinv n (ccsP p)).
  Lemma sym_cV v : sym_dir CC n v -> forall a b, (a < n)%nat -> (b < n)%nat -> cV v a b = Cconj (cV v b a).
  Proof. intros S a b Ha Hb. destruct (S a b Ha Hb) as [S1 S2]. unfold cV, Cconj. cbn [fst snd]. now rewrite S1, S2. Qed.
  Lemma DVC_conj g v d : DVC g v d -> DVC (fun s => Cconj (g s)) (Cconj v) (Cconj d).
  Proof. intros [X Y]. split; [exact X|]. cbn [snd Cconj]. now apply DV_opp. Qed.
  Definition ccsH (u v : point) : R := fst (trC n A (cV u) (cV v)).
  Lemma ccs_hess_dv u v : sym_dir CC n v ->
    DV (fun s => dotP (NP CC) (EP CC) n u (expR n (padd (NP CC) p v s) CC)) (dotP (NP CC) (EP CC) n u (expR n p CC)) (ccsH u v).
  Proof.
    intros Sv. eapply DV_ext; [intros s; symmetry; apply ccs_dot|]. rewrite ccs_dot. pose proof (ccs_hpd n p P) as K. pose proof (cA_sym n p P) as SA. pose proof (sym_cV v Sv) as SV.
    assert (D : DVC (fun s => csum n (fun a => csum n (fun b => cV u a b * Cconj (cinv n (ccsP (padd (NP CC) p v s)) a b))%C)) (csum n (fun a => csum n (fun b => cV u a b * Cconj (A a b))%C)) (trC n A (cV u) (cV v))).
    { eapply DVC_eq; [apply (DVC_sum n (fun a s => csum n (fun b => cV u a b * Cconj (cinv n (ccsP (padd (NP CC) p v s)) a b))%C)); intros a Ha; apply (DVC_sum n (fun b s => cV u a b * Cconj (cinv n (ccsP (padd (NP CC) p v s)) a b))%C); intros b Hb;
        apply DVC_mult; [apply DVC_const|apply DVC_conj, (DVC_cinv n (fun s => ccsP (padd (NP CC) p v s)) (ccsP p) (fun a b => - cV v a b)%C); [intros; apply ccsP_dv|exact (proj1 K)|exact (hpd_det_ne _ _ K)|exact Ha|exact Hb]]|reflexivity|].
      unfold trC. apply csum_ext. intros a Ha. apply csum_ext. intros b Hb. rewrite Cmult_0_l, Cplus_0_l, (csum_swap n n (fun j l => cV u a b * A b j * cV v j l * A l a)%C), Cconj_opp, Cconj_csum, <- csum_opp, <- csum_scal. apply csum_ext. intros l Hl.
      rewrite Cconj_mult, <- (SA l a Hl Ha), Cconj_csum. rewrite (csum_ext n _ (fun j => - (A b j * cV v j l))%C) by (intros j Hj; rewrite Cconj_mult, Cconj_opp, <- (SA b j Hb Hj), <- (SV j l Hj Hl); ring).
      rewrite csum_opp. transitivity (cV u a b * A l a * csum n (fun j => A b j * cV v j l))%C; [ring|]. rewrite <- csum_scal. apply csum_ext. intros. ring. }
    exact (proj1 D).
  Qed.
  Lemma ccsH_sym u v : ccsH u v = ccsH v u. Proof. unfold ccsH. now rewrite trC_sym. Qed.
  Lemma ccsH_pos v : sym_dir CC n v -> (exists a b, (a < n)%nat /\ (b < n)%nat /\ cV v a b <> RtoC 0) -> 0 < ccsH v v.
  Proof. intros Sv N. apply trC_pos; [apply hpd_inv, ccs_hpd, P|now apply sym_cV|exact N]. Qed.
End CcsH.

(** ** the domain is convex *)
Lemma sym_dir_sub f n p q : nat_dom f n p -> nat_dom f n q -> sym_dir f n (fun c nm j => q c nm j - p c nm j).
Proof.
  intros P Q. destruct f; try exact Logic.I; cbn [sym_dir]; intros a b Ha Hb.
  - destruct (proj1 P a b Ha Hb) as [P1 P2]. destruct (proj1 Q a b Ha Hb) as [Q1 Q2]. cbv beta in P1, P2, Q1, Q2. split; lra.
  - pose proof (proj1 P a b Ha Hb) as P1. pose proof (proj1 Q a b Ha Hb) as Q1. cbv beta in P1, Q1. lra.
Qed.
Lemma mat_convex f n p q s : mat f = true -> nat_dom f n p -> nat_dom f n q -> 0 <= s <= 1 -> nat_dom f n (padd (NP f) p (fun c nm j => q c nm j - p c nm j) s).
Proof.
  intros M P Q S. destruct f; try discriminate M; cbn [nat_dom] in *.
  - apply hpd_C in P, Q. apply (hpd_ext' n (fun a b => fst (RtoC (1 - s) * ccsP p a b + RtoC s * ccsP q a b)%C) (fun a b => snd (RtoC (1 - s) * ccsP p a b + RtoC s * ccsP q a b)%C)).
    { intros a b Ha Hb. adds. unfold ccsP. cbn. split; ring. }
    apply C_hpd. change (hpdC n (ccsP p)) in P. change (hpdC n (ccsP q)) in Q. split.
    + intros a b Ha Hb. rewrite Cconj_plus, !Cconj_mult, !Cconj_R, <- (proj1 P a b Ha Hb), <- (proj1 Q a b Ha Hb). reflexivity.
    + intros z Hz. pose proof (proj2 P z Hz) as P'. pose proof (proj2 Q z Hz) as Q'.
      rewrite (csum_ext n _ (fun a => RtoC (1 - s) * csum n (fun b => Cconj (z a) * ccsP p a b * z b) + RtoC s * csum n (fun b => Cconj (z a) * ccsP q a b * z b))%C).
      * rewrite csum_plus, !csum_scal. cbn [fst snd Cplus Cmult RtoC]. rewrite !Rmult_0_l, !Rminus_0_r. set (x := fst _) in *. set (y := fst _) in *. destruct (Req_dec s 0) as [->|]; [lra|]. nra.
      * intros a Ha. rewrite <- !csum_scal, <- csum_plus. apply csum_ext. intros. ring.
  - split.
    + intros a b Ha Hb. pose proof (proj1 P a b Ha Hb) as P1. pose proof (proj1 Q a b Ha Hb) as Q1. cbv beta in P1, Q1. adds. nra.
    + intros z Hz. pose proof (proj2 P z Hz) as P'. pose proof (proj2 Q z Hz) as Q'. cbv beta in P', Q'. adds.
      rewrite (sumR_ext n _ (fun a => (1 - s) * sumR n (fun b => z a * - p false "negative_half_precision" [a; b]%nat * z b) + s * sumR n (fun b => z a * - q false "negative_half_precision" [a; b]%nat * z b))).
      * rewrite sumR_add, !sumR_scal. set (x := sumR n _) in *. set (y := sumR n _) in *. destruct (Req_dec s 0) as [->|]; [lra|]. nra.
      * intros a Ha. rewrite <- !sumR_scal, <- sumR_add. apply sumR_ext. intros. ring.
Qed.
