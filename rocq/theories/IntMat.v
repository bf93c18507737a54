(** The Gaussian integrals of the two families with a matrix parameter: coordinates are integrated out one at a time, last first, and the
    quadratic form left behind is that of the Schur complement. *)
From Coquelicot Require Import Coquelicot.
From Coq Require Import String List Bool Arith Reals Lia Lra.
From Verif Require Import Base XReal Tensor TensorFacts Support Dist Iteration Structure Spec SumSpec DotSpec Tools Joint SpecFun GammaFn Expr Fam DotFacts BatchFacts
  PointSpec PointFacts DetFacts MatFacts Val FamR FamVal ConvFacts LeafVal DerivFacts MatDeriv DerivThms DensSpec DensVal DensThms IntSpec IntFacts GammaInt IntNorm IntGen IntMulti IntFam.
Import ListNotations.
Local Unset Asymmetric Patterns.
Local Open Scope string_scope.
Local Open Scope R_scope.

(** ** the last coordinate can be integrated first *)
Lemma WL_snoc n : forall l (F G : list R -> R) v,
  (forall l', length l' = n -> improper m_infty p_infty (fun t => F ((l ++ l') ++ [t])%list) (G (l ++ l')%list)) -> WL n l G v -> WL (S n) l F v.
Proof.
  induction n as [|n IH]; intros l F G v H W.
  - cbn in W. subst v. exists (fun t => F (l ++ [t])%list). split; [intros t _; reflexivity|]. specialize (H [] eq_refl). now rewrite app_nil_r in H.
  - destruct W as (g & W1 & W2). exists g. split; [|exact W2]. intros t It. apply (IH _ F G); [|now apply W1].
    intros l' L. specialize (H (t :: l')). cbn [length] in H. replace ((l ++ [t]) ++ l')%list with (l ++ t :: l')%list by (rewrite <- app_assoc; reflexivity). apply H. now rewrite L.
Qed.
(** ** elimination *)
Definition rsch (n : nat) (A : nat -> nat -> R) (a b : nat) : R := A a b - A a n * A n b / A n n.
Fixpoint piv (n : nat) (A : nat -> nat -> R) : Prop := match n with O => True | S m => 0 < A m m /\ piv m (rsch m A) end.
Fixpoint lnpiv (n : nat) (A : nat -> nat -> R) : R := match n with O => 0 | S m => ln (A m m) + lnpiv m (rsch m A) end.
Definition rsym (n : nat) (A : nat -> nat -> R) : Prop := forall a b, (a < n)%nat -> (b < n)%nat -> A a b = A b a.
Definition qf (n : nat) (A : nat -> nat -> R) (y : nat -> R) : R := sumR n (fun a => sumR n (fun b => A a b * (y a * y b))).
Definition lf (n : nat) (d : nat -> R) (y : nat -> R) : R := sumR n (fun a => d a * y a).
Lemma rsch_sym n A : rsym (S n) A -> rsym n (rsch n A).
Proof. intros H a b Ha Hb. unfold rsch. rewrite (H a b), (H a n), (H n b) by lia. unfold Rdiv. ring. Qed.
Lemma qf_S n A y : qf (S n) A y = qf n A y + (lf n (fun a => A a n) y + lf n (fun b => A n b) y) * y n + A n n * (y n * y n).
Proof.
  unfold qf, lf. rewrite sumR_S. rewrite (sumR_ext n (fun a => sumR (S n) (fun b => A a b * (y a * y b))) (fun a => sumR n (fun b => A a b * (y a * y b)) + y n * (A a n * y a))) by (intros; rewrite sumR_S; ring).
  rewrite sumR_plus, sumR_scal, sumR_S. rewrite (sumR_ext n (fun b => A n b * (y n * y b)) (fun b => y n * (A n b * y b))) by (intros; ring). rewrite sumR_scal. ring.
Qed.
Lemma qf_ext n A B y z : (forall a b, (a < n)%nat -> (b < n)%nat -> A a b = B a b) -> (forall a, (a < n)%nat -> y a = z a) -> qf n A y = qf n B z.
Proof. intros H K. unfold qf. apply sumR_ext. intros a Ha. apply sumR_ext. intros b Hb. now rewrite H, !K. Qed.
Lemma lf_ext n d e y z : (forall a, (a < n)%nat -> d a = e a) -> (forall a, (a < n)%nat -> y a = z a) -> lf n d y = lf n e z.
Proof. intros H K. unfold lf. apply sumR_ext. intros a Ha. now rewrite H, !K. Qed.
Lemma qf_plus n A B y : qf n (fun a b => A a b + B a b) y = qf n A y + qf n B y.
Proof. unfold qf. rewrite <- sumR_plus. apply sumR_ext. intros a _. rewrite <- sumR_plus. apply sumR_ext. intros; ring. Qed.
Lemma qf_rank n d e y : qf n (fun a b => d a * e b) y = lf n d y * lf n e y.
Proof.
  unfold qf, lf. rewrite Rmult_comm, <- sumR_scal. apply sumR_ext. intros a _. rewrite (sumR_ext n (fun b => d a * e b * (y a * y b)) (fun b => d a * y a * (e b * y b))) by (intros; ring). rewrite sumR_scal. ring.
Qed.
Lemma lf_plus n d e y : lf n (fun a => d a + e a) y = lf n d y + lf n e y.
Proof. unfold lf. rewrite <- sumR_plus. apply sumR_ext. intros; ring. Qed.
Lemma lf_scal n c d y : lf n (fun a => c * d a) y = c * lf n d y.
Proof. unfold lf. rewrite <- sumR_scal. apply sumR_ext. intros; ring. Qed.
Lemma lf_S n d y : lf (S n) d y = lf n d y + d n * y n. Proof. apply sumR_S. Qed.
(** the sum of the entries of c against S *)
Definition mdot (n : nat) (c S : nat -> nat -> R) : R := sumR n (fun a => sumR n (fun b => c a b * S a b)).
Lemma mdot_S n c S : mdot (Datatypes.S n) c S = mdot n c S + sumR n (fun a => c a n * S a n) + sumR n (fun b => c n b * S n b) + c n n * S n n.
Proof.
  unfold mdot. rewrite sumR_S. rewrite (sumR_ext n (fun a => sumR (Datatypes.S n) (fun b => c a b * S a b)) (fun a => sumR n (fun b => c a b * S a b) + c a n * S a n)) by (intros; now rewrite sumR_S).
  rewrite sumR_plus, sumR_S. ring.
Qed.
Lemma mdot_plus n c d S : mdot n (fun a b => c a b + d a b) S = mdot n c S + mdot n d S.
Proof. unfold mdot. rewrite <- sumR_plus. apply sumR_ext. intros a _. rewrite <- sumR_plus. apply sumR_ext. intros; ring. Qed.
Lemma mdot_rank n d e S : mdot n (fun a b => d a * e b) S = sumR n (fun a => d a * sumR n (fun b => e b * S a b)).
Proof. unfold mdot. apply sumR_ext. intros a _. rewrite <- sumR_scal. apply sumR_ext. intros; ring. Qed.

Definition off (m : nat -> R) (l : list R) (a : nat) : R := nth a l 0 - m a.
Definition gaus (n : nat) (A : nat -> nat -> R) (m : nat -> R) (l : list R) : R := exp (- qf n A (off m l) + (1 / 2 * lnpiv n A - 1 / 2 * INR n * ln PI)).
Definition poly (n : nat) (c : nat -> nat -> R) (d : nat -> R) (e : R) (y : nat -> R) : R := qf n c y + lf n d y + e.
Lemma off_snoc1 n m l t a : length l = n -> (a < n)%nat -> off m (l ++ [t]) a = off m l a.
Proof. intros L H. unfold off. rewrite app_nth1 by lia. reflexivity. Qed.
Lemma off_snoc2 n m l t : length l = n -> off m (l ++ [t]) n = t - m n.
Proof. intros L. unfold off. rewrite app_nth2 by lia. rewrite L, Nat.sub_diag. reflexivity. Qed.
Lemma gaus_step n A m c d e l : rsym (S n) A -> 0 < A n n -> length l = n ->
  let D := A n n in let u a := A n a / D in
  improper m_infty p_infty (fun t => gaus (S n) A m (l ++ [t])%list * poly (S n) c d e (off m (l ++ [t])%list))
    (gaus n (rsch n A) m l * poly n (fun a b => c a b + (c n n * u a + - (c a n + c n a)) * u b) (fun a => d a + - d n * u a) (e + c n n / (2 * D)) (off m l)).
Proof.
  intros Hs Hp L D u. fold D in Hp. set (y := off m l). set (w := lf n u y). set (s := lf n (fun a => c a n + c n a) y).
  assert (Dn : D <> 0) by lra.
  set (b0 := 2 * D * (m n - w)).
  assert (Hg : - D < 0) by lra.
  assert (Q := gd_quad (- D) b0 (s + d n - 2 * c n n * m n) (c n n) (qf n c y + lf n d y + e - m n * (s + d n) + c n n * (m n * m n)) Hg).
  apply (improper_scal _ _ _ _ (gaus n (rsch n A) m l)) in Q.
  eapply improper_ext; [apply (inmp 0)| |eapply improper_to; [|exact Q]].
  - intros t _. cbv beta.
    assert (E : forall B, qf (S n) B (off m (l ++ [t])%list) = qf n B y + (lf n (fun a => B a n) y + lf n (fun b => B n b) y) * (t - m n) + B n n * ((t - m n) * (t - m n))).
    { intros B. rewrite qf_S, (off_snoc2 n) by exact L. rewrite (qf_ext n B B (off m (l ++ [t])) y) by (try reflexivity; intros; now apply (off_snoc1 n)).
      rewrite (lf_ext n (fun a => B a n) (fun a => B a n) (off m (l ++ [t])) y), (lf_ext n (fun b => B n b) (fun b => B n b) (off m (l ++ [t])) y) by (try reflexivity; intros; now apply (off_snoc1 n)). reflexivity. }
    rewrite <- Rmult_assoc. f_equal.
    + unfold gaus, gd. rewrite <- exp_plus. f_equal. rewrite E. cbn [lnpiv]. fold D y. rewrite S_INR.
      assert (E1 : lf n (fun a => A a n) y = D * w). { unfold w. rewrite <- lf_scal. apply lf_ext; [|reflexivity]. intros a Ha. unfold u. rewrite (Hs a n) by lia. field. exact Dn. }
      assert (E2 : lf n (fun b => A n b) y = D * w). { unfold w. rewrite <- lf_scal. apply lf_ext; [|reflexivity]. intros a Ha. unfold u. field. exact Dn. }
      assert (E3 : qf n (rsch n A) y = qf n A y - D * (w * w)).
      { rewrite (qf_ext n (rsch n A) (fun a b => A a b + (- D * u a) * u b) y y); [|intros a b Ha Hb; unfold rsch, u; rewrite (Hs a n) by lia; fold D; field; exact Dn|reflexivity]. rewrite qf_plus, (qf_rank n (fun a => - D * u a) u), lf_scal. fold w. ring. }
      rewrite E1, E2, E3. unfold ga, b0.
      replace (- PI / - D) with (PI / D) by (field; exact Dn). rewrite ln_div by (try apply PI_RGT_0; lra). field. exact Dn.
    + unfold poly. rewrite E, lf_S, (off_snoc2 n) by exact L. rewrite (lf_ext n d d (off m (l ++ [t])) y) by (try reflexivity; intros; now apply (off_snoc1 n)). fold y.
      unfold s. rewrite lf_plus. change (lf n (fun b : nat => c n b) y) with (lf n (c n) y). ring.
  - unfold poly. fold y. rewrite qf_plus, (qf_rank n (fun a => c n n * u a + - (c a n + c n a)) u), lf_plus, lf_plus, !lf_scal. fold w.
    assert (E4 : lf n (fun a => - (c a n + c n a)) y = - s). { unfold s. replace (- lf n (fun a => c a n + c n a) y) with (-1 * lf n (fun a => c a n + c n a) y) by ring. rewrite <- lf_scal. apply lf_ext; [|reflexivity]. intros; ring. }
    rewrite E4. f_equal. unfold gm, gs, gm, b0. field. exact Dn.
Qed.
(** S is half the inverse of A *)
Definition half_inv (n : nat) (A S : nat -> nat -> R) : Prop := rsym n S /\ forall a b, (a < n)%nat -> (b < n)%nat -> sumR n (fun k => A a k * S k b) = 1 / 2 * dr a b.
Lemma half_inv_step n A S : 0 < A n n -> half_inv (Datatypes.S n) A S -> half_inv n (rsch n A) S /\
  (forall b, (b < n)%nat -> sumR n (fun k => A n k / A n n * S k b) = - S n b) /\ sumR n (fun k => A n k / A n n * S k n) = 1 / (2 * A n n) - S n n.
Proof.
  intros Hp [Hs H]. assert (Dn : A n n <> 0) by lra.
  assert (R1 : forall b, (b <= n)%nat -> sumR n (fun k => A n k / A n n * S k b) = 1 / 2 * dr n b / A n n - S n b).
  { intros b Hb. specialize (H n b). rewrite sumR_S in H. rewrite (sumR_ext n _ (fun k => / A n n * (A n k * S k b))) by (intros; field; exact Dn). rewrite sumR_scal.
    assert (H' := H ltac:(lia) ltac:(lia)). replace (sumR n (fun k => A n k * S k b)) with (1 / 2 * dr n b - A n n * S n b) by lra. field. exact Dn. }
  assert (R2 : forall b, (b < n)%nat -> sumR n (fun k => A n k / A n n * S k b) = - S n b).
  { intros b Hb. rewrite R1 by lia. unfold dr. destruct (Nat.eqb_spec n b); [lia|]. field. exact Dn. }
  split; [split; [intros a b Ha Hb; apply Hs; lia|]|split; [exact R2|]].
  - intros a b Ha Hb. unfold rsch. rewrite (sumR_ext n _ (fun k => A a k * S k b + - A a n * (A n k / A n n * S k b))) by (intros; field; exact Dn). rewrite sumR_plus, sumR_scal, R2 by exact Hb.
    specialize (H a b). rewrite sumR_S in H. rewrite <- H by lia. ring.
  - rewrite R1 by lia. unfold dr. rewrite Nat.eqb_refl. field. exact Dn.
Qed.
Theorem gaus_poly n : forall A S m c d e, rsym n A -> piv n A -> half_inv n A S -> WL n [] (fun l => gaus n A m l * poly n c d e (off m l)) (mdot n c S + e).
Proof.
  induction n as [|n IH]; intros A S m c d e Hs Hp Hi.
  - cbn [WL iterated]. unfold WL. cbn [iterated]. unfold gaus, poly, mdot, qf, lf, sumR. cbn [lnpiv seq map fold_right INR]. transitivity (exp 0 * (0 + 0 + e)); [rewrite exp_0; ring|]. f_equal. f_equal. ring.
  - destruct Hp as [Hd Hp]. destruct (half_inv_step n A S Hd Hi) as (Hi' & R2 & R3). set (u := fun a => A n a / A n n). pose proof Hi as [Ss _].
    apply iterated_to with (v := mdot n (fun a b => c a b + (fun a => c n n * u a + - (c a n + c n a)) a * u b) S + (e + c n n / (2 * A n n))).
    2:{ apply (WL_snoc n [] _ (fun l => gaus n (rsch n A) m l * poly n (fun a b => c a b + (c n n * u a + - (c a n + c n a)) * u b) (fun a => d a + - d n * u a) (e + c n n / (2 * A n n)) (off m l)));
        [intros l' L; exact (gaus_step n A m c d e l' Hs Hd L)|apply (IH (rsch n A) S); [now apply rsch_sym|exact Hp|exact Hi']]. }
    rewrite mdot_plus, mdot_rank, mdot_S. assert (U : forall a, (a < n)%nat -> sumR n (fun b => u b * S a b) = - S a n).
    { intros a Ha. rewrite (Ss a n) by lia. rewrite <- R2 by exact Ha. apply sumR_ext. intros k Hk. rewrite (Ss a k) by lia. reflexivity. }
    rewrite (sumR_ext n _ (fun a => - c n n * (A n a / A n n * S a n) + (c a n * S a n + c n a * S n a))).
    2:{ intros a Ha. rewrite U by exact Ha. rewrite (Ss n a) by lia. unfold u. ring. }
    rewrite !sumR_plus, sumR_scal, R3. field. lra.
Qed.
(** ** symmetric positive definite matrices *)
Lemma spd_last n A : spd (S n) A -> 0 < A n n.
Proof. intros H. destruct (hpd_last n _ (spd_C _ _ H)) as (r & Hr & E). apply RtoC_inj in E. lra. Qed.
Lemma sch_cmat n A a b : A n n <> 0 -> schur n (cmat A) a b = cmat (rsch n A) a b.
Proof. intros E. unfold schur, rsch. rewrite <- RtoC_div, <- RtoC_mult, <- RtoC_opp, <- RtoC_plus by exact E. f_equal. field. exact E. Qed.
Lemma spd_sch n A : spd (S n) A -> spd n (rsch n A).
Proof.
  intros H. pose proof (spd_last n A H) as L. apply C_spd. eapply hpd_ext; [|exact (hpd_schur n _ (spd_C _ _ H))]. intros a b _ _. apply sch_cmat. lra.
Qed.
Lemma rdet_sch n A : A n n <> 0 -> rdet (S n) A = A n n * rdet n (rsch n A).
Proof.
  intros E. apply RtoC_inj. rewrite RtoC_mult, <- !rdet_C. rewrite cdet_schur by (now apply RtoC_neq). f_equal. apply cdet_ext. intros a b _ _. now apply sch_cmat.
Qed.
Lemma spd_piv n : forall A, spd n A -> piv n A /\ lnpiv n A = ln (rdet n A).
Proof.
  induction n as [|n IH]; intros A H.
  - split; [exact Logic.I|]. cbn. now rewrite ln_1.
  - pose proof (spd_last n A H) as L. pose proof (spd_sch n A H) as Hs. destruct (IH _ Hs) as [P E]. split; [split; assumption|]. cbn [lnpiv]. rewrite E, rdet_sch by lra. rewrite ln_mult; [reflexivity|exact L|now apply spd_det].
Qed.
Lemma qf_shift n c y m : qf n c (fun a => y a + m a) = qf n c y + lf n (fun a => sumR n (fun b => (c a b + c b a) * m b)) y + qf n c m.
Proof.
  assert (E : lf n (fun a => sumR n (fun b => (c a b + c b a) * m b)) y = sumR n (fun a => sumR n (fun b => c a b * (y a * m b + m a * y b)))).
  { unfold lf. rewrite (sumR_ext n (fun a => sumR n (fun b => (c a b + c b a) * m b) * y a) (fun a => sumR n (fun b => c a b * (y a * m b)) + sumR n (fun b => c b a * (y a * m b)))).
    - rewrite sumR_plus, (rswap n n (fun a b => c b a * (y a * m b))), <- sumR_plus. apply sumR_ext. intros a _. rewrite <- sumR_plus. apply sumR_ext. intros; ring.
    - intros a _. rewrite Rmult_comm, <- sumR_scal, <- sumR_plus. apply sumR_ext. intros; ring. }
  rewrite E. unfold qf. rewrite <- !sumR_plus. apply sumR_ext. intros a _. rewrite <- !sumR_plus. apply sumR_ext. intros; ring.
Qed.
(** ** MultivariateNormal *)
Section Mvn.
  Variables (n : nat) (p : point).
  Notation MV := MultivariateNormal.
  Hypothesis P : nat_dom MV n p.
  Let A (a b : nat) : R := - hH p a b.
  Let m (a : nat) : R := -1 / 2 * hHe n p a.
  Let S (a b : nat) : R := -1 / 2 * hI n p a b.
  Lemma mvn_Am a : (a < n)%nat -> sumR n (fun b => A a b * m b) = 1 / 2 * hE p a.
  Proof.
    intros Ha. rewrite (sumR_ext n _ (fun b => 1 / 2 * (hH p a b * hHe n p b))) by (intros; unfold A, m; field). rewrite sumR_scal. f_equal. apply (rapply_inv n (hH p) (hE p) a); [exact (hH_ne n p P)|exact Ha].
  Qed.
  Lemma mvn_half : half_inv n A S.
  Proof.
    split; [intros a b Ha Hb; unfold S; now rewrite (hI_sym n p P a b Ha Hb)|]. intros a b Ha Hb. rewrite (sumR_ext n _ (fun k => 1 / 2 * (hH p a k * hI n p k b))) by (intros; unfold A, S; field). rewrite sumR_scal. f_equal.
    apply rinv_right; [exact (hH_ne n p P)|exact Ha|exact Hb].
  Qed.
  Lemma off_nth l a : nth a l 0 = off m l a + m a. Proof. unfold off. ring. Qed.
  Lemma mvn_ss v l : dotP (NP MV) (EP MV) n v (ssR n p (vector_obs l) MV) = lf n (hE v) (fun a => nth a l 0) + qf n (hH v) (fun a => nth a l 0).
  Proof.
    unfold dotP, var_fields. cbn [filter fields fd_fixed var fixd negb combine map fst snd fd_name fd_support]. cbn [supp_shape]. rewrite rsum_indices1, rsum_indices2. cbn [rsum fold_right]. rewrite Rplus_0_r. unfold lf, qf. f_equal.
    - apply sumR_ext. intros a Ha. vals. unfold hE. ring.
    - apply sumR_ext. intros a Ha. apply sumR_ext. intros b Hb. vals. cbn [nth]. unfold hH. ring.
  Qed.
  Lemma mvn_dens l : dens MV n p (vector_obs l) = gaus n A m l.
  Proof.
    unfold dens, gaus. f_equal. unfold lpR. rewrite mvn_ss. destruct (spd_piv n A P) as [_ ->].
    assert (EA : qf n (hH p) (fun a => nth a l 0) = - qf n A (fun a => nth a l 0)). { unfold qf. rewrite <- sumR_opp. apply sumR_ext. intros a _. rewrite <- sumR_opp. apply sumR_ext. intros; unfold A; ring. }
    rewrite EA. rewrite (qf_ext n A A (fun a => nth a l 0) (fun a => off m l a + m a)), (lf_ext n (hE p) (hE p) (fun a => nth a l 0) (fun a => off m l a + m a)) by (try reflexivity; intros; apply off_nth).
    rewrite qf_shift. assert (EM : forall a, (a < n)%nat -> sumR n (fun b => (A a b + A b a) * m b) = hE p a).
    { intros a Ha. rewrite (sumR_ext n _ (fun b => 2 * (A a b * m b))). - rewrite sumR_scal, mvn_Am by exact Ha. field. - intros b Hb. unfold A. rewrite (hH_sym n p P b a Hb Ha). ring. }
    rewrite (lf_ext n (fun a => sumR n (fun b => (A a b + A b a) * m b)) (hE p) (off m l) (off m l)) by (try reflexivity; exact EM).
    assert (EL : lf n (hE p) (fun a => off m l a + m a) = lf n (hE p) (off m l) + lf n (hE p) m) by (unfold lf; rewrite <- sumR_plus; apply sumR_ext; intros; ring).
    assert (EQ : qf n A m = 1 / 2 * lf n (hE p) m). { unfold qf, lf. rewrite <- sumR_scal. apply sumR_ext. intros a Ha. rewrite (sumR_ext n _ (fun b => m a * (A a b * m b))) by (intros; ring). rewrite sumR_scal, mvn_Am by exact Ha. ring. }
    assert (ER : lnR n p MV = - (1 / 2 * lf n (hE p) m) * -1 - 1 / 2 * ln (rdet n A) + 1 / 2 * INR n * ln PI).
    { cbv beta iota zeta delta [lnR]. change (fun a b : nat => - p false "negative_half_precision" [a; b]) with A. rewrite (Rabs_pos_eq (rdet n A)) by (left; exact (spd_det n A P)).
      assert (Z : sumR n (fun a => sumR n (fun b => rinv n (fun a b => p false "negative_half_precision" [a; b]) a b * (p false "mean_times_precision" [a] * p false "mean_times_precision" [b]))) = -2 * lf n (hE p) m); [|rewrite Z; field].
      unfold lf. rewrite <- sumR_scal. apply sumR_ext. intros a Ha. unfold m, hHe.
      replace (-2 * (hE p a * (-1 / 2 * sumR n (fun b => hI n p a b * hE p b)))) with (hE p a * sumR n (fun b => hI n p a b * hE p b)) by field. rewrite <- sumR_scal. apply sumR_ext. intros b Hb. unfold hI, hE. change (hH p) with (fun a b : nat => p false "negative_half_precision" [a; b]). ring. }
    rewrite ER, EL, EQ. cbv beta iota zeta delta [cmR]. field.
  Qed.
  Lemma mvn_quad c d e : WL n [] (fun l => gaus n A m l * (lf n d (fun a => nth a l 0) + qf n c (fun a => nth a l 0) + e)) (lf n d m + (qf n c m + mdot n c S) + e).
  Proof.
    destruct (spd_piv n A P) as [Pv _]. assert (Sy : rsym n A) by (intros a b Ha Hb; unfold A; now rewrite (hH_sym n p P a b Ha Hb)).
    pose proof (gaus_poly n A S m c (fun a => d a + sumR n (fun b => (c a b + c b a) * m b)) (lf n d m + qf n c m + e) Sy Pv mvn_half) as W.
    eapply WL_ext; [|eapply iterated_to; [|exact W]; ring]. intros l _. cbn [app]. cbv beta. f_equal. unfold poly.
    rewrite (qf_ext n c c (fun a => nth a l 0) (fun a => off m l a + m a)), (lf_ext n d d (fun a => nth a l 0) (fun a => off m l a + m a)) by (try reflexivity; intros; apply off_nth).
    rewrite qf_shift, lf_plus. assert (EL : lf n d (fun a => off m l a + m a) = lf n d (off m l) + lf n d m) by (unfold lf; rewrite <- sumR_plus; apply sumR_ext; intros; ring). rewrite EL. ring.
  Qed.
  Lemma lf_z y : lf n (fun _ => 0) y = 0. Proof. unfold lf. apply sumR_zero. intros; ring. Qed.
  Lemma qf_z y : qf n (fun _ _ => 0) y = 0. Proof. unfold qf. apply sumR_zero. intros; apply sumR_zero; intros; ring. Qed.
  Lemma mdot_z y : mdot n (fun _ _ => 0) y = 0. Proof. unfold mdot. apply sumR_zero. intros; apply sumR_zero; intros; ring. Qed.
  Lemma mvn_int : norm_ok MV n p /\ mean_ok MV n p /\ cm_ok MV n p.
  Proof.
    split; [|split].
    - eapply WL_ext; [|eapply iterated_to; [|exact (mvn_quad (fun _ _ => 0) (fun _ => 0) 1)]; rewrite lf_z, qf_z, mdot_z; ring]. intros l _. cbn [app]. cbv beta. rewrite lf_z, qf_z, mvn_dens. ring.
    - intros v. eapply WL_ext; [|eapply iterated_to; [|exact (mvn_quad (hH v) (hE v) 0)]].
      + intros l _. cbn [app]. cbv beta. rewrite mvn_dens, mvn_ss. ring.
      + rewrite mvn_dot, Rplus_0_r. f_equal. unfold qf, mdot. rewrite <- sumR_plus. apply sumR_ext. intros a Ha. rewrite <- sumR_plus. apply sumR_ext. intros b Hb. unfold m, S, hH. field.
    - eapply WL_ext; [|eapply iterated_to; [|exact (mvn_quad (fun _ _ => 0) (fun _ => 0) 0)]; rewrite lf_z, qf_z, mdot_z; unfold ecmR; ring]. intros l _. cbn [app]. cbv beta. rewrite lf_z, qf_z. unfold cmR. ring.
  Qed.
End Mvn.
(** ** Hermitian positive definite matrices, as real matrices on the real and imaginary parts *)
Local Notation C := Complex.C (only parsing).
Definition rm (X : nat -> nat -> C) (i j : nat) : R :=
  let x := X (Nat.div2 i) (Nat.div2 j) in match Nat.odd i, Nat.odd j with false, true => snd x | true, false => - snd x | _, _ => fst x end.
Lemma half0 a : Nat.div2 (2 * a) = a /\ Nat.odd (2 * a) = false.
Proof. split; [apply Nat.div2_double|]. rewrite Nat.odd_mul. reflexivity. Qed.
Lemma half1 a : Nat.div2 (2 * a + 1) = a /\ Nat.odd (2 * a + 1) = true.
Proof. replace (2 * a + 1)%nat with (Datatypes.S (2 * a)) by lia. split; [apply Nat.div2_succ_double|]. rewrite Nat.odd_succ, Nat.even_mul. reflexivity. Qed.
Lemma rm00 X a b : rm X (2 * a) (2 * b) = fst (X a b). Proof. unfold rm. destruct (half0 a) as [-> ->], (half0 b) as [-> ->]. reflexivity. Qed.
Lemma rm01 X a b : rm X (2 * a) (2 * b + 1) = snd (X a b). Proof. unfold rm. destruct (half0 a) as [-> ->], (half1 b) as [-> ->]. reflexivity. Qed.
Lemma rm10 X a b : rm X (2 * a + 1) (2 * b) = - snd (X a b). Proof. unfold rm. destruct (half1 a) as [-> ->], (half0 b) as [-> ->]. reflexivity. Qed.
Lemma rm11 X a b : rm X (2 * a + 1) (2 * b + 1) = fst (X a b). Proof. unfold rm. destruct (half1 a) as [-> ->], (half1 b) as [-> ->]. reflexivity. Qed.
Lemma parts i n : (i < n + n)%nat -> exists a, (a < n)%nat /\ (i = 2 * a \/ i = 2 * a + 1)%nat.
Proof. intros H. exists (Nat.div2 i). destruct (Nat.Even_or_Odd i) as [[k ->]|[k ->]]; [rewrite (proj1 (half0 k))|rewrite (proj1 (half1 k))]; split; lia. Qed.
Ltac rms := rewrite ?rm00, ?rm01, ?rm10, ?rm11.
Lemma rsch_ext n A B : (forall a b, (a < Datatypes.S n)%nat -> (b < Datatypes.S n)%nat -> A a b = B a b) -> forall a b, (a < n)%nat -> (b < n)%nat -> rsch n A a b = rsch n B a b.
Proof. intros H a b Ha Hb. unfold rsch. rewrite !H by lia. reflexivity. Qed.
Lemma piv_ext n : forall A B, (forall a b, (a < n)%nat -> (b < n)%nat -> A a b = B a b) -> piv n A -> piv n B.
Proof. induction n as [|n IH]; intros A B H; cbn [piv]; [auto|]. intros [Hd Hp]. split; [now rewrite <- H by lia|]. apply (IH (rsch n A)); [now apply rsch_ext|exact Hp]. Qed.
Lemma lnpiv_ext n : forall A B, (forall a b, (a < n)%nat -> (b < n)%nat -> A a b = B a b) -> lnpiv n A = lnpiv n B.
Proof. induction n as [|n IH]; intros A B H; cbn [lnpiv]; [reflexivity|]. rewrite H by lia. f_equal. apply IH. now apply rsch_ext. Qed.
Lemma rm_sym n X : (forall a b, (a < n)%nat -> (b < n)%nat -> X a b = Cconj (X b a)) -> rsym (n + n) (rm X).
Proof.
  intros H i j Hi Hj. destruct (parts i n Hi) as (a & Ha & [-> | ->]), (parts j n Hj) as (b & Hb & [-> | ->]); rms; rewrite (H a b Ha Hb); cbn [Cconj fst snd]; ring.
Qed.
Lemma rm_sch n X r : 0 < r -> X n n = RtoC r -> (forall a, (a <= n)%nat -> X a n = Cconj (X n a)) -> forall i j, (i < n + n)%nat -> (j < n + n)%nat ->
  rsch (n + n) (rsch (Datatypes.S (n + n)) (rm X)) i j = rm (schur n X) i j.
Proof.
  intros R E H i j Hi Hj. assert (N0 : r <> 0) by lra.
  replace (Datatypes.S (n + n)) with (2 * n + 1)%nat by lia. replace (n + n)%nat with (2 * n)%nat by lia. unfold rsch. rewrite !rm11, rm00, rm01, rm10.
  assert (Ss : forall a b, (a < n)%nat -> schur n X a b = (fst (X a b) - (fst (X a n) * fst (X n b) - snd (X a n) * snd (X n b)) / r, snd (X a b) - (fst (X a n) * snd (X n b) + snd (X a n) * fst (X n b)) / r)).
  { intros a b _. unfold schur. rewrite E. unfold Cdiv. rewrite <- RtoC_inv by exact N0. unfold RtoC, Cplus, Copp, Cmult. cbn [fst snd]. f_equal; field; exact N0. }
  destruct (parts i n Hi) as (a & Ha & [-> | ->]), (parts j n Hj) as (b & Hb & [-> | ->]); rms; rewrite (Ss a b Ha), E; cbn [RtoC fst snd]; field; exact N0.
Qed.
Lemma hpd_piv n : forall X, hpdC n X -> piv (n + n) (rm X) /\ lnpiv (n + n) (rm X) = 2 * ln (fst (cdet n X)).
Proof.
  induction n as [|n IH]; intros X H.
  - split; [exact Logic.I|]. cbn. rewrite ln_1. ring.
  - destruct (hpd_last n X H) as (r & R & E). assert (N0 : r <> 0) by lra. pose proof (hpd_schur n X H) as Hs. destruct (IH _ Hs) as [P L].
    assert (Q : forall i j, (i < n + n)%nat -> (j < n + n)%nat -> rm (schur n X) i j = rsch (n + n) (rsch (Datatypes.S (n + n)) (rm X)) i j).
    { intros i j Hi Hj. symmetry. apply (rm_sch n X r R E); [|exact Hi|exact Hj]. intros a Ha. apply (proj1 H); lia. }
    assert (D1 : rm X (Datatypes.S (n + n)) (Datatypes.S (n + n)) = r) by (replace (Datatypes.S (n + n)) with (2 * n + 1)%nat by lia; rewrite rm11, E; reflexivity).
    assert (D2 : rsch (Datatypes.S (n + n)) (rm X) (n + n) (n + n) = r).
    { unfold rsch. replace (Datatypes.S (n + n)) with (2 * n + 1)%nat by lia. replace (n + n)%nat with (2 * n)%nat by lia. rms. rewrite E. cbn [RtoC fst snd]. field. exact N0. }
    replace (Datatypes.S n + Datatypes.S n)%nat with (Datatypes.S (Datatypes.S (n + n))) by lia. cbn [piv lnpiv]. rewrite D1, D2. split.
    + split; [exact R|]. split; [exact R|]. exact (piv_ext _ _ _ Q P).
    + rewrite <- (lnpiv_ext _ _ _ Q), L. destruct (hpd_det n _ Hs) as (t & T & F). rewrite cdet_schur by (rewrite E; now apply RtoC_neq). rewrite E, F, <- RtoC_mult. cbn [RtoC fst]. rewrite ln_mult by assumption. ring.
Qed.
Lemma rm_half n X W : (forall a b, (a < n)%nat -> (b < n)%nat -> W a b = Cconj (W b a)) -> (forall a b, (a < n)%nat -> (b < n)%nat -> csum n (fun k => X a k * W k b)%C = MatFacts.dl a b) ->
  half_inv (n + n) (rm X) (fun i j => 1 / 2 * rm W i j).
Proof.
  intros Hs H. split; [intros i j Hi Hj; now rewrite (rm_sym n W Hs i j Hi Hj)|]. intros i j Hi Hj. rewrite sumR_2n.
  destruct (parts i n Hi) as (a & Ha & Ei), (parts j n Hj) as (b & Hb & Ej). pose proof (H a b Ha Hb) as Q. pose proof (f_equal fst Q) as Q1. pose proof (f_equal snd Q) as Q2. rewrite fst_csum in Q1. rewrite snd_csum in Q2. rewrite dl_dr in Q1, Q2. cbn [RtoC fst snd] in Q1, Q2.
  destruct Ei as [-> | ->], Ej as [-> | ->].
  - replace (dr (2 * a) (2 * b)) with (dr a b) by (unfold dr; destruct (Nat.eqb_spec a b), (Nat.eqb_spec (2 * a) (2 * b)); try lia; reflexivity). rewrite <- Q1, <- sumR_scal. apply sumR_ext. intros k _. rms. cbn [Cmult fst snd]. ring.
  - replace (dr (2 * a) (2 * b + 1)) with 0 by (unfold dr; destruct (Nat.eqb_spec (2 * a) (2 * b + 1)); try lia; reflexivity). transitivity (1 / 2 * 0); [|reflexivity]. rewrite <- Q2, <- sumR_scal. apply sumR_ext. intros k _. rms. cbn [Cmult fst snd]. ring.
  - replace (dr (2 * a + 1) (2 * b)) with 0 by (unfold dr; destruct (Nat.eqb_spec (2 * a + 1) (2 * b)); try lia; reflexivity). transitivity (- 1 / 2 * 0); [|field]. rewrite <- Q2, <- sumR_scal. apply sumR_ext. intros k _. rms. cbn [Cmult fst snd]. field.
  - replace (dr (2 * a + 1) (2 * b + 1)) with (dr a b) by (unfold dr; destruct (Nat.eqb_spec a b), (Nat.eqb_spec (2 * a + 1) (2 * b + 1)); try lia; reflexivity). rewrite <- Q1, <- sumR_scal. apply sumR_ext. intros k _. rms. cbn [Cmult fst snd]. ring.
Qed.
Lemma qf_rm n X y : qf (n + n) (rm X) y = fst (csum n (fun a => csum n (fun b => X a b * ((y (2 * a)%nat, y (2 * a + 1)%nat) * Cconj (y (2 * b)%nat, y (2 * b + 1)%nat)))%C)).
Proof.
  unfold qf. rewrite sumR_2n, fst_csum. apply sumR_ext. intros a _. rewrite !sumR_2n, fst_csum, <- sumR_plus. apply sumR_ext. intros b _. rms. unfold Cmult, Cconj. cbn [fst snd]. ring.
Qed.
Lemma mdot_rm n X W : mdot (n + n) (rm X) (fun i j => 1 / 2 * rm W i j) = fst (csum n (fun a => csum n (fun b => X a b * Cconj (W a b))%C)).
Proof.
  unfold mdot. rewrite sumR_2n, fst_csum. apply sumR_ext. intros a _. rewrite !sumR_2n, fst_csum, <- sumR_plus. apply sumR_ext. intros b _. rms. unfold Cmult, Cconj. cbn [fst snd]. field.
Qed.
(** ** ComplexCircularlySymmetricNormal *)
Section Ccs.
  Variables (n : nat) (p : point).
  Notation CC := ComplexCircularlySymmetricNormal.
  Hypothesis P : nat_dom CC n p.
  Let m (a : nat) : R := 0.
  Lemma off_0 l a : off m l a = nth a l 0. Proof. unfold off, m. ring. Qed.
  Lemma ccs_ss v l : dotP (NP CC) (EP CC) n v (ssR n p (complex_vector_obs l) CC) = qf (n + n) (rm (cV v)) (fun a => nth a l 0).
  Proof.
    unfold dotP, var_fields. cbn [filter fields fd_fixed var fixd negb combine map fst snd fd_name fd_support]. cbn [supp_shape]. rewrite rsum_indices2. cbn [rsum fold_right]. rewrite Rplus_0_r, qf_rm, fst_csum.
    apply sumR_ext. intros a Ha. rewrite fst_csum. apply sumR_ext. intros b Hb. vals. cbn [nth]. rewrite !Nat.add_0_r. replace (a + a)%nat with (2 * a)%nat by lia. replace (b + b)%nat with (2 * b)%nat by lia. unfold cV. cbn [Cmult fst snd]. reflexivity.
  Qed.
  Lemma ccs_dens l : dens CC n p (complex_vector_obs l) = gaus (n + n) (rm (ccsP p)) m l.
  Proof.
    unfold dens, gaus. f_equal. unfold lpR. rewrite ccs_ss. destruct (hpd_piv n _ (ccs_hpd n p P)) as [_ ->].
    rewrite (qf_ext (n + n) (rm (ccsP p)) (rm (ccsP p)) (off m l) (fun a => nth a l 0)) by (try reflexivity; intros; apply off_0).
    assert (E : qf (n + n) (rm (cV p)) (fun a => nth a l 0) = - qf (n + n) (rm (ccsP p)) (fun a => nth a l 0)).
    { unfold qf. rewrite <- sumR_opp. apply sumR_ext. intros i _. rewrite <- sumR_opp. apply sumR_ext. intros j _. rewrite <- Ropp_mult_distr_l_reverse. f_equal. unfold rm, ccsP, cV. destruct (Nat.odd i), (Nat.odd j); cbn; ring. }
    rewrite E. change (lnR n p CC) with (- ln (fst (cdet n (ccsP p))) + INR n * ln PI). change (cmR n p (complex_vector_obs l) CC) with 0. rewrite plus_INR. field.
  Qed.
  Lemma ccs_quad v e : WL (n + n) [] (fun l => gaus (n + n) (rm (ccsP p)) m l * (qf (n + n) (rm (cV v)) (fun a => nth a l 0) + e)) (fst (csum n (fun a => csum n (fun b => cV v a b * Cconj (cinv n (ccsP p) a b))%C)) + e).
  Proof.
    pose proof (ccs_hpd n p P) as H. destruct (hpd_piv n _ H) as [Pv _].
    pose proof (gaus_poly (n + n) (rm (ccsP p)) (fun i j => 1 / 2 * rm (cinv n (ccsP p)) i j) m (rm (cV v)) (fun _ => 0) e (rm_sym n _ (proj1 H)) Pv) as W.
    rewrite mdot_rm in W. eapply WL_ext; [|apply W; apply rm_half].
    - intros l _. cbn [app]. cbv beta. f_equal. unfold poly. rewrite lf_z, Rplus_0_r. f_equal. apply qf_ext; [reflexivity|]. intros; apply off_0.
    - exact (cA_sym n p P).
    - intros a b Ha Hb. apply cinv_right; [exact (hpd_det_ne _ _ H)|exact Ha|exact Hb].
  Qed.
  Definition zpt : point := fun _ _ _ => 0.
  Lemma qf_zp y : qf (n + n) (rm (cV zpt)) y = 0.
  Proof. unfold qf. apply sumR_zero. intros i _. apply sumR_zero. intros j _. unfold rm, cV, zpt. destruct (Nat.odd i), (Nat.odd j); cbn; ring. Qed.
  Lemma cs_zp : fst (csum n (fun a => csum n (fun b => cV zpt a b * Cconj (cinv n (ccsP p) a b))%C)) = 0.
  Proof. rewrite csum_zero; [reflexivity|]. intros a _. apply csum_zero. intros b _. unfold cV, zpt. change (0, 0) with (RtoC 0). ring. Qed.
  Lemma ccs_int : norm_ok CC n p /\ mean_ok CC n p /\ cm_ok CC n p.
  Proof.
    split; [|split].
    - eapply WL_ext; [|eapply iterated_to; [|exact (ccs_quad zpt 1)]; rewrite cs_zp; ring]. intros l _. cbn [app]. cbv beta. rewrite qf_zp, ccs_dens. ring.
    - intros v. eapply WL_ext; [|eapply iterated_to; [|exact (ccs_quad v 0)]].
      + intros l _. cbn [app]. cbv beta. rewrite ccs_dens, ccs_ss. ring.
      + rewrite ccs_dot. ring.
    - eapply WL_ext; [|eapply iterated_to; [|exact (ccs_quad zpt 0)]; rewrite cs_zp; unfold ecmR; ring]. intros l _. cbn [app]. cbv beta. rewrite qf_zp. change (cmR n p (complex_vector_obs l) CC) with 0. ring.
  Qed.
End Ccs.
