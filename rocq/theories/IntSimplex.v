(** The integrals over the simplex: Dirichlet and GeneralizedDirichlet (C23, C25). *)
From Coquelicot Require Import Coquelicot.
From Coq Require Import String List Bool Arith ZArith Reals Lra Lia.
From Verif Require Import Base XReal Tensor Support Dist Iteration Structure Tools Joint Spec SumSpec DotSpec PointSpec DensSpec SpecFun GammaFn BesselFn Val FamR FamVal DerivFacts DensVal DensThms ConvFacts IntSpec IntFacts GammaInt IntNorm IntGen IntMulti IntFam.
Import ListNotations.
Local Unset Asymmetric Patterns.
Local Open Scope string_scope.
Local Open Scope R_scope.

Definition lbeta (a b : R) : R := lngamma a + lngamma b - lngamma (a + b).
Definition beta_pt (a b : R) : point := fun c m j => if c then 0 else if (hd 0 j =? 0)%nat then a - 1 else b - 1.
Lemma beta_pt_lp a b t : exp (lpR 2 (beta_pt a b) (scalar_obs t) Beta) = exp ((a - 1) * ln t + (b - 1) * ln (1 - t) - lbeta a b).
Proof.
  f_equal. lpe. rewrite !sumR2. cbn [Nat.eqb]. unfold beta_pt. cbn [hd Nat.eqb]. change (INR 2) with (1 + 1). unfold lbeta. replace (a - 1 + (b - 1) + (1 + 1)) with (a + b) by ring. replace (a - 1 + 1) with a by ring. replace (b - 1 + 1) with b by ring. unfold Rminus. ring.
Qed.
Lemma beta_pt_dot a b u w t : dotP (NP Beta) (EP Beta) 2 (beta_pt (u + 1) (w + 1)) (ssR 2 (beta_pt a b) (scalar_obs t) Beta) = u * ln t + w * ln (1 - t).
Proof. dots. rewrite sumR2. vals. unfold beta_pt. cbn [hd Nat.eqb]. unfold Rminus. ring. Qed.
Lemma beta_unit a b u w e : 0 < a -> 0 < b ->
  sg (line 0 1) (fun t => exp ((a - 1) * ln t + (b - 1) * ln (1 - t)) * (e + u * ln t + w * ln (1 - t))) (exp (lbeta a b) * (e + u * (digamma a - digamma (a + b)) + w * (digamma b - digamma (a + b)))).
Proof.
  intros Ha Hb. assert (D : nat_dom Beta 2 (beta_pt a b)). { split; [lia|]. intros [|[|k]] Hk; try lia; unfold beta_pt; cbn; lra. }
  pose proof (int_sg _ _ _ (norm_beta (beta_pt a b) D : int (line 0 1) _ 1)) as M0.
  pose proof (gen_expect (line 0 1) scalar_obs Beta 2 (beta_pt a b) (beta_pt (u + 1) (w + 1)) eq_refl norm_beta D) as M1.
  assert (C1 : good (line 0 1) (fun t : R => exp (lpR 2 (beta_pt a b) (scalar_obs t) Beta) * dotP (NP Beta) (EP Beta) 2 (beta_pt (u + 1) (w + 1)) (ssR 2 (beta_pt a b) (scalar_obs t) Beta))).
  { intros t [H1 H2]. cbn in H1, H2. apply (cont_eq (fun t => exp ((a - 1) * ln t + (b - 1) * ln (1 - t) - lbeta a b) * (u * ln t + w * ln (1 - t)))).
    - intros s. now rewrite beta_pt_lp, beta_pt_dot.
    - apply (ex_derive_continuous (fun t => exp ((a - 1) * ln t + (b - 1) * ln (1 - t) - lbeta a b) * (u * ln t + w * ln (1 - t)))). auto_derive. repeat split; lra. }
  eapply sg_ext; [|eapply sg_to; [|exact (sg_scal _ _ _ (exp (lbeta a b)) (sg_plus _ _ _ _ _ (sg_scal _ _ _ e M0) (M1 C1)))]].
  - intros t _. cbv beta. rewrite beta_pt_lp, beta_pt_dot. set (q := (a - 1) * ln t + (b - 1) * ln (1 - t)). replace (exp q) with (exp (lbeta a b) * exp (q - lbeta a b)) by (rewrite <- exp_plus; f_equal; ring). ring.
  - dots. rewrite sumR2. vals. unfold beta_pt. cbn [hd Nat.eqb]. rewrite sumR2. cbn [hd Nat.eqb]. change (INR 2) with (1 + 1). replace (a - 1 + (b - 1) + (1 + 1)) with (a + b) by ring. replace (a - 1 + 1) with a by ring. replace (b - 1 + 1) with b by ring. ring.
Qed.
Lemma sg_scale F v s : 0 < s -> sg (line 0 1) F v -> sg (line 0 s) (fun x => F (x / s) / s) v.
Proof.
  intros Hs (A & B & a & b & HA & HB & E & ->).
  assert (S : forall G g, nint 0 1 G g -> nint 0 s (fun x => G (x / s) * / s) g).
  { intros G g HG. apply (nint_subst 0 s 0 1 G g (fun x => x / s) (fun _ => / s) HG).
    - intros t [H1 H2]. cbn in *. split; cbn; [apply Rdiv_lt_0_compat; lra|]. apply Rmult_lt_reg_r with s; [lra|]. unfold Rdiv. rewrite Rmult_assoc, Rinv_l by lra. lra.
    - intros t [H1 H2]. cbn in *. exists (t * s). split; [split; cbn; nra|]. field. lra.
    - intros t _. auto_derive; [auto|]. ring.
    - intros t _. apply continuous_const.
    - intros t _. now apply Rinv_0_lt_compat. }
  exists (fun x => A (x / s) * / s), (fun x => B (x / s) * / s), a, b. split; [now apply S|]. split; [now apply S|]. split; [|reflexivity].
  intros t [H1 H2]. cbn in *. rewrite E; [unfold Rdiv; ring|]. split; cbn; [apply Rdiv_lt_0_compat; lra|]. apply Rmult_lt_reg_r with s; [lra|]. unfold Rdiv. rewrite Rmult_assoc, Rinv_l by lra. lra.
Qed.
Lemma beta_scaled s a b u w e : 0 < s -> 0 < a -> 0 < b ->
  improper 0 s (fun x => exp ((a - 1) * ln x + (b - 1) * ln (s - x)) * (e + u * ln x + w * ln (s - x)))
    (exp ((a + b - 1) * ln s + lbeta a b) * (e + u * (ln s + (digamma a - digamma (a + b))) + w * (ln s + (digamma b - digamma (a + b))))).
Proof.
  intros Hs Ha Hb. apply sg_improper. pose proof (sg_scale _ _ s Hs (beta_unit a b u w (e + u * ln s + w * ln s) Ha Hb)) as Q.
  eapply sg_ext; [|eapply sg_to; [|exact (sg_scal _ _ _ (exp ((a + b - 1) * ln s)) Q)]].
  - intros x [H1 H2]. cbn in H1, H2. cbv beta. replace (1 - x / s) with ((s - x) / s) by (field; lra). rewrite !ln_div by lra.
    replace (exp ((a - 1) * ln x + (b - 1) * ln (s - x))) with (exp ((a + b - 1) * ln s) * (exp ((a - 1) * (ln x - ln s) + (b - 1) * (ln (s - x) - ln s)) / s)).
    + unfold Rdiv. ring.
    + replace (/ s) with (exp (- ln s)) by (rewrite exp_Ropp, exp_ln by lra; reflexivity). unfold Rdiv. replace (/ s) with (exp (- ln s)) by (rewrite exp_Ropp, exp_ln by lra; reflexivity). rewrite <- !exp_plus. f_equal. ring.
  - rewrite exp_plus. ring.
Qed.
Definition sk (k : nat) (l : list R) : R := 1 - sumR k (fun j => nth j l 0).
Lemma lsum_app l t : lsum (l ++ [t])%list = lsum l + t.
Proof. induction l as [|x l IH]; cbn; [ring|]. unfold lsum in IH. rewrite IH. ring. Qed.
Lemma lsum_sumR l : lsum l = sumR (length l) (fun j => nth j l 0).
Proof. induction l as [|x l IH]; [reflexivity|]. cbn [length]. rewrite sumR_Sl. cbn [nth lsum fold_right]. unfold lsum in IH. now rewrite IH. Qed.
Lemma sk_len l : sk (length l) l = 1 - lsum l. Proof. unfold sk. now rewrite lsum_sumR. Qed.
Lemma sk_app k l t : (k <= length l)%nat -> sk k (l ++ [t])%list = sk k l.
Proof. intros H. unfold sk. f_equal. apply sumR_ext. intros j Hj. apply app_nth1. lia. Qed.
Lemma nth_mid (l : list R) t : nth (length l) (l ++ [t])%list 0 = t.
Proof. rewrite app_nth2, Nat.sub_diag by lia. reflexivity. Qed.
Definition slo : list R -> Rbar := fun _ => Finite 0.
Definition shi : list R -> Rbar := fun l => Finite (1 - lsum l).
Section Smp.
  Variables (n : nat) (a c u w A Rr E LK : nat -> R).
  Let b k := c k + 1 + A (Datatypes.S k).
  Hypothesis Ha : forall k, (k < n)%nat -> 0 < a k.
  Hypothesis Hb : forall k, (k < n)%nat -> 0 < b k.
  Hypothesis HA : forall k, (k < n)%nat -> A k = a k + c k + A (Datatypes.S k).
  Hypothesis HR : forall k, (k < n)%nat -> Rr k = u k + w k + Rr (Datatypes.S k).
  Hypothesis HE : forall k, (k < n)%nat -> E k = E (Datatypes.S k) + u k * (digamma (a k) - digamma (a k + b k)) + (w k + Rr (Datatypes.S k)) * (digamma (b k) - digamma (a k + b k)).
  Hypothesis HL : forall k, (k < n)%nat -> LK k = lbeta (a k) (b k) + LK (Datatypes.S k).
  Definition pre (m : nat) (l : list R) : R := sumR m (fun k => (a k - 1) * ln (nth k l 0) + c k * ln (sk (Datatypes.S k) l)).
  Definition tre (m : nat) (l : list R) : R := sumR m (fun k => u k * ln (nth k l 0) + w k * ln (sk (Datatypes.S k) l)).
  Definition closed (m : nat) (l : list R) : R := exp (pre m l + A m * ln (sk m l) + LK m) * (tre m l + Rr m * ln (sk m l) + E m).
  Lemma simplex_closed r : forall l, (length l + r = n)%nat -> lsum l < 1 -> iterated r slo shi l (closed n) (closed (length l) l).
  Proof.
    induction r as [|r IH]; intros l L S; cbn [iterated]; [rewrite Nat.add_0_r in L; now rewrite L|].
    set (m := length l). assert (Hm : (m < n)%nat) by (unfold m; lia). set (s := 1 - lsum l) in *. assert (Hs : 0 < s) by (unfold s; lra).
    exists (fun t => closed (Datatypes.S m) (l ++ [t])%list). split.
    - intros t [T1 T2]. cbn in T1, T2. replace (Datatypes.S m) with (length (l ++ [t])%list) by (rewrite app_length; cbn; unfold m; lia). apply IH; [rewrite app_length; cbn; lia|]. rewrite lsum_app. lra.
    - pose proof (beta_scaled s (a m) (b m) (u m) (w m + Rr (Datatypes.S m)) (tre m l + E (Datatypes.S m)) Hs (Ha m Hm) (Hb m Hm)) as Q. apply (improper_scal _ _ _ _ (exp (pre m l + LK (Datatypes.S m)))) in Q.
      eapply improper_ext with (a0 := s / 2); [split; cbn; fold s; lra| |eapply improper_to; [|exact Q]].
      + intros t [T1 T2]. cbn in T1, T2. fold s in T2. cbv beta. assert (Nm : nth m (l ++ [t])%list 0 = t) by apply nth_mid. unfold closed, pre, tre. rewrite !sumR_S, !Nm.
        assert (Sk : sk (Datatypes.S m) (l ++ [t])%list = s - t). { unfold sk. rewrite sumR_S, Nm. rewrite (sumR_ext m _ (fun j => nth j l 0)) by (intros; apply app_nth1; fold m; lia). unfold m. rewrite <- (lsum_sumR l). unfold s. ring. }
        rewrite !Sk. rewrite (sumR_ext m (fun k => (a k - 1) * ln (nth k (l ++ [t])%list 0) + c k * ln (sk (Datatypes.S k) (l ++ [t])%list)) (fun k => (a k - 1) * ln (nth k l 0) + c k * ln (sk (Datatypes.S k) l)))
          by (intros k Hk; rewrite sk_app by (fold m; lia); rewrite app_nth1 by (fold m; lia); reflexivity).
        rewrite (sumR_ext m (fun k => u k * ln (nth k (l ++ [t])%list 0) + w k * ln (sk (Datatypes.S k) (l ++ [t])%list)) (fun k => u k * ln (nth k l 0) + w k * ln (sk (Datatypes.S k) l)))
          by (intros k Hk; rewrite sk_app by (fold m; lia); rewrite app_nth1 by (fold m; lia); reflexivity).
        fold (pre m l) (tre m l). rewrite <- Rmult_assoc, <- exp_plus. f_equal; [|ring]. f_equal. unfold b. ring.
      + unfold closed. assert (Sm : sk m l = s) by (unfold m, s; apply sk_len). rewrite Sm. rewrite <- Rmult_assoc, <- exp_plus. f_equal; [f_equal|].
        * rewrite (HA m Hm), (HL m Hm). unfold b. ring.
        * rewrite (HR m Hm), (HE m Hm). ring.
  Qed.
  Lemma simplex_total : iterated n slo shi [] (closed n) (exp (LK 0%nat) * E 0%nat).
  Proof.
    eapply iterated_to; [|apply (simplex_closed n []); [reflexivity|cbn; lra]]. cbn [length]. unfold closed, pre, tre, sk. rewrite !sumR_0. replace (1 - 0) with 1 by ring. rewrite ln_1. f_equal; [f_equal|]; ring.
  Qed.
End Smp.
Lemma simplex_valid l l' : valid slo shi l l' -> lsum l < 1 -> (forall k, (k < length l)%nat -> 0 < nth k l 0) -> lsum (l ++ l')%list < 1 /\ forall k, (k < length (l ++ l')%list)%nat -> 0 < nth k (l ++ l')%list 0.
Proof.
  revert l. induction l' as [|t r IH]; intros l V S P; [rewrite app_nil_r; auto|]. cbn [valid] in V. destruct V as [[T1 T2] V]. cbn in T1, T2. replace (l ++ t :: r)%list with ((l ++ [t]) ++ r)%list by (rewrite <- app_assoc; reflexivity).
  apply IH; [exact V|rewrite lsum_app; lra|]. intros k Hk. rewrite app_length in Hk. cbn in Hk. destruct (Nat.lt_ge_cases k (length l)) as [Lt|Ge]; [rewrite app_nth1 by lia; auto|]. replace k with (length l) by lia. rewrite nth_mid. exact T1.
Qed.
Lemma simplex_ext n F G v : (forall l, length l = n -> lsum l < 1 -> (forall k, (k < n)%nat -> 0 < nth k l 0) -> F l = G l) -> iterated n slo shi [] F v -> iterated n slo shi [] G v.
Proof.
  intros H. apply iterated_ext; [exact Logic.I|]. intros l L V. cbn [app]. destruct (simplex_valid [] l V) as [S P]; [cbn; lra|cbn; intros; lia|]. cbn [app] in S, P. apply H; [exact L|exact S|]. rewrite <- L. exact P.
Qed.
Definition tail (n : nat) (g : nat -> R) (k : nat) : R := sumR (n - k) (fun j => g (k + j)%nat).
Lemma tail_S n g k : (k < n)%nat -> tail n g k = g k + tail n g (Datatypes.S k).
Proof.
  intros H. unfold tail. replace (n - k)%nat with (Datatypes.S (n - Datatypes.S k)) by lia. rewrite sumR_Sl, Nat.add_0_r. f_equal. apply sumR_ext. intros j _. f_equal. lia.
Qed.
Lemma tail_end n g : tail n g n = 0. Proof. unfold tail. now rewrite Nat.sub_diag, sumR_0. Qed.
Lemma tail_0 n g : tail n g 0 = sumR n g. Proof. unfold tail. rewrite Nat.sub_0_r. apply sumR_ext. reflexivity. Qed.
Lemma tail_pos n g k : (k < n)%nat -> (forall j, (j < n)%nat -> 0 < g j) -> 0 < tail n g k.
Proof. intros H P. unfold tail. apply sumR_pos; [intros j Hj; apply P; lia|lia]. Qed.
Lemma tail_nonneg n g k : (forall j, (j < n)%nat -> 0 < g j) -> 0 <= tail n g k.
Proof. intros P. unfold tail. apply sumR_nonneg. intros j Hj. left. apply P; lia. Qed.
Lemma tail_more n g k : (k <= n)%nat -> tail (Datatypes.S n) g k = tail n g k + g n.
Proof. intros H. unfold tail. replace (Datatypes.S n - k)%nat with (Datatypes.S (n - k)) by lia. rewrite sumR_S. f_equal. f_equal. lia. Qed.
Lemma swap_tail n g w : sumR n (fun k => w k * sumR k g) = sumR n (fun m => g m * tail n w (Datatypes.S m)).
Proof.
  induction n as [|n IH]; [reflexivity|]. rewrite !sumR_S, IH, tail_end, Rmult_0_r, Rplus_0_r. rewrite (sumR_ext n (fun m => g m * tail (Datatypes.S n) w (Datatypes.S m)) (fun m => g m * tail n w (Datatypes.S m) + w n * g m)).
  - rewrite sumR_plus, sumR_scal. ring.
  - intros k Hk. rewrite tail_more by lia. ring.
Qed.
Lemma sumR_last n (g : nat -> R) : (1 <= n)%nat -> sumR n g = sumR (n - 1) g + g (n - 1)%nat.
Proof. intros H. replace n with (Datatypes.S (n - 1)) at 1 by lia. apply sumR_S. Qed.
(** *** Dirichlet *)
Section Dir.
  Variables (n : nat) (p : point).
  Hypothesis H : nat_dom Dirichlet n p.
  Let al k := p false "alpha_minus_one" [k] + 1.
  Let N := (n - 1)%nat.
  Definition dirE (v : nat -> R) (e : R) (k : nat) : R := tail n (fun j => v j * digamma (al j)) k - tail n v k * digamma (tail n al k) + e.
  Definition dirL (k : nat) : R := tail n (fun j => lngamma (al j)) k - lngamma (tail n al k) - lnR n p Dirichlet.
  Lemma dir_pos k : (k < n)%nat -> 0 < al k. Proof. intros K. destruct H as [_ P]. specialize (P k K). unfold al. cbv zeta in P. lra. Qed.
  Lemma dir_total v e : iterated N slo shi [] (closed al (fun _ => 0) v (fun _ => 0) (fun k => tail n al k - 1) (tail n v) (dirE v e) dirL N) (sumR n (fun k => v k * (digamma (al k) - digamma (sumR n al))) + e).
  Proof.
    pose proof H as [H2 _]. eapply iterated_to; [|apply simplex_total].
    - cbv beta. replace (dirL 0) with 0.
      + rewrite exp_0, Rmult_1_l. unfold dirE. rewrite !tail_0. f_equal. rewrite (sumR_ext n (fun k => v k * (digamma (al k) - digamma (sumR n al))) (fun k => v k * digamma (al k) + (- digamma (sumR n al)) * v k)) by (intros; ring). rewrite sumR_plus, sumR_scal. ring.
      + unfold dirL. rewrite !tail_0. cbv beta iota zeta delta [lnR]. unfold al. replace (sumR n (fun k => p false "alpha_minus_one" [k] + 1)) with (sumR n (fun k => p false "alpha_minus_one" [k]) + INR n); [ring|]. rewrite sumR_plus, sumR_const. ring.
    - intros k Hk. apply dir_pos. unfold N in Hk. lia.
    - intros k Hk. replace (0 + 1 + (tail n al (Datatypes.S k) - 1)) with (tail n al (Datatypes.S k)) by ring. apply tail_pos; [unfold N in Hk; lia|]. intros; now apply dir_pos.
    - intros k Hk. unfold N in Hk. rewrite (tail_S n al k) by lia. ring.
    - intros k Hk. unfold N in Hk. rewrite (tail_S n v k) by lia. ring.
    - intros k Hk. unfold N in Hk. unfold dirE. rewrite (tail_S n v k), (tail_S n (fun j => v j * digamma (al j)) k), (tail_S n al k) by lia. replace (0 + 1 + (tail n al (Datatypes.S k) - 1)) with (tail n al (Datatypes.S k)) by ring. ring.
    - intros k Hk. unfold N in Hk. unfold dirL, lbeta. rewrite (tail_S n (fun j => lngamma (al j)) k), (tail_S n al k) by lia. replace (0 + 1 + (tail n al (Datatypes.S k) - 1)) with (tail n al (Datatypes.S k)) by ring. ring.
  Qed.
  Lemma dir_dot (v : point) l : dotP (NP Dirichlet) (EP Dirichlet) n v (ssR n p (vector_obs l) Dirichlet) = sumR N (fun k => v false "alpha_minus_one" [k] * ln (nth k l 0)) + v false "alpha_minus_one" [N] * ln (sk N l).
  Proof.
    pose proof H as [H2 _]. dots. vals. rewrite Rplus_0_r, (sumR_last n) by lia. fold N. destruct (Nat.ltb_spec N N) as [Lt|_]; [lia|]. f_equal; [|unfold sk; ring].
    apply sumR_ext. intros k Hk. destruct (Nat.ltb_spec k N); [ring|lia].
  Qed.
  Lemma dir_closed (v : point) e l : length l = N -> lsum l < 1 -> closed al (fun _ => 0) (fun k => v false "alpha_minus_one" [k]) (fun _ => 0) (fun k => tail n al k - 1) (tail n (fun k => v false "alpha_minus_one" [k])) (dirE (fun k => v false "alpha_minus_one" [k]) e) dirL N l =
    dens Dirichlet n p (vector_obs l) * (dotP (NP Dirichlet) (EP Dirichlet) n v (ssR n p (vector_obs l) Dirichlet) + e).
  Proof.
    intros L S. pose proof H as [H2 _]. unfold closed, dens, lpR. assert (TN : forall g, tail n g N = g N). { intros g. rewrite tail_S by (unfold N; lia). replace (Datatypes.S N) with n by (unfold N; lia). rewrite tail_end. ring. }
    unfold dirE, dirL. rewrite !TN, !dir_dot. change (cmR n p (vector_obs l) Dirichlet) with 0. f_equal; [f_equal|].
    - unfold pre. rewrite (sumR_ext N _ (fun k => p false "alpha_minus_one" [k] * ln (nth k l 0))) by (intros; unfold al; ring). unfold al. ring.
    - unfold tre. rewrite (sumR_ext N _ (fun k => v false "alpha_minus_one" [k] * ln (nth k l 0))) by (intros; ring). ring.
  Qed.
End Dir.
Lemma dir_int n p : nat_dom Dirichlet n p -> norm_ok Dirichlet n p /\ mean_ok Dirichlet n p /\ cm_ok Dirichlet n p.
Proof.
  intros H. assert (G : forall v e (F : list R -> R) V, (forall l, F l = dens Dirichlet n p (vector_obs l) * (dotP (NP Dirichlet) (EP Dirichlet) n v (ssR n p (vector_obs l) Dirichlet) + e)) ->
    V = dotP (NP Dirichlet) (EP Dirichlet) n v (expR n p Dirichlet) + e -> iterated (n - 1) slo shi [] F V).
  { intros v e F V EF ->. eapply simplex_ext; [|eapply iterated_to; [|exact (dir_total n p H (fun k => v false "alpha_minus_one" [k]) e)]].
    - intros l L S _. rewrite EF. now apply dir_closed.
    - f_equal. dots. vals. rewrite Rplus_0_r. apply sumR_ext. intros k _. rewrite (sumR_plus n _ (fun _ => 1)), sumR_const. replace (INR n * 1) with (INR n) by ring. ring. }
  split; [|split].
  - apply (G (fun _ _ _ => 0) 1); [intros l; dots; vals|dots; vals]; rewrite (sumR_zero n) by (intros; ring); ring.
  - intros v. apply (G v 0); [intros l; ring|ring].
  - apply (G (fun _ _ _ => 0) 0); [intros l; dots; vals|dots; vals]; rewrite (sumR_zero n) by (intros; ring); ring.
Qed.
(** *** GeneralizedDirichlet *)
Lemma rev_sum (m : nat) (g : nat -> R) : forall k, sumR m (fun j => g (k + (m - 1 - j))%nat) = sumR m (fun j => g (k + j)%nat).
Proof.
  induction m as [|m IH]; intros k; [reflexivity|]. rewrite sumR_Sl, sumR_S. rewrite Rplus_comm. f_equal; [|f_equal; lia]. rewrite <- IH. apply sumR_ext. intros j Hj. f_equal. lia.
Qed.
Lemma rev_tail' n k (g : nat -> R) : (k <= n)%nat -> sumR (n - k) (fun m => g (n - 1 - m)%nat) = tail n g k.
Proof. intros K. unfold tail. rewrite <- (rev_sum (n - k) g k). apply sumR_ext. intros j Hj. f_equal. lia. Qed.
Lemma tail_plus n g h k : tail n (fun j => g j + h j) k = tail n g k + tail n h k.
Proof. unfold tail. apply sumR_plus. Qed.
Section GD.
  Variables (n : nat) (p : point).
  Hypothesis H : nat_dom GeneralizedDirichlet n p.
  Let al k := gdR_alpha p k.
  Let ga' k := p false "gamma" [k].
  Let A k := tail n (fun j => al j + ga' j) k.
  Lemma gd_beta k : (k < n)%nat -> ga' k + 1 + A (Datatypes.S k) = gdR_beta n p k.
  Proof.
    intros K. unfold gdR_beta, A. replace (Datatypes.S (n - 1 - k)) with (n - k)%nat by lia. replace (n - 1 - k)%nat with (n - Datatypes.S k)%nat by lia. 
    pose proof (rev_tail' n k ga' ltac:(lia)) as E1. pose proof (rev_tail' n (Datatypes.S k) al ltac:(lia)) as E2. unfold ga', al in E1, E2. rewrite E1, E2. fold al ga'. rewrite tail_plus, (tail_S n ga' k) by lia. ring.
  Qed.
  Lemma gd_pos k : (k < n)%nat -> 0 < al k /\ 0 < ga' k.
  Proof. intros K. destruct (H k K) as [H1 H2]. unfold al, gdR_alpha, ga'. cbv zeta in *. split; lra. Qed.
  Lemma gd_bpos k : (k < n)%nat -> 0 < ga' k + 1 + A (Datatypes.S k).
  Proof. intros K. destruct (gd_pos k K). assert (0 <= A (Datatypes.S k)); [|lra]. apply tail_nonneg. intros j J. destruct (gd_pos j J). lra. Qed.
  Let ds k := digamma (al k + gdR_beta n p k).
  Definition gdE (u w : nat -> R) (e : R) (k : nat) : R :=
    tail n (fun j => u j * (digamma (al j) - ds j) + (w j + tail n (fun i => u i + w i) (Datatypes.S j)) * (digamma (gdR_beta n p j) - ds j)) k + e.
  Definition gdL (k : nat) : R := tail n (fun j => lbeta (al j) (gdR_beta n p j)) k - lnR n p GeneralizedDirichlet.
  Lemma gd_E0 u w e : gdE u w e 0 = sumR n (fun k => u k * (digamma (al k) - ds k + sumR k (fun m => digamma (gdR_beta n p m) - ds m))) + sumR n (fun k => w k * sumR (Datatypes.S k) (fun m => digamma (gdR_beta n p m) - ds m)) + e.
  Proof.
    unfold gdE. rewrite tail_0. f_equal. set (g m := digamma (gdR_beta n p m) - ds m).
    rewrite (sumR_ext n (fun k => u k * (digamma (al k) - ds k + sumR k g)) (fun k => u k * (digamma (al k) - ds k) + u k * sumR k g)) by (intros; ring).
    rewrite (sumR_ext n (fun k => w k * sumR (Datatypes.S k) g) (fun k => w k * g k + w k * sumR k g)) by (intros; rewrite sumR_S; ring).
    rewrite !sumR_plus, !swap_tail. rewrite (sumR_ext n (fun k => (w k + tail n (fun i => u i + w i) (Datatypes.S k)) * (digamma (gdR_beta n p k) - ds k)) (fun k => w k * g k + (g k * tail n u (Datatypes.S k) + g k * tail n w (Datatypes.S k)))).
    - rewrite !sumR_plus. ring.
    - intros k Hk. rewrite tail_plus. unfold g. ring.
  Qed.
  Lemma gd_total u w e : iterated n slo shi [] (closed al ga' u w A (tail n (fun j => u j + w j)) (gdE u w e) gdL n) (gdE u w e 0).
  Proof.
    eapply iterated_to; [|apply simplex_total].
    - replace (gdL 0) with 0; [rewrite exp_0; ring|]. unfold gdL. rewrite tail_0. cbv beta iota zeta delta [lnR]. unfold lbeta, al. ring.
    - intros k Hk. now apply gd_pos.
    - intros k Hk. now apply gd_bpos.
    - intros k Hk. unfold A at 1. rewrite tail_S by exact Hk. fold (A (Datatypes.S k)). ring.
    - intros k Hk. now rewrite tail_S at 1 by exact Hk.
    - intros k Hk. rewrite gd_beta by exact Hk. unfold gdE. rewrite tail_S at 1 by exact Hk. unfold ds. ring.
    - intros k Hk. rewrite gd_beta by exact Hk. unfold gdL. rewrite tail_S at 1 by exact Hk. ring.
  Qed.
  Lemma gd_dot (v : point) l : dotP (NP GeneralizedDirichlet) (EP GeneralizedDirichlet) n v (ssR n p (vector_obs l) GeneralizedDirichlet) = tre (fun k => v false "alpha_minus_one" [k]) (fun k => v false "gamma" [k]) n l.
  Proof.
    dots. vals. rewrite !Rplus_0_r. unfold tre. sums. apply sumR_ext. intros k _. unfold sk. change (Datatypes.S k) with (Datatypes.S k)%nat. unfold Rminus. ring.
  Qed.
  Lemma gd_closed (v : point) e l : closed al ga' (fun k => v false "alpha_minus_one" [k]) (fun k => v false "gamma" [k]) A (tail n (fun j => v false "alpha_minus_one" [j] + v false "gamma" [j])) (gdE (fun k => v false "alpha_minus_one" [k]) (fun k => v false "gamma" [k]) e) gdL n l =
    dens GeneralizedDirichlet n p (vector_obs l) * (dotP (NP GeneralizedDirichlet) (EP GeneralizedDirichlet) n v (ssR n p (vector_obs l) GeneralizedDirichlet) + e).
  Proof.
    unfold closed, dens, lpR. rewrite !gd_dot. unfold gdE, gdL, A. rewrite !tail_end. change (cmR n p (vector_obs l) GeneralizedDirichlet) with 0. f_equal; [f_equal|ring].
    unfold pre, tre. rewrite (sumR_ext n (fun k => (al k - 1) * ln (nth k l 0) + ga' k * ln (sk (Datatypes.S k) l)) (fun k => p false "alpha_minus_one" [k] * ln (nth k l 0) + p false "gamma" [k] * ln (sk (Datatypes.S k) l))); [ring|]. intros k _. unfold al, gdR_alpha, ga'. ring.
  Qed.
End GD.
Lemma gdir_int n p : nat_dom GeneralizedDirichlet n p -> norm_ok GeneralizedDirichlet n p /\ mean_ok GeneralizedDirichlet n p /\ cm_ok GeneralizedDirichlet n p.
Proof.
  intros H. assert (G : forall v e (F : list R -> R) V, (forall l, F l = dens GeneralizedDirichlet n p (vector_obs l) * (dotP (NP GeneralizedDirichlet) (EP GeneralizedDirichlet) n v (ssR n p (vector_obs l) GeneralizedDirichlet) + e)) ->
    V = dotP (NP GeneralizedDirichlet) (EP GeneralizedDirichlet) n v (expR n p GeneralizedDirichlet) + e -> iterated n slo shi [] F V).
  { intros v e F V EF ->. eapply simplex_ext; [|eapply iterated_to; [|exact (gd_total n p H (fun k => v false "alpha_minus_one" [k]) (fun k => v false "gamma" [k]) e)]].
    - intros l L S _. rewrite EF. now apply gd_closed.
    - rewrite gd_E0. f_equal. dots. vals. rewrite Rplus_0_r. f_equal; apply sumR_ext; intros k _; ring. }
  split; [|split].
  - apply (G (fun _ _ _ => 0) 1); [intros l; dots; vals|dots; vals]; rewrite !(sumR_zero n) by (intros; ring); ring.
  - intros v. apply (G v 0); [intros l; ring|ring].
  - apply (G (fun _ _ _ => 0) 0); [intros l; dots; vals|dots; vals]; rewrite !(sumR_zero n) by (intros; ring); ring.
Qed.
