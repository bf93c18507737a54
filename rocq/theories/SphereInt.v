(** The integral of exp (v . x) over a sphere, in hyperspherical angles, as a modified Bessel function of |v|. *)
From Coquelicot Require Import Coquelicot.
From Coq Require Import Reals List Lia Lra.
From Verif Require Import SpecFun GammaFn BesselFn GammaInt.
Local Open Scope R_scope.
Local Unset Asymmetric Patterns.

(** ** one angle *)
Section Rotation.
Variable k : nat.
Let v := (INR k - 1) / 2.
Local Lemma v_gt : -1 < v. Proof. unfold v. pose proof (pos_INR k). lra. Qed.
Definition ang (r th t : R) : R := sin t ^ k * (exp (r * cos th * cos t) * bS ((INR k - 1) / 2) ((r * sin th * sin t) * (r * sin th * sin t) / 4)).
Definition dang (r th t : R) : R := sin t ^ k * (- r * sin th * cos t * exp (r * cos th * cos t) * bS ((INR k - 1) / 2) ((r * sin th * sin t) * (r * sin th * sin t) / 4)
  + exp (r * cos th * cos t) * ((r * sin th * sin t) * (r * cos th * sin t) / 2 * bS ((INR k - 1) / 2 + 1) ((r * sin th * sin t) * (r * sin th * sin t) / 4))).
Lemma ang_derive r th t : is_derive (fun u => ang r u t) th (dang r th t).
Proof.
  unfold ang, dang. fold v. apply (is_derive_scal (fun u => exp (r * cos u * cos t) * bS v ((r * sin u * sin t) * (r * sin u * sin t) / 4)) th (sin t ^ k)).
  evar_last. { apply @is_derive_mult; [| |intros; apply Rmult_comm].
    - instantiate (1 := - r * sin th * cos t * exp (r * cos th * cos t)). auto_derive; [exact I|ring].
    - apply (is_derive_comp (bS v) (fun u => (r * sin u * sin t) * (r * sin u * sin t) / 4)); [apply bS_derive, v_gt|]. auto_derive; [exact I|reflexivity]. }
  change plus with Rplus. change mult with Rmult. change scal with Rmult. cbn. field.
Qed.
(** the derivative in the angle is an exact derivative in t *)
Definition prim (r th t : R) : R := - (r * sin th) * (sin t ^ S k * (exp (r * cos th * cos t) * bS ((INR k - 1) / 2 + 1) ((r * sin th * sin t) * (r * sin th * sin t) / 4))) / 2.
Lemma prim_derive r th t : is_derive (fun u => prim r th u) t (dang r th t).
Proof.
  unfold prim, dang. fold v. set (b := r * sin th). set (a := r * cos th). pose proof v_gt as V. pose proof (bS_rec v ((b * sin t) * (b * sin t) / 4) V) as E.
  apply (is_derive_ext (fun u => (- b / 2) * (sin u ^ S k * (exp (a * cos u) * bS (v + 1) ((b * sin u) * (b * sin u) / 4))))). { intros u. match goal with |- @eq _ ?x ?y => change (@eq R x y) end. field. }
  evar_last. { apply (is_derive_scal (fun u => sin u ^ S k * (exp (a * cos u) * bS (v + 1) ((b * sin u) * (b * sin u) / 4))) t (- b / 2)). apply @is_derive_mult; [| |intros; apply Rmult_comm].
    - instantiate (1 := INR (S k) * cos t * sin t ^ k). auto_derive; [exact I|]. change (1 * cos t * (INR (S k) * sin t ^ k) = INR (S k) * cos t * sin t ^ k). ring.
    - apply @is_derive_mult; [| |intros; apply Rmult_comm].
      + instantiate (1 := - a * sin t * exp (a * cos t)). auto_derive; [exact I|ring].
      + apply (is_derive_comp (bS (v + 1)) (fun u => (b * sin u) * (b * sin u) / 4)); [apply bS_derive; lra|]. auto_derive; [exact I|reflexivity]. }
  change plus with Rplus. change mult with Rmult. change scal with Rmult. cbn -[INR pow]. replace (v + 1 + 1) with (v + 2) by ring. change (sin t ^ S k) with (sin t * sin t ^ k).
  replace (r * sin th) with b by reflexivity. replace (r * cos th) with a by reflexivity.
  set (x := b * sin t * (b * sin t) / 4) in *. set (A := bS v x) in *. set (B := bS (v + 1) x) in *. set (C := bS (v + 2) x) in *. replace (INR (S k)) with (2 * (v + 1)) by (rewrite S_INR; unfold v; field).
  replace A with (x * C + (v + 1) * B) by lra. unfold x. replace (- r * sin th) with (- b) by (unfold b; ring). match goal with |- @eq _ ?x ?y => change (@eq R x y) end. field.
Qed.
Lemma c1 (f : R -> R) x d : is_derive f x d -> continuous f x. Proof. intros H. apply @ex_derive_continuous. now exists d. Qed.
Lemma bS_2d w (g : R -> R -> R) x y : -1 < w -> continuity_2d_pt g x y -> continuity_2d_pt (fun a b => bS w (g a b)) x y.
Proof. intros W G. apply (continuity_1d_2d_pt_comp (bS w) g); [|exact G]. apply continuity_pt_filterlim. apply c1 with (bS (w + 1) (g x y)). now apply bS_derive. Qed.
Lemma c2c c x y : continuity_2d_pt (fun _ _ => c) x y. Proof. apply continuity_2d_pt_const. Qed.
Lemma cs2 (f : R -> R) x y : (forall z, continuity_pt f z) -> continuity_2d_pt (fun u _ => f u) x y.
Proof. intros H. apply (continuity_1d_2d_pt_comp f (fun u _ => u)); [apply H|apply continuity_2d_pt_id1]. Qed.
Lemma cs2' (f : R -> R) x y : (forall z, continuity_pt f z) -> continuity_2d_pt (fun _ u => f u) x y.
Proof. intros H. apply (continuity_1d_2d_pt_comp f (fun _ u => u)); [apply H|apply continuity_2d_pt_id2]. Qed.
Lemma pow_cpt m z : continuity_pt (fun x => x ^ m) z. Proof. apply derivable_continuous_pt, derivable_pt_pow. Qed.
Ltac c2 := repeat first [apply continuity_2d_pt_mult|apply continuity_2d_pt_plus|apply c2c|apply cs2; intros; first [apply continuity_cos|apply continuity_sin]
  |apply cs2'; intros; first [apply continuity_cos|apply continuity_sin]].
Lemma dang_2d r x y : continuity_2d_pt (dang r) x y.
Proof.
  pose proof v_gt as V. unfold dang. fold v. unfold Rdiv.
  assert (E : continuity_2d_pt (fun u t => exp (r * cos u * cos t)) x y). { apply (continuity_1d_2d_pt_comp exp (fun u t => r * cos u * cos t)); [apply derivable_continuous_pt, derivable_pt_exp|c2]. }
  assert (P : continuity_2d_pt (fun (_ t : R) => sin t ^ k) x y). { apply (continuity_1d_2d_pt_comp (fun s => s ^ k) (fun _ t => sin t)); [apply pow_cpt|c2]. }
  apply continuity_2d_pt_mult; [exact P|]. apply continuity_2d_pt_plus; repeat (apply continuity_2d_pt_mult); try exact E; try (apply bS_2d; [lra|]); c2.
Qed.
Lemma ang_cont r th t : continuous (ang r th) t.
Proof.
  unfold ang. fold v. pose proof v_gt as V. apply @ex_derive_continuous. apply @ex_derive_mult; [auto_derive; exact I|]. apply @ex_derive_mult; [auto_derive; exact I|].
  eexists. apply (is_derive_comp (bS v) (fun u => (r * sin th * sin u) * (r * sin th * sin u) / 4)); [apply bS_derive; exact V|]. auto_derive; [exact I|reflexivity].
Qed.
Lemma dang_cont r th t : continuous (dang r th) t.
Proof.
  intros P [e He]. destruct (dang_2d r th t e) as (d & Hd). exists d. intros u Hu. apply He. apply Hd; [rewrite Rminus_eq_0, Rabs_R0; apply cond_pos|exact Hu].
Qed.
Lemma ang_const r th : is_derive (fun u => RInt (ang r u) 0 PI) th 0.
Proof.
  assert (Z : RInt (dang r th) 0 PI = 0).
  { apply is_RInt_unique. replace 0 with (minus (prim r th PI) (prim r th 0)) at 2.
    - apply (@is_RInt_derive R_CompleteNormedModule (prim r th) (dang r th)); intros x _; [apply prim_derive|apply dang_cont].
    - unfold prim. rewrite sin_PI, sin_0, !pow_i by lia. change (minus ?x ?y) with (x - y). change (@minus R_CompleteNormedModule) with Rminus. cbn. unfold minus, plus, opp. cbn. field. }
  assert (Z' : 0 = RInt (fun t => Derive (fun u => ang r u t) th) 0 PI). { rewrite <- Z at 1. apply RInt_ext. intros. symmetry. apply is_derive_unique, ang_derive. }
  cut (is_derive (fun u => RInt (ang r u) 0 PI) th (RInt (fun t => Derive (fun u => ang r u t) th) 0 PI)). { intros K. rewrite <- Z' in K. exact K. }
  apply (is_derive_RInt_param (fun u t => ang r u t) 0 PI th).
  - apply filter_forall. intros u t _. eexists. apply ang_derive.
  - intros t _. apply (continuity_2d_pt_ext (dang r)); [|apply dang_2d]. intros a b. symmetry. apply is_derive_unique, ang_derive.
  - apply filter_forall. intros u. apply (@ex_RInt_continuous R_CompleteNormedModule). intros; apply ang_cont.
Qed.
Lemma ang_zero r th : RInt (ang r th) 0 PI = RInt (ang r 0) 0 PI.
Proof.
  set (h := fun u => RInt (ang r u) 0 PI). change (h th = h 0). destruct (MVT_gen h 0 th (fun _ => 0)) as (c & _ & E).
  - intros x _. apply ang_const.
  - intros x _. apply continuity_pt_filterlim. apply c1 with 0. apply ang_const.
  - lra.
Qed.
(** the integral over one angle depends on a and b through a^2 + b^2 only *)
Theorem rotate a b : RInt (fun t => sin t ^ k * (exp (a * cos t) * bS ((INR k - 1) / 2) ((b * sin t) * (b * sin t) / 4))) 0 PI
  = RInt (fun t => sin t ^ k * exp (sqrt (a * a + b * b) * cos t)) 0 PI * bS ((INR k - 1) / 2) 0.
Proof.
  set (r := sqrt (a * a + b * b)). assert (Pa := Rle_0_sqr a). assert (Pb := Rle_0_sqr b). unfold Rsqr in Pa, Pb. assert (R2 : r * r = a * a + b * b) by (apply sqrt_sqrt; lra). assert (Hr : 0 <= r) by apply sqrt_pos.
  assert (T : exists th, r * cos th = a /\ (r * sin th) * (r * sin th) = b * b).
  { destruct (Rle_lt_or_eq_dec 0 r Hr) as [Q|Q]; [|exists 0; rewrite <- Q in *; split; nra].
    assert (B : -1 <= a / r <= 1). { split; [apply Rmult_le_reg_r with r|apply Rmult_le_reg_r with r]; try exact Q; unfold Rdiv; rewrite Rmult_assoc, Rinv_l, Rmult_1_r by lra; nra. }
    exists (acos (a / r)). rewrite cos_acos by exact B. split; [field; lra|]. assert (S := sin2_cos2 (acos (a / r))). rewrite cos_acos in S by exact B. unfold Rsqr in S.
    replace (r * sin (acos (a / r)) * (r * sin (acos (a / r)))) with (r * r * (sin (acos (a / r)) * sin (acos (a / r)))) by ring. replace (sin (acos (a / r)) * sin (acos (a / r))) with (1 - a / r * (a / r)) by lra.
    replace (r * r * (1 - a / r * (a / r))) with (r * r - a * a) by (field; lra). lra. }
  destruct T as (th & T1 & T2). transitivity (RInt (ang r th) 0 PI).
  - apply RInt_ext. intros t _. unfold ang. rewrite T1. replace (r * sin th * sin t * (r * sin th * sin t)) with ((r * sin th) * (r * sin th) * (sin t * sin t)) by ring. rewrite T2.
    replace (b * sin t * (b * sin t)) with (b * b * (sin t * sin t)) by ring. reflexivity.
  - rewrite ang_zero. rewrite Rmult_comm, <- (RInt_scal (fun t => sin t ^ k * exp (r * cos t))).
    + apply RInt_ext. intros t _. unfold ang. rewrite cos_0, sin_0, Rmult_1_r, Rmult_0_r, Rmult_0_l, Rmult_0_l. replace (0 / 4) with 0 by field. change scal with Rmult. cbn. ring.
    + apply (@ex_RInt_continuous R_CompleteNormedModule). intros. apply @ex_derive_continuous. auto_derive. exact I.
Qed.
End Rotation.
(** ** the moments of one angle *)
Definition mom (k j : nat) : R := RInt (fun t => sin t ^ k * cos t ^ j) 0 PI.
Lemma sc_cont k j t : continuous (fun t => sin t ^ k * cos t ^ j) t.
Proof. apply @ex_derive_continuous. auto_derive. exact I. Qed.
Lemma mom_is k j : is_RInt (fun t => sin t ^ k * cos t ^ j) 0 PI (mom k j).
Proof. apply (RInt_correct (V := R_CompleteNormedModule)). apply (@ex_RInt_continuous R_CompleteNormedModule). intros; apply sc_cont. Qed.
Lemma mom_lin k j k' j' a b (f : R -> R) : (forall t, f t = a * (sin t ^ k * cos t ^ j) + b * (sin t ^ k' * cos t ^ j')) -> is_RInt f 0 PI (a * mom k j + b * mom k' j').
Proof.
  intros E. apply (is_RInt_ext (fun t => plus (scal a (sin t ^ k * cos t ^ j)) (scal b (sin t ^ k' * cos t ^ j')))). { intros t _. rewrite E. reflexivity. }
  apply (is_RInt_plus (V := R_NormedModule)); apply (is_RInt_scal (V := R_NormedModule)); apply mom_is.
Qed.
Lemma exact0 (F f : R -> R) : (forall t, is_derive F t (f t)) -> (forall t, continuous f t) -> F PI = F 0 -> is_RInt f 0 PI 0.
Proof.
  intros D C E. replace 0 with (minus (F PI) (F 0)) at 2; [apply (@is_RInt_derive R_CompleteNormedModule F f); auto|].
  rewrite E. change (F 0 + - F 0 = 0). ring.
Qed.
Lemma is_RInt_fun (f : R -> R) a b (x y : R) : is_RInt f a b x -> is_RInt f a b y -> x = y.
Proof. intros X Y. rewrite <- (is_RInt_unique _ _ _ _ X). apply is_RInt_unique. exact Y. Qed.
Lemma sin2 t : sin t * sin t = 1 - cos t * cos t. Proof. pose proof (sin2_cos2 t) as H. unfold Rsqr in H. lra. Qed.
Lemma mom_odd1 k : mom k 1 = 0.
Proof.
  apply (is_RInt_fun (fun t => sin t ^ k * cos t ^ 1) 0 PI); [apply mom_is|]. pose proof (lt_0_INR (S k) ltac:(lia)) as P. apply (exact0 (fun t => sin t ^ S k / INR (S k))).
  - intros t. auto_derive; [exact I|]. change (1 * cos t * (INR (S k) * sin t ^ k) * / INR (S k) = sin t ^ k * (cos t * 1)). field. lra.
  - intros; apply sc_cont.
  - rewrite sin_PI, sin_0. reflexivity.
Qed.
Lemma mom_step k j : (INR k + INR j + 2) * mom k (S (S j)) = (INR j + 1) * mom k j.
Proof.
  enough (0 = (INR k + INR j + 2) * mom k (S (S j)) + - (INR j + 1) * mom k j) by lra.
  apply (is_RInt_fun (fun t => (INR k + INR j + 2) * (sin t ^ k * cos t ^ S (S j)) + - (INR j + 1) * (sin t ^ k * cos t ^ j)) 0 PI); [|apply mom_lin; reflexivity].
  apply (exact0 (fun t => sin t ^ S k * cos t ^ S j)).
  - intros t. auto_derive; [exact I|].
    change (1 * cos t * (INR (S k) * sin t ^ k) * (cos t * cos t ^ j) + (sin t * sin t ^ k) * (1 * - sin t * (INR (S j) * cos t ^ j)) = (INR k + INR j + 2) * (sin t ^ k * (cos t * (cos t * cos t ^ j))) + - (INR j + 1) * (sin t ^ k * cos t ^ j)).
    rewrite !S_INR. replace (sin t * sin t ^ k * (1 * - sin t * ((INR j + 1) * cos t ^ j))) with (- ((INR j + 1) * (sin t * sin t) * sin t ^ k * cos t ^ j)) by ring. rewrite sin2. ring.
  - intros t. apply @ex_derive_continuous. auto_derive. exact I.
  - rewrite sin_PI, sin_0, !pow_i by lia. ring.
Qed.
Lemma mom_odd k j : mom k (2 * j + 1) = 0.
Proof.
  induction j as [|j IH]; [apply mom_odd1|]. replace (2 * S j + 1)%nat with (S (S (2 * j + 1))) by lia. pose proof (mom_step k (2 * j + 1)) as E. rewrite IH in E.
  pose proof (pos_INR k). pose proof (pos_INR (2 * j + 1)). apply (Rmult_eq_reg_l (INR k + INR (2 * j + 1) + 2)); lra.
Qed.
Lemma mom_up k : (INR k + 2) * mom (S (S k)) 0 = (INR k + 1) * mom k 0.
Proof.
  assert (E : mom (S (S k)) 0 = 1 * mom k 0 + -1 * mom k 2).
  { apply (is_RInt_fun (fun t => sin t ^ S (S k) * cos t ^ 0) 0 PI); [apply mom_is|]. apply mom_lin. intros t. cbn [pow]. rewrite <- Rmult_assoc, sin2. ring. }
  pose proof (mom_step k 0) as F. cbn [INR] in F. rewrite E. lra.
Qed.
Lemma G_succ x : 0 < x -> exp (lngamma (x + 1)) = x * exp (lngamma x).
Proof. intros H. rewrite lngamma_succ, exp_plus, exp_ln by exact H. ring. Qed.
Lemma sqrtPI : 0 < sqrt PI. Proof. apply sqrt_lt_R0, PI_RGT_0. Qed.
Lemma G_half : exp (lngamma (1 / 2)) = sqrt PI. Proof. rewrite lngamma_half. apply exp_ln, sqrtPI. Qed.
Lemma wallis k : mom k 0 * exp (lngamma (INR k / 2 + 1)) = sqrt PI * exp (lngamma ((INR k + 1) / 2)).
Proof.
  enough (K : (mom k 0 * exp (lngamma (INR k / 2 + 1)) = sqrt PI * exp (lngamma ((INR k + 1) / 2))) /\ (mom (S k) 0 * exp (lngamma (INR (S k) / 2 + 1)) = sqrt PI * exp (lngamma ((INR (S k) + 1) / 2)))) by exact (proj1 K).
  induction k as [|k [A B]].
  - assert (M0 : mom 0 0 = PI). { apply (is_RInt_fun (fun t => sin t ^ 0 * cos t ^ 0) 0 PI); [apply mom_is|]. apply (is_RInt_ext (fun _ => 1)); [intros; cbn; ring|].
      evar_last; [apply (@is_RInt_const R_NormedModule)|]. change (scal (PI - 0) 1) with ((PI - 0) * 1). ring. }
    assert (M1 : mom 1 0 = 2). { apply (is_RInt_fun (fun t => sin t ^ 1 * cos t ^ 0) 0 PI); [apply mom_is|]. apply (is_RInt_ext (fun t => sin t)); [intros; cbn; ring|].
      replace 2 with (minus (- cos PI) (- cos 0)); [apply (@is_RInt_derive R_CompleteNormedModule (fun t => - cos t) sin); intros t _; [auto_derive; [exact I|ring]|apply continuity_pt_filterlim, continuity_sin]|].
      rewrite cos_PI, cos_0. change (- -1 + - - (1) = 2). ring. }
    rewrite M0, M1. cbn [INR]. replace (0 / 2 + 1) with 1 by field. replace ((0 + 1) / 2) with (1 / 2) by field. replace ((1 + 1) / 2) with 1 by field. rewrite (G_succ (1 / 2)), G_half, lngamma_1, exp_0 by lra.
    assert (Q := sqrt_sqrt PI (Rlt_le _ _ PI_RGT_0)). split; lra.
  - split; [exact B|]. pose proof (mom_up k) as U. pose proof (pos_INR k) as P. rewrite !S_INR in *. replace ((INR k + 1 + 1) / 2 + 1) with (INR k / 2 + 1 + 1) by field. replace ((INR k + 1 + 1 + 1) / 2) with ((INR k + 1) / 2 + 1) by field.
    rewrite (G_succ (INR k / 2 + 1)), (G_succ ((INR k + 1) / 2)) by lra. apply (Rmult_eq_reg_l (INR k + 2)); [|lra]. transitivity ((INR k + 2) * mom (S (S k)) 0 * ((INR k / 2 + 1) * exp (lngamma (INR k / 2 + 1)))); [ring|]. rewrite U.
    transitivity ((INR k + 1) * (INR k / 2 + 1) * (mom k 0 * exp (lngamma (INR k / 2 + 1)))); [ring|]. rewrite A. field.
Qed.
Lemma mom_even k j : mom k (2 * j) / INR (fact (2 * j)) = sqrt PI * exp (lngamma ((INR k + 1) / 2)) * (bc (INR k / 2) j * (/ 4) ^ j).
Proof.
  pose proof (pos_INR k) as P. induction j as [|j IH].
  - change (2 * 0)%nat with 0%nat. cbn [fact pow INR]. rewrite <- wallis. unfold bc. cbn [fact INR]. rewrite Rplus_0_r. pose proof (exp_pos (lngamma (INR k / 2 + 1))). field. lra.
  - replace (2 * S j)%nat with (S (S (2 * j))) by lia. rewrite bc_succ by lra. pose proof (mom_step k (2 * j)) as U. pose proof (pos_INR j) as Pj. assert (E2 : INR (2 * j) = 2 * INR j) by (rewrite mult_INR; reflexivity). rewrite E2 in U.
    assert (E : mom k (S (S (2 * j))) = (2 * INR j + 1) / (INR k + 2 * INR j + 2) * mom k (2 * j)). { apply (Rmult_eq_reg_l (INR k + 2 * INR j + 2)); [|lra]. rewrite U. field. lra. }
    rewrite !fact_simpl, !mult_INR, !S_INR, E, E2. pose proof (fact_pos (2 * j)) as F. cbn [pow].
    transitivity ((mom k (2 * j) / INR (fact (2 * j))) / ((INR k + 2 * INR j + 2) * (2 * INR j + 2))); [field; repeat split; lra|]. rewrite IH. field. repeat split; lra.
Qed.
(** ** the exponential series may be integrated term by term *)
Definition expn (n : nat) (x : R) : R := sum_f_R0 (fun j => / INR (fact j) * x ^ j) n.
Lemma exp_tail n x rho : Rabs x <= rho -> Rabs (exp x - expn n x) <= exp rho - expn n rho.
Proof.
  intros H. assert (T : forall y, ex_series (fun j => / INR (fact j) * y ^ j) /\ exp y = Series (fun j => / INR (fact j) * y ^ j)).
  { intros y. pose proof (proj1 (is_pseries_R _ _ _) (is_exp_Reals y)) as K. split; [eexists; exact K|symmetry; apply is_series_unique; exact K]. }
  destruct (T x) as [Ex Vx]. destruct (T rho) as [Er Vr]. assert (Hr : 0 <= rho) by (pose proof (Rabs_pos x); lra).
  rewrite Vx, Vr, (Series_incr_n (fun j => / INR (fact j) * x ^ j) (S n)), (Series_incr_n (fun j => / INR (fact j) * rho ^ j) (S n)) by (first [lia|assumption]). cbn [Nat.pred]. fold (expn n x). fold (expn n rho).
  set (a := fun m => / INR (fact (S n + m)) * x ^ (S n + m)). set (b := fun m => / INR (fact (S n + m)) * rho ^ (S n + m)). replace (expn n x + Series a - expn n x) with (Series a) by ring. replace (expn n rho + Series b - expn n rho) with (Series b) by ring.
  assert (L : forall m, 0 <= Rabs (a m) <= b m).
  { intros m. split; [apply Rabs_pos|]. unfold a, b. pose proof (fact_pos (S n + m)) as F. rewrite Rabs_mult, Rabs_right by (left; now apply Rinv_0_lt_compat). rewrite <- RPow_abs. apply Rmult_le_compat_l; [left; now apply Rinv_0_lt_compat|].
    apply pow_incr. split; [apply Rabs_pos|exact H]. }
  assert (Eb : ex_series b). { apply (ex_series_incr_n (fun j => / INR (fact j) * rho ^ j) (S n)). exact Er. }
  assert (Ea : ex_series (fun m => Rabs (a m))). { apply (ex_series_le (V := R_CompleteNormedModule) _ b); [|exact Eb]. intros m. change norm with Rabs. rewrite Rabs_Rabsolu. apply L. }
  apply Rle_trans with (Series (fun m => Rabs (a m))); [now apply Series_Rabs|]. now apply Series_le.
Qed.
Lemma sin_pow_le k t : Rabs (sin t ^ k) <= 1.
Proof. rewrite <- RPow_abs. rewrite <- (pow1 k). apply pow_incr. split; [apply Rabs_pos|]. apply Rabs_le, SIN_bound. Qed.
Lemma mom_sum k r n : is_RInt (fun t => sin t ^ k * expn n (r * cos t)) 0 PI (sum_f_R0 (fun j => mom k j / INR (fact j) * r ^ j) n).
Proof.
  assert (Z : forall j, is_RInt (fun t => sin t ^ k * (/ INR (fact j) * (r * cos t) ^ j)) 0 PI (mom k j / INR (fact j) * r ^ j)).
  { intros j. replace (mom k j / INR (fact j) * r ^ j) with (/ INR (fact j) * r ^ j * mom k j + 0 * mom k j) by (unfold Rdiv; ring). apply mom_lin. intros t. rewrite Rpow_mult_distr. ring. }
  induction n as [|n IH]; [apply Z|]. unfold expn in *. cbn [sum_f_R0] in *. set (u := sum_f_R0 (fun j => mom k j / INR (fact j) * r ^ j) n) in *.
  apply (is_RInt_ext (fun t => plus (sin t ^ k * sum_f_R0 (fun j => / INR (fact j) * (r * cos t) ^ j) n) (sin t ^ k * (/ INR (fact (S n)) * (r * cos t) ^ S n)))). { intros t _. change plus with Rplus. symmetry. apply Rmult_plus_distr_l. }
  apply (is_RInt_plus (V := R_NormedModule)); [exact IH|apply (Z (S n))].
Qed.
Theorem poisson k r : RInt (fun t => sin t ^ k * exp (r * cos t)) 0 PI = sqrt PI * exp (lngamma ((INR k + 1) / 2)) * bS (INR k / 2) (r * r / 4).
Proof.
  pose proof (pos_INR k) as P. set (C := sqrt PI * exp (lngamma ((INR k + 1) / 2))). set (a := fun j => mom k j / INR (fact j)).
  assert (S1 : is_pseries a r (RInt (fun t => sin t ^ k * exp (r * cos t)) 0 PI)).
  { apply is_pseries_R. apply is_series_Reals. 
    destruct (filterlim_RInt (V := R_CompleteNormedModule) (fun n t => sin t ^ k * expn n (r * cos t)) 0 PI Hierarchy.eventually _ (fun t => sin t ^ k * exp (r * cos t)) (fun n => sum_f_R0 (fun j => mom k j / INR (fact j) * r ^ j) n)) as (If & L & Q).
    - intros n. apply mom_sum.
    - apply filterlim_locally. intros eps. assert (E : is_lim_seq (fun n => expn n (Rabs r)) (exp (Rabs r))).
      { pose proof (proj1 (is_pseries_R _ _ _) (is_exp_Reals (Rabs r))) as K. apply (is_lim_seq_ext (sum_n (fun n => / INR (fact n) * Rabs r ^ n))); [intros n; rewrite sum_n_Reals; reflexivity|exact K]. }
      apply is_lim_seq_spec in E. destruct (E eps) as (N & HN). exists N. intros n Hn t. specialize (HN n Hn).
      assert (T := exp_tail n (r * cos t) (Rabs r)). assert (B : Rabs (r * cos t) <= Rabs r). { rewrite Rabs_mult. rewrite <- (Rmult_1_r (Rabs r)) at 2. apply Rmult_le_compat_l; [apply Rabs_pos|apply Rabs_le, COS_bound]. }
      specialize (T B). change (Rabs (sin t ^ k * expn n (r * cos t) - sin t ^ k * exp (r * cos t)) < eps). rewrite <- Rmult_minus_distr_l, Rabs_mult, (Rabs_minus_sym (expn n _)).
      pose proof (sin_pow_le k t) as B1. pose proof (Rabs_pos (exp (r * cos t) - expn n (r * cos t))) as B2. pose proof (Rabs_pos (sin t ^ k)). rewrite Rabs_minus_sym in HN. pose proof (Rle_abs (exp (Rabs r) - expn n (Rabs r))).
      apply Rle_lt_trans with (1 * Rabs (exp (r * cos t) - expn n (r * cos t))); [apply Rmult_le_compat_r; assumption|lra].
    - rewrite (is_RInt_unique _ _ _ _ Q). intros eps He. apply filterlim_locally with (eps := mkposreal eps He) in L. destruct L as (N & HN). exists N. intros n Hn. apply (HN n Hn). }
  assert (S2 : is_pseries a r (C * bS (INR k / 2) (r * r / 4) + r * 0)).
  { apply is_pseries_odd_even.
    - apply is_pseries_R. pose proof (PSeries_correct _ _ (bc_ex (INR k / 2) (r * r / 4) ltac:(lra))) as K. apply is_pseries_R in K. apply (is_series_scal C) in K.
      eapply is_series_ext; [|exact K]. intros j. change (C * (bc (INR k / 2) j * (r * r / 4) ^ j) = a (2 * j)%nat * (r ^ 2) ^ j). unfold a. rewrite mom_even. fold C. replace (r ^ 2) with (r * r) by ring.
      replace (r * r / 4) with (r * r * / 4) by field. rewrite (Rpow_mult_distr (r * r)). match goal with |- @eq _ ?x ?y => change (@eq R x y) end. ring.
    - apply is_pseries_R. apply (is_series_ext (fun _ => 0)). { intros j. unfold a. rewrite mom_odd. unfold Rdiv. rewrite !Rmult_0_l. reflexivity. }
      apply is_series_Reals. intros eps He. exists 0%nat. intros n _. rewrite sum_cte. unfold R_dist. rewrite Rmult_0_l, Rminus_eq_0, Rabs_R0. exact He. }
  apply is_pseries_unique in S1. apply is_pseries_unique in S2. rewrite <- S1, S2. match goal with |- @eq _ ?x ?y => change (@eq R x y) end. ring.
Qed.
Theorem angle_int k a b : is_RInt (fun t => sin t ^ k * (exp (a * cos t) * bS ((INR k - 1) / 2) ((b * sin t) * (b * sin t) / 4))) 0 PI (sqrt PI * bS (INR k / 2) ((a * a + b * b) / 4)).
Proof.
  assert (E : RInt (fun t => sin t ^ k * (exp (a * cos t) * bS ((INR k - 1) / 2) ((b * sin t) * (b * sin t) / 4))) 0 PI = sqrt PI * bS (INR k / 2) ((a * a + b * b) / 4)).
  { rewrite rotate, poisson. pose proof (Rle_0_sqr a) as Pa. pose proof (Rle_0_sqr b) as Pb. unfold Rsqr in *. rewrite sqrt_sqrt by lra. unfold bS at 2. rewrite PSeries_0. unfold bc. cbn [fact INR].
    replace ((INR k - 1) / 2 + 0 + 1) with ((INR k + 1) / 2) by field. pose proof (exp_pos (lngamma ((INR k + 1) / 2))). match goal with |- @eq _ ?x ?y => change (@eq R x y) end. field. lra. }
  rewrite <- E. apply (RInt_correct (V := R_CompleteNormedModule)). apply (@ex_RInt_continuous R_CompleteNormedModule). intros t _. pose proof (v_gt k) as V.
  apply @ex_derive_continuous. apply @ex_derive_mult; [auto_derive; exact I|]. apply @ex_derive_mult; [auto_derive; exact I|].
  eexists. apply (is_derive_comp (bS ((INR k - 1) / 2)) (fun u => (b * sin u) * (b * sin u) / 4)); [apply bS_derive; exact V|]. auto_derive; [exact I|reflexivity].
Qed.
(** ** two points *)
Theorem cosh_bS z : exp z + exp (- z) = 2 * sqrt PI * bS (- (1 / 2)) (z * z / 4).
Proof.
  set (a := fun n => / INR (fact n)).
  assert (E : forall j, a (2 * j)%nat = sqrt PI * (bc (- (1 / 2)) j * (/ 4) ^ j)).
  { intros j. unfold a. induction j as [|j IH].
    - change (2 * 0)%nat with 0%nat. cbn [fact INR pow]. unfold bc. cbn [fact INR]. replace (- (1 / 2) + 0 + 1) with (1 / 2) by field. rewrite G_half. pose proof sqrtPI. field. lra.
    - replace (2 * S j)%nat with (S (S (2 * j))) by lia. rewrite bc_succ by lra. rewrite !fact_simpl, !mult_INR, !S_INR, mult_INR. change (INR 2) with 2. pose proof (fact_pos (2 * j)). pose proof (pos_INR j). cbn [pow].
      transitivity (/ INR (fact (2 * j)) / ((2 * INR j + 1) * (2 * INR j + 2))); [field; repeat split; lra|]. rewrite IH. field. repeat split; lra. }
  assert (S1 : is_pseries (fun n => a n + a n * (-1) ^ n) z (exp z + exp (- z))).
  { apply is_pseries_R. eapply is_series_ext; [|apply @is_series_plus; [exact (proj1 (is_pseries_R _ _ _) (is_exp_Reals z))|exact (proj1 (is_pseries_R _ _ _) (is_exp_Reals (- z)))]].
    intros n. change (a n * z ^ n + a n * (- z) ^ n = (a n + a n * (-1) ^ n) * z ^ n). replace (- z) with (-1 * z) by ring. rewrite Rpow_mult_distr. ring. }
  assert (S2 : is_pseries (fun n => a n + a n * (-1) ^ n) z (2 * sqrt PI * bS (- (1 / 2)) (z * z / 4) + z * 0)).
  { apply is_pseries_odd_even.
    - apply is_pseries_R. pose proof (PSeries_correct _ _ (bc_ex (- (1 / 2)) (z * z / 4) ltac:(lra))) as K. apply is_pseries_R in K. apply (is_series_scal (2 * sqrt PI)) in K.
      eapply is_series_ext; [|exact K]. intros j. change (2 * sqrt PI * (bc (- (1 / 2)) j * (z * z / 4) ^ j) = (a (2 * j)%nat + a (2 * j)%nat * (-1) ^ (2 * j)) * (z ^ 2) ^ j). rewrite E, pow_1_even. replace (z ^ 2) with (z * z) by ring.
      replace (z * z / 4) with (z * z * / 4) by field. rewrite (Rpow_mult_distr (z * z)). match goal with |- @eq _ ?x ?y => change (@eq R x y) end. ring.
    - apply is_pseries_R. apply (is_series_ext (fun _ => 0)). { intros j. replace (2 * j + 1)%nat with (S (2 * j)) by lia. rewrite pow_1_odd. match goal with |- @eq _ ?x ?y => change (@eq R x y) end. ring. }
      apply is_series_Reals. intros eps He. exists 0%nat. intros n _. rewrite sum_cte. unfold R_dist. rewrite Rmult_0_l, Rminus_eq_0, Rabs_R0. exact He. }
  apply is_pseries_unique in S1. apply is_pseries_unique in S2. rewrite <- S1, S2. match goal with |- @eq _ ?x ?y => change (@eq R x y) end. ring.
Qed.
