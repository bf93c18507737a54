(** Dominated convergence over the sample spaces of families and joint distributions. *)
From Coquelicot Require Import Coquelicot.
From Coq Require Import String List Bool Arith Reals Lia Lra.
From Verif Require Import Base XReal Tensor TensorFacts Support Dist Iteration Structure Spec SumSpec DotSpec Tools Joint SpecFun GammaFn Expr Fam DotFacts BatchFacts
  PointSpec PointFacts Val FamR FamVal ConvFacts LeafVal DerivFacts DerivThms DensSpec DensVal DensThms SampleSpec IntSpec IntFacts GammaInt IntNorm IntGen IntMulti IntSimplex IntSphere IntOne IntThms JointIntSpec DomConv.
Import ListNotations.
Local Unset Asymmetric Patterns.
Local Open Scope string_scope.
Local Open Scope R_scope.

Lemma box_simplex : proper_box slo shi.
Proof.
  intros l V. destruct (simplex_valid [] l V) as [V1 _]; [cbn; lra|intros k K; cbn in K; lia|]. cbn [app] in V1. exists ((1 - lsum l) / 2). unfold slo, shi. split; cbn; lra.
Qed.
Lemma in_half : inside 0 1 (1 / 2). Proof. split; cbn; lra. Qed.
Lemma integral_fun f n F v w : integral_over f n F v -> integral_over f n F w -> v = w.
Proof.
  intros H K. destruct f; cbn [integral_over] in *; try (exact (improper_fun _ _ _ _ _ _ in0 H K)); try (exact (improper_fun _ _ _ _ _ _ in_half H K)); try (exact (improper_fun _ _ _ _ _ _ (inmp 0) H K));
    try (exact (iterated_fun _ _ box_line _ [] _ _ _ Logic.I H K)); try (exact (iterated_fun _ _ box_simplex _ [] _ _ _ Logic.I H K)); try (now rewrite H, K).
  all: try (rewrite <- (is_series_unique _ _ H); now apply is_series_unique).
  destruct H as [_ H], K as [_ K]. exact (sphere_fun _ _ _ _ _ _ H K).
Qed.
Lemma dc_sum n (g : nat -> nat -> R) (h K : nat -> R) (d : nat -> R) : (forall j k, Rabs (g j k - h k) <= d j * K k) -> forall j, Rabs (sumR n (g j) - sumR n h) <= d j * sumR n K.
Proof.
  intros B j. induction n as [|n IH]; [unfold sumR; cbn; rewrite Rminus_0_r, Rabs_R0; lra|]. rewrite !sumR_S. specialize (B j n). apply Rabs_le_between in IH. apply Rabs_le_between in B. apply Rabs_le. lra.
Qed.
Lemma dc_over0 f n (g : nat -> obs -> R) (h K : obs -> R) (d y : nat -> R) c : (forall j, integral_over f n (g j) (y j)) -> integral_over f n K c ->
  (forall j x, Rabs (g j x - h x) <= d j * K x) -> (forall j, 0 <= d j) -> is_lim_seq d 0 -> exists v, integral_over f n h v /\ forall j, Rabs (y j - v) <= d j * c.
Proof.
  intros Hg HK B Dp D. destruct f; cbn [integral_over] in *.
  all: try (apply (dc_improper _ _ _ _ _ _ _ _ _ in0 Hg HK); auto; fail).
  all: try (apply (dc_improper _ _ _ _ _ _ _ _ _ in_half Hg HK); auto; fail).
  all: try (apply (dc_improper _ _ _ _ _ _ _ _ _ (inmp 0) Hg HK); auto; fail).
  all: try (apply (dc_iterated _ _ box_line _ [] _ _ _ _ _ _ Logic.I Hg HK); auto; fail).
  all: try (apply (dc_iterated _ _ box_simplex _ [] _ _ _ _ _ _ Logic.I Hg HK); auto; fail).
  all: try (apply (dc_series _ _ _ _ _ _ Hg HK); auto; fail).
  - eexists. split; [reflexivity|]. intros j. rewrite Hg, HK. pose proof (B j (scalar_obs 0)) as B1. pose proof (B j (scalar_obs 1)) as B2. apply Rabs_le_between in B1. apply Rabs_le_between in B2. apply Rabs_le. lra.
  - eexists. split; [reflexivity|]. intros j. rewrite Hg, HK. pose proof (B j (vector_obs [])) as B1. pose proof (dc_sum n (fun j k => g j (vector_obs (repeat 0 k ++ [1])%list)) (fun k => h (vector_obs (repeat 0 k ++ [1])%list)) (fun k => K (vector_obs (repeat 0 k ++ [1])%list)) d (fun j k => B j _) j) as B2.
    apply Rabs_le_between in B1. apply Rabs_le_between in B2. apply Rabs_le. lra.
  - destruct HK as [N HK]. destruct (dc_sphere (n - 1) 1 [] (fun j l => g j (vector_obs l)) (fun l => h (vector_obs l)) (fun l => K (vector_obs l)) d y c) as (v & V1 & V2); auto; [intros j; exact (proj2 (Hg j))|]. exists v. auto.
Qed.
Lemma dc_over f n (g : nat -> obs -> R) (h K : obs -> R) (d y : nat -> R) c : (forall j, integral_over f n (g j) (y j)) -> integral_over f n K c ->
  (forall j x, point_ok f n x -> Rabs (g j x - h x) <= d j * K x) -> (forall x, point_ok f n x -> 0 <= K x) -> (forall j, 0 <= d j) -> is_lim_seq d 0 -> exists v, integral_over f n h v /\ forall j, Rabs (y j - v) <= d j * c.
Proof.
  intros Hg HK B Kp Dp D.
  apply (dc_over0 f n (fun j x => Rmax (h x - d j * Rabs (K x)) (Rmin (h x + d j * Rabs (K x)) (g j x))) h (fun x => Rabs (K x)) d y c); auto.
  - intros j. eapply integral_ext; [|apply Hg]. intros x X. cbv beta. specialize (B j x X). rewrite (Rabs_pos_eq _ (Kp x X)). apply Rabs_le_between in B. rewrite Rmin_right, Rmax_right; lra.
  - eapply integral_ext; [|exact HK]. intros x X. symmetry. exact (Rabs_pos_eq _ (Kp x X)).
  - intros j x. assert (P : 0 <= d j * Rabs (K x)) by (apply Rmult_le_pos; [apply Dp|apply Rabs_pos]). cbv beta. apply Rabs_le. split.
    + apply (Rplus_le_reg_r (h x)). unfold Rminus. rewrite (Rplus_assoc _ (- h x)), Rplus_opp_l, Rplus_0_r. eapply Rle_trans; [|apply Rmax_l]. lra.
    + unfold Rmax, Rmin. repeat (destruct (Rle_dec _ _)); lra.
Qed.
Lemma inv_lim : is_lim_seq (fun j => / (INR j + 1)) 0.
Proof.
  apply (is_lim_seq_ext (fun j => / INR (S j))); [intros j; now rewrite S_INR|]. apply (is_lim_seq_incr_1 (fun j => / INR j)). replace (Finite 0) with (Rbar_inv p_infty) by reflexivity. apply is_lim_seq_inv; [apply is_lim_seq_INR|discriminate].
Qed.
Lemma inv_pos j : 0 < / (INR j + 1). Proof. apply Rinv_0_lt_compat. pose proof (pos_INR j). lra. Qed.
Lemma integral_nonneg f n K c : integral_over f n K c -> (forall x, point_ok f n x -> 0 <= K x) -> 0 <= c.
Proof.
  intros HK Kp. assert (Z : integral_over f n (fun _ => 0) 0) by (apply (integral_to f n _ (0 * c)); [ring|]; apply (integral_ext f n (fun x => 0 * K x)); [intros x _; apply Rmult_0_l|now apply integral_scal]).
  destruct (dc_over f n (fun _ _ => 0) (fun _ => 0) K (fun j => / (INR j + 1)) (fun _ => 0) c) as (v & V1 & V2); auto; [|intros j; left; apply inv_pos|apply inv_lim|].
  - intros j x X. rewrite Rminus_eq_0, Rabs_R0. apply Rmult_le_pos; [left; apply inv_pos|now apply Kp].
  - specialize (V2 0%nat). pose proof (Rabs_pos (0 - v)). cbn in V2. rewrite Rplus_0_l, Rinv_1 in V2. lra.
Qed.
(** ** joint distributions: w is the assignment so far *)
Definition spaces_ok (ls : list (path * (family * nat))) (w xv : jobs) : Prop := (forall p, ~ In p (map fst ls) -> xv p = w p) /\ forall p f n, In (p, (f, n)) ls -> point_ok f n (xv p).
Lemma assign_eq w p x : assign w p x p = x. Proof. unfold assign. destruct (list_eq_dec string_dec p p); [reflexivity|contradiction]. Qed.
Lemma assign_ne w p x p' : p' <> p -> assign w p x p' = w p'. Proof. unfold assign. intros N. destruct (list_eq_dec string_dec p' p); [contradiction|reflexivity]. Qed.
Lemma spaces_cons p f n ls w x xv : ~ In p (map fst ls) -> point_ok f n x -> spaces_ok ls (assign w p x) xv -> spaces_ok ((p, (f, n)) :: ls) w xv.
Proof.
  intros N X [H1 H2]. split.
  - intros p' N'. cbn [map fst] in N'. rewrite H1 by (intros I; apply N'; now right). apply assign_ne. intros ->. apply N'. now left.
  - intros p' f' n' [I|I]; [|now apply H2]. injection I as <- <- <-. rewrite H1 by exact N. now rewrite assign_eq.
Qed.
Lemma joint_ext ls : forall w F G v, NoDup (map fst ls) -> (forall xv, spaces_ok ls w xv -> F xv = G xv) -> joint_integral ls w F v -> joint_integral ls w G v.
Proof.
  induction ls as [|[p [f n]] ls IH]; intros w F G v Nd E; cbn [joint_integral].
  - intros ->. apply E. split; [intros; reflexivity|intros ? ? ? []].
  - cbn [map fst] in Nd. inversion Nd; subst. intros (H & A & B). exists H. split; [|exact B]. intros x X. apply (IH _ F G); [assumption| |now apply A]. intros xv K. apply E. now apply (spaces_cons p f n ls w x).
Qed.
Lemma joint_fun ls : forall w F v u, joint_integral ls w F v -> joint_integral ls w F u -> v = u.
Proof.
  induction ls as [|[p [f n]] ls IH]; intros w F v u; cbn [joint_integral]; [now intros -> ->|]. intros (G & G1 & G2) (H & H1 & H2). apply (integral_fun f n G v u G2). eapply integral_ext; [|exact H2]. intros x X. apply (IH _ F _ _ (H1 x X) (G1 x X)).
Qed.
Lemma joint_plus ls : forall w F G v u, joint_integral ls w F v -> joint_integral ls w G u -> joint_integral ls w (fun x => F x + G x) (v + u).
Proof.
  induction ls as [|[p [f n]] ls IH]; intros w F G v u; cbn [joint_integral]; [intros -> ->; reflexivity|]. intros (A & A1 & A2) (B & B1 & B2). exists (fun x => A x + B x). split; [|now apply integral_plus]. intros x X. apply IH; auto.
Qed.
Lemma joint_scal ls c : forall w F v, joint_integral ls w F v -> joint_integral ls w (fun x => c * F x) (c * v).
Proof.
  induction ls as [|[p [f n]] ls IH]; intros w F v; cbn [joint_integral]; [intros ->; reflexivity|]. intros (A & A1 & A2). exists (fun x => c * A x). split; [|now apply integral_scal]. intros x X. apply IH; auto.
Qed.
Lemma dc_joint ls : forall w (g : nat -> jobs -> R) (h K : jobs -> R) (d y : nat -> R) c, NoDup (map fst ls) -> (forall j, joint_integral ls w (g j) (y j)) -> joint_integral ls w K c ->
  (forall j xv, spaces_ok ls w xv -> Rabs (g j xv - h xv) <= d j * K xv) -> (forall xv, spaces_ok ls w xv -> 0 <= K xv) -> (forall j, 0 <= d j) -> is_lim_seq d 0 ->
  0 <= c /\ exists v, joint_integral ls w h v /\ forall j, Rabs (y j - v) <= d j * c.
Proof.
  induction ls as [|[p [f n]] ls IH]; intros w g h K d y c Nd Hg HK B Kp Dp D; cbn [joint_integral] in *.
  - assert (O : spaces_ok [] w w) by (split; [intros; reflexivity|intros ? ? ? []]). split; [rewrite HK; now apply Kp|]. exists (h w). split; [reflexivity|]. intros j. rewrite Hg, HK. now apply B.
  - cbn [map fst] in Nd. inversion Nd as [|? ? N1 N2]; subst. destruct HK as (Kt & K1 & K2).
    set (G := fun j x => val (fun r => joint_integral ls (assign w p x) (g j) r)). set (H := fun x => val (fun r => joint_integral ls (assign w p x) h r)).
    assert (V : forall F x v, joint_integral ls (assign w p x) F v -> val (fun r => joint_integral ls (assign w p x) F r) = v).
    { intros F x v Hv. apply val_eq; [exact Hv|]. intros u Hu. exact (joint_fun _ _ _ _ _ Hu Hv). }
    assert (Gi : forall j x, point_ok f n x -> joint_integral ls (assign w p x) (g j) (G j x)).
    { intros j x X. destruct (Hg j) as (Gj & J1 & _). unfold G. rewrite (V _ _ _ (J1 x X)). now apply J1. }
    assert (Hh : forall x, point_ok f n x -> 0 <= Kt x /\ joint_integral ls (assign w p x) h (H x) /\ forall j, Rabs (G j x - H x) <= d j * Kt x).
    { intros x X. destruct (IH (assign w p x) g h K d (fun j => G j x) (Kt x)) as (C & v & V1 & V2); auto; [intros j xv O; apply B; now apply (spaces_cons p f n ls w x)|intros xv O; apply Kp; now apply (spaces_cons p f n ls w x)|].
      split; [exact C|]. unfold H. rewrite (V _ _ _ V1). now split. }
    split; [apply (integral_nonneg f n Kt c K2); intros x X; now apply Hh|].
    destruct (dc_over f n G H Kt d y c) as (v & V1 & V2); auto; [|intros j x X; now apply Hh|intros x X; now apply Hh|].
    + intros j. destruct (Hg j) as (Gj & J1 & J2). eapply integral_ext; [|exact J2]. intros x X. symmetry. apply V. now apply J1.
    + exists v. split; [|exact V2]. exists H. split; [|exact V1]. intros x X. now apply Hh.
Qed.
