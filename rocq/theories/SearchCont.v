(** The natural parameters depend continuously on the expectation parameters, for the families whose to_nat searches (C53). *)
From Coquelicot Require Import Coquelicot.
From Coq Require Import String List Bool Arith Reals Lia Lra Classical.
From Verif Require Import Base XReal Tensor TensorFacts Support Dist Iteration Spec SumSpec DotSpec SpecFun GammaFn BesselFn BesselFn2 TrigammaFn Expr Fam ExprFacts FamTy FamFacts PointSpec PointFacts Val FamR FamVal ConvFacts DerivFacts DerivThms BregFacts BregThms InjThms KlPos JointKl GradFacts BoxFacts.
Import ListNotations.
Local Unset Asymmetric Patterns.
Local Open Scope string_scope.
Local Open Scope R_scope.

Definition sfam (f : family) : bool := match f with Beta | Chi | ChiSquare | Dirichlet | Gamma | GeneralizedDirichlet | VonMisesFisher => true | _ => false end.
Definition RP := fct_UniformSpace string (fct_UniformSpace (list nat) R_UniformSpace).
Definition topt (r : RP) : point := fun _ nm j => r nm j.
Definition ofpt (p : point) : RP := fun nm j => p false nm j.

(** ** continuity *)
Lemma c_proj (r : RP) nm j : continuous (fun r : RP => r nm j : R) r.
Proof. intros P [e H]. exists e. intros y By. apply H. exact (By nm j). Qed.
Lemma c_sum n : forall (g : nat -> RP -> R) (r : RP), (forall k, (k < n)%nat -> continuous (g k) r) -> continuous (fun r => sumR n (fun k => g k r)) r.
Proof.
  induction n as [|n IH]; intros g r H; [apply (continuous_const 0)|]. apply (continuous_ext (fun r => sumR n (fun k => g k r) + g n r)); [intros x; now rewrite sumR_S|].
  apply (continuous_plus (fun r => sumR n (fun k => g k r)) (g n)); [apply IH; intros; apply H; lia|apply H; lia].
Qed.
Lemma c_plus (g h : RP -> R) r : continuous g r -> continuous h r -> continuous (fun x => g x + h x) r. Proof. intros. now apply (continuous_plus g h). Qed.
Lemma c_minus (g h : RP -> R) r : continuous g r -> continuous h r -> continuous (fun x => g x - h x) r. Proof. intros. now apply (continuous_minus g h). Qed.
Lemma c_mult (g h : RP -> R) r : continuous g r -> continuous h r -> continuous (fun x => g x * h x) r. Proof. intros. now apply (continuous_mult g h). Qed.
Lemma c_opp (g : RP -> R) r : continuous g r -> continuous (fun x => - g x) r. Proof. intros. now apply (continuous_opp g). Qed.
Lemma c_const (c : R) (r : RP) : continuous (fun _ : RP => c) r. Proof. apply continuous_const. Qed.
Lemma c_comp (h : R -> R) (g : RP -> R) r d : is_derive h (g r) d -> continuous g r -> continuous (fun x => h (g x)) r.
Proof. intros D G. apply (continuous_comp g h); [exact G|]. apply (@ex_derive_continuous R_AbsRing R_NormedModule). now exists d. Qed.
Lemma c_lngamma (g : RP -> R) r : 0 < g r -> continuous g r -> continuous (fun x => lngamma (g x)) r. Proof. intros P. apply (c_comp lngamma g r (digamma (g r))). now apply lngamma_derive. Qed.
Lemma c_ln (g : RP -> R) r : 0 < g r -> continuous g r -> continuous (fun x => ln (g x)) r. Proof. intros P. apply (c_comp ln g r (/ g r)). now apply is_derive_ln. Qed.
Lemma c_sqrt (g : RP -> R) r : continuous g r -> continuous (fun x => sqrt (g x)) r. Proof. intros G. apply (continuous_comp g sqrt); [exact G|]. apply continuous_sqrt. Qed.
Ltac cc1 := match goal with
  | |- continuous (fun r => r ?nm ?j) _ => apply c_proj
  | |- continuous (fun r => ?c) _ => apply c_const
  | |- continuous (fun r => @?g r - @?h r) _ => apply (c_minus g h)
  | |- continuous (fun r => @?g r + @?h r) _ => apply (c_plus g h)
  | |- continuous (fun r => @?g r * @?h r) _ => apply (c_mult g h)
  | |- continuous (fun r => - @?g r) _ => apply (c_opp g)
  | |- continuous (fun r => sumR ?n (fun k => @?g k r)) _ => apply (c_sum n (fun k r => g k r)); intros ?k ?Hk
  end; cbv beta.
Ltac cl := match goal with |- continuous (fun r => lngamma (@?g r)) _ => apply (c_lngamma g) | |- continuous (fun r => ln (@?g r)) _ => apply (c_ln g) | |- continuous (fun r => sqrt (@?g r)) _ => apply (c_sqrt g) end; cbv beta.
Ltac cc := repeat cc1.

Lemma gd_beta_pos n (p : point) k : (k < n)%nat -> (forall k, (k < n)%nat -> -1 < p false "alpha_minus_one" [k] /\ 0 < p false "gamma" [k]) -> 0 < gdR_beta n p k.
Proof.
  intros Hk H. unfold gdR_beta. assert (A : 0 <= sumR (Datatypes.S (n - 1 - k)) (fun m => p false "gamma" [(n - 1 - m)%nat])) by (apply sumR_nonneg; intros m Hm; destruct (H (n - 1 - m)%nat ltac:(lia)); lra).
  assert (B : 0 <= sumR (n - 1 - k) (fun m => gdR_alpha p (n - 1 - m))) by (apply sumR_nonneg; intros m Hm; unfold gdR_alpha; destruct (H (n - 1 - m)%nat ltac:(lia)); lra). lra.
Qed.
Lemma sumsq_pos n (x : nat -> R) : (exists k, (k < n)%nat /\ x k <> 0) -> 0 < sumR n (fun k => x k * x k).
Proof.
  intros (k & K & N). replace 0 with (sumR n (fun _ => 0)) by (clear; induction n as [|n IH]; [apply sumR_0|rewrite sumR_S, IH; ring]). apply sumR_lt; [intros j _; nra|]. exists k. split; [exact K|]. nra.
Qed.
Lemma cont_ln f n (r : RP) : sfam f = true -> nat_dom f n (topt r) -> continuous (fun r : RP => lnR n (topt r) f) r.
Proof.
  intros F H. unfold topt in *. destruct f; try discriminate F; cbn [nat_dom] in H; unfold lnR.
  - destruct H as [H1 H2]. cc.
    + cl; [specialize (H2 k Hk); cbv beta in *; lra|cc].
    + cl; [|cc]. assert (A : - INR n < sumR n (fun k => r "alpha_minus_one" [k])); [|cbv beta; lra]. replace (- INR n) with (sumR n (fun _ => -1)) by (rewrite sumR_const; ring). apply sumR_lt; [intros k Hk; specialize (H2 k Hk); lra|]. exists 0%nat. split; [lia|]. apply H2. lia.
  - cc. cl; [lra|cc].
  - cc. cl; [lra|cc].
  - destruct H as [H1 H2]. cc.
    + cl; [specialize (H2 k Hk); cbv beta in *; lra|cc].
    + cl; [|cc]. assert (A : - INR n < sumR n (fun k => r "alpha_minus_one" [k])); [|cbv beta; lra]. replace (- INR n) with (sumR n (fun _ => -1)) by (rewrite sumR_const; ring). apply sumR_lt; [intros k Hk; specialize (H2 k Hk); lra|]. exists 0%nat. split; [lia|]. apply H2. lia.
  - destruct H as [H1 H2]. cc; [cl; [lra|cc]|cl; [lra|cc]].
  - assert (P : forall k, (k < n)%nat -> 0 < gdR_alpha (topt r) k /\ 0 < gdR_beta n (topt r) k). { intros k Hk. split; [unfold gdR_alpha, topt; destruct (H k Hk); lra|]. apply gd_beta_pos; [exact Hk|exact H]. }
    assert (Cb : forall k, continuous (fun r : RP => gdR_beta n (topt r) k) r) by (intros k; unfold gdR_beta, gdR_alpha, topt; cc).
    unfold topt in *. cc; (cl; [destruct (P k Hk); cbv beta; lra|]); unfold gdR_alpha in *; cc; apply Cb.
  - cbv zeta. set (N := fun r : RP => norm2 n (fun _ nm j => r nm j) "mean_times_concentration"). assert (P : 0 < N r) by (unfold N, norm2, sumsq; apply sqrt_lt_R0; now apply sumsq_pos).
    assert (CN : continuous N r) by (unfold N, norm2, sumsq; cl; cc). set (u := INR n * (1 / 2) - 1). assert (U : -1 < u). { unfold u. destruct H as (k & K & _). pose proof (lt_0_INR n ltac:(lia)). lra. }
    apply (continuous_ext (fun r : RP => (fun z => ln (bessel_i u z) - u * ln z) (N r) + INR n * (1 / 2) * ln (2 * PI))); [intros x; unfold N, u; cbv beta; match goal with |- @eq _ ?a ?b => change (@eq R a b) end; ring|].
    apply c_plus; [|apply c_const]. apply (c_comp (fun z => ln (bessel_i u z) - u * ln z) N r (bessel_i (u + 1) (N r) / bessel_i u (N r))); [now apply bessel_log_derive|exact CN].
Qed.
Lemma ln_topt f n p : sfam f = true -> lnR n p f = lnR n (topt (ofpt p)) f.
Proof. intros F. destruct f; try discriminate F; reflexivity. Qed.
Lemma dom_topt f n p : sfam f = true -> nat_dom f n p -> nat_dom f n (topt (ofpt p)).
Proof. intros F. destruct f; try discriminate F; exact (fun x => x). Qed.
Lemma ball_cont f n p : sfam f = true -> nat_dom f n p -> forall eta, 0 < eta -> exists d, 0 < d /\ forall q, (forall nm j, Rabs (q false nm j - p false nm j) < d) -> Rabs (lnR n q f - lnR n p f) < eta.
Proof.
  intros F H eta E. pose proof (cont_ln f n (ofpt p) F (dom_topt f n p F H)) as C. destruct (C _ (locally_ball (lnR n (topt (ofpt p)) f) (mkposreal eta E))) as [d Hd]. exists d. split; [apply cond_pos|]. intros q Hq.
  rewrite (ln_topt f n q F), (ln_topt f n p F). specialize (Hd (ofpt q)). apply Hd. intros nm j. exact (Hq nm j).
Qed.
(** ** the domain is open *)
Lemma min_list n (g : nat -> R) : (forall k, (k < n)%nat -> 0 < g k) -> exists e, 0 < e /\ forall k, (k < n)%nat -> e < g k.
Proof.
  induction n as [|n IH]; intros H; [exists 1; split; [lra|intros; lia]|]. destruct IH as (e & E & He); [intros; apply H; lia|]. pose proof (H n ltac:(lia)) as Hn. exists (Rmin e (g n / 2)). split; [apply Rmin_pos; lra|].
  intros k Hk. assert (A := Rmin_l e (g n / 2)). assert (B := Rmin_r e (g n / 2)). destruct (Nat.eq_dec k n) as [->|Nk]; [lra|]. specialize (He k ltac:(lia)). lra.
Qed.
Lemma ball_dom f n p : sfam f = true -> nat_dom f n p -> exists e, 0 < e /\ forall q, (forall nm j, Rabs (q false nm j - p false nm j) <= e) -> nat_dom f n q.
Proof.
  intros F H. destruct f; try discriminate F; cbn [nat_dom] in *.
  - destruct H as [H1 H2]. destruct (min_list n (fun k => p false "alpha_minus_one" [k] + 1)) as (e & E & He); [intros k Hk; specialize (H2 k Hk); lra|]. exists e. split; [exact E|]. intros q Hq. split; [exact H1|]. intros k Hk. specialize (He k Hk). specialize (Hq "alpha_minus_one" [k]). apply Rabs_le_between in Hq. lra.
  - exists ((p false "k_over_two_minus_one" [] + 1) / 2). split; [lra|]. intros q Hq. specialize (Hq "k_over_two_minus_one" []). apply Rabs_le_between in Hq. lra.
  - exists ((p false "k_over_two_minus_one" [] + 1) / 2). split; [lra|]. intros q Hq. specialize (Hq "k_over_two_minus_one" []). apply Rabs_le_between in Hq. lra.
  - destruct H as [H1 H2]. destruct (min_list n (fun k => p false "alpha_minus_one" [k] + 1)) as (e & E & He); [intros k Hk; specialize (H2 k Hk); lra|]. exists e. split; [exact E|]. intros q Hq. split; [exact H1|]. intros k Hk. specialize (He k Hk). specialize (Hq "alpha_minus_one" [k]). apply Rabs_le_between in Hq. lra.
  - destruct H as [H1 H2]. exists (Rmin (- p false "negative_rate" [] / 2) ((p false "shape_minus_one" [] + 1) / 2)). split; [apply Rmin_pos; lra|]. intros q Hq. pose proof (Hq "negative_rate" []) as Q1. pose proof (Hq "shape_minus_one" []) as Q2.
    assert (A := Rmin_l (- p false "negative_rate" [] / 2) ((p false "shape_minus_one" [] + 1) / 2)). assert (B := Rmin_r (- p false "negative_rate" [] / 2) ((p false "shape_minus_one" [] + 1) / 2)). apply Rabs_le_between in Q1. apply Rabs_le_between in Q2. lra.
  - destruct (min_list n (fun k => Rmin (p false "alpha_minus_one" [k] + 1) (p false "gamma" [k]))) as (e & E & He); [intros k Hk; destruct (H k Hk); apply Rmin_pos; lra|]. exists e. split; [exact E|]. intros q Hq k Hk. specialize (He k Hk). pose proof (Hq "alpha_minus_one" [k]) as Q1. pose proof (Hq "gamma" [k]) as Q2.
    assert (A := Rmin_l (p false "alpha_minus_one" [k] + 1) (p false "gamma" [k])). assert (B := Rmin_r (p false "alpha_minus_one" [k] + 1) (p false "gamma" [k])). apply Rabs_le_between in Q1. apply Rabs_le_between in Q2. lra.
  - destruct H as (k & Hk & N). pose proof (Rabs_pos_lt _ N) as P. exists (Rabs (p false "mean_times_concentration" [k]) / 2). split; [lra|]. intros q Hq. exists k. split; [exact Hk|]. intros Z. specialize (Hq "mean_times_concentration" [k]). rewrite Z in Hq. rewrite Rminus_0_l, Rabs_Ropp in Hq. lra.
Qed.
