(** Concrete cases for C31. *)
From Coquelicot Require Import Coquelicot.
From Coq Require Import String List Bool Arith Reals Lia Lra.
From Verif Require Import Base XReal Tensor TensorFacts Support Dist Iteration Structure Spec Tools Joint SpecFun Expr Fam SumSpec DotSpec Examples JointEx PointSpec ConvEx DensSpec KlSpec Conj ConjSpec ConjThms.
Import ListNotations.
Local Unset Asymmetric Patterns.
Local Open Scope string_scope.
Local Open Scope R_scope.

Definition cj_exp (m : R) : dist := Dist (EP Exponential) DefaultMinimizer [("mean", vec [m] [] eq_refl)] [].
Definition cj_multi (x y z w : R) : dist := Dist (EP Multinomial) DefaultMinimizer [("probability", vec [x; y; z; w] [2; 2]%nat eq_refl)] [].
Definition cj_fixed (x y : R) : dist := Dist (EP MultivariateFixedVarianceNormal) DefaultMinimizer [("mean", vec [x; y] [2]%nat eq_refl); ("variance", vec [3] [] eq_refl)] [].

Lemma cj_exp_proper m : 0 < m -> proper_e [] [] Exponential (cj_exp m).
Proof. intros H. do 4 (split; [reflexivity|]). leaf_ 1%nat. exact H. Qed.
Lemma cj_exp_cmp m m' : 0 < m -> 0 < m' -> comparable [] [] Exponential (cj_exp m) (cj_exp m').
Proof. intros H H'. split; [now apply cj_exp_proper|]. split; [now apply cj_exp_proper|]. split; [reflexivity|]. intros g v w j I F. destruct I as [<-|[]]. discriminate F. Qed.
Lemma cj_multi_proper x y z w : 0 < z -> 0 < w -> z + w < 1 -> proper_e [2]%nat [1]%nat Multinomial (cj_multi x y z w).
Proof.
  intros H1 H2 H3. do 4 (split; [reflexivity|]). leaf_ 2%nat. split.
  - intros k K. destruct k as [|[|k]]; [exact H1|exact H2|lia].
  - unfold sumR. cbn. lra.
Qed.
Lemma cj_multi_cmp x y z w x' y' z' w' : 0 < z -> 0 < w -> z + w < 1 -> 0 < z' -> 0 < w' -> z' + w' < 1 -> comparable [2]%nat [1]%nat Multinomial (cj_multi x y z w) (cj_multi x' y' z' w').
Proof. intros. split; [now apply cj_multi_proper|]. split; [now apply cj_multi_proper|]. split; [reflexivity|]. intros g v u j I F. destruct I as [<-|[]]. discriminate F. Qed.
Lemma cj_fixed_proper x y : proper_e [] [] MultivariateFixedVarianceNormal (cj_fixed x y).
Proof. do 4 (split; [reflexivity|]). leaf_ 2%nat. lra. Qed.
Lemma cj_fixed_cmp x y x' y' : comparable [] [] MultivariateFixedVarianceNormal (cj_fixed x y) (cj_fixed x' y').
Proof.
  split; [apply cj_fixed_proper|]. split; [apply cj_fixed_proper|]. split; [reflexivity|]. intros g v u j I F V U. destruct I as [<-|[<-|[]]]; [discriminate F|]. cbn in V, U. rewrite V in U. now injection U as <-.
Qed.
Lemma cj_obs N : pseudo_observations [2]%nat [1]%nat (vec [1; N] [2]%nat eq_refl) N.
Proof. eexists. split; [reflexivity|]. split; reflexivity. Qed.
Lemma cj_obs0 N : pseudo_observations [] [] (vec [N] [] eq_refl) N.
Proof. eexists. split; [reflexivity|]. split; reflexivity. Qed.
Lemma cj_obsv N M : pseudo_observations_v [] [] 2 (vec [N; M] [2]%nat eq_refl) (fun k => match k with O => N | _ => M end).
Proof. eexists. split; [reflexivity|]. split; [reflexivity|]. intros k K. destruct k as [|[|k]]; [reflexivity|reflexivity|lia]. Qed.
Lemma ln2_lt : ln 2 < 3 / 4.
Proof.
  rewrite <- (ln_exp (3 / 4)). apply ln_increasing; [lra|]. replace (3 / 4) with (1 / 8 + 1 / 8 + 1 / 8 + 1 / 8 + 1 / 8 + 1 / 8) by field. rewrite !exp_plus. pose proof (exp_ineq1 (1 / 8) ltac:(lra)) as H.
  assert (H2 : 81 / 64 < exp (1 / 8) * exp (1 / 8)) by nra. assert (H4 : 81 / 64 * (81 / 64) < exp (1 / 8) * exp (1 / 8) * (exp (1 / 8) * exp (1 / 8))) by nra. nra.
Qed.
Lemma cj_refuted solve : exists p p1 p2 n N c x1 x2 d1 d2 k1 k2, pseudo_observations [] [] n N /\ 0 < N /\ comparable [] [] Exponential p p1 /\ comparable [] [] Exponential p p2 /\
  conjugate_prior_distribution p n = Ok c /\ conjugate_prior_observation p1 = Ok x1 /\ conjugate_prior_observation p2 = Ok x2 /\
  log_density (fam_methods solve) [] [] c x1 d1 /\ log_density (fam_methods solve) [] [] c x2 d2 /\ divergence (fam_methods solve) [] [] p p1 k1 /\ divergence (fam_methods solve) [] [] p p2 k2 /\ d1 - d2 <> N * (k2 - k1).
Proof.
  assert (P1 : 0 < 1) by lra. assert (P2 : 0 < 2) by lra. pose proof (cj_exp_cmp 1 1 P1 P1) as C1. pose proof (cj_exp_cmp 1 2 P1 P2) as C2.
  destruct (conj_vals solve [] [] Exponential (cj_exp 1) _ 1 Logic.I (cj_obs0 1) P1 ltac:(intros [Z|Z]; discriminate Z) (cj_exp_proper 1 P1)) as (m & c & Dm & Ec & Pc & A & H & K & V).
  injection Dm as <-. destruct (V _ C1) as (x1 & X1 & L1 & D1 & _ & H1 & _). destruct (V _ C2) as (x2 & X2 & L2 & D2 & _ & H2 & _).
  exists (cj_exp 1), (cj_exp 1), (cj_exp 2), (vec [1] [] eq_refl), 1, c, x1, x2. do 4 eexists. split; [apply cj_obs0|]. split; [lra|]. do 9 (split; [eassumption|]).
  cbn [prior_dims prior_fam]. rewrite (exp_prior_alg 1 _ _ _ 1 H H1 H2 P1). unfold klV, point_of. cbn. rewrite ln_1. pose proof ln2_lt. lra.
Qed.
