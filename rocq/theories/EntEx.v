(** Concrete cases for C62. *)
From Coquelicot Require Import Coquelicot.
From Coq Require Import String List Bool Arith ZArith Reals Lra Lia.
From Verif Require Import Base XReal Tensor TensorFacts BroadcastFacts Support Dist Iteration Structure Tools Joint Spec SumSpec DotSpec PointSpec PointFacts DensSpec SpecFun Fam FamVal ConvEx Examples DensEx MatFacts MatEx IntSpec IntEx TextSpec TextThms TextEx EntSpec EntThms
  Scipy ScipyShaped ScipyFacts ScipyThms ScipyAgree ScipyEx ScipyMv ScipyMvFacts ScipyMvEx ScipyEnt.
Import ListNotations.
Local Unset Asymmetric Patterns.
Local Open Scope string_scope.
Local Open Scope R_scope.
Local Notation C := Complex.C (only parsing).
Local Existing Instance Scipy.Dflt_C.
Local Existing Instance Scipy.Dflt_R.

Lemma ex_wei_entropy solve : exists t, entropy_nat (fam_methods solve) ex_wei = Ok t /\ shp t = [2]%nat /\ tget t [1]%nat = Fin (euler_gamma * (1 - 1 / 5) + ln (Rpower 3 (- (1 / 5)) / 5) + 1).
Proof.
  apply (entropy_nat_textbook solve [2]%nat [1]%nat Weibull ex_wei 1); [exact ex_wei_proper|reflexivity|reflexivity|discriminate|]. exists (Rpower 3 (- (1 / 5))). split; [apply exp_pos|]. cbn. split; [|reflexivity].
  rewrite Rpower_mult. replace (- (1 / 5) * - (5)) with 1 by field. rewrite Rpower_1 by lra. reflexivity.
Qed.
Section S.
  Context {G : Type} (gen : @gen_mvn_t G) (solve : minimizer -> dist -> nat -> xr).
  Lemma ex_mvn_ent : exists m c d r, mc_dist gen (Some m) (Some c) = Ok d /\ sd_entropy d = Ok r /\ entropy_agrees solve [2]%nat ex_mvn r.
  Proof.
    destruct (has_exp solve [2]%nat MultivariateNormal ex_mvn [0]%nat eq_refl eq_refl (ex_mvn_proper_all [0]%nat eq_refl)) as (e & E).
    set (m := tbuild [2; 2]%nat (fun j => par e (firstn 1 j) "mean" (skipn 1 j))). set (c := tbuild [2; 2; 2]%nat (fun j => normal_cov MultivariateNormal 2 e (firstn 1 j) (nth 1 j 0%nat) (nth 2 j 0%nat))).
    destruct (ent_normal gen solve [2]%nat ex_mvn e 2 eq_refl E MultivariateNormal m c) as (d & r & H).
    - now left.
    - exact ex_mvn_proper_all.
    - reflexivity.
    - reflexivity.
    - intros i k l Hi Hk Hl. destruct i as [|k' [|? ?]]; try (cbn in Hi; try rewrite andb_false_r in Hi; discriminate Hi). unfold c. rewrite tget_tbuild; [reflexivity|]. apply (inb_app_intro [2]%nat [2; 2]%nat [k'] [k; l] Hi). now apply in2.
    - exists m, c, d, r. exact H.
  Qed.
  Lemma dx_cn_ent : exists m v u c r, cn_array (Some (NArr false m)) (Some (NArr true v)) (Some (NArr false u)) = Ok c /\ sd_entropy (cn_dist gen c) = Ok r /\ entropy_agrees solve [] dx_cn r.
  Proof.
    destruct (has_exp solve [] ComplexNormal dx_cn [] eq_refl eq_refl dx_cn_proper) as (e & E). set (m := cpar e [] "mean" []).
    destruct (ent_cn gen solve [] dx_cn e 1 eq_refl E (tscalar m) (tscalar (RtoC (par e [] "second_moment" [] - Cmod m ^ 2))) (tscalar (cpar e [] "pseudo_second_moment" [] - m * m)%C)) as (c & r & H).
    - intros i Hi. destruct i; [exact dx_cn_proper|discriminate].
    - reflexivity.
    - reflexivity.
    - reflexivity.
    - intros i Hi. destruct i; [|discriminate]. cbn. auto.
    - exists (tscalar m), (tscalar (RtoC (par e [] "second_moment" [] - Cmod m ^ 2))), (tscalar (cpar e [] "pseudo_second_moment" [] - m * m)%C), c, r. exact H.
  Qed.
  Lemma ex_ccs_ent : exists v c r, cm_array None (Some (NArr false v)) None = Ok c /\ sd_entropy (cm_dist gen c) = Ok r /\ entropy_agrees solve [2]%nat ex_ccs r.
  Proof.
    destruct (has_exp solve [2]%nat ComplexCircularlySymmetricNormal ex_ccs [0]%nat eq_refl eq_refl (ex_ccs_proper [0]%nat eq_refl)) as (e & E). set (v := tbuild [2; 2; 2]%nat (fun j => cpar e (firstn 1 j) "variance" (skipn 1 j))).
    destruct (ent_ccs gen solve [2]%nat ex_ccs e 2 eq_refl E v) as (c & r & H).
    - exact ex_ccs_proper.
    - reflexivity.
    - intros i a c Hi Ha Hc. destruct i as [|k [|? ?]]; try (cbn in Hi; try rewrite andb_false_r in Hi; discriminate Hi). unfold v. rewrite tget_tbuild; [reflexivity|]. apply (inb_app_intro [2]%nat [2; 2]%nat [k] [a; c] Hi). now apply in2.
    - exists v, c, r. exact H.
  Qed.
End S.
