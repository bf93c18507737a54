(** Concrete cases for C61. *)
From Coquelicot Require Import Coquelicot.
From Coq Require Import String List Bool Arith ZArith Reals Lra Lia.
From Verif Require Import Base XReal Tensor TensorFacts BroadcastFacts Support Dist Iteration Structure Tools Joint Spec SumSpec DotSpec PointSpec PointFacts DensSpec Fam FamVal ConvEx Examples DensEx MatFacts MatEx IntEx TextSpec TextThms TextEx MethodSpec Kappa KappaThms
  Scipy ScipyShaped ScipyFacts ScipyThms ScipyAgree ScipyRest ScipyDir ScipyRvs ScipyEx ScipyMv ScipyMvFacts ScipyVm.
Import ListNotations.
Local Unset Asymmetric Patterns.
Local Open Scope string_scope.
Local Open Scope R_scope.
Local Notation C := Complex.C (only parsing).
Local Existing Instance Scipy.Dflt_C.
Local Existing Instance Scipy.Dflt_R.

Section S.
  Context {G : Type} (gen : @gen_mvn_t G) (draw : list nat -> shape -> G -> tensor R * G) (solve : minimizer -> dist -> nat -> xr).
  Lemma ex_mvn_proper_all i : inb [2]%nat i = true -> proper [2]%nat i MultivariateNormal ex_mvn.
  Proof.
    intros Hi. destruct i as [|[|[|k]] [|? ?]]; try discriminate Hi; do 3 (split; [reflexivity|]); split; [reflexivity| |reflexivity|].
    - exists 2%nat. split; [reflexivity|]. split; [fin_|]. apply spd2; cbn; lra.
    - exists 2%nat. split; [reflexivity|]. split; [fin_|]. apply spd2; cbn; lra.
  Qed.
  Lemma ex_mvn_agrees (x : tensor C) : shp x = [2; 2]%nat -> exists m c d r, mc_dist gen (Some m) (Some c) = Ok d /\ sd_pdf d x = Ok r /\ shp r = [2]%nat /\
    forall i xe, inb [2]%nat i = true -> observed [2]%nat i ex_mvn xe (obs_at x i) -> density (fam_methods solve) [2]%nat i ex_mvn xe (tget r i).
  Proof.
    intros Ex. destruct (has_exp solve [2]%nat MultivariateNormal ex_mvn [0]%nat eq_refl eq_refl (ex_mvn_proper_all [0]%nat eq_refl)) as (e & E).
    set (m := tbuild [2; 2]%nat (fun j => par e (firstn 1 j) "mean" (skipn 1 j))). set (c := tbuild [2; 2; 2]%nat (fun j => normal_cov MultivariateNormal 2 e (firstn 1 j) (nth 1 j 0%nat) (nth 2 j 0%nat))).
    destruct (agree_normal solve [2]%nat ex_mvn e 2 eq_refl E gen MultivariateNormal m c x) as (d & r & H).
    - now left.
    - exact ex_mvn_proper_all.
    - reflexivity.
    - reflexivity.
    - intros i k Hi Hk. destruct i as [|k' [|? ?]]; try (cbn in Hi; try rewrite andb_false_r in Hi; discriminate Hi). unfold m. rewrite tget_tbuild; [reflexivity|]. apply (inb_app_intro [2]%nat [2]%nat [k'] [k] Hi). now apply in1.
    - intros i k l Hi Hk Hl. destruct i as [|k' [|? ?]]; try (cbn in Hi; try rewrite andb_false_r in Hi; discriminate Hi). unfold c. rewrite tget_tbuild; [reflexivity|]. apply (inb_app_intro [2]%nat [2; 2]%nat [k'] [k; l] Hi). now apply in2.
    - exact Ex.
    - exists m, c, d, r. exact H.
  Qed.
  Definition ex_unit : dist := Dist (NP MultivariateUnitNormal) DefaultMinimizer [("mean", vec [1; -2]%R [2]%nat eq_refl)] [].
  Lemma ex_unit_proper i : inb [] i = true -> proper [] i MultivariateUnitNormal ex_unit.
  Proof. intros Hi. destruct i; [|discriminate]. do 4 (split; [reflexivity|]). exists 2%nat. split; [reflexivity|]. split; [fin_|]. exact Logic.I. Qed.
  Lemma ex_unit_agrees (x : tensor C) : shp x = [2]%nat -> exists m d r, mc_dist gen (Some m) None = Ok d /\ sd_pdf d x = Ok r /\ shp r = [] /\
    forall i xe, inb [] i = true -> observed [] i ex_unit xe (obs_at x i) -> density (fam_methods solve) [] i ex_unit xe (tget r i).
  Proof.
    intros Ex. destruct (has_exp solve [] MultivariateUnitNormal ex_unit [] eq_refl eq_refl (ex_unit_proper [] eq_refl)) as (e & E). set (m := tbuild [2]%nat (fun j => par e [] "mean" j)).
    destruct (agree_unit_default solve [] ex_unit e 2 eq_refl E gen m x) as (d & r & H).
    - exact ex_unit_proper.
    - reflexivity.
    - intros i k Hi Hk. destruct i; [|discriminate]. unfold m. cbn [app]. now rewrite tget_tbuild by now apply in1.
    - exact Ex.
    - exists m, d, r. exact H.
  Qed.
  Lemma dx_geo_agrees : exists p r, scipy_geometric_pmf p (tscalar 3) = Ok r /\ shp r = [] /\ density (fam_methods solve) [] [] dx_geo (vec [2]%R [] eq_refl) (tget r []).
  Proof.
    destruct (has_exp solve [] Geometric dx_geo [] eq_refl eq_refl dx_geo_proper) as (e & E).
    destruct (agree_geometric solve [] dx_geo e (tscalar (1 / (1 + par e [] "mean" []))) (tscalar 3)) as (r & R1 & R2 & R3); try reflexivity.
    - exact E.
    - intros i Hi. destruct i; [exact dx_geo_proper|discriminate].
    - intros i Hi. destruct i; [reflexivity|discriminate].
    - eexists. exists r. split; [exact R1|]. split; [exact R2|]. apply (R3 [] (vec [2]%R [] eq_refl) (scalar 2)); [reflexivity| | |].
      + observed_. destruct j; [reflexivity|discriminate].
      + exists 2%nat. cbn. ring.
      + cbn. ring.
  Qed.
  Definition ex_vm : dist := Dist (NP VonMisesFisher) DefaultMinimizer [("mean_times_concentration", vec [3; 4]%R [2]%nat eq_refl)] [].
  Lemma ex_vm_proper i : inb [] i = true -> proper [] i VonMisesFisher ex_vm.
  Proof. intros Hi. destruct i; [|discriminate]. do 4 (split; [reflexivity|]). exists 2%nat. split; [reflexivity|]. split; [fin_|]. exists 0%nat. split; [lia|]. cbn. lra. Qed.
  Lemma ex_vm_agrees t : exists k a kappa loc d r, to_kappa_angle ex_vm = Ok (k, a) /\ tget k [] = Fin (tget kappa []) /\ tget a [] = Fin (tget loc []) /\ vm_dist kappa (Some loc) draw = Ok d /\ sd_pdf d (tscalar (RtoC t)) = Ok r /\ shp r = [] /\
    forall i xe xv, inb [] i = true -> observed [] i ex_vm xe xv -> xv false [0%nat] = cos t -> xv false [1%nat] = sin t -> density (fam_methods solve) [] i ex_vm xe (tget r i).
  Proof.
    destruct (t_kappa_angle [] [] ex_vm) as (k & a & r & s & K & _ & _ & R1 & R2 & _). { destruct (ex_vm_proper [] eq_refl) as (P1 & P2 & P3 & P4 & n & P5 & P6 & _). assert (n = 2%nat) by (cbn in P5; congruence). subst n. repeat split; assumption. }
    destruct (agree_von_mises_angle draw solve [] ex_vm k a (tscalar r) (tscalar s) (tscalar (RtoC t))) as (d & w & W1 & W2 & W3 & W4); try reflexivity; try assumption.
    - exact ex_vm_proper.
    - intros i Hi. destruct i; [|discriminate]. auto.
    - exists k, a, (tscalar r), (tscalar s), d, w. do 6 (split; [assumption|]). intros i xe xv Hi O X0 X1. apply (W4 i xe xv Hi O); destruct i; try discriminate; assumption.
  Qed.
  Lemma ex_vmf_agrees : exists mu kappa d r, vmf_dist mu kappa draw = Ok d /\ sd_pdf d (tbuild [2]%nat (fun j => RtoC (if nth 0 j 0%nat then 1 else 0))) = Ok r /\ shp r = [] /\ density (fam_methods solve) [] [] ex_vm (vec [1; 0]%R [2]%nat eq_refl) (tget r []).
  Proof.
    set (x := tbuild [2]%nat (fun j => RtoC (if nth 0 j 0%nat then 1 else 0))). set (v := fun k : nat => par ex_vm [] "mean_times_concentration" [k]). set (kap := sqrt (sumR 2 (fun k => v k * v k))).
    destruct (agree_von_mises_fisher draw solve [] ex_vm 2 (tbuild [2]%nat (fun j => v (nth 0 j 0%nat) / kap)) (tscalar kap) x) as (d & r & R1 & R2 & R3 & R4); try reflexivity.
    - exact ex_vm_proper.
    - intros i Hi. destruct i; [reflexivity|discriminate].
    - intros i k Hi Hk. destruct i; [|discriminate]. cbn [app]. now rewrite tget_tbuild by now apply in1.
    - intros i Hi. destruct i; [|discriminate]. cbn. ring.
    - eexists _, _, d, r. split; [exact R1|]. split; [exact R2|]. split; [exact R3|]. apply (R4 [] (vec [1; 0]%R [2]%nat eq_refl)); [reflexivity|]. observed_. destruct j as [|[|[|j]] [|? ?]]; try discriminate; reflexivity.
  Qed.
End S.
