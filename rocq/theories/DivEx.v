(** A concrete case for C63. *)
From Coquelicot Require Import Coquelicot.
From Coq Require Import String List Bool Arith ZArith Reals Lra Lia.
From Verif Require Import Base XReal Tensor Support Dist Iteration Structure Tools Joint Spec SumSpec DotSpec PointSpec PointFacts DensSpec SpecFun Fam ConvEx Examples KlSpec KlEx TextSpec TextFacts EntSpec DivSpec DivFacts DivThms.
Import ListNotations.
Local Unset Asymmetric Patterns.
Local Open Scope string_scope.
Local Open Scope R_scope.

(** the second elements: the normal distributions with mean 1 and variance 1/4, and mean 0 and variance 1; the gamma distributions with shape 3
    and rate 5, and shape 4 and rate 1; the normal distributions with variances 8 and means (32, 40, 48) and (8, 0, 8) *)
Definition ex_divergences : list R := [1 / 8 + ln 2; - digamma 3 + ln (GammaF 4 / GammaF 3) + 4 * ln 5 - 12 / 5; 236].
Lemma ex_divergent : divergences [1]%nat ex_joint ex_joint2 ex_divergences.
Proof.
  unfold divergences. cbn [leaves ex_joint ex_joint2 is_joint flat_map app fst snd ex_normal ex_gamma ex_fixed combine]. unfold ex_divergences. constructor; [|constructor; [|constructor; [|constructor]]].
  - exists Normal, 1%nat. do 2 (split; [reflexivity|]). exists 1, (1 / 4), 0, 1. cbn. repeat match goal with |- _ /\ _ => split end; try lra. unfold normal_divergence. replace (1 / (1 / 4)) with (2 * 2) by field. rewrite ln_mult by lra. field.
  - exists Gamma, 1%nat. do 2 (split; [reflexivity|]). exists 3, 5, 4, 1. cbn. repeat match goal with |- _ /\ _ => split end; try lra. replace (5 / 1) with 5 by field. field.
  - exists MultivariateFixedVarianceNormal, 3%nat. do 2 (split; [reflexivity|]). exists (fun k => nth k [32; 40; 48] 0), (fun k => nth k [8; 0; 8] 0). split; [reflexivity|]. split; [|split].
    + intros k K. destruct k as [|[|[|k]]]; [| | |lia]; cbn; lra.
    + intros k K. destruct k as [|[|[|k]]]; [| | |lia]; cbn; lra.
    + assert (V : point_of (snd (["m"], Dist (NP MultivariateFixedVarianceNormal) DefaultMinimizer [("mean_times_precision", vec [1; 2; 3; 4; 5; 6]%R [2; 3]%nat eq_refl); ("variance", vec [7; 8]%R [2]%nat eq_refl)] [])) [1]%nat false "variance" [] = 8) by reflexivity.
      cbn [fst snd] in V |- *. rewrite V. unfold sumR. cbn [seq map fold_right nth]. rewrite !normal_same by lra. field.
Qed.
