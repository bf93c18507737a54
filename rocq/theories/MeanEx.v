(** Concrete cases for C52. *)
From Coquelicot Require Import Coquelicot.
From Coq Require Import String List Bool Arith Reals Lia Lra.
From Verif Require Import Base XReal Tensor TensorFacts TensorFacts2 Support SupportSpec Dist Iteration Structure Spec FlattenSpec StructFacts AssembleFacts StructThms FlattenThms SumFacts JointThms JointThms2 BatchFacts
  Examples JointEx PointSpec PointFacts Val FamR FamVal ConvFacts LeafVal ConvThms DerivFacts DerivThms ConvEx DensSpec RootSpec RootVal RootThms SearchFacts Var VarSpec VarThms RootEx MeanSpec MeanThms Joint Fam.
Import ListNotations.
Local Unset Asymmetric Patterns.
Local Open Scope string_scope.
Local Open Scope R_scope.

Definition ex_dir (m : R) : dist := Dist (EP Dirichlet) DefaultMinimizer [("mean_log_probability", vec [-5; -6; m; m]%R [2; 2]%nat eq_refl)] [].
Lemma ex_dir_proper m : m < 0 -> proper_e [2]%nat [1]%nat Dirichlet (ex_dir m).
Proof. intros M. proper_ 2%nat. ks. Qed.
Lemma ex_dir_sum m : sumR 2 (fun k => exp (point_of (ex_dir m) [1]%nat false "mean_log_probability" [k])) = 2 * exp m.
Proof. change (exp m + (exp m + 0) = 2 * exp m). ring. Qed.
Lemma ex_dir_attainable : attainable Dirichlet 2 (point_of (ex_dir (-1)) [1]%nat).
Proof.
  split; [lia|]. rewrite ex_dir_sum. assert (E : exp (-1) * exp 1 = 1) by (rewrite <- exp_plus; replace (-1 + 1) with 0 by ring; apply exp_0). pose proof (exp_ineq1 1 ltac:(lra)). pose proof (exp_pos (-1)). nra.
Qed.
Theorem t_support_refuted solve : exists b i e, proper_e b i Dirichlet e /\ dims_of e = Ok 2%nat /\ ~ exists q, mean_of (fam_methods solve) b i Dirichlet q e.
Proof.
  exists [2]%nat, [1]%nat, (ex_dir (- (1 / 2))). pose proof (ex_dir_proper (- (1 / 2)) ltac:(lra)) as P. split; [exact P|]. split; [reflexivity|]. intros H. apply (t_attained solve _ _ Dirichlet _ 2 ltac:(discriminate) P eq_refl) in H.
  destruct H as [_ H]. rewrite ex_dir_sum in H. pose proof (exp_ineq1 (- (1 / 2)) ltac:(lra)). lra.
Qed.
(** a root: the search parameter 0 of the gamma distribution of RootEx.v *)
Lemma ex_g2_search : search_root [2]%nat [1]%nat Gamma 1 ex_g2 (tbuild [2; 1]%nat (fun _ => Fin 0)).
Proof. split; [exact (zeros [2]%nat [1]%nat eq_refl)|]. destruct (ex_g_zero [2]%nat [1]%nat ex_g2 ex_g2_proper eq_refl eq_refl eq_refl) as (g & G & Z). exists g. split; [exact G|exact Z]. Qed.
Lemma ones b i : inb b i = true -> finite_search b i 1 (tbuild (b ++ [1%nat])%list (fun _ => Fin 1)).
Proof. intros Hi. split; [reflexivity|]. intros k K. exists 1. rewrite tget_tbuild; [reflexivity|]. now apply inb_snoc_intro. Qed.
Definition ex_v : dist := Dist (EP VonMisesFisher) DefaultMinimizer [("mean", vec [1/2; 1/3; 1/4]%R [3]%nat eq_refl)] [].
Lemma ex_v_proper : proper_e [] [] VonMisesFisher ex_v.
Proof. proper_ 3%nat. cbn. lra. Qed.
