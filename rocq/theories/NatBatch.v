(** C75: the round trip from the natural parameters, for every batch element. *)
From Coquelicot Require Import Coquelicot.
From Coq Require Import String List Bool Arith Reals Lia Lra.
From Verif Require Import Base XReal Tensor TensorFacts TensorFacts2 Support PlaneFacts Dist DictFacts Iteration Structure Spec StructFacts AssembleFacts SumSpec DotSpec FlattenSpec Tools
  ToolThms Joint StructThms MapFacts SumFacts JointThms JointThms2 SpecFun Expr Fam ExprFacts FamTy FamFacts SearchFacts DotFacts BatchFacts BatchThms BatchProofs PointSpec VarSpec DensSpec RootSpec ResidSpec MeanSpec Bisect Initial BisectThms InitialThms LogBisect InitBatch NatBisect Val VarThms
  Examples IntEx RootEx LogEx NatBisectEx.
Import ListNotations.
Local Unset Asymmetric Patterns.
Local Open Scope string_scope.
Local Open Scope R_scope.

Theorem t_natural_batch b f q eps : 0 < eps -> dcls q = NP f -> well_formed q = true -> leaf_shaped b q = true -> no_custom_minimizer q = true ->
  (forall i, inb b i = true -> exists qi ei, getitem q i = Ok qi /\ proper [] [] f qi /\
    (f = Gamma \/ f = VonMisesFisher \/ (f = ChiSquare /\ -1 + / 2 ^ 23 < par qi [] "k_over_two_minus_one" []) \/ (f = Logarithmic /\ -50 < par qi [] "log_probability" [] < - / 2 ^ 23)) /\
    to_exp (fam_methods (default_bisection 0 0)) qi = Ok ei /\ dist_vals true [] ei) ->
  exists K N, forall k m, (K <= k)%nat -> (N <= m)%nat -> let L := fam_methods (default_bisection k m) in
    exists e q', to_exp L q = Ok e /\ to_nat L e = Ok q' /\
      forall i, inb b i = true -> exists qi qi', getitem q i = Ok qi /\ getitem q' i = Ok qi' /\ near_params_at [] [] eps qi qi'.
Proof.
  intros Ep C W S M H. assert (J : is_joint (dcls q) = false) by now rewrite C. destruct (leaf_inv q W J) as [Q _]. rewrite C in Q.
  assert (Nt : nat_tree q = true) by (rewrite Q; reflexivity). assert (Sh : shaped b q = true). { revert S. rewrite Q. intros S. cbn [shaped is_joint forallb]. rewrite S. reflexivity. }
  destruct (finite_max (indices b) (fun i k m => exists qi ei qi', getitem q i = Ok qi /\ to_exp (fam_methods (default_bisection k m)) qi = Ok ei /\ to_nat (fam_methods (default_bisection k m)) ei = Ok qi' /\ near_params_at [] [] eps qi qi')) as (K & N & X).
  { intros i Hi. apply in_indices in Hi. destruct (H i Hi) as (qi & ei & G & P & F & T & V). destruct (t_natural_trip f qi ei eps Ep P F T V) as (K & N & X). exists K, N. intros k m Hk Hm. destruct (X k m Hk Hm) as (qi' & X1 & X2 & X3). exists qi, ei, qi'. auto. }
  exists K, N. intros k m Hk Hm. cbv zeta. set (sv := default_bisection k m) in *.
  destruct (g_exp_tree (fam_methods sv) (fam_good sv) b q W Nt Sh) as (e & E1 & E2 & E3 & E4 & E5 & _). destruct (tm_shaped b q e W E2 E5) as [_ Se].
  destruct (g_nat_tree (fam_methods sv) (fam_good sv) b e E2 E3 Se) as (q' & Q1 & _). exists e, q'. split; [exact E1|]. split; [exact Q1|]. intros i Hi.
  destruct (X k m Hk Hm i (proj2 (in_indices b i) Hi)) as (qi & ei & qi' & X1 & X2 & X3 & X4). fold sv in X2, X3.
  destruct (p_C27_to_exp sv b q i W Nt Sh M Hi) as (qi0 & e0 & ei0 & Y1 & Y2 & Y3 & Y4). rewrite X1 in Y1. injection Y1 as <-. rewrite E1 in Y2. injection Y2 as <-. rewrite X2 in Y4. injection Y4 as <-.
  destruct (p_C27_to_nat sv b e i E2 E3 Se E4 Hi) as (ei0 & q0 & qi0 & Z1 & Z2 & Z3 & Z4). rewrite Y3 in Z1. injection Z1 as <-. rewrite Q1 in Z2. injection Z2 as <-. rewrite X3 in Z4. injection Z4 as <-.
  exists qi, qi'. auto.
Qed.
Definition ex_gq2 : dist := Dist (NP Gamma) DefaultMinimizer [("negative_rate", vec [- ln 2; - ln 2]%R [2]%nat eq_refl); ("shape_minus_one", vec [ln 2 - 1; ln 2 - 1]%R [2]%nat eq_refl)] [].
Lemma ex_gq2_each : forall i, inb [2]%nat i = true -> exists qi ei, getitem ex_gq2 i = Ok qi /\ DensSpec.proper [] [] Gamma qi /\ to_exp (fam_methods (default_bisection 0 0)) qi = Ok ei /\ dist_vals true [] ei.
Proof.
  intros i Hi. destruct (Val.inb1 _ _ Hi) as (k & -> & Hk). pose proof ln2_bounds. assert (C : k = 0%nat \/ k = 1%nat) by lia.
  assert (P : DensSpec.proper [] [] Gamma (stree [k] ex_gq2)).
  { destruct C as [-> | ->]; (split; [reflexivity|]; split; [reflexivity|]; split; [reflexivity|]; split; [reflexivity|]; exists 1%nat; split; [reflexivity|]; split;
    [intros g a j Hg Ha Hj; cbn in Hg; destruct Hg as [<-|[<-|[]]]; cbn in Ha; injection Ha as <-; (destruct j; [eexists _, _; reflexivity|discriminate])|cbn; lra]). }
  destruct (gq_root (stree [k] ex_gq2) P) as (e & E1 & E2 & _); [destruct C as [-> | ->]; reflexivity|destruct C as [-> | ->]; reflexivity|].
  exists (stree [k] ex_gq2), e. split; [destruct C as [-> | ->]; reflexivity|]. split; [exact P|]. split; [|exact E2]. rewrite (VarThms.api_exp_leaf _ (stree [k] ex_gq2) Gamma eq_refl) in *. exact E1.
Qed.
