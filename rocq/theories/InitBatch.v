(** C75 for batches: the bisection for every batch element. *)
From Coquelicot Require Import Coquelicot.
From Coq Require Import String List Bool Arith Reals Lia Lra.
From Verif Require Import Base XReal Tensor TensorFacts TensorFacts2 Support PlaneFacts Dist DictFacts Iteration Structure Spec StructFacts AssembleFacts SumSpec DotSpec FlattenSpec Tools
  ToolThms Joint StructThms MapFacts SumFacts JointThms JointThms2 SpecFun Expr Fam ExprFacts FamTy FamFacts SearchFacts DotFacts BatchFacts BatchThms BatchProofs PointSpec VarSpec DensSpec RootSpec ResidSpec MeanSpec Bisect Initial BisectThms InitialThms LogBisect.
Import ListNotations.
Local Unset Asymmetric Patterns.
Local Open Scope string_scope.
Local Open Scope R_scope.

Lemma finite_max {A} (l : list A) (P : A -> nat -> nat -> Prop) : (forall a, In a l -> exists K N, forall k m, (K <= k)%nat -> (N <= m)%nat -> P a k m) ->
  exists K N, forall k m, (K <= k)%nat -> (N <= m)%nat -> forall a, In a l -> P a k m.
Proof.
  induction l as [|x l IH]; intros H; [exists 0%nat, 0%nat; intros k m _ _ a []|]. destruct (H x (or_introl eq_refl)) as (K & N & H1). destruct IH as (K' & N' & H2); [intros a Ha; apply H; now right|].
  exists (Nat.max K K'), (Nat.max N N'). intros k m Hk Hm a [<-|Ha]; [apply H1; lia|apply H2; trivial; lia].
Qed.
(** from the elements to the batch *)
Lemma batch_of b f e eps : dcls e = EP f -> well_formed e = true -> leaf_shaped b e = true -> no_custom_minimizer e = true ->
  (forall i, inb b i = true -> exists ei, getitem e i = Ok ei /\ exists K N, forall k m, (K <= k)%nat -> (N <= m)%nat -> let L := fam_methods (default_bisection k m) in
    exists q e', to_nat L ei = Ok q /\ proper [] [] f q /\ to_exp L q = Ok e' /\ near_params_at [] [] eps ei e') ->
  exists K N, forall k m, (K <= k)%nat -> (N <= m)%nat -> let L := fam_methods (default_bisection k m) in
    exists q e', to_nat L e = Ok q /\ to_exp L q = Ok e' /\
      forall i, inb b i = true -> exists ei qi ei', getitem e i = Ok ei /\ getitem q i = Ok qi /\ getitem e' i = Ok ei' /\ proper [] [] f qi /\ near_params_at [] [] eps ei ei'.
Proof.
  intros C W S M H. assert (J : is_joint (dcls e) = false) by now rewrite C. destruct (leaf_inv e W J) as [Q _]. rewrite C in Q.
  assert (Et : exp_tree e = true) by (rewrite Q; reflexivity). assert (Sh : shaped b e = true). { revert S. rewrite Q. intros S. cbn [shaped is_joint forallb]. rewrite S. reflexivity. }
  destruct (finite_max (indices b) (fun i k m => exists ei q e', getitem e i = Ok ei /\ to_nat (fam_methods (default_bisection k m)) ei = Ok q /\ proper [] [] f q /\ to_exp (fam_methods (default_bisection k m)) q = Ok e' /\ near_params_at [] [] eps ei e')) as (K & N & X).
  { intros i Hi. apply in_indices in Hi. destruct (H i Hi) as (ei & G & K & N & X). exists K, N. intros k m Hk Hm. destruct (X k m Hk Hm) as (q & e' & X1 & X2 & X3 & X4). exists ei, q, e'. auto. }
  exists K, N. intros k m Hk Hm. cbv zeta. set (sv := default_bisection k m) in *.
  destruct (g_nat_tree (fam_methods sv) (fam_good sv) b e W Et Sh) as (q & Q1 & Q2 & Q3 & Q4 & Q5 & _). destruct (tm_shaped b e q W Q2 Q5) as [_ Sq].
  destruct (g_exp_tree (fam_methods sv) (fam_good sv) b q Q2 Q3 Sq) as (e' & E1 & _). exists q, e'. split; [exact Q1|]. split; [exact E1|]. intros i Hi.
  destruct (X k m Hk Hm i (proj2 (in_indices b i) Hi)) as (ei & qi & ei' & X1 & X2 & X3 & X4 & X5). fold sv in X2, X4.
  destruct (p_C27_to_nat sv b e i W Et Sh M Hi) as (ei0 & q0 & qi0 & Y1 & Y2 & Y3 & Y4). rewrite X1 in Y1. injection Y1 as <-. rewrite Q1 in Y2. injection Y2 as <-. rewrite X2 in Y4. injection Y4 as <-.
  destruct (p_C27_to_exp sv b q i Q2 Q3 Sq Q4 Hi) as (qi0 & e0 & ei0 & Z1 & Z2 & Z3 & Z4). rewrite Y3 in Z1. injection Z1 as <-. rewrite E1 in Z2. injection Z2 as <-. rewrite X4 in Z4. injection Z4 as <-.
  exists ei, qi, ei'. auto.
Qed.
Theorem t_bisection_batch b f e eps : 0 < eps -> dcls e = EP f -> well_formed e = true -> leaf_shaped b e = true -> no_custom_minimizer e = true ->
  (forall i, inb b i = true -> exists ei, getitem e i = Ok ei /\ proper_e [] [] f ei /\ dist_vals true [] (snd (searched f ei)) /\
    (f = Gamma \/ f = VonMisesFisher \/ ((f = ChiSquare \/ f = Chi) /\ exists sp, search_root [] [] ChiSquare 1 (snd (searched f ei)) sp))) ->
  exists K N, forall k m, (K <= k)%nat -> (N <= m)%nat -> let L := fam_methods (default_bisection k m) in
    exists q e', to_nat L e = Ok q /\ to_exp L q = Ok e' /\
      forall i, inb b i = true -> exists ei qi ei', getitem e i = Ok ei /\ getitem q i = Ok qi /\ getitem e' i = Ok ei' /\ proper [] [] f qi /\ near_params_at [] [] eps ei ei'.
Proof.
  intros Ep C W S M H. apply batch_of; trivial. intros i Hi. destruct (H i Hi) as (ei & G & P & V & F). exists ei. split; [exact G|]. exact (t_default_bisection f ei eps Ep P V F).
Qed.
Theorem t_log_batch b e eps : 0 < eps -> dcls e = EP Logarithmic -> well_formed e = true -> leaf_shaped b e = true -> no_custom_minimizer e = true ->
  (forall i, inb b i = true -> exists ei, getitem e i = Ok ei /\ proper_e [] [] Logarithmic ei /\ dist_vals true [] ei /\
    exists sp q, search_root [] [] Logarithmic 1 ei sp /\ search_to_natural ei Logarithmic sp = Ok q /\ -50 < par q [] "log_probability" []) ->
  exists K N, forall k m, (K <= k)%nat -> (N <= m)%nat -> let L := fam_methods (default_bisection k m) in
    exists q e', to_nat L e = Ok q /\ to_exp L q = Ok e' /\
      forall i, inb b i = true -> exists ei qi ei', getitem e i = Ok ei /\ getitem q i = Ok qi /\ getitem e' i = Ok ei' /\ proper [] [] Logarithmic qi /\ near_params_at [] [] eps ei ei'.
Proof.
  intros Ep C W S M H. apply batch_of; trivial. intros i Hi. destruct (H i Hi) as (ei & G & P & V & F). exists ei. split; [exact G|]. exact (t_log_bisection ei eps Ep P V F).
Qed.
