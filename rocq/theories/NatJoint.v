(** C75: the round trip from the natural parameters of joint distributions. *)
From Coquelicot Require Import Coquelicot.
From Coq Require Import String List Bool Arith Reals Lia Lra.
From Verif Require Import Base XReal Tensor TensorFacts TensorFacts2 Support PlaneFacts Dist DictFacts Iteration Structure Spec StructFacts AssembleFacts SumSpec DotSpec FlattenSpec Tools
  ToolThms Joint StructThms MapFacts SumFacts JointThms JointThms2 SpecFun Expr Fam ExprFacts FamTy FamFacts SearchFacts DotFacts BatchFacts PointSpec VarSpec DensSpec LeafVal ConvThms VarThms RootSpec ResidSpec MeanSpec Bisect Initial BisectThms InitialThms LogBisect InitBatch InitSpec NatSpec NatBisect Examples RootEx LogEx NatBisectEx.
Import ListNotations.
Local Unset Asymmetric Patterns.
Local Open Scope string_scope.
Local Open Scope R_scope.
Lemma leaf_recovers f l eps : 0 < eps -> recovers f l -> exists K N, forall k m, (K <= k)%nat -> (N <= m)%nat -> let L := fam_methods (default_bisection k m) in
  exists e l', l_to_exp L l = Ok e /\ l_to_nat L e = Ok l' /\ returned eps f l l'.
Proof.
  intros Ep (P & H). pose proof P as (C & W & S & Hi & Dom). unfold returned. assert (J : is_joint (dcls l) = false) by now rewrite C. destruct (leaf_inv l W J) as [Q _]. rewrite C in Q.
  assert (Lv : leaves [] l = [([], l)]) by (rewrite Q; reflexivity).
  destruct H as [Cf|((e & T & V) & H)].
  - exists 0%nat, 0%nat. intros k m _ _. cbv zeta. set (sv := default_bisection k m). rewrite Cf.
    assert (Nt : nat_tree l = true) by (rewrite Q; reflexivity). assert (Sh : shaped [] l = true) by (revert S; rewrite Q; intros S; cbn [shaped is_joint forallb]; rewrite S; reflexivity).
    destruct (t_nat_exp sv [] l [] W Nt Sh eq_refl) as (q & l' & X1 & X2 & X3 & X4 & X5).
    { intros p x Hx. rewrite Lv in Hx. destruct Hx as [Hx|[]]. injection Hx as <- <-. exact Dom. }
    { intros p x g Hx Hg. rewrite Lv in Hx. destruct Hx as [Hx|[]]. injection Hx as <- <-. rewrite C in Hg. cbn in Hg. injection Hg as <-. exact Cf. }
    destruct (g_exp_tree (fam_methods sv) (fam_good sv) [] l W Nt Sh) as (q0 & Y1 & Y2 & Y3 & Y4 & Y5 & Y6). assert (q0 = q) by congruence. subst q0. destruct (tm_shaped [] l q W Y2 Y5) as [_ Sq].
    destruct (g_nat_tree (fam_methods sv) (fam_good sv) [] q Y2 Y3 Sq) as (l0 & Z1 & Z2 & Z3 & Z4 & Z5 & Z6). assert (l0 = l') by congruence. subst l0.
    unfold same_at in X5. rewrite Lv in Y6, X5. inversion Y6 as [|? [pq ql] ? ? [_ Yq] Y7 Eq Eq']; subst. inversion Y7; subst. rewrite <- Eq' in Z6. inversion Z6 as [|? [pl ll] ? ? [_ Zq] Z7 Eq2 Eq3]; subst. inversion Z7; subst. rewrite <- Eq3 in X5. inversion X5 as [|? ? ? ? [_ Xs] _]; subst.
    cbn [snd] in *. exists ql, ll. auto.
  - assert (Cf : closed_form f = false) by (destruct H as [->|[->|[[-> _]|[-> _]]]]; reflexivity). destruct (t_natural_trip f l e eps Ep P H T V) as (K & N & X). exists K, N. intros k m Kk Nm. destruct (X k m Kk Nm) as (l' & X1 & X2 & X3). rewrite Cf.
    assert (Ce : dcls e = EP f). { rewrite (api_exp_leaf _ l f C) in X1. destruct (leaf_dims _ _ S) as (n & D & _). destruct (exp_builds (default_bisection k m) [] l f n C W S D) as (ps & B1 & _). rewrite X1 in B1. injection B1 as ->. reflexivity. }
    exists e, l'. rewrite (api_exp_leaf _ l f C) in X1. rewrite (api_nat_leaf _ e f Ce) in X2. auto.
Qed.
Theorem t_natural_joint q eps : 0 < eps -> well_formed q = true -> nat_tree q = true -> shaped [] q = true ->
  (forall p l, In (p, l) (leaves [] q) -> exists f, dcls l = NP f /\ recovers f l) ->
  exists K N, forall k m, (K <= k)%nat -> (N <= m)%nat -> let L := fam_methods (default_bisection k m) in
    exists e q', to_exp L q = Ok e /\ to_nat L e = Ok q' /\ forall p l f, In (p, l) (leaves [] q) -> dcls l = NP f -> exists l', dist_at q' p = Some l' /\ returned eps f l l'.
Proof.
  intros Ep W Nt Sh H.
  destruct (finite_max (leaves [] q) (fun pl k m => exists f e l', dcls (snd pl) = NP f /\ l_to_exp (fam_methods (default_bisection k m)) (snd pl) = Ok e /\ l_to_nat (fam_methods (default_bisection k m)) e = Ok l' /\ returned eps f (snd pl) l')) as (K & N & X).
  { intros [p l] Hl. destruct (H p l Hl) as (f & C & Cv). destruct (leaf_recovers f l eps Ep Cv) as (K & N & X). exists K, N. intros k m Kk Nm. destruct (X k m Kk Nm) as (e & l' & X1 & X2 & X3). exists f, e, l'. auto. }
  exists K, N. intros k m Kk Nm. cbv zeta. specialize (X k m Kk Nm). set (sv := default_bisection k m) in *.
  destruct (g_exp_tree (fam_methods sv) (fam_good sv) [] q W Nt Sh) as (e & Y1 & Y2 & Y3 & Y4 & Y5 & Y6). destruct (tm_shaped [] q e W Y2 Y5) as [_ Sq].
  destruct (g_nat_tree (fam_methods sv) (fam_good sv) [] e Y2 Y3 Sq) as (q' & Z1 & Z2 & Z3 & Z4 & Z5 & Z6). exists e, q'. split; [exact Y1|]. split; [exact Z1|]. intros p l f Hl C.
  destruct (X (p, l) Hl) as (f' & ql & l' & X1 & X2 & X3 & X4). cbn [snd] in *. assert (f' = f) by congruence. subst f'.
  destruct (Forall2_in_l _ _ _ _ Y6 Hl) as ([p1 q1] & I1 & E1 & E2). cbn [fst snd] in *. subst p1. assert (q1 = ql) by congruence. subst q1.
  destruct (Forall2_in_l _ _ _ _ Z6 I1) as ([p2 l2] & I2 & E3 & E4). cbn [fst snd] in *. subst p2. assert (l2 = l') by congruence. subst l2.
  exists l'. split; [|exact X4]. apply (leaves_iff q' [] p l' Z2). exact I2.
Qed.
Definition ex_xq : dist := Dist (NP Exponential) DefaultMinimizer [("negative_rate", vec [-2]%R [] eq_refl)] [].
Definition ex_jq : dist := Dist JointDistributionN DefaultMinimizer [] [("a", Dist JointDistributionN DefaultMinimizer [] [("g", ex_gq); ("x", ex_xq)]); ("l", ex_lq)].
Lemma ex_xq_proper : DensSpec.proper [] [] Exponential ex_xq.
Proof. proper_ 1%nat. lra. Qed.
Lemma ex_jq_recovers : forall p l, In (p, l) (leaves [] ex_jq) -> exists f, dcls l = NP f /\ recovers f l.
Proof.
  intros p l H. destruct H as [H|[H|[H|[]]]]; injection H as <- <-.
  - exists Gamma. split; [reflexivity|]. split; [exact ex_gq_proper|]. right. split; [exact (proj2 ex_gq_trip)|now left].
  - exists Exponential. split; [reflexivity|]. split; [exact ex_xq_proper|now left].
  - exists Logarithmic. split; [reflexivity|]. split; [exact ex_lq_proper|]. right. split; [exact (proj2 (proj2 ex_lq_trip))|]. do 3 right. split; [reflexivity|exact (proj1 (proj2 ex_lq_trip))].
Qed.
