(** C75 for joint distributions: every leaf converts by itself. *)
From Coquelicot Require Import Coquelicot.
From Coq Require Import String List Bool Arith Reals Lia Lra.
From Verif Require Import Base XReal Tensor TensorFacts TensorFacts2 Support PlaneFacts Dist DictFacts Iteration Structure Spec StructFacts AssembleFacts SumSpec DotSpec FlattenSpec Tools
  ToolThms Joint StructThms MapFacts SumFacts JointThms JointThms2 SpecFun Expr Fam ExprFacts FamTy FamFacts SearchFacts DotFacts BatchFacts PointSpec VarSpec DensSpec LeafVal ConvThms VarThms RootSpec ResidSpec MeanSpec Bisect Initial BisectThms InitialThms LogBisect InitBatch InitSpec.
Import ListNotations.
Local Unset Asymmetric Patterns.
Local Open Scope string_scope.
Local Open Scope R_scope.

Lemma leaf_returns f l eps : 0 < eps -> converts f l -> exists K N, forall k m, (K <= k)%nat -> (N <= m)%nat -> let L := fam_methods (default_bisection k m) in
  exists q l', l_to_nat L l = Ok q /\ l_to_exp L q = Ok l' /\ returned eps f l l'.
Proof.
  intros Ep (P & H). pose proof P as (C & W & S & Hi & Dom). unfold returned. assert (J : is_joint (dcls l) = false) by now rewrite C. destruct (leaf_inv l W J) as [Q _]. rewrite C in Q.
  assert (Lv : leaves [] l = [([], l)]) by (rewrite Q; reflexivity).
  assert (F : closed_form f = false -> (exists K N, forall k m, (K <= k)%nat -> (N <= m)%nat -> let L := fam_methods (default_bisection k m) in
    exists q e', to_nat L l = Ok q /\ proper [] [] f q /\ to_exp L q = Ok e' /\ near_params_at [] [] eps l e') -> exists K N, forall k m, (K <= k)%nat -> (N <= m)%nat -> let L := fam_methods (default_bisection k m) in
    exists q l', l_to_nat L l = Ok q /\ l_to_exp L q = Ok l' /\ (if closed_form f then same_leaf_at [] [] l l' else near_params_at [] [] eps l l')).
  { intros Cf (K & N & X). exists K, N. intros k m Kk Nm. destruct (X k m Kk Nm) as (q & l' & X1 & X2 & X3 & X4). rewrite Cf. exists q, l'. rewrite (api_nat_leaf _ l f C) in X1. rewrite (api_exp_leaf _ q f (proj1 X2)) in X3. auto. }
  destruct H as [Cf|(V & H)].
  - exists 0%nat, 0%nat. intros k m _ _. cbv zeta. set (sv := default_bisection k m). rewrite Cf.
    assert (Et : exp_tree l = true) by (rewrite Q; reflexivity). assert (Sh : shaped [] l = true) by (revert S; rewrite Q; intros S; cbn [shaped is_joint forallb]; rewrite S; reflexivity).
    destruct (t_exp_nat sv [] l [] W Et Sh eq_refl) as (q & l' & X1 & X2 & X3 & X4 & X5).
    { intros p x Hx. rewrite Lv in Hx. destruct Hx as [Hx|[]]. injection Hx as <- <-. exact Dom. }
    { intros p x g Hx Hg. rewrite Lv in Hx. destruct Hx as [Hx|[]]. injection Hx as <- <-. rewrite C in Hg. cbn in Hg. injection Hg as <-. exact Cf. }
    destruct (g_nat_tree (fam_methods sv) (fam_good sv) [] l W Et Sh) as (q0 & Y1 & Y2 & Y3 & Y4 & Y5 & Y6). assert (q0 = q) by congruence. subst q0. destruct (tm_shaped [] l q W Y2 Y5) as [_ Sq].
    destruct (g_exp_tree (fam_methods sv) (fam_good sv) [] q Y2 Y3 Sq) as (l0 & Z1 & Z2 & Z3 & Z4 & Z5 & Z6). assert (l0 = l') by congruence. subst l0.
    unfold same_at in X5. rewrite Lv in Y6, X5. inversion Y6 as [|? [pq ql] ? ? [_ Yq] Y7 Eq Eq']; subst. inversion Y7; subst. rewrite <- Eq' in Z6. inversion Z6 as [|? [pl ll] ? ? [_ Zq] Z7 Eq2 Eq3]; subst. inversion Z7; subst. rewrite <- Eq3 in X5. inversion X5 as [|? ? ? ? [_ Xs] _]; subst.
    cbn [snd] in *. exists ql, ll. auto.
  - destruct H as [->|[->|[([->| ->] & H)|(-> & H)]]]; apply F; try reflexivity.
    1, 2, 3, 4: apply t_default_bisection; trivial; auto; right; right; split; auto.
    now apply t_log_bisection.
Qed.
Theorem t_bisection_joint e eps : 0 < eps -> well_formed e = true -> exp_tree e = true -> shaped [] e = true ->
  (forall p l, In (p, l) (leaves [] e) -> exists f, dcls l = EP f /\ converts f l) ->
  exists K N, forall k m, (K <= k)%nat -> (N <= m)%nat -> let L := fam_methods (default_bisection k m) in
    exists q e', to_nat L e = Ok q /\ to_exp L q = Ok e' /\ forall p l f, In (p, l) (leaves [] e) -> dcls l = EP f -> exists l', dist_at e' p = Some l' /\ returned eps f l l'.
Proof.
  intros Ep W Et Sh H.
  destruct (finite_max (leaves [] e) (fun pl k m => exists f q l', dcls (snd pl) = EP f /\ l_to_nat (fam_methods (default_bisection k m)) (snd pl) = Ok q /\ l_to_exp (fam_methods (default_bisection k m)) q = Ok l' /\ returned eps f (snd pl) l')) as (K & N & X).
  { intros [p l] Hl. destruct (H p l Hl) as (f & C & Cv). destruct (leaf_returns f l eps Ep Cv) as (K & N & X). exists K, N. intros k m Kk Nm. destruct (X k m Kk Nm) as (q & l' & X1 & X2 & X3). exists f, q, l'. auto. }
  exists K, N. intros k m Kk Nm. cbv zeta. specialize (X k m Kk Nm). set (sv := default_bisection k m) in *.
  destruct (g_nat_tree (fam_methods sv) (fam_good sv) [] e W Et Sh) as (q & Y1 & Y2 & Y3 & Y4 & Y5 & Y6). destruct (tm_shaped [] e q W Y2 Y5) as [_ Sq].
  destruct (g_exp_tree (fam_methods sv) (fam_good sv) [] q Y2 Y3 Sq) as (e' & Z1 & Z2 & Z3 & Z4 & Z5 & Z6). exists q, e'. split; [exact Y1|]. split; [exact Z1|]. intros p l f Hl C.
  destruct (X (p, l) Hl) as (f' & ql & l' & X1 & X2 & X3 & X4). cbn [snd] in *. assert (f' = f) by congruence. subst f'.
  destruct (Forall2_in_l _ _ _ _ Y6 Hl) as ([p1 q1] & I1 & E1 & E2). cbn [fst snd] in *. subst p1. assert (q1 = ql) by congruence. subst q1.
  destruct (Forall2_in_l _ _ _ _ Z6 I1) as ([p2 l2] & I2 & E3 & E4). cbn [fst snd] in *. subst p2. assert (l2 = l') by congruence. subst l2.
  exists l'. split; [|exact X4]. apply (leaves_iff e' [] p l' Z2). exact I2.
Qed.
