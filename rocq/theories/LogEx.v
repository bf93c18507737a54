(** The example of C75 for a logarithmic distribution with log_probability = -log 2. *)
From Coquelicot Require Import Coquelicot.
From Coq Require Import String List Bool Arith Reals Lia Lra.
From Verif Require Import Base XReal Tensor TensorFacts TensorFacts2 Support SupportSpec Dist DictFacts Iteration Structure Spec StructFacts AssembleFacts SumSpec DotSpec FlattenSpec Tools
  StructThms MapFacts SpecFun GammaFn BesselFn Expr Fam ExprFacts FamTy FamFacts SearchFacts BatchFacts BatchThms PointSpec PointFacts Val FamR FamVal ConvFacts LeafVal VarSpec DensSpec RootSpec RootVal RootThms ResidSpec
  MeanSpec MeanFacts MeanThms Bisect Initial BisectThms InitialThms LogBisect Examples RootEx MeanEx.
Import ListNotations.
Local Unset Asymmetric Patterns.
Local Open Scope string_scope.
Local Open Scope R_scope.

Lemma ln2_bounds : / 2 < ln 2 < 9 / 10.
Proof.
  split; [exact ln_lt_2|]. apply Rlt_le_trans with (ln (exp (9 / 10))); [|rewrite ln_exp; lra]. apply ln_increasing; [lra|].
  replace (9 / 10) with (9 / 20 + 9 / 20) by lra. rewrite exp_plus. pose proof (exp_ineq1 (9 / 20) ltac:(lra)). nra.
Qed.
Definition ex_lg : dist := mkd [] (EP Logarithmic) 1 (mkpt [("chi", re (fun _ => / ln 2))]).
Definition ex_lg_r : R := - spi (adj_max 0 + ln 2).
Lemma ex_lg_lp : log_lp ex_lg_r = - ln 2.
Proof. unfold log_lp, ex_lg_r. pose proof ln2_bounds. pose proof MeanThms.adj_max_0. rewrite Ropp_involutive, sps_spi; lra. Qed.
Lemma ex_lg_chi : chi_of (- ln 2) = / ln 2.
Proof. pose proof ln2_bounds. unfold chi_of. rewrite exp_Ropp, exp_ln by lra. replace (1 + - / 2) with (/ 2) by lra. rewrite ln_Rinv by lra. field. lra. Qed.
Lemma ex_lg_gt : 10 / 9 < / ln 2.
Proof. pose proof ln2_bounds. replace (10 / 9) with (/ (9 / 10)) by field. apply Rinv_lt_contravar; [apply Rmult_lt_0_compat; lra|lra]. Qed.
Lemma ex_lg_at : at_pt [] [] ex_lg (EP Logarithmic) 1 (mkpt [("chi", re (fun _ => / ln 2))]).
Proof. apply mkd_at; trivial. intros g [<-|[]]. reflexivity. Qed.
Lemma ex_lg_dom : exp_dom Logarithmic 1 (mkpt [("chi", re (fun _ => / ln 2))]).
Proof. pose proof ex_lg_gt. cbn. lra. Qed.
Lemma ex_lg_proper : proper_e [] [] Logarithmic ex_lg.
Proof. pose proof ex_lg_at as [C W S D V]. repeat (split; [assumption || reflexivity|]). exact (at_pt_exp_dom [] [] ex_lg Logarithmic 1 _ eq_refl ex_lg_at ex_lg_dom). Qed.
Lemma ex_lg_vals : dist_vals true [] ex_lg.
Proof.
  intros p q Hi. cbn in Hi. destruct Hi as [H|[]]; injection H as <- <-.
  exists 1%nat. split; [reflexivity|]. intros f [<-|[]]. eexists _, _. split; [reflexivity|]. split; [reflexivity|]. split; [reflexivity|].
  intros _. pose proof ex_lg_gt. cbn. intros. eexists. split; [reflexivity|]. unfold inside. assert (0 < feps < 1 / 100) by (unfold feps; cbn [pow]; lra). split; trivial; unfold adj_min, copysign; repeat destruct (Rlt_dec _ _); try rewrite Rabs_pos_eq by lra; try apply Rmax_lub_lt; lra.
Qed.
Lemma ex_lg_search : exists sp q, search_root [] [] Logarithmic 1 ex_lg sp /\ search_to_natural ex_lg Logarithmic sp = Ok q /\ -50 < par q [] "log_probability" [].
Proof.
  set (sp := tbuild [1%nat] (fun _ => Fin ex_lg_r)). assert (Sx : tget sp [0%nat] = Fin ex_lg_r) by (unfold sp; rewrite tget_tbuild by reflexivity; reflexivity).
  destruct (s2n_at [] [] ex_lg Logarithmic 1 _ sp (fun _ => ex_lg_r) eq_refl eq_refl ex_lg_at ex_lg_dom eq_refl) as (q & Q1 & Q2). { intros k Kk. cbn in Kk. replace k with 0%nat by lia. exact Sx. }
  destruct (log_grad solve0 ex_lg _ sp ex_lg_r ex_lg_at ex_lg_dom eq_refl Sx) as (g & G1 & G2 & G3). exists sp, q. split; [|split; [exact Q1|]].
  - split; [split; [reflexivity|]; intros k Hk; replace k with 0%nat by lia; eexists; exact Sx|]. exists g. split; [exact G1|]. intros j Hj. cbn [length skipn] in Hj. rewrite G2 in Hj. destruct (inb1 _ _ Hj) as (k & -> & Hk). replace k with 0%nat by lia.
    cbn [app]. rewrite G3. f_equal. unfold log_h. rewrite ex_lg_lp, ex_lg_chi. pose proof ln2_bounds. unfold log_probability_floor. destruct (Rlt_dec _ _); [lra|]. cbv [mkpt re]. cbn [slook String.eqb Ascii.eqb Bool.eqb fst snd]. ring.
  - pose proof (log_par q _ ex_lg_r Q2) as ->. rewrite ex_lg_lp. pose proof ln2_bounds. lra.
Qed.
(** a Dirichlet distribution, for the choice of the solver *)
Lemma ex_dir_vals : dist_vals true [2]%nat (MeanEx.ex_dir (-1)).
Proof.
  intros p q Hi. cbn in Hi. destruct Hi as [H|[]]; injection H as <- <-.
  exists 2%nat. split; [reflexivity|]. intros f [<-|[]]. eexists _, _. split; [reflexivity|]. split; [reflexivity|]. split; [reflexivity|].
  intros _. assert (0 < feps < 1 / 100) by (unfold feps; cbn [pow]; lra). idx; unfold inside; split; trivial; rewrite ?MeanThms.adj_max_0; lra.
Qed.
(** a batch of two of ex_lg *)
Definition ex_lg2 : dist := mkd [2]%nat (EP Logarithmic) 1 (mkpt [("chi", re (fun _ => / ln 2))]).
Lemma ex_lg2_each : forall i, inb [2]%nat i = true -> exists ei, getitem ex_lg2 i = Ok ei /\ proper_e [] [] Logarithmic ei /\ dist_vals true [] ei /\
    exists sp q, search_root [] [] Logarithmic 1 ei sp /\ search_to_natural ei Logarithmic sp = Ok q /\ -50 < par q [] "log_probability" [].
Proof.
  intros i Hi. destruct (inb1 _ _ Hi) as (k & -> & Hk). exists ex_lg. split; [|exact (conj ex_lg_proper (conj ex_lg_vals ex_lg_search))].
  assert (C : k = 0%nat \/ k = 1%nat) by lia. destruct C as [-> | ->]; reflexivity.
Qed.
