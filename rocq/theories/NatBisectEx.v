(** The examples of C75's round trip from the natural parameters. *)
From Coquelicot Require Import Coquelicot.
From Coq Require Import String List Bool Arith Reals Lia Lra.
From Verif Require Import Base XReal Tensor TensorFacts TensorFacts2 Support SupportSpec Dist DictFacts Iteration Structure Spec StructFacts AssembleFacts SumSpec DotSpec FlattenSpec Tools
  Joint StructThms MapFacts SpecFun GammaFn BesselFn Expr Fam ExprFacts FamTy FamFacts SearchFacts BatchFacts BatchThms PointSpec PointFacts Val FamR FamVal ConvFacts LeafVal VarSpec VarThms DensSpec RootSpec RootVal RootThms ResidSpec
  MeanSpec MeanFacts MeanThms Bisect Initial BisectThms InitialThms LogBisect Examples RootEx MeanEx LogEx DerivThms PointFacts SumFacts .
Import ListNotations.
Local Unset Asymmetric Patterns.
Local Open Scope string_scope.
Local Open Scope R_scope.

Lemma ex_gq_trip : DensSpec.proper [] [] Gamma ex_gq /\ exists e, to_exp (fam_methods (default_bisection 0 0)) ex_gq = Ok e /\ dist_vals true [] e.
Proof.
  split; [exact ex_gq_proper|]. destruct ex_gq_root as (e & E1 & E2 & _). exists e. split; [|exact E2]. rewrite (api_exp_leaf _ ex_gq Gamma eq_refl) in *. exact E1.
Qed.
Definition ex_lq : dist := Dist (NP Logarithmic) DefaultMinimizer [("log_probability", vec [- ln 2]%R [] eq_refl)] [].
Lemma ex_lq_proper : DensSpec.proper [] [] Logarithmic ex_lq.
Proof. pose proof ln2_bounds. proper_ 1%nat. lra. Qed.
Lemma ex_lq_trip : DensSpec.proper [] [] Logarithmic ex_lq /\ -50 < par ex_lq [] "log_probability" [] < - / 2 ^ 23 /\ exists e, to_exp (fam_methods (default_bisection 0 0)) ex_lq = Ok e /\ dist_vals true [] e.
Proof.
  pose proof ln2_bounds as B2. assert (Pv : par ex_lq [] "log_probability" [] = - ln 2) by reflexivity.
  split; [exact ex_lq_proper|]. split; [rewrite Pv; cbn [pow]; lra|]. pose proof ex_lq_proper as (C & W & S & Hi & Dom). destruct (nat_dom_at [] [] ex_lq Logarithmic Hi C W S Dom) as (n & B & K).
  assert (n = 1%nat) by (apply (dims_none _ _ (ap_dims _ _ _ _ _ _ B)); now rewrite C). subst n.
  assert (U : unclipped Logarithmic (point_of ex_lq [])) by (cbn [unclipped]; change (point_of ex_lq [] false "log_probability" []) with (- ln 2); unfold log_probability_floor, log_probability_ceiling; lra).
  destruct (exp_at (default_bisection 0 0) [] [] ex_lq Logarithmic 1 _ eq_refl B K U) as (e & E1 & A). exists e. split; [rewrite (api_exp_leaf _ ex_lq Logarithmic eq_refl); exact E1|].
  intros p q I. assert (J : is_joint (dcls e) = false) by now rewrite (ap_cls _ _ _ _ _ _ A). rewrite (leaf_leaves e [] J) in I. destruct I as [I|[]]. injection I as <- <-.
  exists 1%nat. split; [exact (ap_dims _ _ _ _ _ _ A)|]. rewrite (ap_cls _ _ _ _ _ _ A). intros f I. assert (F : In f (fields (EP Logarithmic))) by (cbn in I; destruct I as [<-|[]]; cbn; auto).
  destruct (ap_get _ _ _ _ _ _ f A F) as (x & X1 & X2 & X3). pose proof (ap_vals _ _ _ _ _ _ A _ _ _ [] (fields_in_ctx (EP Logarithmic) 1 f F)) as V. cbn in I. destruct I as [<-|[]].
  specialize (V eq_refl). unfold vals_of in V. rewrite X1 in V. destruct x as [t|t]; [|discriminate X3]. cbn in X2.
  change (@tget xr Dflt_xr t [] = Fin (chi_of (- ln 2))) in V. rewrite ex_lg_chi in V.
  eexists (RA t), _. split; [exact X1|]. split; [reflexivity|]. split; [exact X2|]. intros _ j Hj. rewrite X2 in Hj. destruct j; try discriminate Hj. eexists. split; [exact V|]. pose proof ex_lg_gt. unfold inside. assert (0 < feps < 1 / 100) by (unfold feps; cbn [pow]; lra).
  split; trivial; cbn; unfold adj_min, copysign; repeat destruct (Rlt_dec _ _); try rewrite Rabs_pos_eq by lra; try apply Rmax_lub_lt; lra.
Qed.
