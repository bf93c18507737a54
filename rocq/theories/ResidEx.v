(** A gamma distribution for which the solver of C28's example stops at a residual of one tenth (C54). *)
From Coquelicot Require Import Coquelicot.
From Coq Require Import String List Bool Arith Reals Lia Lra.
From Verif Require Import Base XReal Tensor TensorFacts TensorFacts2 Support SupportSpec Dist Iteration Structure Spec FlattenSpec StructFacts AssembleFacts StructThms FlattenThms SumFacts JointThms JointThms2 BatchFacts SumSpec DotSpec Joint SpecFun GammaFn Expr Fam ExprFacts FamTy FamFacts
  Examples JointEx PointSpec PointFacts Val FamR FamVal ConvFacts LeafVal ConvThms DerivFacts DerivThms ConvEx DensSpec RootSpec RootVal RootThms SearchFacts Var VarSpec VarThms RootEx ResidSpec MeanSpec MeanThms MeanEx.
Import ListNotations.
Local Unset Asymmetric Patterns.
Local Open Scope string_scope.
Local Open Scope R_scope.

Definition ex_g3 : dist := Dist (EP Gamma) DefaultMinimizer [("mean", vec [1]%R [] eq_refl); ("mean_log", vec [ml - 1/10]%R [] eq_refl)] [].
Lemma ex_g3_proper : proper_e [] [] Gamma ex_g3.
Proof. pose proof ml_lt. proper_ 1%nat. rewrite ln_1. lra. Qed.
Lemma ex_g3_vals : dist_vals true [] ex_g3.
Proof.
  intros p q Hi. cbn in Hi. destruct Hi as [H|[]]; injection H as <- <-.
  exists 1%nat. split; [reflexivity|]. intros f [<-|[<-|[]]]; eexists _, _; (split; [reflexivity|]); (split; [reflexivity|]); split; try reflexivity;
      intros _; idx; unfold inside; pose proof feps_small; split; trivial; unfold adj_min; apply Rmax_lub_lt; lra.
Qed.
Lemma ex_g3_resid : residual_found solve0 (1/10) Gamma ex_g3.
Proof.
  pose proof ex_g3_proper as (C & W & S & Hi & Dom). destruct (exp_dom_at [] [] ex_g3 Gamma Hi C W S Dom) as (n & A & H). assert (n = 1%nat) by (pose proof (ap_dims _ _ _ _ _ _ A) as D; cbn in D; congruence). subst n.
  set (sp := tbuild ([] ++ [1%nat])%list (fun _ => Fin 0)). destruct (search_env [] [] ex_g3 (EP Gamma) 1 (point_of ex_g3 []) sp (fun _ => 0) 1 A eq_refl) as [HE HV].
  { intros k K. unfold sp. rewrite tget_tbuild; [reflexivity|]. now apply (inb_snoc_intro [] 1 [] k). }
  pose proof (sps_pos 0) as P. assert (G : exists g, search_gradient ex_g3 Gamma sp = Ok g /\ residual_at [] [] (1/10) g).
  { unfold search_gradient. cbn [search_gradient_e].
    set (e0 := ENewaxis _). assert (T : VR (("search", (KR, [1%nat])) :: ctx_of (EP Gamma) 1) (ps (point_of ex_g3 []) (fun _ => 0)) e0 (Ev [1%nat]) (fun _ => 1/10)).
    { unfold e0. change [1%nat] with ([] ++ [1%nat])%list. eapply VR_ext.
      { apply VR_newaxis. eapply VR_add; [eapply VR_sub; [eapply VR_sub; [vr|vr|alt_]|eapply VR_log; [eapply VR_softplus; eapply VR_at; [vr|lia]|]|alt_]|eapply VR_digamma; [eapply VR_softplus; eapply VR_at; [vr|lia]|]|alt_]; jj; pss; try exact P; cbn; lra. }
      intros j Hj. destruct (inb1 _ _ Hj) as (k & -> & Hk). cbn [removelast]. pss. replace (point_of ex_g3 [] false "mean" []) with 1 by reflexivity. replace (point_of ex_g3 [] false "mean_log" []) with (ml - 1/10) by reflexivity. rewrite ln_1, exp_0. unfold ml. replace (1 + 1) with 2 by ring. lra. }
    destruct (eval_at [] _ _ [] _ e0 [1%nat] _ HE Hi HV T) as (t & T1 & T2 & T3). exists t. split; [exact T1|]. intros j Hj. change (shp (A := xr) t) with (shp (A := elt KR) t) in Hj. rewrite T2 in Hj. exists (1/10). split; [exact (T3 j Hj)|]. rewrite Rabs_pos_eq; lra. }
  destruct G as (g & G1 & G2). exists 1%nat, 1%nat, g. split; [reflexivity|]. split; [reflexivity|]. split; [exact (zeros [] [] eq_refl)|]. split; [exact G1|exact G2].
Qed.
Lemma consts b i c : inb b i = true -> finite_search b i 1 (tbuild (b ++ [1%nat])%list (fun _ => Fin c)).
Proof. intros Hi. split; [reflexivity|]. intros k K. exists c. rewrite tget_tbuild; [reflexivity|]. now apply inb_snoc_intro. Qed.
Lemma ex_g2_lt c d : c < d -> xltb (tget (tbuild [2; 1]%nat (fun _ => Fin c)) ([1]%nat ++ [0%nat])%list) (tget (tbuild [2; 1]%nat (fun _ => Fin d)) ([1]%nat ++ [0%nat])%list) = true.
Proof. intros H. cbn. unfold xltb, rltb. destruct (Rlt_dec c d); [reflexivity|contradiction]. Qed.
Lemma ex_g2_bracket : proper_e [2]%nat [1]%nat Gamma ex_g2 /\ dims_of ex_g2 = Ok 1%nat /\ finite_search [2]%nat [1]%nat 1 (tbuild [2; 1]%nat (fun _ => Fin (-1))) /\ finite_search [2]%nat [1]%nat 1 (tbuild [2; 1]%nat (fun _ => Fin 1)) /\
  search_root [2]%nat [1]%nat Gamma 1 ex_g2 (tbuild [2; 1]%nat (fun _ => Fin 0)) /\
  (exists g x, search_gradient ex_g2 Gamma (tbuild [2; 1]%nat (fun _ => Fin (-1))) = Ok g /\ tget g ([1]%nat ++ [0%nat])%list = Fin x /\ x <= 0) /\
  (exists g x, search_gradient ex_g2 Gamma (tbuild [2; 1]%nat (fun _ => Fin 1)) = Ok g /\ tget g ([1]%nat ++ [0%nat])%list = Fin x /\ 0 <= x).
Proof.
  split; [exact ex_g2_proper|]. split; [reflexivity|]. split; [exact (consts [2]%nat [1]%nat (-1) eq_refl)|]. split; [exact (consts [2]%nat [1]%nat 1 eq_refl)|]. split; [exact ex_g2_search|].
  destruct (t_grad_incr solve0 [2]%nat [1]%nat Gamma ex_g2 1 (tbuild [2; 1]%nat (fun _ => Fin (-1))) (tbuild [2; 1]%nat (fun _ => Fin 0)) eq_refl ex_g2_proper eq_refl ltac:(discriminate) (consts [2]%nat [1]%nat (-1) eq_refl) (consts [2]%nat [1]%nat 0 eq_refl)
     (ex_g2_lt (-1) 0 ltac:(lra)) ltac:(discriminate)) as (g & g' & x & x' & A1 & A2 & A3 & A4 & A5).
  destruct (t_grad_incr solve0 [2]%nat [1]%nat Gamma ex_g2 1 (tbuild [2; 1]%nat (fun _ => Fin 0)) (tbuild [2; 1]%nat (fun _ => Fin 1)) eq_refl ex_g2_proper eq_refl ltac:(discriminate) (consts [2]%nat [1]%nat 0 eq_refl) (consts [2]%nat [1]%nat 1 eq_refl)
     (ex_g2_lt 0 1 ltac:(lra)) ltac:(discriminate)) as (h & h' & y & y' & B1 & B2 & B3 & B4 & B5).
  rewrite A2 in B1. injection B1 as <-. destruct (ex_g_zero [2]%nat [1]%nat ex_g2 ex_g2_proper eq_refl eq_refl eq_refl) as (g0 & G & Z). assert (A2' : Ok g' = Ok g0) by (rewrite <- A2; exact G). injection A2' as <-.
  rewrite A4 in B3. injection B3 as <-. assert (Z0 : x' = 0).
  { assert (Sg : shp g' = [2; 1]%nat). { revert A2. vm_compute. intros A2. injection A2 as <-. reflexivity. } pose proof (zero_get [2]%nat [1]%nat g' 1 0 Sg Z Nat.lt_0_1) as Q. rewrite A4 in Q. now injection Q. }
  subst x'. split; [exists g, x; split; [exact A1|split; [exact A3|lra]]|exists h', y'; split; [exact B2|split; [exact B4|lra]]].
Qed.
