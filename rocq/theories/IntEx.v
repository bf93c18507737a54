(** Concrete distributions meeting the hypotheses of C23-C25. *)
From Coquelicot Require Import Coquelicot.
From Coq Require Import String List Bool Arith Reals Lia Lra.
From Verif Require Import Base XReal Tensor TensorFacts Support SupportSpec SupportFacts Dist Iteration Structure Spec Joint SpecFun Expr Fam Examples SumSpec DotSpec PointSpec ConvEx Val FamR DensSpec IntSpec RootVal RootEx DensEx IntThms.
Import ListNotations.
Local Unset Asymmetric Patterns.
Local Open Scope string_scope.
Local Open Scope R_scope.

Definition ex_gam : dist := Dist (NP Gamma) DefaultMinimizer [("negative_rate", vec [-1; -3]%R [2]%nat eq_refl); ("shape_minus_one", vec [2; -1 / 2]%R [2]%nat eq_refl)] [].
Lemma ex_gam_proper : proper [2]%nat [1]%nat Gamma ex_gam. Proof. proper_ 1%nat. lra. Qed.
Definition ex_dir3 : dist := Dist (NP Dirichlet) DefaultMinimizer [("alpha_minus_one", vec [1; -1 / 2; 3]%R [3]%nat eq_refl)] [].
Lemma ex_dir3_proper : proper [] [] Dirichlet ex_dir3. Proof. proper_ 3%nat. split; [lia|ks]. Qed.
Definition ex_log2 : dist := Dist (NP Logarithmic) DefaultMinimizer [("log_probability", vec [-1; -2]%R [2]%nat eq_refl)] [].
Lemma ex_log2_proper : proper [2]%nat [1]%nat Logarithmic ex_log2. Proof. proper_ 1%nat. lra. Qed.
Lemma ex_log2_clip : not_clipped ex_log2 [1]%nat.
Proof. intros p l [H|[]] _. injection H as <- <-. cbn. lra. Qed.
Lemma clip_other d f i : dcls d = NP f -> f <> Logarithmic -> not_clipped d i.
Proof.
  intros C N p l H E. destruct d as [c m ps subs]. cbn [dcls] in C. subst c. cbn in H. destruct H as [H|[]]. injection H as <- <-. cbn in E. injection E as ->. contradiction.
Qed.
(** a chi distribution whose search parameter is 0 *)
Definition ex_chi : dist := Dist (NP Chi) DefaultMinimizer [("k_over_two_minus_one", vec [ln (1 + exp 0) + adj_min (-1)]%R [] eq_refl)] [].
Lemma ex_chi_proper : proper [] [] Chi ex_chi.
Proof.
  proper_ 1%nat. pose proof feps_pos. assert (-1 < adj_min (-1)) by (unfold adj_min; eapply Rlt_le_trans; [|apply Rmax_l]; lra). assert (0 < ln (1 + exp 0)) by (rewrite exp_0, <- ln_1; apply ln_increasing; lra). lra.
Qed.
Lemma soft0 : xsoftplus (Fin 0) = Fin (ln (1 + exp 0)).
Proof. unfold xsoftplus. cbn. destruct (Rlt_dec 0 (1 + exp 0)) as [_|N]; [reflexivity|]. exfalso. apply N. rewrite exp_0. lra. Qed.
Lemma ex_chi_recovered : recovered (fam_methods solve0) [] [] ex_chi.
Proof.
  do 2 eexists. split; [reflexivity|]. split; [reflexivity|].
  constructor; [|constructor]. split; [reflexivity|]. split; [reflexivity|]. split.
  - repeat (split; [reflexivity|]). exists Chi. split; reflexivity.
  - intros g v w j [<-|[]] V W J. cbn in V, W. injection V as <-. injection W as <-. assert (j = []) by (destruct j; [reflexivity|discriminate J]). subst j. transitivity (XC (xadd (xsoftplus (Fin 0)) (Fin (adj_min (-1)))) (Fin 0)); [rewrite soft0; reflexivity|reflexivity].
Qed.
Definition ex_vmf : dist := Dist (NP VonMisesFisher) DefaultMinimizer [("mean_times_concentration", vec [1; 0; -2; 0; 0; 3]%R [2; 3]%nat eq_refl)] [].
Lemma ex_vmf_proper : proper [2]%nat [1]%nat VonMisesFisher ex_vmf. Proof. proper_ 3%nat. exists 2%nat. split; [lia|]. cbn. lra. Qed.
Lemma ex_log_proper : proper [1]%nat [0]%nat Logarithmic ex_log. Proof. proper_ 1%nat. lra. Qed.
Lemma clipped_mean : exists q, proper [1]%nat [0]%nat Logarithmic q /\ dims_of q = Ok 1%nat /\ forall solve, exists e P T v,
  to_exp (fam_methods solve) q = Ok e /\ pdf_is (fam_methods solve) [1]%nat [0]%nat Logarithmic 1 q P /\
  statistic_is (fam_methods solve) [1]%nat [0]%nat Logarithmic 1 q false "chi" [] T /\ expected Logarithmic 1 P T v /\ ~ value_at e [0]%nat false "chi" [] v.
Proof.
  exists ex_log. split; [exact ex_log_proper|]. split; [reflexivity|]. intros solve. destruct (ex_log_inf solve) as (e & chi & E1 & E2 & E3).
  destruct (normalised solve [1]%nat [0]%nat Logarithmic ex_log 1 ex_log_proper eq_refl) as [(P & HP) _].
  assert (G : exists g, In g (fields (EP Logarithmic)) /\ fd_name g = "chi" /\ inb (supp_shape (fd_support g) 1) [] = true) by (eexists; split; [left; reflexivity|split; reflexivity]).
  destruct G as (g & G1 & G2 & G3). destruct (stat_mean solve [1]%nat [0]%nat Logarithmic ex_log 1 ex_log_proper eq_refl P g false [] HP G1 G3) as [(T & HT) M]. specialize (M T HT). rewrite G2 in HT.
  do 4 eexists. split; [exact E1|]. split; [exact HP|]. split; [exact HT|]. split; [exact M|]. intros (a & A1 & A2). rewrite E2 in A1. injection A1 as <-. cbn in A2. change (tget chi [0]%nat = Fin (entry_val g false (expR 1 (point_of ex_log [0]%nat) Logarithmic) [])) in A2. rewrite E3 in A2. discriminate A2.
Qed.
