(** The law of the two-stage sampler and of the samplers that miss part of the sample space (C49). *)
From Coquelicot Require Import Coquelicot.
From Coq Require Import String List Bool Arith Reals Lia Lra.
From Verif Require Import Base XReal Tensor TensorFacts TensorFacts2 BroadcastFacts Support Dist DictFacts Iteration Structure Spec StructFacts AssembleFacts SumSpec DotSpec Tools ToolThms Joint StructThms MapFacts
  LogPdfThms ExprFacts FamTy FamFacts SearchFacts DotLaws SpecFun GammaFn Expr Fam DotFacts BatchFacts
  PointSpec PointFacts Val FamR FamVal ConvFacts LeafVal ConvThms MatVal VarThms DerivFacts DerivThms DensSpec DensVal DensThms IntSpec IntFacts GammaInt IntNorm IntGen IntMulti IntFam IntThms
  Var VarSpec Sample SampleSpec SampleFacts SampleShape SampleVal SampleThms SampleTop KlPos InjThms ConjThms LawSpec LawFacts Law Law2 LawThms.
Import ListNotations.
Local Unset Asymmetric Patterns.
Local Open Scope string_scope.
Local Open Scope R_scope.

(** one term of a series *)
Lemma series_one (F : nat -> R) k : (forall m, m <> k -> F m = 0) -> is_series F (F k).
Proof.
  intros H. apply is_series_ext_R with (a := fun m => if (m =? k)%nat then F k else 0).
  { intros m. destruct (Nat.eqb_spec m k) as [->|N]; [reflexivity|symmetry; now apply H]. }
  change (is_lim_seq (sum_n (fun m => if (m =? k)%nat then F k else 0)) (F k)). apply is_lim_seq_ext_loc with (u := fun _ => F k); [|apply is_lim_seq_const]. exists k. intros m Hm.
  rewrite sum_n_Reals. clear H. assert (G : forall j, sum_f_R0 (fun m => if (m =? k)%nat then F k else 0) j = if (k <=? j)%nat then F k else 0).
  { induction j as [|j IH]; [cbn [sum_f_R0]; destruct k; reflexivity|]. cbn [sum_f_R0]. rewrite IH. destruct (Nat.eqb_spec (S j) k), (Nat.leb_spec k j), (Nat.leb_spec k (S j)); try lia; ring. }
  rewrite G. now rewrite (proj2 (Nat.leb_le k m) Hm).
Qed.
Lemma series_at (F : nat -> R) k v : (forall m, m <> k -> F m = 0) -> F k = v -> is_series F v.
Proof. intros H <-. now apply series_one. Qed.
Lemma poisson_mass l k : 0 < l -> forall A, A 0%nat [] = l -> draw_mean Poisson_ 0 [] A (fun t => if Req_EM_T (t []) (INR k) then 1 else 0) (exp (- l) * (Rpower l (INR k) / INR (fact k))).
Proof.
  intros H A HA. split; [cbn [legal]; rewrite HA; exact H|]. exists (exp l), (fun _ _ => 0), (fun a => a). split; [apply exp_pos|]. split; [apply noQ; discriminate|]. split; [apply perm_id|].
   cbn [draw_space draw_kernel]. cbv beta. rewrite HA. split.
  - assert (N : is_series (fun m => l ^ m / INR (fact m)) (exp l)).
    { pose proof (is_exp_Reals l) as X. unfold PSeries.is_pseries in X. revert X. apply is_series_ext_R. intros m. rewrite pow_n_pow. change (scal (l ^ m) (/ INR (fact m))) with (l ^ m * / INR (fact m)). reflexivity. }
    revert N. apply is_series_ext_R. intros m. rewrite whole_INR, Rpower_pow by exact H. reflexivity.
  - rewrite <- Rmult_assoc, <- exp_plus. replace (l + - l) with 0 by ring. rewrite exp_0, Rmult_1_l.
    apply (series_at _ k).
    + intros m N. cbv beta. destruct (Req_EM_T (INR m) (INR k)) as [E|E]; [apply INR_eq in E; contradiction|ring].
    + cbv beta. rewrite whole_INR. destruct (Req_EM_T (INR k) (INR k)); [ring|contradiction].
Qed.
(** the mass of a negative binomial variable: a Poisson variable whose mean is a Gamma variable *)
Lemma nb_mass r m k : 0 < r -> 0 < m -> forall A, A 0%nat [] = r ->
  draw_mean Gamma_ 0 [] A (fun u => exp (- (u [] * (m / r))) * (Rpower (u [] * (m / r)) (INR k) / INR (fact k)))
    (exp (lngamma (INR k + r) - lngamma (INR k + 1) - lngamma r - INR k * ln (1 + r / m) - r * ln (1 + m / r))).
Proof.
  intros Hr Hm A HA. split; [cbn [legal]; rewrite HA; exact Hr|]. exists (exp (lngamma r)), (fun _ _ => 0), (fun a => a). split; [apply exp_pos|]. split; [apply noQ; discriminate|]. split; [apply perm_id|].
  cbn [draw_space draw_kernel]. cbv beta. rewrite HA. split; [exact (nint_gen _ _ _ _ (gamma_int r Hr))|].
  assert (C : 0 < m / r) by (apply Rdiv_lt_0_compat; assumption). pose proof (pos_INR k) as Pk.
  pose proof (nint_gen _ _ _ _ (gamma_int (INR k + r) ltac:(lra))) as I. apply (half_scale (1 + m / r) _ _ ltac:(lra)) in I.
  match type of I with improper _ _ _ ?v => match goal with |- improper _ _ _ ?w => replace w with (exp (INR k * ln (m / r) - lngamma (INR k + 1) - (INR k + r) * ln (1 + m / r)) * v) end end.
  - revert I. apply same_line with (a0 := 1); [exact in0p1|]. intros t Ht. apply in0p in Ht. cbv beta. replace (Rpower (t * (m / r)) (INR k) / INR (fact k)) with (Rpower (t * (m / r)) (INR k) * exp (- lngamma (INR k + 1))) by (rewrite fact_lngamma; reflexivity). unfold Rpower. rewrite (ln_mult t (m / r)), (ln_mult (1 + m / r) t) by lra.
    replace (1 + m / r) with (exp (ln (1 + m / r))) at 2 by (apply exp_ln; lra). rewrite <- !exp_plus. f_equal. ring_simplify. ring.
  - rewrite <- !exp_plus. f_equal. replace (ln (1 + r / m)) with (ln (1 + m / r) - ln (m / r)); [ring|]. rewrite <- ln_div by lra. f_equal. field. lra.
Qed.
Section Two.
  Context {K : Type}.
  Variable split2 : K -> K * K.
  Variable solve : minimizer -> dist -> nat -> xr.
  Notation L := (fam_methods solve).
  Lemma nb_nat b i q : samplable_at L b i NegativeBinomial q -> (dcls q = NP NegativeBinomial \/ dcls q = EP NegativeBinomial) -> exists e n p, dims_of q = Ok n /\ at_pt b i e (EP NegativeBinomial) n p /\ exp_dom NegativeBinomial n p /\
    event (dcls q) n = [] /\ (forall draw (key : K) sh, sample split2 draw L q key sh = nb_sample split2 draw e key sh) /\ forall m, natural_of L q m -> at_pt b i m (NP NegativeBinomial) n (natR n p NegativeBinomial).
  Proof.
    intros (F & Sa & W & S & Hi & D & _) [C|C]; rewrite C in D.
    - destruct (nat_dom_at b i q _ Hi C W S D) as (n & A & P). destruct (exp_at solve b i q _ n _ Hi A P Logic.I) as (e & E1 & E2). exists e, n, (expR n (point_of q i) NegativeBinomial).
      split; [exact (ap_dims _ _ _ _ _ _ A)|]. split; [exact E2|]. split; [exact (exp_ok NegativeBinomial n _ P)|]. split; [now rewrite C|]. split; [intros; unfold sample; rewrite C, E1; reflexivity|].
      intros m N. unfold natural_of in N. rewrite C in N. subst m. eapply at_pt_eq; [exact A|]. apply pt_sym, nat_exp; [reflexivity|exact (at_pt_dok _ _ _ _ _ _ A)|exact P].
    - destruct (exp_dom_at b i q _ Hi C W S D) as (n & A & P). exists q, n, (point_of q i). split; [exact (ap_dims _ _ _ _ _ _ A)|]. split; [exact A|]. split; [exact P|]. split; [now rewrite C|]. split; [intros; unfold sample; rewrite C; reflexivity|].
      intros m N. unfold natural_of in N. rewrite C in N. destruct (nat_at solve b i q _ n _ Hi A P eq_refl) as (e & E1 & E2). rewrite E1 in N. injection N as <-. exact E2.
  Qed.
  Lemma gamma_args b i g n p : inb b i = true -> at_pt b i g (NP Gamma) n p -> nat_dom Gamma n p -> exists ts, length ts = 1%nat /\ (forall sh j, inb (requested sh) j = true -> asks (Req Gamma_ ts) (j ++ i)%list (argR n p (NP Gamma))) /\
    forall draw (key : K) sh, exists t, run draw (Sampler Gamma_ false true [self "shape_minus_one" + #1]%ae (PNegDiv (self "negative_rate"))) g key sh = Ok (RA t) /\ shp t = (requested sh ++ b)%list /\
      forall j u, inb (requested sh) j = true -> draw key (Req Gamma_ ts) (requested sh ++ b)%list (j ++ i)%list = Fin u -> tget t (j ++ i)%list = Fin (- u / p false "negative_rate" []).
  Proof.
    intros Hi A P. set (dr0 := fun (_ : unit) (_ : request) (_ : list nat) (_ : list nat) => NaN).
    destruct (direct_at0 dr0 b i g (NP Gamma) _ n p tt None Hi A eq_refl P) as (ts & x0 & T1 & LT & _). exists ts. split; [exact LT|]. split.
    - intros sh j Hj. destruct (direct_at0 dr0 b i g (NP Gamma) _ n p tt sh Hi A eq_refl P) as (ts' & x & T1' & _ & _ & _ & _ & As & _). rewrite T1 in T1'. injection T1' as <-. specialize (As j [] Hj eq_refl). rewrite app_nil_r in As. exact As.
    - intros draw key sh. destruct (direct_at0 draw b i g (NP Gamma) _ n p key sh Hi A eq_refl P) as (ts' & x & T1' & _ & X1 & Xs & _ & _ & X5). rewrite T1 in T1'. injection T1' as <-.
      destruct (gamma_real _ _ _ _ _ X1) as (t & ->). exists t. split; [exact X1|]. cbn [ashape] in Xs. unfold event in Xs. cbn [domain_support supp_shape] in Xs. rewrite app_nil_r in Xs. split; [exact Xs|].
      intros j u Hj Hu. unfold direct_ev in X5. cbn [direct np_sampler s_mean direct_draw app s_kind] in X5. rewrite app_nil_r in X5. specialize (X5 j (fun _ => u) Hj). 
      assert (Y : forall e, inb [] e = true -> draw key (Req Gamma_ ts) (requested sh ++ b)%list (j ++ i ++ e)%list = Fin u) by (intros e He; rewrite (inb0' e He), app_nil_r; exact Hu).
      specialize (X5 Y [] eq_refl). apply entry_re in X5. destruct X5 as [X5 _]. rewrite app_nil_r in X5. exact X5.
  Qed.
  Theorem nb_follows b i q m n P : samplable_at L b i NegativeBinomial q -> natural_of L q m -> dims_of q = Ok n -> pdf_is L b i NegativeBinomial n m P -> follows_two split2 L b i q P.
  Proof.
    intros Sa Nm Dn Pd. assert (Hi : inb b i = true) by apply Sa. destruct (nb_nat b i q Sa) as (e & n' & p & D' & A & Pe & Ev & Sm & Nt).
    { destruct Sa as (F & Sa & _). destruct (dcls q) as [g|g| | | | | | |]; try discriminate F; injection F as ->; auto. }
    rewrite Dn in D'. injection D' as <-. specialize (Nt m Nm). pose proof (nat_ok NegativeBinomial n p eq_refl Pe) as Nd.
    destruct (nb_gamma b i e n p Hi A Pe) as (g & G1 & G2 & G3). destruct (gamma_args b i g n _ Hi G2 G3) as (ts & LT & As & Gr).
    set (r := p false "failures" []) in *. set (mu := p false "mean" []) in *. destruct Pe as [Pm (k0 & Pr)]. fold mu in Pm. fold r in Pr. assert (Hr : 0 < r) by (rewrite Pr; apply lt_0_INR; lia).
    exists (Req Gamma_ ts), (argR n (nbR p) (NP Gamma)), Poisson_, (fun u _ _ => u * (mu / r)). split; [exact LT|]. split; [exact As|]. split.
    - intros draw key sh j u Hj Hu Up. destruct (split2 key) as [k1 k2] eqn:Ek. cbn [fst snd] in *. destruct (Gr draw k1 sh) as (t & R1 & R2 & R3). specialize (R3 j u Hj Hu).
      assert (V : - u / nbR p false "negative_rate" [] = u * (mu / r)) by (unfold nbR; mkv; fold r mu; field; lra). rewrite V in R3.
      assert (Hji : inb (requested sh ++ b) (j ++ i) = true) by (now apply inb_app_intro). destruct (poisson_pt _ _ t _ R2 Hji R3) as (q' & Q1 & AP).
      assert (PP : pre (EP Poisson) 1 (fun c _ _ => if c then 0 else u * (mu / r))) by (cbn [pre exp_dom]; apply Rmult_lt_0_compat; [exact Up|apply Rdiv_lt_0_compat; assumption]).
      destruct (direct_at0 draw (requested sh ++ b) (j ++ i) q' (EP Poisson) _ 1 _ k2 None Hji AP eq_refl PP) as (ts2 & x & _ & LT2 & X1 & _ & _ & As2 & X5).
      exists (Req Poisson_ ts2). split; [reflexivity|]. split; [exact LT2|]. split; [specialize (As2 [] [] eq_refl eq_refl); cbn [app] in As2; rewrite app_nil_r in As2; exact As2|].
      intros t2 Ht. exists x. split. { rewrite Sm. unfold nb_sample. rewrite Ek, G1. cbn [bind opt_run np_sampler]. rewrite R1. cbn [bind]. rewrite Q1. cbn [bind opt_run ep_sampler]. exact X1. }
      intros n0 s e0 D0 S0 He. rewrite Dn in D0. injection D0 as <-. assert (E0 : inb [] e0 = true) by (rewrite <- Ev; unfold event; rewrite S0; exact He). apply inb0' in E0. subst e0. rewrite app_nil_r.
      unfold direct_ev in X5. cbn [direct ep_sampler s_mean direct_draw app s_kind requested] in X5. rewrite app_nil_r in X5. specialize (X5 [] (fun _ => t2) eq_refl). cbn [app] in X5.
      assert (Y : forall e, inb [] e = true -> draw k2 (Req Poisson_ ts2) (requested sh ++ b)%list ((j ++ i) ++ e)%list = Fin t2) by (intros e1 He1; rewrite (inb0' e1 He1), app_nil_r; exact Ht).
      specialize (X5 Y [] eq_refl). rewrite app_nil_r in X5. exact X5.
    - intros k. exists (fun u => exp (- (u * (mu / r))) * (Rpower (u * (mu / r)) (INR k) / INR (fact k))). split.
      + intros u Hu. apply poisson_mass; [|reflexivity]. apply Rmult_lt_0_compat; [exact Hu|apply Rdiv_lt_0_compat; assumption].
      + assert (X : point_ok NegativeBinomial n (scalar_obs (INR k))) by (split; [exists k; reflexivity|apply real_scalar]).
        rewrite (pdf_val solve b i _ m n P (at_pt_proper b i m _ n _ Hi Nt Nd) (ap_dims _ _ _ _ _ _ Nt) Pd _ X), (dens_pt_eq solve b i m _ n _ _ Hi Nt Nd (natR_im NegativeBinomial n p eq_refl) X).
        assert (V : dens NegativeBinomial n (natR n p NegativeBinomial) (scalar_obs (INR k)) = exp (lngamma (INR k + r) - lngamma (INR k + 1) - lngamma r - INR k * ln (1 + r / mu) - r * ln (1 + mu / r))).
        { unfold dens. f_equal. lpe. mkv. unfold scalar_obs. fold r mu. assert (Z : 0 < r / mu) by (apply Rdiv_lt_0_compat; assumption). assert (Z' : 0 < mu / r) by (apply Rdiv_lt_0_compat; assumption).
          rewrite exp_Ropp, exp_ln by lra. replace (1 + - / (1 + r / mu)) with (/ (1 + mu / r)) by (field; repeat split; lra). rewrite ln_Rinv by lra. replace (INR k + r - 1 + 1) with (INR k + r) by ring. replace (INR k + r - 1 - INR k + 1) with r by ring. ring. }
        rewrite V. apply (nb_mass r mu k Hr Pm). unfold argR, nbR. mkv. fold r. ring.
  Qed.
End Two.
