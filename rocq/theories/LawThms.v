(** Samples follow the distribution (C49): the cases put together. *)
From Coquelicot Require Import Coquelicot.
From Coq Require Import String List Bool Arith Reals Lia Lra.
From Verif Require Import Base XReal Tensor TensorFacts TensorFacts2 Support Dist DictFacts Iteration Structure Spec StructFacts AssembleFacts SumSpec DotSpec Tools ToolThms Joint StructThms MapFacts LogPdfThms ExprFacts FamTy FamFacts SearchFacts DotLaws SpecFun GammaFn Expr Fam DotFacts BatchFacts
  PointSpec PointFacts Val FamR FamVal ConvFacts LeafVal ConvThms MatVal VarThms DerivFacts DerivThms DensSpec DensVal DensThms IntSpec IntFacts GammaInt IntNorm IntGen IntMulti IntFam IntThms
  Var VarSpec Sample SampleSpec SampleFacts SampleShape SampleVal SampleThms KlPos InjThms ConjThms LawSpec LawFacts Law Law2.
Import ListNotations.
Local Unset Asymmetric Patterns.
Local Open Scope string_scope.
Local Open Scope R_scope.

Lemma direct_law c sp n n' p f : direct c = Some sp -> sampled_family c = Some f -> sampler_misses f = false -> dims_ok c n = true -> pre c n p ->
  (direct_evs c n <> [] -> forall m l, nth 0 (direct_evs c n) [] = m :: l -> n' = last (nth 0 (direct_evs c n) []) 0%nat) -> law_core c f n n' p (s_kind sp).
Proof.
  intros E Fa Mi D P N. destruct c as [g|g| | | | | | |]; try destruct g; try discriminate E; injection E as <-; injection Fa as <-; try discriminate Mi; cbn [s_kind]; cbn [pre] in P; cbn [direct_evs nth last] in N.
  all: try (specialize (N ltac:(discriminate) _ _ eq_refl); subst n').
  - apply Nat.eqb_eq in D. subst n. now apply law_beta.
  - now apply law_chisquare.
  - now apply law_dirichlet.
  - now apply law_exponential.
  - now apply law_gamma.
  - apply law_mun.
  - apply law_unit_normal.
  - now apply law_rayleigh.
  - now apply law_bernoulli.
  - now apply law_ccs.
  - now apply law_cn.
  - now apply law_exponential_ep.
  - now apply law_mfv.
  - now apply law_iso.
  - now apply law_normal_ep.
  - now apply law_poisson.
  - now apply law_rayleigh_ep.
  - now apply law_weibull.
  - now apply law_normal_vp.
  - now apply law_mdn_vp.
  - now apply law_mvn_vp.
Qed.
Lemma map_seq_nth (h : nat -> R) m k : (k < m)%nat -> nth k (map h (seq 0 m)) 0 = h k.
Proof. intros H. rewrite (nth_indep _ 0 (h 0%nat)) by (rewrite map_length, seq_length; exact H). rewrite (map_nth h), seq_nth by exact H. reflexivity. Qed.
Lemma canon_ok c sp n p f u k e : direct c = Some sp -> sampled_family c = Some f -> inb (event c n) e = true -> canon f n (postR n p c u) k e = postR n p c u k e.
Proof.
  intros E Fa He. unfold event in He. destruct c as [g|g| | | | | | |]; try destruct g; try discriminate E; injection Fa as <-; cbn [domain_support supp_shape] in He.
  all: try (rewrite (inb0' e He)); try (destruct (inb1 _ _ He) as (m & -> & Hm)).
  all: cbn [canon]; unfold scalar_obs, vector_obs, complex_obs, complex_vector_obs, reo; cbn [hd]; destruct k; try reflexivity; rewrite ?map_seq_nth by (try lia); try reflexivity.
  all: cbn [fst snd]; try reflexivity.
  all: try (replace (2 * m + 1)%nat with (S (2 * m)) by lia; rewrite Nat.div2_succ_double, Nat.odd_succ, Nat.even_mul; reflexivity).
  all: rewrite Nat.add_0_r, Nat.div2_double, Nat.odd_mul; reflexivity.
Qed.
Section Dp.
  Variable solve : minimizer -> dist -> nat -> xr.
  Notation L := (fam_methods solve).
  Lemma log_pdf_at_pt b i q f n p x xv : inb b i = true -> at_pt b i q (NP f) n p -> nat_dom f n p -> real_im (NP f) p -> observed b i q x xv -> sample_space f n xv ->
    exists t, log_pdf L q (Leaf x) = Ok t /\ shp t = b /\ tget t i = Fin (lpR n p xv f).
  Proof.
    intros Hi A H RI O X. pose proof (ap_cls _ _ _ _ _ _ A) as C. pose proof (ap_wf _ _ _ _ _ _ A) as W. pose proof (ap_shaped _ _ _ _ _ _ A) as S. pose proof (ap_dims _ _ _ _ _ _ A) as D.
    destruct (ss_at solve b i q f n p x xv Hi A H O X) as (e & E1 & E2). destruct (cm_at solve b i q f n p x xv Hi A H O X) as (c & C1 & C2 & C3).
    destruct (ln_at solve b i q f n p Hi A H) as (l & L1 & L2 & L3). rewrite (log_pdf_leaf L (fam_good solve) b q f x W C S (proj1 O)), E1. cbn [bind].
    destruct (leaf_value b q e) as (d & D1 & D2 & D3).
    { split; [exact W|]. split; [exact (ap_wf _ _ _ _ _ _ E2)|]. split; [exact S|]. split; [exact (ap_shaped _ _ _ _ _ _ E2)|]. split; [now rewrite D, (ap_dims _ _ _ _ _ _ E2)|].
      exists f. now rewrite C, (ap_cls _ _ _ _ _ _ E2). }
    rewrite D1. cbn [bind]. assert (Ln : log_normalizer L q = Ok l). { destruct q as [c' m ps subs]. cbn [dcls] in C. subst c'. exact L1. }
    rewrite Ln. cbn [bind]. specialize (D3 i Hi). rewrite (inner_at b i q e f n _ Hi (at_pt_eq _ _ _ _ _ _ _ A (at_pt_pt _ _ _ _ _ _ Hi A)) E2) in D3.
    rewrite <- (dotP_pt (NP f) (EP f) n p _ _ (at_pt_pt _ _ _ _ _ _ Hi A)) in D3 by (intros g j Hg Kg; apply filter_In in Hg as [Hg _]; rewrite (RI g j Hg Kg), (real_im_at _ _ _ _ _ _ A g j Hg Kg); reflexivity).
    rewrite tmap2_same by congruence. cbn [bind]. rewrite C1. cbn [bind]. rewrite tmap2_same by (cbn [shp tbuild]; congruence). eexists. split; [reflexivity|]. split; [exact D2|].
    assert (Hd : inb (shp d) i = true) by now rewrite D2. rewrite !tget_tbuild by exact Hd. rewrite D3, L3, C3. reflexivity.
  Qed.
  Lemma dens_pt b i q f n p p' x : inb b i = true -> at_pt b i q (NP f) n p -> nat_dom f n p -> real_im (NP f) p -> at_pt b i q (NP f) n p' -> nat_dom f n p' -> real_im (NP f) p' -> point_ok f n x -> dens f n p x = dens f n p' x.
  Proof.
    intros Hi A H I A' H' I' [X1 X2]. pose proof (ap_cls _ _ _ _ _ _ A) as C. destruct (observable b i q n x Hi (ap_dims _ _ _ _ _ _ A)) as (a & O); [rewrite C; destruct f; discriminate|now rewrite C|].
    destruct (log_pdf_at_pt b i q f n p a x Hi A H I O X1) as (t & T1 & _ & T2). destruct (log_pdf_at_pt b i q f n p' a x Hi A' H' I' O X1) as (t' & T1' & _ & T2').
    unfold dens. f_equal. rewrite T1 in T1'. injection T1' as <-. rewrite T2 in T2'. injection T2' as T. exact T.
  Qed.
  Lemma dens_pt_eq b i q f n p x : inb b i = true -> at_pt b i q (NP f) n p -> nat_dom f n p -> real_im (NP f) p -> point_ok f n x -> dens f n (point_of q i) x = dens f n p x.
  Proof.
    intros Hi A H I X. pose proof (at_pt_pt b i q (NP f) n p Hi A) as E. apply (dens_pt b i q); auto; [exact (at_pt_eq _ _ _ _ _ _ _ A E)|exact (nat_dom_pt _ _ _ _ H E)|exact (real_im_at _ _ _ _ _ _ A)].
  Qed.
End Dp.
Lemma natpt_mvn n p : pt_eq (NP MultivariateNormal) n (natR n (mveR p) MultivariateNormal) (natpt MultivariateNormalVP n p).
Proof.
  assert (R : forall a c, (a < n)%nat -> (c < n)%nat -> rinv n (fun a b => mveR p false "second_moment" [a; b] - mveR p false "mean" [a] * mveR p false "mean" [b]) a c = rinv n (fun a b => p false "variance" [a; b]) a c).
  { intros a c Ha Hc. apply MatFacts.rinv_ext; auto. intros x y _ _. mkv. ring. }
  apply pt_intro; cbn [fields]. apply Forall_cons; [|apply Forall_cons; [|apply Forall_nil]]; intros j Hj; cbn [fd_name fd_support var kind_of supp_shape] in *; (split; [|intros KK; discriminate KK]).
  - destruct (inb1 _ _ Hj) as (k & -> & Hk). cbn [natR natpt]. mkv. cbn [hd]. apply sumR_ext. intros c Hc. f_equal. exact (R k c Hk Hc).
  - destruct (inb2 _ _ _ Hj) as (k & l & -> & Hk & Hl). cbn [natR natpt]. mkv. cbn [nth]. f_equal. exact (R k l Hk Hl).
Qed.
Lemma half_neg v : 0 < v -> -1 / 2 / v < 0.
Proof. intros H. pose proof (Rinv_0_lt_compat v H). unfold Rdiv at 1. nra. Qed.
Lemma natpt_dom c sp n p f : direct c = Some sp -> sampled_family c = Some f -> dims_ok c n = true -> pre c n p -> nat_dom f n (natpt c n p).
Proof.
  intros E Fa D P. destruct c as [g|g| | | | | | |]; try discriminate E; injection Fa as <-; cbn [pre natpt] in *.
  - exact P.
  - apply nat_ok; [|exact P]. destruct g; try discriminate E; reflexivity.
  - cbn [nat_dom]. mkv. now apply half_neg.
  - cbn [nat_dom]. intros k Hk. mkv. apply half_neg, P, Hk.
  - eapply nat_dom_pt; [|apply natpt_mvn]. apply nat_ok; [reflexivity|]. cbn [exp_dom]. eapply spd_ext; [|exact P]. intros a c Ha Hc. mkv. ring.
Qed.

Section Reduce.
  Context {K : Type}.
  Variable split2 : K -> K * K.
  Variable solve : minimizer -> dist -> nat -> xr.
  Notation L := (fam_methods solve).
  Definition reduced_law (b i : list nat) (f : family) (n : nat) (q : dist) : Prop := exists q' c' p' sp,
    direct c' = Some sp /\ sampled_family c' = Some f /\ domain_support c' = domain_support (dcls q) /\ at_pt b i q' c' n p' /\ pre c' n p' /\ real_im (NP f) (natpt c' n p') /\
    (forall draw (key : K) sh, sample split2 draw L q key sh = run draw sp q' key sh) /\ forall m, natural_of L q m -> at_pt b i m (NP f) n (natpt c' n p').
  Lemma closed_np f n p : closed_nat f = true -> real_im (NP f) (natpt (EP f) n p). Proof. apply natR_im. Qed.
  Lemma vp_im c n p f : c = NormalVP /\ f = Normal \/ c = MultivariateDiagonalNormalVP /\ f = MultivariateDiagonalNormal \/ c = MultivariateNormalVP /\ f = MultivariateNormal -> real_im (NP f) (natpt c n p).
  Proof. intros [[-> ->]|[[-> ->]|[-> ->]]] g j I Kg; cbn [fields In] in I; repeat (destruct I as [<-|I]; [reflexivity|]); destruct I. Qed.
  Ltac nat_ C := let m := fresh "m" in let N := fresh "N" in intros m N; unfold natural_of in N; rewrite C in N.
  Theorem reduces_law b i f q : samplable_at L b i f q -> two_stage (dcls q) = false -> exists n, dims_of q = Ok n /\ reduced_law b i f n q.
  Proof.
    intros (F & Sa & W & S & Hi & D & Se) T.
    assert (NPC : forall g, dcls q = NP g -> exists n, at_pt b i q (NP g) n (point_of q i) /\ nat_dom g n (point_of q i)) by (intros g C; apply nat_dom_at; auto; now rewrite C in D).
    assert (EPC : forall g, dcls q = EP g -> exists n, at_pt b i q (EP g) n (point_of q i) /\ exp_dom g n (point_of q i)) by (intros g C; apply exp_dom_at; auto; now rewrite C in D).
    assert (VPC : vp_domain q i -> exists n, at_pt b i q (dcls q) n (point_of q i) /\ vp_domain q i) by (intros V; now apply vp_dom_at).
    destruct (dcls q) as [g|g| | | | | | |] eqn:C; try discriminate Sa; cbn [sampled_family] in F; injection F as <-.
    - destruct (NPC g eq_refl) as (n & A & P). exists n. split; [exact (ap_dims _ _ _ _ _ _ A)|]. pose proof (at_pt_dok _ _ _ _ _ _ A) as Dk. pose proof (real_im_at _ _ _ _ _ _ A) as RI.
      destruct g; try discriminate Sa; try discriminate T.
      all: try (match type of A with at_pt _ _ _ (NP ?g) _ _ => exists q, (NP g), (point_of q i); eexists; do 6 (split; [first [reflexivity|exact A|exact P|exact RI|now rewrite C]|]); (split; [intros; unfold sample; rewrite C; reflexivity|]); nat_ C; subst m; exact A end).
      all: lazymatch goal with A : at_pt _ _ _ (NP ?g) ?n _ |- reduced_law _ _ _ ?n _ => destruct (exp_at solve b i q g n _ Hi A P Logic.I) as (e & E1 & E2); pose proof (exp_ok g n _ P) as P'; assert (B : at_pt b i q (NP g) n (natR n (expR n (point_of q i) g) g)) by (eapply at_pt_eq; [exact A|]; apply pt_sym; apply nat_exp; [reflexivity|exact Dk|exact P]) | _ => idtac end.
      all: try (match type of A with at_pt _ _ _ (NP ?g) _ _ => exists e, (EP g), (expR n (point_of q i) g); eexists; do 6 (split; [first [reflexivity|exact E2|exact P'|now rewrite C|apply closed_np; reflexivity]|]); (split; [intros; unfold sample; rewrite C, E1; reflexivity|]); nat_ C; subst m; exact B end).
      + destruct (diag_ep_var_at b i Hi e n _ E2) as (v & V1 & V2). exists v, MultivariateDiagonalNormalVP; do 2 eexists. split; [reflexivity|]. split; [reflexivity|]. split; [now rewrite C|]. split; [exact V2|]. split; [|split; [apply vp_im; tauto|split]].
        * cbn [pre]. cbn [exp_dom] in P'. intros k Hk. specialize (P' k Hk). revert P'. mkv. lra.
        * intros. unfold sample. rewrite C, E1. cbn [bind]. rewrite V1. cbn [bind]. rewrite (ap_cls _ _ _ _ _ _ V2). reflexivity.
        * nat_ C. subst m. exact B.
      + (* Normal *) destruct (normal_ep_var_at b i Hi e n _ E2) as (v & V1 & V2). exists v, NormalVP; do 2 eexists. split; [reflexivity|]. split; [reflexivity|]. split; [now rewrite C|]. split; [exact V2|]. split; [|split; [apply vp_im; tauto|split]].
        * cbn [pre]. cbn [exp_dom] in P'. revert P'. mkv. lra.
        * intros. unfold sample. rewrite C. unfold np_to_var. rewrite C. cbn [l_to_exp fam_methods] in E1. rewrite E1. cbn [bind]. rewrite V1. cbn [bind]. rewrite (ap_cls _ _ _ _ _ _ V2). reflexivity.
        * nat_ C. subst m. exact B.
    - destruct (EPC g eq_refl) as (n & A & P). exists n. split; [exact (ap_dims _ _ _ _ _ _ A)|].
      destruct g; try discriminate Sa; try discriminate T.
      all: try (match type of A with at_pt _ _ _ (EP ?g) _ _ => destruct (nat_at solve b i q g n _ Hi A P eq_refl) as (e & E1 & E2); pose proof (nat_ok g n _ eq_refl P) as P';
          assert (B : forall m, natural_of L q m -> at_pt b i m (NP g) n (natR n (point_of q i) g)) by (nat_ C; rewrite E1 in N; injection N as <-; exact E2) end).
      all: try (match type of A with at_pt _ _ _ (EP ?g) _ _ => exists q, (EP g), (point_of q i); eexists; do 6 (split; [first [reflexivity|exact A|exact P|now rewrite C|apply closed_np; reflexivity]|]); (split; [intros; unfold sample; rewrite C; reflexivity|]); exact B end).
      all: try (match type of A with at_pt _ _ _ (EP ?g) _ _ => exists e, (NP g), (natR n (point_of q i) g); eexists; do 6 (split; [first [reflexivity|exact E2|exact P'|now rewrite C|apply natR_im; reflexivity]|]); (split; [intros; unfold sample; rewrite C, E1; reflexivity|]); exact B end).
      all: try (match type of A with at_pt _ _ _ (EP ?g) _ _ => destruct (nat_builds solve b q g n C W S (ap_dims _ _ _ _ _ _ A)) as (ps & E1 & E2 & E3 & E4 & _);
          destruct (nat_dom_at b i (Dist (NP g) DefaultMinimizer ps []) g Hi eq_refl E2 E3 (Se _ eq_refl eq_refl E1)) as (m & A' & P'); assert (m = n) by (pose proof (ap_dims _ _ _ _ _ _ A'); congruence); subst m;
          exists (Dist (NP g) DefaultMinimizer ps []), (NP g); do 2 eexists; do 6 (split; [first [exact A'|exact P'|reflexivity|now rewrite C|exact (real_im_at _ _ _ _ _ _ A')]|]); (split; [intros; unfold sample; rewrite C, E1; reflexivity|]); nat_ C; rewrite E1 in N; injection N as <-; exact A' end).
      + destruct (mvn_ep_var_at b i Hi q n _ A) as (v & V1 & V2). exists v, MultivariateNormalVP; do 2 eexists. split; [reflexivity|]. split; [reflexivity|]. split; [now rewrite C|]. split; [exact V2|]. split; [|split; [apply vp_im; tauto|split]].
        * cbn [pre]. cbn [exp_dom] in P. eapply spd_ext; [|exact P]. intros a c Ha Hc. mkv. reflexivity.
        * intros. unfold sample. rewrite C, V1. cbn [bind]. rewrite (ap_cls _ _ _ _ _ _ V2). reflexivity.
        * exact B.
      + destruct (diag_ep_var_at b i Hi q n _ A) as (v & V1 & V2). exists v, MultivariateDiagonalNormalVP; do 2 eexists. split; [reflexivity|]. split; [reflexivity|]. split; [now rewrite C|]. split; [exact V2|]. split; [|split; [apply vp_im; tauto|split]].
        * cbn [pre]. cbn [exp_dom] in P. intros k Hk. specialize (P k Hk). revert P. mkv. lra.
        * intros. unfold sample. rewrite C, V1. cbn [bind]. rewrite (ap_cls _ _ _ _ _ _ V2). reflexivity.
        * exact B.
    - destruct (VPC D) as (n & A & P). exists n. split; [exact (ap_dims _ _ _ _ _ _ A)|]. destruct P as (n' & N1 & _ & P). rewrite C in P. assert (n' = n) by (pose proof (ap_dims _ _ _ _ _ _ A); congruence). subst n'. destruct P as [P1 P2].
      destruct (gamma_vp_nat_at b i Hi q n _ A P2) as (e & E1 & E2). exists e, (NP Gamma); do 2 eexists. split; [reflexivity|]. split; [reflexivity|]. split; [now rewrite C|]. split; [exact E2|]. split; [|split; [|split]].
      + assert (R : 0 < point_of q i false "mean" [] / point_of q i false "variance" []) by (apply Rdiv_lt_0_compat; assumption). cbn [pre nat_dom]; mkv. pose proof (Rmult_lt_0_compat _ _ P1 R). lra.
      + intros g j I Kg. cbn [fields In] in I. repeat (destruct I as [<-|I]; [reflexivity|]). destruct I.
      + intros. unfold sample. rewrite C, E1. reflexivity.
      + nat_ C. rewrite E1 in N. injection N as <-. exact E2.
    - destruct (VPC D) as (n & A & P). exists n. split; [exact (ap_dims _ _ _ _ _ _ A)|]. destruct P as (n' & N1 & _ & P). rewrite C in P. assert (n' = n) by (pose proof (ap_dims _ _ _ _ _ _ A); congruence). subst n'.
      exists q, NormalVP; do 2 eexists. do 6 (split; [first [reflexivity|exact A|exact P|now rewrite C|apply vp_im; tauto]|]). split; [intros; unfold sample; rewrite C; reflexivity|].
      nat_ C. destruct (normal_vp_nat_at b i Hi q n _ A P) as (e & E1 & E2). rewrite E1 in N. injection N as <-. eapply at_pt_eq; [exact E2|]. unfold natpt. pf; field; repeat split; lra.
    - destruct (VPC D) as (n & A & P). exists n. split; [exact (ap_dims _ _ _ _ _ _ A)|]. destruct P as (n' & N1 & _ & P). rewrite C in P. assert (n' = n) by (pose proof (ap_dims _ _ _ _ _ _ A); congruence). subst n'.
      exists q, MultivariateDiagonalNormalVP; do 2 eexists. do 6 (split; [first [reflexivity|exact A|exact P|now rewrite C|apply vp_im; tauto]|]). split; [intros; unfold sample; rewrite C; reflexivity|].
      nat_ C. destruct (diag_vp_nat_at b i Hi q n _ A P) as (e & E1 & E2). rewrite E1 in N. injection N as <-. eapply at_pt_eq; [exact E2|]. unfold natpt. pf; specialize (P k Hk); field; repeat split; lra.
    - destruct (VPC D) as (n & A & P). exists n. split; [exact (ap_dims _ _ _ _ _ _ A)|]. destruct P as (n' & N1 & _ & P). rewrite C in P. assert (n' = n) by (pose proof (ap_dims _ _ _ _ _ _ A); congruence). subst n'.
      exists q, MultivariateNormalVP; do 2 eexists. do 6 (split; [first [reflexivity|exact A|exact P|now rewrite C|apply vp_im; tauto]|]). split; [intros; unfold sample; rewrite C; reflexivity|].
      nat_ C. destruct N as (e & X & N). destruct (mvn_vp_exp_at b i Hi q n _ A) as (e' & E1 & E2). rewrite E1 in X. injection X as <-.
      assert (PE : exp_dom MultivariateNormal n (mveR (point_of q i))) by (cbn [exp_dom]; eapply spd_ext; [|exact P]; intros a c Ha Hc; mkv; ring).
      destruct (nat_at solve b i e' MultivariateNormal n _ Hi E2 PE eq_refl) as (r & R1 & R2). rewrite R1 in N. injection N as <-. eapply at_pt_eq; [exact R2|apply natpt_mvn].
  Qed.
End Reduce.
Lemma at_pt_proper b i m f n p : inb b i = true -> at_pt b i m (NP f) n p -> nat_dom f n p -> proper b i f m.
Proof.
  intros Hi A P. pose proof (at_pt_pt _ _ _ _ _ _ Hi A) as E. pose proof (ap_cls _ _ _ _ _ _ A) as C. split; [exact C|]. split; [exact (ap_wf _ _ _ _ _ _ A)|]. split; [exact (ap_shaped _ _ _ _ _ _ A)|]. split; [exact Hi|].
  exists n. split; [exact (ap_dims _ _ _ _ _ _ A)|]. split; [exact (at_pt_fin _ _ _ _ _ _ A)|]. rewrite C. exact (nat_dom_pt _ _ _ _ P E).
Qed.
Lemma draw_space_ext k n s pos F G v : (forall u, F u = G u) -> draw_space k n s pos F v -> draw_space k n s pos G v.
Proof. intros E H. replace G with F; [exact H|]. apply FunctionalExtensionality.functional_extensionality. exact E. Qed.
Lemma core_mean c f n n' p k : law_core c f n n' p k -> dims_ok (NP f) n = true -> nat_dom f n (natpt c n p) ->
  forall g v, integral_over f n (fun x => dens f n (natpt c n p) x * g x) v ->
    draw_mean k n' (direct_ev c n ++ direct_draw c n)%list (argR n p c) (fun u => g (canon f n (postR n p c u))) v.
Proof.
  intros (Le & z & Q & pos & Z & PQ & PP & H) D N g v I. split; [exact Le|]. exists z, Q, pos. split; [exact Z|]. split; [exact PQ|]. split; [exact PP|]. split; [|exact (H g v I)].
  eapply draw_space_ext; [|rewrite <- (Rmult_1_r z); refine (H (fun _ => 1) 1 _)].
  - intros u. cbv beta. ring.
  - eapply integral_ext; [|exact (proj1 (fam_norm_mean f n _ D N))]. intros x _. cbv beta. ring.
Qed.
Lemma last_dflt (a : nat) l d d' : last (a :: l) d = last (a :: l) d'.
Proof. revert a. induction l as [|x l IH]; intros a; [reflexivity|]. exact (IH x). Qed.
Section Main.
  Context {K : Type}.
  Variable split2 : K -> K * K.
  Variable solve : minimizer -> dist -> nat -> xr.
  Notation L := (fam_methods solve).
  Lemma direct_samples b i q q' c sp n p (Phi : (list nat -> R) -> obs) : inb b i = true -> dims_of q = Ok n -> domain_support c = domain_support (dcls q) -> at_pt b i q' c n p -> direct c = Some sp -> pre c n p ->
    (forall draw (key : K) sh, sample split2 draw L q key sh = run draw sp q' key sh) -> (forall u k e, inb (event c n) e = true -> Phi u k e = postR n p c u k e) ->
    exists r, mapM (eval (dparams q')) (s_args sp) = Ok (r_args r) /\ r_kind r = s_kind sp /\ draw_event r = direct_draw c n /\ (s_args sp <> [] -> row_size r = last (nth 0 (direct_evs c n) []) (last b 0%nat)) /\ samples_by split2 L b i q r (direct_ev c n) (argR n p c) Phi.
  Proof.
    intros Hi D Ds A E P Sm Ph. set (dr0 := fun (_ : unit) (_ : request) (_ : list nat) (_ : list nat) => NaN).
    destruct (direct_at0 dr0 b i q' c sp n p tt None Hi A E P) as (ts & x0 & T1 & LT & _ & _ & RS & _). cbv zeta in RS.
    destruct (direct_run dr0 b q' c sp n tt None E (ap_cls _ _ _ _ _ _ A) (ap_wf _ _ _ _ _ _ A) (ap_shaped _ _ _ _ _ _ A) (ap_dims _ _ _ _ _ _ A)) as (ts' & sh' & T1' & T2 & _).
    rewrite T1 in T1'. injection T1' as <-. exists (Req (s_kind sp) ts). split; [exact T1|]. split; [reflexivity|]. pose proof (direct_draw_event b c sp n ts E T2) as DE. split; [exact DE|]. split; [exact RS|]. split; [exact LT|]. split.
    - intros sh j e Hj He. destruct (direct_at0 dr0 b i q' c sp n p tt sh Hi A E P) as (ts' & x & T1' & _ & _ & _ & _ & As & _). rewrite T1 in T1'. injection T1' as <-. exact (As j e Hj He).
    - intros draw key sh j u Hj Hu. destruct (direct_at0 draw b i q' c sp n p key sh Hi A E P) as (ts' & x & T1' & _ & X1 & _ & _ & _ & X5). rewrite T1 in T1'. injection T1' as <-. exists x. split; [now rewrite Sm|].
      intros n0 s e D0 S0 He. rewrite D in D0. injection D0 as <-. assert (Ev : inb (event c n) e = true) by (unfold event; rewrite Ds, S0; exact He). rewrite !Ph by exact Ev. rewrite DE in Hu. exact (X5 j u Hj Hu e Ev).
  Qed.
  Lemma setup b i f q m n P : samplable_at L b i f q -> two_stage (dcls q) = false -> natural_of L q m -> dims_of q = Ok n -> pdf_is L b i f n m P -> exists c p sp r,
    direct c = Some sp /\ sampled_family c = Some f /\ dims_ok c n = true /\ dims_ok (NP f) n = true /\ pre c n p /\ nat_dom f n (natpt c n p) /\ (forall x, point_ok f n x -> P x = dens f n (natpt c n p) x) /\
    r_kind r = s_kind sp /\ draw_event r = direct_draw c n /\ (forall a l, nth 0 (direct_evs c n) [] = a :: l -> row_size r = last (a :: l) 0%nat) /\
    samples_by split2 L b i q r (direct_ev c n) (argR n p c) (fun u => canon f n (postR n p c u)).
  Proof.
    intros Sa Ts Nm Dn Pd. assert (Hi : inb b i = true) by apply Sa. destruct (reduces_law split2 solve b i f q Sa Ts) as (n' & D' & q' & c & p & sp & E & Fa & Ds & A & Pr & RI & Sm & Nt).
    rewrite Dn in D'. injection D' as <-. specialize (Nt m Nm). pose proof (at_pt_dok _ _ _ _ _ _ A) as Dk. pose proof (natpt_dom c sp n p f E Fa Dk Pr) as Nd. pose proof (at_pt_dok _ _ _ _ _ _ Nt) as Dm.
    destruct (direct_samples b i q q' c sp n p (fun u => canon f n (postR n p c u)) Hi Dn Ds A E Pr Sm) as (r & R0 & R1 & R2 & R3 & R4). { intros u k e He. exact (canon_ok c sp n p f u k e E Fa He). }
    exists c, p, sp, r. repeat (split; [assumption|]). split.
    { intros x X. rewrite (pdf_val solve b i f m n P (at_pt_proper b i m f n _ Hi Nt Nd) (ap_dims _ _ _ _ _ _ Nt) Pd x X). exact (dens_pt_eq solve b i m f n _ x Hi Nt Nd RI X). }
    split; [exact R1|]. split; [exact R2|]. split; [|exact R4]. intros a l Ea. rewrite R3; [rewrite Ea; apply last_dflt|]. intros Z. rewrite Z in R0. clear -Z E Ea. destruct c as [g|g| | | | | | |]; try destruct g; try discriminate E; injection E as <-; try discriminate Z; discriminate Ea.
  Qed.
  Theorem samples_follow b i f q m n P : samplable_at L b i f q -> sampler_misses f = false -> two_stage (dcls q) = false -> natural_of L q m -> dims_of q = Ok n -> pdf_is L b i f n m P -> follows split2 L b i f n q P.
  Proof.
    intros Sa Mi Ts Nm Dn Pd. destruct (setup b i f q m n P Sa Ts Nm Dn Pd) as (c & p & sp & r & E & Fa & Dk & Dm & Pr & Nd & PE & R1 & R2 & R3 & R4).
    exists r, (direct_ev c n), (argR n p c), (fun u => canon f n (postR n p c u)). split; [exact R4|]. intros g v Ex. rewrite R1, R2. apply (core_mean c f n (row_size r) p (s_kind sp)).
    - apply direct_law; auto. intros Ne a l Ea. rewrite Ea. exact (R3 a l Ea).
    - exact Dm.
    - exact Nd.
    - unfold expected in Ex. eapply integral_ext; [|exact Ex]. intros x X. cbv beta. f_equal. exact (PE x X).
  Qed.
End Main.
