(** The mean and variance of a variance parametrization are those of its density (C50). *)
From Coquelicot Require Import Coquelicot.
From Coq Require Import String List Bool Arith Reals Lia Lra.
From Verif Require Import Base XReal Tensor TensorFacts TensorFacts2 Support Dist DictFacts Iteration Structure Spec SumSpec DotSpec Tools Joint SpecFun GammaFn Expr Fam ExprFacts FamTy FamFacts SearchFacts DotFacts StructThms SumFacts MapFacts
  DotLaws BatchFacts PointSpec PointFacts Val MatVal FamR FamVal ConvFacts LeafVal ConvThms DerivThms DensSpec DensVal DensThms IntSpec IntFacts IntNorm IntFam IntThms Var VarSpec VarThms ConjThms MomentThms
  Sample SampleSpec SampleThms SampleTop KlPos InjThms LawSpec LawThms.
Import ListNotations.
Local Unset Asymmetric Patterns.
Local Open Scope string_scope.
Local Open Scope R_scope.

Lemma gamma_shift n p (x : obs) : nat_dom Gamma n p -> 0 < x false [] ->
  let p' := mkpt [("negative_rate", re (p false "negative_rate")); ("shape_minus_one", re (fun j => p false "shape_minus_one" j + 1))] in
  x false [] * dens Gamma n p x = (p false "shape_minus_one" [] + 1) / - p false "negative_rate" [] * dens Gamma n p' x.
Proof.
  intros [H1 H2] Ht p'. set (k := p false "shape_minus_one" [] + 1). set (r := - p false "negative_rate" []). assert (0 < k /\ 0 < r) as [Hk Hr] by (unfold k, r; lra).
  unfold dens. rewrite <- (exp_ln _ Ht) at 1. rewrite <- (exp_ln (k / r)) by now apply Rdiv_lt_0_compat. rewrite <- !exp_plus. f_equal.
  unfold p'. lps. unfold mkpt, re; cbn [slook String.eqb Ascii.eqb Bool.eqb fst snd]. fold k. fold r. rewrite (lngamma_succ k Hk). unfold Rdiv. rewrite (ln_mult k (/ r)) by (try assumption; now apply Rinv_0_lt_compat). rewrite ln_Rinv by assumption.
  replace (p false "shape_minus_one" []) with (k - 1) by (unfold k; ring). ring.
Qed.
Section V.
  Variable solve : minimizer -> dist -> nat -> xr.
  Notation L := (fam_methods solve).
  Lemma dens_of b i f m n p P x : inb b i = true -> at_pt b i m (NP f) n p -> nat_dom f n p -> real_im (NP f) p -> pdf_is L b i f n m P -> point_ok f n x -> P x = dens f n p x.
  Proof.
    intros Hi A N I HP X. rewrite (pdf_val solve b i f m n P (at_pt_proper b i m f n _ Hi A N) (ap_dims _ _ _ _ _ _ A) HP x X). exact (dens_pt_eq solve b i m f n _ x Hi A N I X).
  Qed.
  Lemma vm_one b i f m n p P : inb b i = true -> at_pt b i m (NP f) n p -> nat_dom f n p -> real_im (NP f) p -> pdf_is L b i f n m P -> expected f n P (fun _ => 1) 1.
  Proof.
    intros Hi A N I HP. eapply integral_ext; [|exact (proj1 (fam_norm_mean f n p (at_pt_dok _ _ _ _ _ _ A) N))]. intros x X. cbv beta. rewrite (dens_of b i f m n p P x Hi A N I HP X). ring.
  Qed.
  Lemma vm_entry b i f m n p P g j : inb b i = true -> at_pt b i m (NP f) n p -> nat_dom f n p -> real_im (NP f) p -> pdf_is L b i f n m P -> In g (fields (EP f)) -> inb (supp_shape (fd_support g) n) j = true ->
    expected f n P (fun x => ssR n p x f false (fd_name g) j) (expR n p f false (fd_name g) j).
  Proof.
    intros Hi A N I HP G J. destruct (fam_norm_mean f n p (at_pt_dok _ _ _ _ _ _ A) N) as [H1 H2].
    eapply integral_ext; [|apply (mean_entry f n p g false j); auto; now apply in_indices]. intros x X. cbv beta. now rewrite (dens_of b i f m n p P x Hi A N I HP X).
  Qed.
  Lemma vp_setup b i d : vp_domain d i -> well_formed d = true -> leaf_shaped b d = true -> inb b i = true -> exists n, at_pt b i d (dcls d) n (point_of d i) /\ vp_domain d i.
  Proof. intros V W S Hi. now apply vp_dom_at. Qed.
  Lemma vp_real f p : f = Normal \/ f = MultivariateDiagonalNormal -> real_im (NP f) (vnR p).
  Proof. intros [-> | ->] g j I Kg; cbn [fields In] in I; repeat (destruct I as [<-|I]; [reflexivity|]); destruct I. Qed.

  Definition vp_ok (b i : list nat) (d m : dist) (f : family) (n : nat) (P : obs -> R) : Prop :=
    well_formed d = true /\ leaf_shaped b d = true /\ inb b i = true /\ vp_domain d i /\ natural_of L d m /\ dims_of d = Ok n /\ pdf_is L b i f n m P.
  Lemma t_vp_normal b i d m n P : dcls d = NormalVP -> vp_ok b i d m Normal n P ->
    expected Normal n P (fun x => x false []) (par d i "mean" []) /\ expected Normal n P (fun x => (x false [] - par d i "mean" []) * (x false [] - par d i "mean" [])) (par d i "variance" []).
  Proof.
    intros C (W & S & Hi & V & Nm & D & HP). destruct (vp_setup b i d V W S Hi) as (n' & A & V'). rewrite C in A. assert (n' = n) by (pose proof (ap_dims _ _ _ _ _ _ A); congruence). subst n'.
    destruct V' as (n' & N1 & _ & V'). rewrite C in V'. assert (n' = n) by congruence. subst n'. destruct (normal_vp_nat_at b i Hi d n _ A V') as (e & E1 & E2). unfold natural_of in Nm. rewrite C, E1 in Nm. injection Nm as <-.
    set (p := point_of d i) in *. assert (Nd : nat_dom Normal n (vnR p)). { cbn [nat_dom]. mkv. assert (0 < 1 / p false "variance" []) by (apply Rdiv_lt_0_compat; lra). lra. }
    pose proof (vp_real Normal p (or_introl eq_refl)) as RI.
    pose proof (vm_entry b i _ e n _ P _ [] Hi E2 Nd RI HP (or_introl eq_refl) eq_refl) as Mn. pose proof (vm_entry b i _ e n _ P _ [] Hi E2 Nd RI HP (or_intror (or_introl eq_refl)) eq_refl) as Sn.
    pose proof (vm_one b i _ e n _ P Hi E2 Nd RI HP) as H1. change (par d i "mean" []) with (p false "mean" []). change (par d i "variance" []) with (p false "variance" []).
    assert (Em : expR n (vnR p) Normal false "mean" [] = p false "mean" []) by (mkv; field; lra). assert (Mn' : expected Normal n P (fun x => x false []) (p false "mean" [])) by (rewrite <- Em; exact Mn).
    assert (Sn' : expected Normal n P (fun x => x false [] * x false []) (expR n (vnR p) Normal false "second_moment" [])) by exact Sn. split; [exact Mn'|].
    eapply integral_to; [|exact (expected_central _ _ _ _ _ _ _ _ _ H1 Mn' Mn' Sn' (fun x => eq_refl))]. mkv. field. lra.
  Qed.
  Lemma t_vp_diagonal b i d m n P : dcls d = MultivariateDiagonalNormalVP -> vp_ok b i d m MultivariateDiagonalNormal n P -> forall k, (k < n)%nat ->
    expected MultivariateDiagonalNormal n P (fun x => x false [k]) (par d i "mean" [k]) /\ expected MultivariateDiagonalNormal n P (fun x => (x false [k] - par d i "mean" [k]) * (x false [k] - par d i "mean" [k])) (par d i "variance" [k]).
  Proof.
    intros C (W & S & Hi & V & Nm & D & HP) k Hk. destruct (vp_setup b i d V W S Hi) as (n' & A & V'). rewrite C in A. assert (n' = n) by (pose proof (ap_dims _ _ _ _ _ _ A); congruence). subst n'.
    destruct V' as (n' & N1 & _ & V'). rewrite C in V'. assert (n' = n) by congruence. subst n'. destruct (diag_vp_nat_at b i Hi d n _ A V') as (e & E1 & E2). unfold natural_of in Nm. rewrite C, E1 in Nm. injection Nm as <-.
    set (p := point_of d i) in *. assert (Nd : nat_dom MultivariateDiagonalNormal n (vnR p)). { cbn [nat_dom]. intros l Hl. mkv. specialize (V' l Hl). assert (0 < 1 / p false "variance" [l]) by (apply Rdiv_lt_0_compat; lra). lra. }
    pose proof (vp_real MultivariateDiagonalNormal p (or_intror eq_refl)) as RI. pose proof (inb1_intro n k Hk) as Hj. specialize (V' k Hk).
    pose proof (vm_entry b i _ e n _ P _ [k] Hi E2 Nd RI HP (or_introl eq_refl) Hj) as Mn. pose proof (vm_entry b i _ e n _ P _ [k] Hi E2 Nd RI HP (or_intror (or_introl eq_refl)) Hj) as Sn.
    pose proof (vm_one b i _ e n _ P Hi E2 Nd RI HP) as H1. change (par d i "mean" [k]) with (p false "mean" [k]). change (par d i "variance" [k]) with (p false "variance" [k]).
    assert (Em : expR n (vnR p) MultivariateDiagonalNormal false "mean" [k] = p false "mean" [k]) by (mkv; field; lra). assert (Mn' : expected MultivariateDiagonalNormal n P (fun x => x false [k]) (p false "mean" [k])) by (rewrite <- Em; exact Mn).
    assert (Sn' : expected MultivariateDiagonalNormal n P (fun x => x false [k] * x false [k]) (expR n (vnR p) MultivariateDiagonalNormal false "second_moment" [k])) by exact Sn. split; [exact Mn'|].
    eapply integral_to; [|exact (expected_central _ _ _ _ _ _ _ _ _ H1 Mn' Mn' Sn' (fun x => eq_refl))]. mkv. field. lra.
  Qed.
  Lemma t_vp_mvn b i d m n P : dcls d = MultivariateNormalVP -> vp_ok b i d m MultivariateNormal n P -> forall k l, (k < n)%nat -> (l < n)%nat ->
    expected MultivariateNormal n P (fun x => x false [k]) (par d i "mean" [k]) /\ expected MultivariateNormal n P (fun x => (x false [k] - par d i "mean" [k]) * (x false [l] - par d i "mean" [l])) (par d i "variance" [k; l]).
  Proof.
    intros C (W & S & Hi & V & Nm & D & HP) k l Hk Hl. destruct (vp_setup b i d V W S Hi) as (n' & A & V'). rewrite C in A. assert (n' = n) by (pose proof (ap_dims _ _ _ _ _ _ A); congruence). subst n'.
    destruct V' as (n' & N1 & _ & V'). rewrite C in V'. assert (n' = n) by congruence. subst n'. destruct (mvn_vp_exp_at b i Hi d n _ A) as (e' & X1 & X2). unfold natural_of in Nm. rewrite C in Nm. destruct Nm as (e'' & Y & Nm). rewrite X1 in Y. injection Y as <-.
    set (p := point_of d i) in *. assert (PE : exp_dom MultivariateNormal n (mveR p)) by (cbn [exp_dom]; eapply spd_ext; [|exact V']; intros a c Ha Hc; mkv; ring).
    destruct (nat_at solve b i e' MultivariateNormal n _ Hi X2 PE eq_refl) as (e & E1 & E2). rewrite E1 in Nm. injection Nm as <-. pose proof (nat_ok MultivariateNormal n _ eq_refl PE) as Nd.
    pose proof (natR_im MultivariateNormal n (mveR p) eq_refl) as RI. pose proof (mvn_exp_nat n (mveR p) PE) as EE.
    assert (Hj : inb [n; n] [k; l] = true) by (cbn -[Nat.ltb]; apply andb_true_iff; split; [now apply Nat.ltb_lt|apply andb_true_iff; split; [now apply Nat.ltb_lt|reflexivity]]).
    pose proof (vm_entry b i _ e n _ P _ [k] Hi E2 Nd RI HP (or_introl eq_refl) (inb1_intro n k Hk)) as Mk. pose proof (vm_entry b i _ e n _ P _ [l] Hi E2 Nd RI HP (or_introl eq_refl) (inb1_intro n l Hl)) as Ml.
    pose proof (vm_entry b i _ e n _ P _ [k; l] Hi E2 Nd RI HP (or_intror (or_introl eq_refl)) Hj) as Sn. pose proof (vm_one b i _ e n _ P Hi E2 Nd RI HP) as H1.
    rewrite (pt_re _ _ _ _ _ [k] EE (or_introl eq_refl) (inb1_intro n k Hk)) in Mk. rewrite (pt_re _ _ _ _ _ [l] EE (or_introl eq_refl) (inb1_intro n l Hl)) in Ml. rewrite (pt_re _ _ _ _ _ [k; l] EE (or_intror (or_introl eq_refl)) Hj) in Sn.
    change (par d i "mean") with (p false "mean"). change (par d i "variance" [k; l]) with (p false "variance" [k; l]). split; [exact Mk|].
    assert (Sn' : expected MultivariateNormal n P (fun x => x false [k] * x false [l]) (p false "variance" [k; l] + p false "mean" [k] * p false "mean" [l])) by exact Sn.
    assert (Mk' : expected MultivariateNormal n P (fun x => x false [k]) (p false "mean" [k])) by exact Mk. assert (Ml' : expected MultivariateNormal n P (fun x => x false [l]) (p false "mean" [l])) by exact Ml.
    eapply integral_to; [|exact (expected_central _ _ _ _ _ _ _ _ _ H1 Mk' Ml' Sn' (fun x => eq_refl))]. ring.
  Qed.
  Lemma t_vp_gamma b i d m n P : dcls d = GammaVP -> vp_ok b i d m Gamma n P ->
    expected Gamma n P (fun x => x false []) (par d i "mean" []) /\ expected Gamma n P (fun x => (x false [] - par d i "mean" []) * (x false [] - par d i "mean" [])) (par d i "variance" []).
  Proof.
    intros C (W & S & Hi & V & Nm & D & HP). destruct (vp_setup b i d V W S Hi) as (n' & A & V'). rewrite C in A. assert (n' = n) by (pose proof (ap_dims _ _ _ _ _ _ A); congruence). subst n'.
    destruct V' as (n' & N1 & _ & V'). rewrite C in V'. assert (n' = n) by congruence. subst n'. destruct V' as [V1 V2]. destruct (gamma_vp_nat_at b i Hi d n _ A V2) as (e & E1 & E2). unfold natural_of in Nm. rewrite C, E1 in Nm. injection Nm as <-.
    set (p := point_of d i) in *. assert (R0 : 0 < p false "mean" [] / p false "variance" []) by (apply Rdiv_lt_0_compat; assumption). pose proof (Rmult_lt_0_compat _ _ V1 R0) as R1.
    assert (Nd : nat_dom Gamma n (gnR p)) by (cbn [nat_dom]; mkv; lra).
    assert (RI : real_im (NP Gamma) (gnR p)) by (intros g j I Kg; cbn [fields In] in I; repeat (destruct I as [<-|I]; [reflexivity|]); destruct I).
    pose proof (vm_entry b i _ e n _ P _ [] Hi E2 Nd RI HP (or_introl eq_refl) eq_refl) as Mn. pose proof (vm_one b i _ e n _ P Hi E2 Nd RI HP) as H1.
    change (par d i "mean" []) with (p false "mean" []). change (par d i "variance" []) with (p false "variance" []).
    assert (Em : expR n (gnR p) Gamma false "mean" [] = p false "mean" []) by (mkv; field; lra). 
    assert (Mn' : expected Gamma n P (fun x => x false []) (p false "mean" [])) by (rewrite <- Em; exact Mn). clear Mn. split; [exact Mn'|].
    set (p' := mkpt [("negative_rate", re (gnR p false "negative_rate")); ("shape_minus_one", re (fun j => gnR p false "shape_minus_one" j + 1))]).
    assert (Nd' : nat_dom Gamma n p') by (unfold p'; cbn [nat_dom]; mkv; lra). destruct (fam_norm_mean Gamma n p' (at_pt_dok _ _ _ _ _ _ E2) Nd') as [K1 K2].
    pose proof (mean_entry Gamma n p' _ false [] (or_introl eq_refl) K1 K2 (or_introl eq_refl) (or_introl eq_refl)) as Sh. 
    assert (Sh' : integral_over Gamma n (fun x => dens Gamma n p' x * x false []) (expR n p' Gamma false "mean" [])) by exact Sh. clear Sh.
    assert (Sn : expected Gamma n P (fun x => x false [] * x false []) (p false "variance" [] + p false "mean" [] * p false "mean" [])).
    { eapply integral_to; [|eapply integral_ext; [|exact (integral_scal _ _ _ _ (p false "mean" []) Sh')]].
      - unfold p'. mkv. field. lra.
      - intros x X. cbv beta. rewrite (dens_of b i Gamma e n _ P x Hi E2 Nd RI HP X). destruct X as [X1 X2]. cbn [sample_space] in X1.
        replace (dens Gamma n (gnR p) x * (x false [] * x false [])) with (x false [] * dens Gamma n (gnR p) x * x false []) by ring.
        rewrite (gamma_shift n (gnR p) x Nd X1). fold p'. replace ((gnR p false "shape_minus_one" [] + 1) / - gnR p false "negative_rate" []) with (p false "mean" []) by (mkv; field; lra).
        ring. }
    eapply integral_to; [|exact (expected_central _ _ _ _ _ _ _ _ _ H1 Mn' Mn' Sn (fun x => eq_refl))]. ring.
  Qed.
End V.
