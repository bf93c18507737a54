(** The sampling theorems for every class. *)
From Coquelicot Require Import Coquelicot.
From Coq Require Import String List Bool Arith Reals Lia Lra.
From Verif Require Import Base XReal Tensor TensorFacts TensorFacts2 BroadcastFacts Support Dist DictFacts Iteration Structure Spec StructFacts AssembleFacts SumSpec DotSpec Tools
  ToolThms Joint StructThms MapFacts SpecFun GammaFn Expr Fam ExprFacts FamTy FamFacts SearchFacts DotFacts DotLaws BatchFacts PointSpec PointFacts Val FamR FamVal ConvFacts LeafVal ConvThms
  Var VarSpec MatVal VarThms DensSpec Sample SampleSpec SampleFacts SampleShape SampleVal SampleThms.
Import ListNotations.
Local Unset Asymmetric Patterns.
Local Open Scope string_scope.
Local Open Scope R_scope.
Local Open Scope list_scope.

Section Top.
  Context {K : Type}.
  Variable split2 : K -> K * K.
  Variable solve : minimizer -> dist -> nat -> xr.
  Notation L := (fam_methods solve).

  (** NegativeBinomial: a Gamma draw, then a Poisson draw with that mean *)
  Definition nbR (p : point) : point := mkpt [("negative_rate", re (fun j => - p false "failures" [] / p false "mean" [])); ("shape_minus_one", re (fun j => p false "failures" [] - 1))].
  Lemma nb_gamma b i q n p : inb b i = true -> at_pt b i q (EP NegativeBinomial) n p -> exp_dom NegativeBinomial n p ->
    exists g, make (NP Gamma) (dparams q) [ra "negative_rate" (- self "failures" / self "mean")%ae; ra "shape_minus_one" (self "failures" - #1)%ae] = Ok g /\ at_pt b i g (NP Gamma) n (nbR p) /\ nat_dom Gamma n (nbR p).
  Proof.
    intros Hi A [P1 (k & P2)]. pose proof (at_pt_d1 _ _ _ _ _ _ A eq_refl) as ->.
    destruct (make_pt b i q (EP NegativeBinomial) 1 p (NP Gamma) (nbR p) [ra "negative_rate" (- self "failures" / self "mean")%ae; ra "shape_minus_one" (self "failures" - #1)%ae] Hi A) as (g & G1 & G2); try reflexivity.
    - unfold args_at, ctx_of; cbn [map fields]; argv; vx; jj; unfold nbR; mkv; try reflexivity; lra.
    - exists g. split; [exact G1|]. split; [exact G2|]. cbn [nat_dom]. unfold nbR; mkv. rewrite P2. pose proof (pos_INR k). rewrite S_INR. split; [|lra].
      replace (- (INR k + 1) / p false "mean" []) with (- ((INR k + 1) / p false "mean" [])) by (field; lra). apply Ropp_lt_gt_0_contravar. apply Rdiv_lt_0_compat; lra.
  Qed.
  Lemma poisson_pt s m (t : tensor xr) l : shp t = s -> inb s m = true -> tget t m = Fin l -> exists q, construct (EP Poisson) [("mean", RA t)] None = Ok q /\ at_pt s m q (EP Poisson) 1 (fun c _ _ => if c then 0 else l).
  Proof.
    intros H Hm Ht. destruct (poisson_leaf s t H) as (q & Q1 & Q2 & Q3 & Q4 & Q5). exists q. split; [exact Q1|]. subst q. split; try assumption; try reflexivity.
    cbn [dparams]. intros nm k sg j0 Hl Hj. unfold ctx_of in Hl. cbn [map fields fd_ctx] in Hl. cbn in Hl. destruct (keq nm "mean") eqn:Q; [|discriminate Hl]. injection Hl; intros; subst. destruct j0; [|discriminate Hj].
    unfold vals_of, pvals. cbn [dget]. rewrite Q. cbn [get_kind]. rewrite app_nil_r. exact Ht.
  Qed.
  Lemma gamma_real draw (q : dist) (key : K) sh x : run draw (Sampler Gamma_ false true [self "shape_minus_one" + #1]%ae (PNegDiv (self "negative_rate"))) q key sh = Ok x -> exists t, x = RA t.
  Proof.
    intros X1. unfold run in X1. repeat match type of X1 with bind ?r _ = _ => destruct r; [|discriminate X1]; cbn [bind] in X1 end.
    cbn [apply_post s_post] in X1. repeat match type of X1 with bind ?r _ = _ => destruct r; [|discriminate X1]; cbn [bind] in X1 end. injection X1 as <-. eauto.
  Qed.
  Lemma entry_re (t : tensor xr) j a c : entry_c (RA t) j = XC (Fin a) (Fin c) -> tget t j = Fin a /\ c = 0.
  Proof. unfold entry_c. intros H. injection H; intros. split; congruence. Qed.
  Lemma nb_dom draw b i q n p (key : K) sh : lawful draw -> inb b i = true -> at_pt b i q (EP NegativeBinomial) n p -> exp_dom NegativeBinomial n p ->
    exists x, nb_sample split2 draw q key sh = Ok x /\ forall j, inb (requested sh) j = true -> exists xv, (forall e, inb (event (EP NegativeBinomial) n) e = true -> entry_c x (j ++ i ++ e) = XC (Fin (xv false e)) (Fin (xv true e))) /\
      sample_space NegativeBinomial n xv.
  Proof.
    intros La Hi A P. destruct (nb_gamma b i q n p Hi A P) as (g & G1 & G2 & G3). unfold nb_sample. destruct (split2 key) as [k1 k2]. rewrite G1. cbn [bind opt_run np_sampler].
    destruct (direct_dom draw b i g (NP Gamma) _ n _ Gamma k1 sh La Hi G2 eq_refl G3 ltac:(discriminate) eq_refl) as (x & X1 & X2). rewrite X1. cbn [bind].
    destruct (direct_shape draw b g (NP Gamma) _ n k1 sh eq_refl (ap_cls _ _ _ _ _ _ G2) (ap_wf _ _ _ _ _ _ G2) (ap_shaped _ _ _ _ _ _ G2) (ap_dims _ _ _ _ _ _ G2)) as (x' & X1' & Xs). rewrite X1 in X1'. injection X1' as <-.
    destruct (gamma_real _ _ _ _ _ X1) as (t & ->). cbn [ashape] in Xs. unfold event in Xs. cbn [domain_support supp_shape] in Xs. rewrite app_nil_r in Xs.
    destruct (poisson_leaf _ t Xs) as (q' & Q1 & Q2 & Q3 & Q4 & Q5). rewrite Q1. cbn [bind opt_run ep_sampler].
    assert (Cq : dcls q' = EP Poisson) by now rewrite Q2. destruct (direct_shape draw _ q' (EP Poisson) _ 1 k2 None eq_refl Cq Q3 Q4 Q5) as (y & Y1 & _). exists y. split; [exact Y1|].
    intros j Hj. destruct (X2 j Hj) as (xv & V1 & V2 & _). specialize (V1 [] eq_refl). apply entry_re in V1. destruct V1 as [V1 _]. rewrite app_nil_r in V1. cbn [sample_space] in V2.
    assert (Hji : inb (requested sh ++ b) (j ++ i) = true) by (now apply inb_app_intro).
    destruct (poisson_pt _ _ t _ Xs Hji V1) as (q'' & Q1' & AP). rewrite Q1 in Q1'. injection Q1' as <-.
    destruct (direct_dom draw _ _ q' (EP Poisson) _ 1 _ Poisson k2 None La Hji AP eq_refl V2 ltac:(discriminate) eq_refl) as (y' & Y1' & Y2). cbn [direct ep_sampler] in Y1. rewrite Y1 in Y1'. injection Y1' as <-.
    destruct (Y2 [] eq_refl) as (yv & W1 & W2 & _). exists yv. split; [|exact W2]. intros e He. rewrite <- (W1 e He). f_equal. cbn [app]. now rewrite app_assoc.
  Qed.
  Definition two_draws (d1 d2 : K -> request -> list nat -> list nat -> xr) : K -> request -> list nat -> list nat -> xr := fun key r => match r_kind r with Gamma_ => d1 key r | _ => d2 key r end.
  Lemma two_draws_lawful d1 d2 : lawful d1 -> lawful d2 -> lawful (two_draws d1 d2).
  Proof. intros L1 L2 key r s i A Ha Hi As. unfold two_draws. destruct (r_kind r) eqn:E; rewrite <- E in *; solve [now apply L1 | now apply L2]. Qed.
  Lemma nb_reach b i q n p (key : K) sh j (x : obs) : inb b i = true -> at_pt b i q (EP NegativeBinomial) n p -> exp_dom NegativeBinomial n p -> inb (requested sh) j = true ->
    sample_space NegativeBinomial n x -> x true [] = 0 ->
    exists draw a, lawful draw /\ nb_sample split2 draw q key sh = Ok a /\ forall e, inb (event (EP NegativeBinomial) n) e = true -> entry_c a (j ++ i ++ e) = XC (Fin (x false e)) (Fin (x true e)).
  Proof.
    intros Hi A P Hj Sx Ix. destruct (nb_gamma b i q n p Hi A P) as (g & G1 & G2 & G3). destruct (split2 key) as [k1 k2] eqn:Es.
    destruct (direct_reach b i g (NP Gamma) _ n _ Gamma k1 sh j (fun c _ => if c then 0 else 1) Hi G2 eq_refl G3 eq_refl Hj) as (U1 & V1 & a1 & R1 & R2); [cbn [sample_space]; lra|exact Logic.I|discriminate|reflexivity|].
    destruct (direct_shape (oracle U1 V1) b g (NP Gamma) _ n k1 sh eq_refl (ap_cls _ _ _ _ _ _ G2) (ap_wf _ _ _ _ _ _ G2) (ap_shaped _ _ _ _ _ _ G2) (ap_dims _ _ _ _ _ _ G2)) as (x' & X1' & Xs). rewrite R1 in X1'. injection X1' as <-.
    destruct (gamma_real _ _ _ _ _ R1) as (t & ->). cbn [ashape] in Xs. unfold event in Xs. cbn [domain_support supp_shape] in Xs. rewrite app_nil_r in Xs.
    specialize (R2 [] eq_refl). apply entry_re in R2. destruct R2 as [R2 _]. rewrite app_nil_r in R2.
    assert (Hji : inb (requested sh ++ b) (j ++ i) = true) by (now apply inb_app_intro).
    destruct (poisson_pt _ _ t _ Xs Hji R2) as (q' & Q1 & AP).
    destruct (direct_reach _ _ q' (EP Poisson) _ 1 _ Poisson k2 None [] x Hji AP eq_refl (Rlt_0_1 : pre (EP Poisson) 1 (fun c _ _ => if c then 0 else 1)) eq_refl eq_refl Sx Logic.I ltac:(discriminate)) as (U2 & V2 & a2 & T1 & T2).
    { intros s Hs _ e He. apply inb0' in He. now subst e. }
    exists (two_draws (oracle U1 V1) (oracle U2 V2)), a2. split; [apply two_draws_lawful; apply oracle_lawful|]. split.
    - unfold nb_sample. rewrite Es, G1. cbn [bind opt_run np_sampler].
      match type of R1 with _ = ?rhs => match goal with |- context [run ?d ?sp g k1 sh] => assert (E1 : run d sp g k1 sh = rhs) by exact R1 end end. rewrite E1. cbn [bind]. rewrite Q1. cbn [bind opt_run ep_sampler]. exact T1.
    - intros e He. rewrite <- (T2 e He). f_equal. cbn [app]. now rewrite app_assoc.
  Qed.

  Definition geometric_mean_ok (q : dist) (i : list nat) (f : family) : Prop := f = Geometric -> forall e, exp_form L q e -> 1 <= point_of e i false "mean" [].
  Lemma event_supp c n s : domain_support c = Some s -> event c n = supp_shape s n. Proof. unfold event. now intros ->. Qed.
  Lemma row_intro q n j i x xv : dims_of q = Ok n -> (forall e, inb (event (dcls q) n) e = true -> entry_c x (j ++ i ++ e) = XC (Fin (xv false e)) (Fin (xv true e))) -> sampled_row q j i x xv.
  Proof. intros D H m s e D' Hs He. assert (m = n) by congruence. subst m. apply H. now rewrite (event_supp _ _ _ Hs). Qed.
  Lemma samplable_support c : is_samplable c = true -> exists s, domain_support c = Some s.
  Proof. destruct c as [g|g| | | | | | |]; try destruct g; cbn; intros; try discriminate; eexists; reflexivity. Qed.
  Lemma row_elim q n j i x xv : is_samplable (dcls q) = true -> dims_of q = Ok n -> sampled_row q j i x xv -> forall e, inb (event (dcls q) n) e = true -> entry_c x (j ++ i ++ e) = XC (Fin (xv false e)) (Fin (xv true e)).
  Proof. intros S D H e He. destruct (samplable_support _ S) as (s & Hs). apply (H n s e D Hs). now rewrite <- (event_supp _ _ _ Hs). Qed.
  Lemma event_eq c c' n : domain_support c' = domain_support c -> event c' n = event c n. Proof. unfold event. now intros ->. Qed.
  Lemma point_mean b i q p n : inb b i = true -> at_pt b i q (EP Geometric) n p -> p false "mean" [] = point_of q i false "mean" [].
  Proof. intros Hi A. pose proof (at_pt_pt b i q _ n p Hi A) as E. specialize (E "mean" KR [] [] eq_refl eq_refl). cbn in E. now injection E. Qed.
  Lemma sampled_nb q f : sampled_family (dcls q) = Some f -> two_stage (dcls q) = true -> f = NegativeBinomial /\ (dcls q = NP NegativeBinomial \/ dcls q = EP NegativeBinomial).
  Proof. destruct (dcls q) as [g|g| | | | | | |]; try destruct g; cbn; intros H T; try discriminate T; injection H as <-; auto. Qed.
  Lemma nb_exp b i q : samplable_at L b i NegativeBinomial q -> (dcls q = NP NegativeBinomial \/ dcls q = EP NegativeBinomial) -> exists e n p, dims_of q = Ok n /\ at_pt b i e (EP NegativeBinomial) n p /\ exp_dom NegativeBinomial n p /\
    event (dcls q) n = [] /\ forall draw key sh, sample split2 draw L q key sh = nb_sample split2 draw e key sh.
  Proof.
    intros (F & Sa & W & S & Hi & D & _) [C|C]; rewrite C in D.
    - destruct (nat_dom_at b i q _ Hi C W S D) as (n & A & P). destruct (exp_at solve b i q _ n _ Hi A P Logic.I) as (e & E1 & E2). exists e, n, (expR n (point_of q i) NegativeBinomial).
      split; [exact (ap_dims _ _ _ _ _ _ A)|]. split; [exact E2|]. split; [exact (exp_ok NegativeBinomial n _ P)|]. split; [now rewrite C|]. intros. unfold sample. rewrite C, E1. reflexivity.
    - destruct (exp_dom_at b i q _ Hi C W S D) as (n & A & P). exists q, n, (point_of q i). split; [exact (ap_dims _ _ _ _ _ _ A)|]. split; [exact A|]. split; [exact P|]. split; [now rewrite C|]. intros. unfold sample. rewrite C. reflexivity.
  Qed.

  Theorem sample_domain draw b i f q (key : K) sh : lawful draw -> samplable_at L b i f q -> geometric_mean_ok q i f ->
    exists x n, sample split2 draw L q key sh = Ok x /\ dims_of q = Ok n /\ forall j, inb (requested sh) j = true -> exists xv, sampled_row q j i x xv /\ sample_space f n xv.
  Proof.
    intros La H Ge. destruct (two_stage (dcls q)) eqn:T.
    - destruct (sampled_nb q f (proj1 H) T) as [-> C]. destruct (nb_exp b i q H C) as (e & n & p & D & A & P & Ev & Sm). destruct H as (F & Sa & W & S & Hi & _).
      destruct (nb_dom draw b i e n p key sh La Hi A P) as (x & X1 & X2). exists x, n. rewrite Sm. split; [exact X1|]. split; [exact D|]. intros j Hj. destruct (X2 j Hj) as (xv & V1 & V2). exists xv. split; [|exact V2].
      apply (row_intro q n); [exact D|]. intros e' He. rewrite Ev in He. apply V1. exact He.
    - destruct (reduces split2 solve b i f q H T) as (n & D & q' & c' & p' & sp & R1 & R2 & R3 & R4 & R5 & R6 & R7). destruct H as (F & Sa & W & S & Hi & _).
      assert (GO : geometric_ok c' p'). { intros ->. cbn [sampled_family] in R2. injection R2 as <-. rewrite (point_mean b i q' p' n Hi R4). apply (Ge eq_refl). now apply R6. }
      destruct (direct_dom draw b i q' c' sp n p' f key sh La Hi R4 R1 R5 GO R2) as (x & X1 & X2). exists x, n. rewrite R7. split; [exact X1|]. split; [exact D|]. intros j Hj. destruct (X2 j Hj) as (xv & V1 & V2 & _). exists xv. split; [|exact V2].
      apply (row_intro q n); [exact D|]. rewrite <- (event_eq _ _ n R3). exact V1.
  Qed.

  Lemma real_kr s : (forall b g, supp_ring s <> ComplexF b g) <-> kind_of s = KR.
  Proof. unfold kind_of. destruct (supp_ring s); split; intros; try reflexivity; try discriminate. exfalso. eapply H. reflexivity. Qed.
  Lemma reduced_reach b i f q (key : K) sh j n (xv : obs) : samplable_at L b i f q -> two_stage (dcls q) = false -> dims_of q = Ok n -> sample_space f n xv -> real_obs (dcls q) n xv -> inb (requested sh) j = true ->
    (forall c' q' p', sampled_family c' = Some f -> direct c' <> None -> at_pt b i q' c' n p' -> (c' = EP Geometric -> exp_form L q q') -> reach c' n p' xv /\ (c' = EP Geometric -> 1 < p' false "mean" [])) ->
    can_sample split2 L q key sh j i xv.
  Proof.
    intros H T D Sx Rx Hj Re. destruct (reduces split2 solve b i f q H T) as (n' & D' & q' & c' & p' & sp & R1 & R2 & R3 & R4 & R5 & R6 & R7). assert (n' = n) by congruence. subst n'. destruct H as (F & Sa & W & S & Hi & _).
    destruct (Re c' q' p' R2 ltac:(congruence) R4 R6) as [Re1 Re2].
    destruct (direct_reach b i q' c' sp n p' f key sh j xv Hi R4 R1 R5 R2 Hj Sx Re1 Re2) as (U & V & a & A1 & A2).
    { intros s Hs Hk e He. apply (Rx s); [congruence|now apply real_kr|]. now rewrite <- (event_supp _ _ _ Hs). }
    exists (oracle U V), a. split; [apply oracle_lawful|]. split; [rewrite R7; exact A1|]. apply (row_intro q n); [exact D|]. rewrite <- (event_eq _ _ n R3). exact A2.
  Qed.
  Theorem sample_reach b i f q (key : K) sh j n (xv : obs) : samplable_at L b i f q -> sampler_misses f = false -> dims_of q = Ok n ->
    sample_space f n xv -> real_obs (dcls q) n xv -> inb (requested sh) j = true -> can_sample split2 L q key sh j i xv.
  Proof.
    intros H M D Sx Rx Hj. destruct (two_stage (dcls q)) eqn:T.
    - destruct (sampled_nb q f (proj1 H) T) as [-> C]. destruct (nb_exp b i q H C) as (e & n' & p & D' & A & P & Ev & Sm). assert (n' = n) by congruence. subst n'. pose proof H as (F & Sa & W & S & Hi & _).
      destruct (nb_reach b i e n p key sh j xv Hi A P Hj Sx) as (draw & a & L1 & L2 & L3).
      { destruct (samplable_support _ Sa) as (s & Hs). apply (Rx s Hs); [|rewrite <- (event_supp _ n _ Hs), Ev; reflexivity]. destruct C as [C|C]; rewrite C in Hs; injection Hs as <-; discriminate. }
      exists draw, a. split; [exact L1|]. split; [rewrite Sm; exact L2|]. apply (row_intro q n); [exact D|]. rewrite Ev. exact L3.
    - apply (reduced_reach b i f q key sh j n xv H T D Sx Rx Hj). intros c' q' p' F' D' _ _.
      split; [|intros ->; cbn in F'; injection F' as <-; discriminate M].
      destruct c' as [g|g| | | | | | |]; try destruct g; try exact Logic.I; cbn in F'; injection F' as <-; discriminate M.
  Qed.

  (** what one draw can be, for the classes that draw themselves *)
  Lemma reduced_only b i f q (key : K) sh j n (xv : obs) : samplable_at L b i f q -> two_stage (dcls q) = false -> dims_of q = Ok n -> inb (requested sh) j = true -> geometric_mean_ok q i f -> can_sample split2 L q key sh j i xv ->
    exists c' q' p' xv', sampled_family c' = Some f /\ direct c' <> None /\ at_pt b i q' c' n p' /\ reach c' n p' xv' /\ sample_space f n xv' /\ event c' n = event (dcls q) n /\
      forall e, inb (event (dcls q) n) e = true -> xv false e = xv' false e /\ xv true e = xv' true e.
  Proof.
    intros H T D Hj Ge (draw & x & La & X1 & X2). destruct (reduces split2 solve b i f q H T) as (n' & D' & q' & c' & p' & sp & R1 & R2 & R3 & R4 & R5 & R6 & R7). assert (n' = n) by congruence. subst n'. destruct H as (F & Sa & W & S & Hi & _).
    assert (GO : geometric_ok c' p'). { intros ->. cbn [sampled_family] in R2. injection R2 as <-. rewrite (point_mean b i q' p' n Hi R4). apply (Ge eq_refl). now apply R6. }
    destruct (direct_dom draw b i q' c' sp n p' f key sh La Hi R4 R1 R5 GO R2) as (x' & X1' & X2'). rewrite R7, X1' in X1. injection X1 as ->. destruct (X2' j Hj) as (xv' & V1 & V2 & V3).
    exists c', q', p', xv'. split; [exact R2|]. split; [congruence|]. split; [exact R4|]. split; [exact V3|]. split; [exact V2|]. split; [exact (event_eq _ _ n R3)|].
    intros e He. pose proof (row_elim q n j i x xv Sa D X2 e He) as Q. rewrite V1 in Q by (now rewrite (event_eq _ _ n R3)). injection Q; intros; split; congruence.
  Qed.
  Lemma family_class f c : sampled_family c = Some f -> (f = Multinomial \/ f = Geometric \/ f = ComplexUnitNormal \/ f = ComplexMultivariateUnitNormal) -> c = NP f \/ c = EP f.
  Proof. destruct c as [g|g| | | | | | |]; cbn; intros H C; try discriminate H; injection H as <-; auto; destruct C as [C|[C|[C|C]]]; discriminate. Qed.
  Lemma samp_class b i f q : samplable_at L b i f q -> (f = Multinomial \/ f = Geometric \/ f = ComplexUnitNormal \/ f = ComplexMultivariateUnitNormal) -> dcls q = NP f \/ dcls q = EP f.
  Proof. intros H. apply family_class. exact (proj1 H). Qed.

  Theorem multinomial_samples b i q (key : K) sh j n (xv : obs) : samplable_at L b i Multinomial q -> dims_of q = Ok n -> inb (requested sh) j = true -> real_obs (dcls q) n xv ->
    (can_sample split2 L q key sh j i xv <-> sample_space Multinomial n xv /\ sumR n (fun k => xv false [k]) = 1).
  Proof.
    intros H D Hj Rx. pose proof (samp_class _ _ _ _ H ltac:(auto)) as C. assert (T : two_stage (dcls q) = false) by (destruct C as [-> | ->]; reflexivity). split.
    - intros Ca. destruct (reduced_only b i _ q key sh j n xv H T D Hj ltac:(intros Q; discriminate Q) Ca) as (c' & q' & p' & xv' & R1 & Rd & R2 & R3 & R4 & R5 & R6).
      assert (Ev : event (dcls q) n = [n]) by (destruct C as [-> | ->]; reflexivity). rewrite Ev in R6.
      assert (E : forall k, (k < n)%nat -> xv false [k] = xv' false [k]) by (intros k Hk; apply R6; cbn [inb]; now rewrite (proj2 (Nat.ltb_lt k n) Hk)).
      destruct (family_class _ _ R1 ltac:(auto)) as [-> | ->]; [|now destruct Rd]. cbn [reach] in R3. cbn [sample_space] in *. destruct R4 as [R4 R4'].
      rewrite (sumR_ext n _ _ E). split; [|exact R3]. split; [|exact R4']. intros k Hk. rewrite (E k Hk). now apply R4.
    - intros [Sx Su]. apply (reduced_reach b i Multinomial q key sh j n xv H T D Sx Rx Hj). intros c' q' p' F' Dd' _ _.
      destruct (family_class _ _ F' ltac:(auto)) as [-> | ->]; (split; [|discriminate]); [exact Su|now destruct Dd'].
  Qed.
  Theorem geometric_samples b i q (key : K) sh j n (xv : obs) : samplable_at L b i Geometric q -> dims_of q = Ok n -> inb (requested sh) j = true -> real_obs (dcls q) n xv ->
    (forall e, exp_form L q e -> 1 < point_of e i false "mean" []) -> (can_sample split2 L q key sh j i xv <-> exists k, xv false [] = INR (S k)).
  Proof.
    intros H D Hj Rx Me. pose proof (samp_class _ _ _ _ H ltac:(auto)) as C. assert (T : two_stage (dcls q) = false) by (destruct C as [-> | ->]; reflexivity). split.
    - intros Ca. destruct (reduced_only b i _ q key sh j n xv H T D Hj ltac:(intros _ e He; specialize (Me e He); lra) Ca) as (c' & q' & p' & xv' & R1 & Rd & R2 & R3 & R4 & R5 & R6).
      assert (Ev : event (dcls q) n = []) by (destruct C as [-> | ->]; reflexivity). rewrite Ev in R6. destruct (R6 [] eq_refl) as [-> _].
      destruct (family_class _ _ R1 ltac:(auto)) as [-> | ->]; [now destruct Rd|]. exact R3.
    - intros [k Hk]. pose proof H as (_ & _ & _ & _ & Hi & _). apply (reduced_reach b i Geometric q key sh j n xv H T D); auto. { exists (S k). exact Hk. } intros c' q' p' F' Dd' Ap Ef.
      destruct (family_class _ _ F' ltac:(auto)) as [-> | ->]; [now destruct Dd'|]. split; [now exists k|]. intros _. rewrite (point_mean b i q' p' n Hi Ap). apply Me. now apply Ef.
  Qed.
  Theorem geometric_nan draw b i q (key : K) sh j : lawful draw -> samplable_at L b i Geometric q -> inb (requested sh) j = true ->
    (forall e, exp_form L q e -> point_of e i false "mean" [] < 1) -> exists x, sample split2 draw L q key sh = Ok x /\ entry_c x (j ++ i) = XC NaN (Fin 0).
  Proof.
    intros La H Hj Me. pose proof (samp_class _ _ _ _ H ltac:(auto)) as C. assert (T : two_stage (dcls q) = false) by (destruct C as [-> | ->]; reflexivity).
    destruct (reduces split2 solve b i _ q H T) as (n & D & q' & c' & p' & sp & R1 & R2 & R3 & R4 & R5 & R6 & R7). pose proof H as (_ & _ & _ & _ & Hi & _).
    destruct (family_class _ _ R2 ltac:(auto)) as [-> | ->]; [discriminate R1|]. destruct (direct_at0 draw b i q' _ sp n p' key sh Hi R4 R1 R5) as (ts & x & TM & LT & X1 & X2 & X3 & X4 & X5).
    exists x. rewrite R7. split; [exact X1|].
    destruct (direct_run draw b q' _ sp n key sh R1 (ap_cls _ _ _ _ _ _ R4) (ap_wf _ _ _ _ _ _ R4) (ap_shaped _ _ _ _ _ _ R4) (ap_dims _ _ _ _ _ _ R4)) as (ts' & sh' & T1 & T2 & J & R).
    injection R1 as <-. assert (Ets : ts' = ts) by congruence. subst ts'. cbn [s_post s_kind apply_post] in *. rewrite R in X1. injection X1 as <-. unfold entry_c. change (direct_ev (EP Geometric) n) with (@nil nat) in *.
    specialize (Me q' (R6 eq_refl)). rewrite <- (point_mean b i q' p' n Hi R4) in Me. cbn [pre exp_dom] in R5.
    assert (I : inb (requested sh ++ b ++ []) (j ++ i) = true) by (rewrite app_nil_r; now apply inb_app_intro).
    rewrite tget_tbuild by (cbn [draw_event r_kind]; rewrite app_nil_r; exact I).
    pose proof (X4 j [] Hj eq_refl) as As. rewrite app_nil_r in As.
    pose proof (La key (Req Geometric_ ts) _ (j ++ i) _ LT I As) as [_ Q]. rewrite (app_nil_r (j ++ i)) in Q. rewrite Q; [reflexivity|]. unfold argR. apply (Rmult_lt_reg_r (p' false "mean" [])); [exact R5|]. field_simplify; lra.
  Qed.

  (** the same draw is used for both parts of a complex unit normal *)
  Theorem complex_unit_samples b i f q n : samplable_at L b i f q -> f = ComplexUnitNormal \/ f = ComplexMultivariateUnitNormal -> dims_of q = Ok n ->
    exists d, forall (key : K) sh j xv e, inb (requested sh) j = true -> can_sample split2 L q key sh j i xv -> inb (event (dcls q) n) e = true -> xv true e - xv false e = d e.
  Proof.
    intros H Hf D. pose proof (samp_class _ _ _ _ H ltac:(tauto)) as C. assert (T : two_stage (dcls q) = false) by (destruct C as [-> | ->], Hf as [-> | ->]; reflexivity).
    destruct (reduces split2 solve b i f q H T) as (n' & D' & q' & c' & p' & sp & R1 & R2 & R3 & R4 & R5 & R6 & R7). assert (n' = n) by congruence. subst n'. pose proof H as (_ & Sa & _ & _ & Hi & _).
    exists (fun e => p' true "mean" e - p' false "mean" e). intros key sh j xv e Hj (draw & x & La & X1 & X2) He.
    assert (C' : c' = EP f) by (destruct (family_class _ _ R2 ltac:(tauto)) as [-> | ->]; [destruct Hf as [-> | ->]; discriminate R1|reflexivity]). subst c'.
    destruct (direct_dom draw b i q' (EP f) sp n p' f key sh La Hi R4 R1 R5 ltac:(intros Q; destruct Hf as [-> | ->]; discriminate Q) R2) as (x' & X1' & X2'). rewrite R7, X1' in X1. injection X1 as ->. destruct (X2' j Hj) as (xv' & V1 & V2 & V3).
    pose proof (row_elim q n j i x xv Sa D X2 e He) as Q. pose proof (event_eq _ _ n R3) as EE. rewrite V1 in Q by (now rewrite EE). injection Q as Q1 Q2. rewrite <- Q1, <- Q2.
    rewrite <- EE in He. destruct Hf as [-> | ->]; apply (V3 e He).
  Qed.
  Theorem complex_unit_missed b i f q n : samplable_at L b i f q -> f = ComplexUnitNormal \/ f = ComplexMultivariateUnitNormal -> dims_of q = Ok n -> (1 <= n)%nat ->
    exists xv, sample_space f n xv /\ forall (key : K) sh j, inb (requested sh) j = true -> ~ can_sample split2 L q key sh j i xv.
  Proof.
    intros H Hf D N. destruct (complex_unit_samples b i f q n H Hf D) as (d & Hd). pose proof (samp_class _ _ _ _ H ltac:(tauto)) as C.
    assert (E : exists e, inb (event (dcls q) n) e = true). { destruct Hf as [-> | ->]; destruct C as [-> | ->]; [exists []|exists []|exists [0%nat]|exists [0%nat]]; try reflexivity; cbn; destruct n; [lia|reflexivity|lia|reflexivity]. }
    destruct E as (e & He). exists (fun (c : bool) (e : list nat) => if c then d e + 1 else 0). split; [destruct Hf as [-> | ->]; exact Logic.I|]. intros key sh j Hj Ca. specialize (Hd key sh j _ e Hj Ca He). cbn beta iota in Hd. lra.
  Qed.
  Theorem sample_shape_top draw b q n (key : K) sh : is_samplable (dcls q) = true -> well_formed q = true -> leaf_shaped b q = true -> dims_of q = Ok n ->
    exists x s, sample split2 draw L q key sh = Ok x /\ domain_support (dcls q) = Some s /\ ashape x = requested sh ++ b ++ supp_shape s n.
  Proof.
    intros Sa W S D. destruct (sample_shape split2 draw solve b q n key sh Sa W S D) as (x & X1 & X2). destruct (samplable_support _ Sa) as (s & Hs). exists x, s. split; [exact X1|]. split; [exact Hs|]. now rewrite X2, (event_supp _ _ _ Hs).
  Qed.
  Theorem complex_unit_fixed b i f q n : samplable_at L b i f q -> f = ComplexUnitNormal \/ f = ComplexMultivariateUnitNormal -> dims_of q = Ok n ->
    exists d, forall (key : K) sh j xv s e, inb (requested sh) j = true -> can_sample split2 L q key sh j i xv -> domain_support (dcls q) = Some s -> inb (supp_shape s n) e = true -> xv true e - xv false e = d e.
  Proof.
    intros H Hf D. destruct (complex_unit_samples b i f q n H Hf D) as (d & Hd). exists d. intros key sh j xv s e Hj Ca Hs He. apply (Hd key sh j xv e Hj Ca). now rewrite (event_supp _ _ _ Hs).
  Qed.
End Top.
