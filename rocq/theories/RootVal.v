(** Values of search_to_natural and search_gradient at one batch element (C28). *)
From Coquelicot Require Import Coquelicot.
From Coq Require Import String List Bool Arith Reals Lia Lra.
From Verif Require Import Base XReal Tensor TensorFacts TensorFacts2 Support PlaneFacts Dist DictFacts Iteration Structure Spec StructFacts AssembleFacts SumSpec DotSpec FlattenSpec Tools
  ToolThms Joint StructThms MapFacts SpecFun GammaFn Expr Fam ExprFacts FamTy FamFacts SearchFacts DotFacts DotLaws BatchFacts PointSpec PointFacts Val FamR FamVal ConvFacts LeafVal VarSpec DensSpec RootSpec.
Import ListNotations.
Local Unset Asymmetric Patterns.
Local Open Scope string_scope.
Local Open Scope R_scope.

Definition sps (s : R) : R := ln (1 + exp s).
Lemma sps_pos s : 0 < sps s.
Proof. unfold sps. rewrite <- ln_1. apply ln_increasing; [lra|]. pose proof (exp_pos s). lra. Qed.
Section R.
  Variables (n : nat) (p : point) (s : nat -> R).
  Definition snR (f : family) : point :=
    match f with
    | Beta | Dirichlet => mkpt [("alpha_minus_one", re (fun j => sps (s (hd 0%nat j)) + adj_min (-1)))]
    | ChiSquare => mkpt [("k_over_two_minus_one", re (fun j => sps (s 0%nat) + adj_min (-1)))]
    | Logarithmic => mkpt [("log_probability", re (fun j => adj_max 0 - sps (- s 0%nat)))]
    | Gamma => mkpt [("negative_rate", re (fun _ => - (sps (s 0%nat) / p false "mean" []))); ("shape_minus_one", re (fun _ => sps (s 0%nat) - 1))]
    | GeneralizedDirichlet => mkpt [("alpha_minus_one", re (fun j => sps (s (hd 0%nat j)) - 1)); ("gamma", re (fun j => sps (s (n + hd 0%nat j)%nat)))]
    | VonMisesFisher => mkpt [("mean_times_concentration", re (fun j => p false "mean" j * (sps (s 0%nat) / sqrt (sumR n (fun k => p false "mean" [k] * p false "mean" [k])))))]
    | _ => mkpt []
    end.
End R.
(** the parameters and the search parameters, as one point *)
Definition ps (p : point) (s : nat -> R) : point := fun c nm j => if String.eqb nm "search" then (if c then 0 else s (hd 0%nat j)) else p c nm j.
Ltac pss := cbv beta iota zeta delta [ps]; cbn [String.eqb Ascii.eqb Bool.eqb].
Lemma feps_pos : 0 < feps. Proof. unfold feps. lra. Qed.
Lemma adj_min_gt m : m < adj_min m.
Proof. unfold adj_min. eapply Rlt_le_trans; [|apply Rmax_l]. pose proof feps_pos. lra. Qed.
Lemma adj_max_lt m : adj_max m < m.
Proof. unfold adj_max. eapply Rle_lt_trans; [apply Rmin_l|]. pose proof feps_pos. lra. Qed.
Lemma VR_from_min G p m e τ r : VR G p e τ r -> VR G p (r1 (real_from_plane (Some m) None) e) τ (fun j => sps (r j) + m).
Proof. intros H. eapply (VR_1 _ _ (real_from_plane (Some m) None) (fun x => sps x + m) (fun _ => True)); [|exact H|auto]. intros x _. cbn [real_from_plane]. rewrite xsoftplus_Fin. reflexivity. Qed.
Lemma VR_from_max G p m e τ r : VR G p e τ r -> VR G p (r1 (real_from_plane None (Some m)) e) τ (fun j => m - sps (- r j)).
Proof. intros H. eapply (VR_1 _ _ (real_from_plane None (Some m)) (fun x => m - sps (- x)) (fun _ => True)); [|exact H|auto]. intros x _. cbn [real_from_plane xneg]. rewrite xsoftplus_Fin. reflexivity. Qed.
Lemma search_val f n p s : e2n f = true -> dims_ok (EP f) n = true -> exp_dom f n p ->
  args_at (("search", (KR, [search_dim f n])) :: ctx_of (EP f) n) (ps p s) (snR n p s f) (search_l f) (ctx_of (NP f) n).
Proof.
  intros E D H. destruct f; try discriminate E; cbn [exp_dom] in H; cbn [dims_ok] in D; unfold args_at, search_l, ctx_of; cbn [map fields search_args fd_name fd_support var supp_ring]; argv; cbn [search_dim].
  all: try (eapply VR_ext; [eapply VR_at; [eapply VR_from_min; vr|lia]|]; jj; pss; reflexivity).
  all: try (eapply VR_ext; [eapply VR_at; [eapply VR_from_max; vr|lia]|]; jj; pss; reflexivity).
  all: try (eapply VR_ext; [eapply VR_from_min; vr|]; jj; pss; reflexivity).
  - eapply VR_ext; [eapply VR_neg; eapply VR_div; [eapply VR_softplus; eapply VR_at; [vr|lia]|vr|alt_|]|]; jj; pss; [lra|reflexivity].
  - eapply VR_ext; [eapply VR_sub; [eapply VR_softplus; eapply VR_at; [vr|lia]|vr|alt_]|]; jj; pss; reflexivity.
  - eapply VR_ext; [eapply VR_sub; [eapply VR_take; [vr|vr|lia]|vr|alt_]|]; jj; pss; reflexivity.
  - assert (X : VR (("search", (KR, [(2 * n)%nat])) :: ctx_of (EP GeneralizedDirichlet) n) (ps p s) (jdrop (softplus (self "search")) (self "mean_log_probability")) (Ev [(2 * n - n)%nat])
      (fun j => ln (1 + exp (ps p s false "search" [(n + hd 0 j)%nat])))) 
      by (apply (VR_drop _ _ (softplus (self "search")) (self "mean_log_probability") (2 * n) n (fun j => ln (1 + exp (ps p s false "search" j))) (fun j => ps p s false "mean_log_probability" j)); [vr|vr|lia]).
    replace (2 * n - n)%nat with n in X by lia. eapply VR_ext; [exact X|]. jj. pss. reflexivity.
  - vx; jj; pss; [|reflexivity]. apply Rgt_not_eq. apply sqrt_lt_R0. tauto.
Qed.
Lemma search_dom f n p s : e2n f = true -> dims_ok (EP f) n = true -> exp_dom f n p -> match f with Dirichlet => (2 <= n)%nat | _ => True end -> nat_dom f n (snR n p s f).
Proof.
  intros E D H N. pose proof (adj_min_gt (-1)). pose proof (adj_max_lt 0). destruct f; try discriminate E; cbn [exp_dom] in H; cbn [dims_ok] in D; cbn; try (intros k K; cbn); 
   try (pose proof (sps_pos (s 0%nat))); try (pose proof (sps_pos (- s 0%nat))); try (pose proof (sps_pos (s k))); try lra.
  - apply Nat.eqb_eq in D. split; [lia|]. intros k K. pose proof (sps_pos (s k)). lra.
  - split; [lia|]. intros k K. pose proof (sps_pos (s k)). lra.
  - split; [|lra]. assert (0 < sps (s 0%nat) / p false "mean" []) by (apply Rdiv_lt_0_compat; tauto). lra.
  - pose proof (sps_pos (s (n + k)%nat)). split; lra.
  - set (N2 := sumR n (fun k => p false "mean" [k] * p false "mean" [k])) in *.
    assert (X : exists k, (k < n)%nat /\ p false "mean" [k] <> 0).
    { clear -H. destruct H as [H _]. unfold N2 in H. clear N2. induction n as [|m IH]; [cbn in H; lra|]. rewrite sumR_S in H. destruct (Req_dec (p false "mean" [m]) 0) as [Z|Z]; [|exists m; split; [lia|exact Z]].
      destruct IH as (k & K & Q); [rewrite Z in H; lra|]. exists k. split; [lia|exact Q]. }
    destruct X as (k & K & X). exists k. split; [exact K|]. apply Rmult_integral_contrapositive_currified; [exact X|]. apply Rgt_not_eq. apply Rdiv_lt_0_compat; [apply sps_pos|]. apply sqrt_lt_R0. tauto.
Qed.

Lemma s2n_at b i e f n p sp s : inb b i = true -> e2n f = true -> at_pt b i e (EP f) n p -> exp_dom f n p -> shp sp = (b ++ [search_dim f n])%list ->
  (forall k, (k < search_dim f n)%nat -> tget sp (i ++ [k])%list = Fin (s k)) ->
  exists q, search_to_natural e f sp = Ok q /\ at_pt b i q (NP f) n (snR n p s f).
Proof.
  intros Hi E A H Sp Sv. pose proof A as [C W S D V]. assert (J : is_joint (dcls e) = false) by now rewrite C. destruct (leaf_inv e W J) as [Q N]. rewrite C in Q, N.
  destruct (leaf_dims _ _ S) as (n' & D' & K). assert (n' = n) by congruence. subst n'. rewrite C in K.
  pose proof (env_cons b _ _ "search" KR [search_dim f n] sp (leaf_env _ _ _ S D) Sp) as HE. rewrite C in HE. cbn [pack] in HE.
  assert (V' : vals_eq (("search", (KR, [search_dim f n])) :: ctx_of (EP f) n) (vals_of (("search", RA sp) :: dparams e) i) (pvals (ps p s))).
  { intros m k t j X Hj. unfold vals_of. cbn [dget] in X |- *. destruct (keq m "search") as [->|Nm].
    - injection X as <- <-. cbn [get_kind pvals]. destruct (inb1 _ _ Hj) as (k & -> & Hk). etransitivity; [exact (Sv k Hk)|reflexivity].
    - specialize (V m k t j X Hj). unfold vals_of in V. rewrite V. unfold pvals, ps. destruct k; (destruct (String.eqb_spec m "search"); [contradiction|reflexivity]). }
  destruct (make_at b _ _ _ (NP f) n i _ _ HE Hi V' (search_val f n p s E K H) eq_refl) as (q & E1 & E2 & E3 & E4 & E5 & E6 & E7).
  { intros X. apply dims_np in X. rewrite <- C in X. exact (dims_none _ _ D X). } { now rewrite dims_ok_np_ep. }
  exists q. split.
  - rewrite Q at 1. rewrite (s2n_eq f b (dmin e) (dparams e) n sp E N); [exact E1| |exact Sp]. now rewrite <- Q.
  - apply (at_pt_eq _ _ _ _ _ (point_of q i)); [now apply at_pt_self|exact E7].
Qed.
Lemma xsub_zero a v : xsub a (Fin v) = Fin 0 -> a = Fin v.
Proof. destruct a; cbn; try discriminate. intros H. injection H as H. f_equal. lra. Qed.

Definition default_search (f : family) : bool := match f with Beta | Dirichlet | Logarithmic | ChiSquare | GeneralizedDirichlet => true | _ => false end.
(** flattening without the map to the plane: the position of entry j of the parameter nm in the flat array *)
Definition fpos (n : nat) (nm : string) (j : list nat) : nat := if String.eqb nm "mean_log_cumulative_probability" then (n + hd 0 j)%nat else hd 0%nat j.
Lemma flat_raw f b m ps n : default_search f = true -> map fst ps = map fd_name (fields (EP f)) -> leaf_shaped b (Dist (EP f) m ps []) = true -> dims_of (Dist (EP f) m ps []) = Ok n ->
  exists F u, flatten (Dist (EP f) m ps []) false = Ok (F, u) /\ shp u = (b ++ [search_dim f n])%list /\
    forall g, In g (fields (EP f)) -> exists t, dget ps (fd_name g) = Some (RA t) /\ forall i j, inb b i = true -> inb (supp_shape (fd_support g) n) j = true ->
      (fpos n (fd_name g) j < search_dim f n)%nat /\ tget u (i ++ [fpos n (fd_name g) j])%list = tget t (i ++ j)%list.
Proof.
  intros E N S D. pose proof (leaf_env _ _ _ S D) as HE. cbn [dcls dparams] in HE. destruct f; try discriminate E; cbn in N.
  all: try (destruct (names_inv1 ps _ N) as (v & ->);
    match type of N with _ = [?nm] => destruct (HE nm KR _ eq_refl) as (u & U1 & U2); cbn in U1; injection U1 as ->; cbn in U2 end;
    unfold flatten, create; cbn [walk is_joint dcls]; unfold make_flat; cbn -[dims_of tnewaxis]; unfold make_info; rewrite D; cbn [bind]; do 2 eexists; split; [reflexivity|]; split;
    [first [exact U2 | cbn [tnewaxis shp tbuild]; rewrite U2, app_nil_r; reflexivity]|];
    intros g [<-|[]]; exists u; split; [reflexivity|]; intros i j Hi Hj; cbn [fd_name var fd_support supp_shape] in *; cbv [fpos]; cbn [String.eqb Ascii.eqb Bool.eqb];
    first [destruct (inb1 _ _ Hj) as (k & -> & Hk); split; [exact Hk|reflexivity]
          |apply inb0 in Hj; subst j; cbn [hd]; split; [lia|]; rewrite app_nil_r; unfold tnewaxis; rewrite tget_tbuild by (apply inb_snoc_intro; [rewrite U2, app_nil_r; exact Hi|lia]); now rewrite removelast_last]).
  destruct (names_inv2 ps _ _ N) as (v & w & ->). destruct (HE "mean_log_probability" KR _ eq_refl) as (u & U1 & U2). destruct (HE "mean_log_cumulative_probability" KR _ eq_refl) as (u' & U1' & U2').
  cbn in U1, U1'. injection U1 as ->. injection U1' as ->. cbn in U2, U2'.
  unfold flatten, create; cbn [walk is_joint dcls]; unfold make_flat; cbn -[dims_of tappend]; unfold make_info; rewrite D; cbn [bind]. pose proof (tappend_ok (A := xr) b n n u u' U2 U2') as T. cbn [elt] in *. rewrite T. cbn [bind].
  do 2 eexists; split; [reflexivity|]. split; [cbn; do 2 f_equal; lia|]. intros g Hg. destruct Hg as [<-|[<-|[]]]; cbn [fd_name var fd_support supp_shape search_dim]; cbv [fpos]; cbn [String.eqb Ascii.eqb Bool.eqb].
  - exists u. split; [reflexivity|]. intros i j Hi Hj. destruct (inb1 _ _ Hj) as (k & -> & Hk). cbn [hd]. split; [lia|]. rewrite tget_tbuild by (apply inb_snoc_intro; [exact Hi|lia]). rewrite last_last. destruct (Nat.ltb_spec k n); [reflexivity|lia].
  - exists u'. split; [reflexivity|]. intros i j Hi Hj. destruct (inb1 _ _ Hj) as (k & -> & Hk). cbn [hd]. split; [lia|]. rewrite tget_tbuild by (apply inb_snoc_intro; [exact Hi|lia]). rewrite last_last, removelast_last. destruct (Nat.ltb_spec (n + k) n); [lia|].
    do 2 f_equal. f_equal. lia.
Qed.
