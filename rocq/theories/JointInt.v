(** C23, C24 and C25 on joint distributions. *)
From Coquelicot Require Import Coquelicot.
From Coq Require Import String List Bool Arith ZArith Reals Lra Lia.
From Verif Require Import Base XReal Tensor TensorFacts Support Dist Iteration Structure Tools Joint Spec StructFacts SumSpec DotSpec DotFacts DotLaws TensorFacts2 PointSpec SpecFun Expr Fam
  DictFacts MappingFacts PointFacts LeafVal DerivFacts DerivThms DensSpec DensVal DensThms ConvFacts ConvThms AssembleFacts SumFacts MapFacts JointThms JointThms2 BatchFacts LogPdfThms KlThms SampleSpec FamR IntSpec IntFacts IntFam IntThms JointIntSpec.
Import ListNotations.
Local Unset Asymmetric Patterns.
Local Open Scope string_scope.
Local Open Scope R_scope.

(** ** the iterated integral of a product of densities times a sum of functions of single leaves *)
Definition leafspace := (path * (family * nat))%type.
Definition prodP (P : path -> obs -> R) (ls : list leafspace) (xv : jobs) : R := fold_right Rmult 1 (map (fun l => P (fst l) (xv (fst l))) ls).
Definition sumG (g : path -> obs -> R) (ls : list leafspace) (xv : jobs) : R := rsum (map (fun l => g (fst l) (xv (fst l))) ls).
Lemma assign_same w p x : assign w p x p = x.
Proof. unfold assign. destruct (list_eq_dec string_dec p p); [reflexivity|contradiction]. Qed.
Lemma assign_other w p x p' : p' <> p -> assign w p x p' = w p'.
Proof. unfold assign. intros N. destruct (list_eq_dec string_dec p' p); [contradiction|reflexivity]. Qed.
Lemma ji_main P g m : forall ls, NoDup (map fst ls) ->
  (forall p f n, In (p, (f, n)) ls -> integral_over f n (P p) 1 /\ integral_over f n (fun x => P p x * g p x) (m p)) ->
  forall F w c a, (forall xv, (forall p, ~ In p (map fst ls) -> xv p = w p) -> (forall p f n, In (p, (f, n)) ls -> point_ok f n (xv p)) ->
    F xv = c * prodP P ls xv * (a + sumG g ls xv)) ->
  joint_integral ls w F (c * (a + rsum (map (fun l => m (fst l)) ls))).
Proof.
  induction ls as [|[p [f n]] ls IH]; intros Nd H F w c a E.
  - cbn [joint_integral map]. rewrite E; [|intros; reflexivity|intros ? ? ? []]. unfold prodP, sumG. cbn. ring.
  - cbn [map fst] in Nd. inversion Nd; subst. destruct (H p f n (or_introl eq_refl)) as [H1 H4]. cbn [joint_integral].
    exists (fun x => (c * P p x) * ((a + g p x) + rsum (map (fun l => m (fst l)) ls))). split.
    + intros x X. apply IH; [assumption|intros; apply H; now right|]. intros xv A B. rewrite E.
      * unfold prodP, sumG. cbn [map fold_right fst rsum]. assert (Ex : xv p = x) by (rewrite A by assumption; apply assign_same). rewrite Ex. ring.
      * intros p' N'. cbn [map fst] in N'. rewrite A by (intros I; apply N'; now right). apply assign_other. intros ->. apply N'. now left.
      * intros p' f' n' [I|I]; [|now apply B]. injection I as <- <- <-. rewrite A by assumption. now rewrite assign_same.
    + set (s := rsum (map (fun l => m (fst l)) ls)).
      eapply integral_to; [|eapply integral_ext; [|exact (integral_plus f n _ _ _ _ (integral_scal f n _ _ (c * (a + s)) H1) (integral_scal f n _ _ c H4))]].
      * cbn [map fst rsum]. fold s. ring.
      * intros x _. cbv beta. ring.
Qed.

(** ** joint observations *)
Lemma build_obs d : forall (A : path -> dist -> arr -> Prop), well_formed d = true ->
  (forall p l, dist_at d p = Some l -> is_joint (dcls l) = false -> exists a, A p l a) ->
  exists x, obs_matches d x /\ forall p l, dist_at d p = Some l -> is_joint (dcls l) = false -> exists a, nested_get x p = Some a /\ A p l a.
Proof.
  induction d as [c m ps subs IH] using dist_rect'. intros A W H. pose proof (wf_inv _ _ _ _ W) as (_ & Hj & Hs & Hsub). destruct (is_joint c) eqn:J.
  - destruct (Hj eq_refl) as [_ Nd]. clear Hj Hs W.
    assert (K : exists kvs : list (string * nested arr), map fst kvs = map fst subs /\ Forall2 (fun (ns : string * dist) (ky : string * nested arr) => obs_matches (snd ns) (snd ky) /\
      forall p l, dist_at (snd ns) p = Some l -> is_joint (dcls l) = false -> exists a, nested_get (snd ky) p = Some a /\ A (fst ns :: p) l a) subs kvs).
    { assert (H' : forall n s, In (n, s) subs -> forall p l, dist_at s p = Some l -> is_joint (dcls l) = false -> exists a, A (n :: p) l a).
      { intros n s I p l D Jl. apply (H (n :: p) l); [|exact Jl]. cbn [dist_at sub_distributions]. rewrite (In_dget subs n s Nd I). exact D. }
      clear H J Nd. induction subs as [|[n s] subs IHs]; [exists []; split; [reflexivity|constructor]|]. inversion IH; subst. inversion Hsub; subst. cbn [snd] in *.
      destruct (IHs H2 H4) as (kvs & K1 & K2). { intros n' s' I. apply H'. now right. }
      destruct (H1 (fun p => A (n :: p)) H3) as (x & X1 & X2). { intros p l. apply (H' n s). now left. }
      exists ((n, x) :: kvs). split; [cbn; now rewrite K1|]. constructor; [|exact K2]. split; assumption. }
    destruct K as (kvs & K1 & K2).
    assert (G : forall n s, In (n, s) subs -> exists y, dget kvs n = Some y /\ obs_matches s y /\ forall p l, dist_at s p = Some l -> is_joint (dcls l) = false -> exists a, nested_get y p = Some a /\ A (n :: p) l a).
    { intros n s I. assert (Nk : NoDup (map fst kvs)) by now rewrite K1. assert (Q : exists y, In (n, y) kvs /\ obs_matches s y /\ forall p l, dist_at s p = Some l -> is_joint (dcls l) = false -> exists a, nested_get y p = Some a /\ A (n :: p) l a).
      { clear -K1 K2 I. induction K2 as [|[n1 s1] [k1 y1] subs kvs R1 R2 IHK]; [destruct I|]. cbn [map fst] in K1. injection K1 as -> K1. destruct I as [I|I].
        - injection I as -> ->. exists y1. split; [now left|exact R1].
        - destruct (IHK K1 I) as (y & Y1 & Y2). exists y. split; [now right|exact Y2]. }
      destruct Q as (y & Q1 & Q2). exists y. split; [now apply In_dget|exact Q2]. }
    exists (Node kvs). split.
    + cbn [obs_matches]. rewrite J. split; [now rewrite K1|]. split; [intros n; now rewrite K1|]. clear -G. induction subs as [|[n s] subs IHs]; [exact Logic.I|].
      split; [destruct (G n s (or_introl eq_refl)) as (y & -> & Y & _); exact Y|]. apply IHs. intros n' s' I. apply G. now right.
    + intros p l D Jl. destruct p as [|n p]; [cbn in D; injection D as <-; cbn [dcls] in Jl; congruence|]. cbn [dist_at sub_distributions] in D. destruct (dget subs n) as [s|] eqn:E; [|discriminate].
      apply dget_In in E. destruct (G n s E) as (y & Y1 & _ & Y3). rewrite nested_get_node, Y1. now apply Y3.
  - destruct (H [] (Dist c m ps subs) eq_refl J) as (a & Ha). exists (Leaf a). split; [cbn [obs_matches]; rewrite J; exact Logic.I|]. rewrite (Hs eq_refl) in *.
    intros p l D Jl. destruct p as [|n p]; [|cbn in D; discriminate]. cbn in D. injection D as <-. exists a. split; [reflexivity|exact Ha].
Qed.

(** ** the leaves of a proper tree *)
Lemma rsum_zero {A} (h : A -> R) l : (forall a, In a l -> h a = 0) -> rsum (map h l) = 0.
Proof. intros H. induction l as [|a l IH]; [reflexivity|]. cbn [map]. change (h a + rsum (map h l) = 0). rewrite (H a (or_introl eq_refl)), IH; [ring|]. intros x I. apply H. now right. Qed.
Definition fam_dim (l : dist) : family * nat := match dcls l, dims_of l with NP f, Ok n => (f, n) | _, _ => (Poisson, 0%nat) end.
Section T.
  Variable solve : minimizer -> dist -> nat -> xr.
  Let L := fam_methods solve.
  Variables (b i : list nat) (q : dist).
  Hypothesis JP : joint_proper b i q.
  Let W : well_formed q = true. Proof. now destruct JP. Qed.
  Let N : nat_tree q = true. Proof. now destruct JP as (_ & ? & _). Qed.
  Let S : shaped b q = true. Proof. now destruct JP as (_ & _ & ? & _). Qed.
  Let Hi : inb b i = true. Proof. now destruct JP as (_ & _ & _ & ? & _). Qed.
  Lemma leaf_proper p l : In (p, l) (leaves [] q) -> exists f n, fam_dim l = (f, n) /\ dcls l = NP f /\ dims_of l = Ok n /\ proper b i f l.
  Proof.
    intros I. destruct (nat_leaf q [] p l W N I) as [f Hf]. destruct (leaf_wf q [] p l W I) as [Wl _]. destruct JP as (_ & _ & _ & _ & D). pose proof (D p l I) as Dl. pose proof Dl as (n & Dn & _).
    exists f, n. split; [unfold fam_dim; now rewrite Hf, Dn|]. split; [exact Hf|]. split; [exact Dn|]. split; [exact Hf|]. split; [exact Wl|]. split; [exact (shaped_in b q p l S I)|]. split; [exact Hi|exact Dl].
  Qed.
  Lemma spaces_map : spaces q = map (fun pl => (fst pl, fam_dim (snd pl))) (leaves [] q).
  Proof.
    unfold spaces. assert (H : forall pl, In pl (leaves [] q) -> exists f n, fam_dim (snd pl) = (f, n) /\ dcls (snd pl) = NP f /\ dims_of (snd pl) = Ok n).
    { intros [p l] I. destruct (leaf_proper p l I) as (f & n & H1 & H2 & H3 & _). eauto. }
    induction (leaves [] q) as [|pl ls IH]; [reflexivity|]. cbn [flat_map map]. destruct (H pl (or_introl eq_refl)) as (f & n & H1 & H2 & H3). rewrite H2, H3, H1. cbn [app]. f_equal. apply IH. intros x I. apply H. now right.
  Qed.
  Lemma spaces_paths : map fst (spaces q) = map fst (leaves [] q). Proof. rewrite spaces_map, map_map. reflexivity. Qed.
  Lemma spaces_nodup : NoDup (map fst (spaces q)). Proof. rewrite spaces_paths. now apply nodup_leaves. Qed.
  Lemma in_spaces p f n : In (p, (f, n)) (spaces q) -> exists l, In (p, l) (leaves [] q) /\ leafat q p = l /\ dims_of l = Ok n /\ proper b i f l.
  Proof.
    rewrite spaces_map. intros I. apply in_map_iff in I as ([p' l] & E & I). cbn [fst snd] in E. destruct (leaf_proper p' l I) as (f' & n' & H1 & H2 & H3 & H4). rewrite H1 in E. injection E as -> -> ->.
    exists l. split; [exact I|]. split; [|split; assumption]. apply (leaf_in q p l W) in I as [Hd _]. unfold leafat. now rewrite Hd.
  Qed.
  Lemma leaf_space p l : In (p, l) (leaves [] q) -> exists f n, In (p, (f, n)) (spaces q) /\ leafat q p = l /\ dcls l = NP f /\ dims_of l = Ok n /\ proper b i f l.
  Proof.
    intros I. destruct (leaf_proper p l I) as (f & n & H1 & H2 & H3 & H4). exists f, n. split; [rewrite spaces_map; apply in_map_iff; exists (p, l); cbn [fst snd]; now rewrite H1|].
    split; [|now auto]. apply (leaf_in q p l W) in I as [Hd _]. unfold leafat. now rewrite Hd.
  Qed.
  (** the log-density of a leaf *)
  Definition lpl (p : path) (x : obs) : R := let l := leafat q p in lpR (snd (fam_dim l)) (point_of l i) x (fst (fam_dim l)).
  Definition densl (p : path) (x : obs) : R := exp (lpl p x).
  Lemma lpl_at p f n l : In (p, (f, n)) (spaces q) -> leafat q p = l -> forall x, lpl p x = lpR n (point_of l i) x f.
  Proof. intros I E x. destruct (in_spaces p f n I) as (l' & I' & E' & D' & Pl). subst l' l. unfold lpl, fam_dim. destruct Pl as (C & _). now rewrite C, D'. Qed.
  Definition good_point (xv : jobs) : Prop := forall p f n, In (p, (f, n)) (spaces q) -> point_ok f n (xv p).
  Lemma observe_all xv : good_point xv -> exists x, joint_observed b i q x xv.
  Proof.
    intros G. destruct (build_obs q (fun p l a => observed b i l a (xv p)) W) as (x & X1 & X2).
    - intros p l D J. assert (I : In (p, l) (leaves [] q)) by (apply (leaf_in q p l W); auto). destruct (leaf_space p l I) as (f & n & H1 & _ & H3 & H4 & H5).
      destruct (observe b i f l n (xv p) H5 H4 (proj2 (G p f n H1))) as (a & A). eauto.
    - exists x. split; [exact X1|]. intros p l I. apply (leaf_in q p l W) in I as [Hd J]. now apply X2.
  Qed.
  Lemma good_space xv : good_point xv -> joint_space q xv. Proof. intros G p f n I. exact (proj1 (G p f n I)). Qed.
  Lemma joint_shaped x xv : joint_observed b i q x xv -> obs_shaped b q x.
  Proof. intros [_ H] p l a I E. destruct (H p l I) as (a' & E' & O). assert (a' = a) by congruence. subst a'. exact (proj1 O). Qed.
  Lemma sum_leaves g xv : sumG g (spaces q) xv = rsum (map (fun pl => g (fst pl) (xv (fst pl))) (leaves [] q)).
  Proof. unfold sumG. rewrite spaces_map, map_map. reflexivity. Qed.
  Lemma joint_lp x xv : joint_observed b i q x xv -> joint_space q xv -> exists t, log_pdf L q x = Ok t /\ shp t = b /\ tget t i = Fin (sumG lpl (spaces q) xv).
  Proof.
    intros O X. destruct (log_pdf_sum L (fam_good solve) b q x W N S (proj1 O) (joint_shaped x xv O)) as [_ (t & T1 & T2 & T3)]. exists t. split; [exact T1|]. split; [exact T2|].
    rewrite (T3 i Hi), sum_leaves. apply xsum_ext_Fin. intros [p l] I. cbn [fst]. destruct (leaf_space p l I) as (f & n & H1 & H2 & H3 & H4 & H5). rewrite (lpl_at p f n l H1 H2).
    destruct O as [_ O]. destruct (O p l I) as (a & A1 & A2). unfold obs_at. cbn [fst snd]. rewrite A1. destruct (log_density_at solve b i f l n a (xv p) H5 H4 A2 (X p f n H1)) as (t' & U1 & _ & U3).
    fold L in U1. rewrite U1. exact U3.
  Qed.
  Lemma prod_exp xv : forall ls, exp (sumG lpl ls xv) = prodP densl ls xv.
  Proof. induction ls as [|l ls IH]; [apply exp_0|]. unfold sumG, prodP in *. cbn [map rsum fold_right]. rewrite exp_plus. unfold densl at 1. now rewrite IH. Qed.
  Lemma joint_p : joint_pdf_is L b i q (prodP densl (spaces q)).
  Proof.
    intros x xv O X. destruct (joint_lp x xv O X) as (t & T1 & T2 & T3). exists (tmap xexp t). unfold pdf. rewrite T1. cbn [rmap bind]. split; [reflexivity|]. split; [exact T2|].
    rewrite tget_tmap by (rewrite T2; exact Hi). rewrite T3. cbn. now rewrite prod_exp.
  Qed.
  Lemma joint_p_val P : joint_pdf_is L b i q P -> forall xv, good_point xv -> P xv = prodP densl (spaces q) xv.
  Proof.
    intros HP xv G. destruct (observe_all xv G) as (x & O). destruct (HP x xv O (good_space xv G)) as (t & T1 & _ & T3). destruct (joint_p x xv O (good_space xv G)) as (t' & T1' & _ & T3').
    rewrite T1 in T1'. injection T1' as <-. congruence.
  Qed.
  Lemma densl_norm p f n : In (p, (f, n)) (spaces q) -> integral_over f n (densl p) 1.
  Proof.
    intros I. destruct (in_spaces p f n I) as (l & I' & E & D & Pl). destruct (normalised solve b i f l n Pl D) as [_ K].
    eapply integral_ext; [|apply K; apply pdf_dens; eassumption]. intros x _. unfold densl. now rewrite (lpl_at p f n l I E).
  Qed.
  (** ** C23 *)
  Theorem joint_normalised : (exists P, joint_pdf_is L b i q P) /\ forall P, joint_pdf_is L b i q P -> integral_joint q P 1.
  Proof.
    split; [eexists; exact joint_p|]. intros P HP. unfold integral_joint.
    assert (E : 1 = 1 * (1 + rsum (map (fun l : leafspace => 0) (spaces q)))) by (rewrite rsum_zero by reflexivity; ring).
    rewrite E. apply (ji_main densl (fun _ _ => 0) (fun _ => 0)); [exact spaces_nodup| |].
    - intros p f n I. pose proof (densl_norm p f n I) as K. split; [exact K|]. eapply integral_to; [|eapply integral_ext; [|exact (integral_scal f n _ _ 0 K)]]; [ring|]. intros x _. cbv beta. ring.
    - intros xv _ G. rewrite (joint_p_val P HP xv G). assert (Z : sumG (fun _ _ => 0) (spaces q) xv = 0) by (now apply rsum_zero). rewrite Z. ring.
  Qed.
  Lemma F2_in_l {A B} (P : A -> B -> Prop) l m a : Forall2 P l m -> In a l -> exists b, In b m /\ P a b.
  Proof. induction 1 as [|x y l m H F IH]; [intros []|]. intros [<-|I]; [exists y; split; [now left|exact H]|]. destruct (IH I) as (z & Z1 & Z2). exists z. split; [now right|exact Z2]. Qed.
  (** ** expected values of functions of one leaf, and of sums of such *)
  Lemma joint_expected P g m : joint_pdf_is L b i q P -> (forall p f n, In (p, (f, n)) (spaces q) -> integral_over f n (fun x => densl p x * g p x) (m p)) ->
    forall T, (forall xv, good_point xv -> T xv = sumG g (spaces q) xv) -> integral_joint q (fun xv => P xv * T xv) (rsum (map (fun l => m (fst l)) (spaces q))).
  Proof.
    intros HP Hm T HT. unfold integral_joint. assert (E : forall s, s = 1 * (0 + s)) by (intros; ring). rewrite (E (rsum _)).
    apply (ji_main densl g m); [exact spaces_nodup| |].
    - intros p f n I. split; [now apply densl_norm|now apply Hm].
    - intros xv _ G. rewrite (joint_p_val P HP xv G), (HT xv G). ring.
  Qed.
  Definition only (p : path) (h : obs -> R) (p' : path) (x : obs) : R := if list_eq_dec string_dec p' p then h x else 0.
  Lemma joint_expected_leaf P p f n h v : joint_pdf_is L b i q P -> In (p, (f, n)) (spaces q) -> integral_over f n (fun x => densl p x * h x) v ->
    forall T, (forall xv, good_point xv -> T xv = h (xv p)) -> integral_joint q (fun xv => P xv * T xv) v.
  Proof.
    intros HP I H T HT. set (m := fun p' => if list_eq_dec string_dec p' p then v else 0).
    assert (Ep : In p (map fst (spaces q))) by (apply in_map_iff; exists (p, (f, n)); auto).
    assert (K : forall k : path -> R, (forall p', p' <> p -> k p' = 0) -> rsum (map (fun l => k (fst l)) (spaces q)) = k p).
    { intros k Hk. rewrite <- (map_map fst k). apply rsum_pick; [exact spaces_nodup|exact Ep|]. intros x _ Nx. now apply Hk. }
    assert (E : v = rsum (map (fun l : leafspace => m (fst l)) (spaces q))).
    { transitivity (m p); [|symmetry; apply (K m)]. - unfold m. destruct (list_eq_dec string_dec p p); [reflexivity|contradiction]. - intros p' N'. unfold m. destruct (list_eq_dec string_dec p' p); [contradiction|reflexivity]. }
    rewrite E. apply (joint_expected P (only p h) m HP).
    - intros p' f' n' I'. unfold only, m. destruct (list_eq_dec string_dec p' p) as [->|Np].
      + assert (E' : (f', n') = (f, n)). { destruct (in_spaces p f n I) as (l & _ & L1 & L2 & L3). destruct (in_spaces p f' n' I') as (l' & _ & L1' & L2' & L3'). subst l l'. destruct L3 as (C & _), L3' as (C' & _). congruence. }
        injection E' as -> ->. exact H.
      + eapply integral_to; [|eapply integral_ext; [|exact (integral_scal f' n' _ _ 0 (densl_norm p' f' n' I'))]]; [ring|]. intros x _. cbv beta. ring.
    - intros xv G. rewrite (HT xv G). transitivity (only p h p (xv p)); [|symmetry; apply (K (fun p' => only p h p' (xv p')))].
      + unfold only. destruct (list_eq_dec string_dec p p); [reflexivity|contradiction].
      + intros p' N'. unfold only. destruct (list_eq_dec string_dec p' p); [contradiction|reflexivity].
  Qed.
  (** ** C25 *)
  Lemma joint_stat p l f n g c j : In (p, l) (leaves [] q) -> dcls l = NP f -> dims_of l = Ok n -> In g (fields (EP f)) -> inb (supp_shape (fd_support g) n) j = true ->
    joint_statistic_is L b i q p c (fd_name g) j (fun xv => entry_val g c (ssR n (point_of l i) (xv p) f) j).
  Proof.
    intros I C D Ig Ij x xv O X. destruct (leaf_space p l I) as (f' & n' & H1 & H2 & H3 & H4 & H5). assert (f' = f) by congruence. assert (n' = n) by congruence. subst f' n'.
    destruct (mle_tree L (fam_good solve) b q x W N S (proj1 O) (joint_shaped x xv O)) as (est & tx & T1 & T2 & T3 & T4 & T5 & T6). pose proof O as [_ Ol]. destruct (Ol p l I) as (a & A1 & A2).
    pose proof (T6 p l f a I C A1) as T7. destruct (proper_dims b i f l H5) as (n' & D1 & Fl & D3 & D4 & _). assert (n' = n) by congruence. subst n'.
    pose proof H5 as (_ & Wl & Sl & _ & _). assert (A : at_pt b i l (NP f) n (point_of l i)) by now apply at_pt_self. destruct (ss_at solve b i l f n _ a (xv p) Hi A D3 A2 (X p f n H1)) as (s & S1 & S2).
    unfold L in T7. rewrite S1 in T7. injection T7 as ->. exists est, tx, (leafat tx p). split; [exact T1|]. split; [exact T2|]. split; [|now apply (value_pt b i (leafat tx p) f n)].
    destruct (tm_leaf b q tx p l W T3 T5 I) as [_ K]. exact (proj1 (proj1 (leaf_in tx p _ T3) K)).
  Qed.
  Theorem joint_mean : not_clipped q i -> exists e, to_exp L q = Ok e /\
    forall p l f n P g c j, In (p, l) (leaves [] q) -> dcls l = NP f -> dims_of l = Ok n -> joint_pdf_is L b i q P -> In g (fields (EP f)) -> inb (supp_shape (fd_support g) n) j = true ->
      (exists T, joint_statistic_is L b i q p c (fd_name g) j T) /\
      forall T, joint_statistic_is L b i q p c (fd_name g) j T -> exists le v, dist_at e p = Some le /\ value_at le i c (fd_name g) j v /\ integral_joint q (fun xv => P xv * T xv) v.
  Proof.
    intros U. destruct (g_exp_tree L (fam_good solve) b q W N S) as (e & E1 & E2 & E3 & _ & E5 & E6). exists e. split; [exact E1|]. intros p l f n P g c j I C D HP Ig Ij.
    pose proof (joint_stat p l f n g c j I C D Ig Ij) as JS. split; [eexists; exact JS|]. intros T HT.
    destruct (leaf_space p l I) as (f' & n' & H1 & H2 & H3 & H4 & H5). assert (f' = f) by congruence. assert (n' = n) by congruence. subst f' n'.
    destruct (F2_in_l _ _ _ _ E6 I) as ([p' le] & Ie & K1 & K2). cbn [fst snd] in K1, K2. subst p'.
    pose proof H5 as (_ & Wl & Sl & _ & _). destruct (proper_dims b i f l H5) as (n' & D1 & Fl & D3 & D4 & _). assert (n' = n) by congruence. subst n'.
    assert (A : at_pt b i l (NP f) n (point_of l i)) by now apply at_pt_self. destruct (exp_at solve b i l f n _ Hi A D3 (clip_leaf q i p l f U I C)) as (r & R1 & R2).
    unfold L in K2. rewrite R1 in K2. injection K2 as ->. exists le, (entry_val g c (expR n (point_of l i) f) j). split; [exact (proj1 (proj1 (leaf_in e p le E2) Ie))|]. split; [now apply (value_pt b i le f n)|].
    apply (joint_expected_leaf P p f n (fun x => entry_val g c (ssR n (point_of l i) x f) j) _ HP H1).
    - destruct (stat_mean solve b i f l n H5 D (dens f n (point_of l i)) g c j (pdf_dens solve b i f l n H5 D) Ig Ij) as [_ K].
      eapply integral_ext; [|apply (K (fun x => entry_val g c (ssR n (point_of l i) x f) j))]; [intros x _; cbv beta; unfold dens, densl; now rewrite (lpl_at p f n l H1 H2)|].
      intros x xv O X. destruct (mle_at solve b i f l n x xv H5 D O X) as (est & s & S1 & S2 & S3). exists est, s. split; [exact S1|]. split; [exact S2|]. now apply (value_pt b i s f n).
    - intros xv G. destruct (observe_all xv G) as (x & O). destruct (HT x xv O (good_space xv G)) as (est & s & ls & X1 & X2 & X3 & X4). destruct (JS x xv O (good_space xv G)) as (est' & s' & ls' & Y1 & Y2 & Y3 & Y4).
      assert (est' = est) by congruence. subst est'. assert (s' = s) by congruence. subst s'. assert (ls' = ls) by congruence. subst ls'. exact (value_fun _ _ _ _ _ _ _ X4 Y4).
  Qed.
  (** ** C24 *)
  Lemma joint_log_pdf_val lp : joint_log_pdf_is L b i q lp -> forall xv, good_point xv -> lp xv = sumG lpl (spaces q) xv.
  Proof. intros H xv G. destruct (observe_all xv G) as (x & O). destruct (H x xv O (good_space xv G)) as (t & T1 & _ & T3). destruct (joint_lp x xv O (good_space xv G)) as (t' & T1' & _ & T3'). congruence. Qed.
  Definition toReal (x : xr) : R := match x with Fin r => r | _ => 0 end.
  Lemma sumG_neg g ls xv : - sumG g ls xv = sumG (fun p x => - g p x) ls xv.
  Proof. unfold sumG. induction ls as [|l ls IH]; cbn [map]; [apply Ropp_0|]. change (- (g (fst l) (xv (fst l)) + rsum (map (fun l => g (fst l) (xv (fst l))) ls)) = - g (fst l) (xv (fst l)) + rsum (map (fun l => - g (fst l) (xv (fst l))) ls)). rewrite <- IH. ring. Qed.
  Theorem joint_entropy : (forall p l f, In (p, l) (leaves [] q) -> dcls l = NP f -> has_entropy_ep (EP f) = true) ->
    (forall p l f, In (p, l) (leaves [] q) -> dcls l = NP f -> carrier_by_search f = true -> recovered L b i l) ->
    exists t h, entropy_nat L q = Ok t /\ shp t = b /\ tget t i = Fin h /\ (exists lp, joint_log_pdf_is L b i q lp) /\
      forall P lp, joint_pdf_is L b i q P -> joint_log_pdf_is L b i q lp -> integral_joint q (fun xv => P xv * - lp xv) h.
  Proof.
    intros He Hr. destruct (entropy_nat_sum L (fam_good solve) b q W N S He) as [_ (t & T1 & T2 & T3)]. set (m := fun p => toReal (entry (entropy_nat L (leafat q p)) i)).
    assert (Hm : forall p f n, In (p, (f, n)) (spaces q) -> entry (entropy_nat L (leafat q p)) i = Fin (m p) /\ integral_over f n (fun x => densl p x * - lpl p x) (m p)).
    { intros p f n I. destruct (in_spaces p f n I) as (l & I' & E & D & Pl). pose proof (proj1 Pl) as C. destruct (entropies solve b i f l n Pl D (He p l f I' C) (Hr p l f I' C)) as (e & u & u' & h & h' & _ & U1 & _ & U3 & _ & _ & _ & _ & _ & K).
      unfold m. rewrite E. fold L in U1. rewrite U1. cbn [entry]. rewrite U3. cbn [toReal]. split; [reflexivity|]. destruct (K (dens f n (point_of l i)) (pdf_dens solve b i f l n Pl D)) as [K1 _].
      eapply integral_ext; [|apply (K1 (fun x => lpR n (point_of l i) x f))]; [intros x _; cbv beta; unfold dens, densl; now rewrite (lpl_at p f n l I E)|]. intros x xv O X. now apply (log_density_at solve). }
    exists t, (rsum (map (fun l : leafspace => m (fst l)) (spaces q))). split; [exact T1|]. split; [exact T2|]. split.
    { rewrite (T3 i Hi). rewrite spaces_map, map_map. apply xsum_ext_Fin. intros [p l] I. cbn [fst snd]. destruct (leaf_space p l I) as (f & n & H1 & H2 & _). rewrite <- (proj1 (Hm p f n H1)). now rewrite H2. }
    split; [eexists; exact joint_lp|]. intros P lp HP Hl. apply (joint_expected P (fun p x => - lpl p x) m HP); [intros p f n I; exact (proj2 (Hm p f n I))|].
    intros xv G. rewrite (joint_log_pdf_val lp Hl xv G). apply sumG_neg.
  Qed.
End T.
