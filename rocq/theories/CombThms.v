(** Proofs for C65. *)
From Coquelicot Require Import Coquelicot.
From Coq Require Import String List Bool Arith Reals Lia Lra.
From Verif Require Import Base XReal Tensor TensorFacts TensorFacts2 Support Dist DictFacts Iteration Structure Spec StructFacts AssembleFacts SumSpec DotSpec Tools
  ToolThms Joint StructThms FlattenThms MapFacts SumFacts JointThms JointThms2 SpecFun GammaFn Expr Fam ExprFacts FamTy FamFacts SearchFacts DotFacts Laws DotLaws BatchFacts PointSpec PointFacts DetFacts MatFacts Val FamR FamVal ConvFacts DerivFacts MatDeriv Val FamR FamVal ConvFacts LeafVal ConvThms DerivFacts MatDeriv MatHess MatBreg DerivThms
  BregFacts BregThms KlSpec KlPos DensSpec DensVal DensThms IntSpec IntFam IntGen IntThms MleThms JointKl ConjThms Combine CombSpec.
Import ListNotations.
Local Unset Asymmetric Patterns.
Local Open Scope string_scope.
Local Open Scope R_scope.

(** u is x + h y, entry by entry *)
Definition lin (h : R) (x y u : arr) : Prop :=
  (exists a d t, x = RA a /\ y = RA d /\ u = RA t /\ forall ix r s, inb (shp a) ix = true -> tget a ix = Fin r -> tget d ix = Fin s -> tget t ix = Fin (r + h * s)) \/
  (exists a d t, x = CA a /\ y = CA d /\ u = CA t /\ forall ix r r' s s', inb (shp a) ix = true -> tget a ix = XC (Fin r) (Fin r') -> tget d ix = XC (Fin s) (Fin s') -> tget t ix = XC (Fin (r + h * s)) (Fin (r' + h * s'))).
Lemma add_like v w : like v w -> exists u, add_op [v; w] = Ok u /\ like v u /\ lin 1 v w u.
Proof.
  intros [Hs Hk]. cbn. destruct v as [t|t], w as [u|u]; try easy; cbn [arr_add ashape as_complex] in *.
  - rewrite tmap2_same by congruence. cbn. eexists. split; [reflexivity|]. split; [split; [reflexivity|exact Logic.I]|]. left. do 3 eexists. repeat (split; [reflexivity|]).
    intros ix r s Hx A B. etransitivity; [apply tget_tbuild; exact Hx|]. cbv beta. rewrite A, B. cbn. f_equal. ring.
  - rewrite tmap2_same by congruence. cbn. eexists. split; [reflexivity|]. split; [split; [reflexivity|exact Logic.I]|]. right. do 3 eexists. repeat (split; [reflexivity|]).
    intros ix r r' s s' Hx A B. etransitivity; [apply tget_tbuild; exact Hx|]. cbv beta. rewrite A, B. unfold cadd. cbn. f_equal; f_equal; ring.
Qed.
Lemma scale_like c v : exists u, scale_op c [v] = Ok u /\ like v u /\ lin (c - 1) v v u.
Proof.
  destruct v as [t|t]; cbn [scale_op]; eexists; (split; [reflexivity|]); (split; [split; [reflexivity|exact Logic.I]|]); [left|right]; do 3 eexists; repeat (split; [reflexivity|]).
  - intros ix r s Hx A B. rewrite tget_tmap by exact Hx. rewrite A. assert (s = r) by congruence. subst. cbn. f_equal. ring.
  - intros ix r r' s s' Hx A B. rewrite tget_tmap by exact Hx. rewrite A. assert (s = r) by congruence. assert (s' = r') by congruence. subst. unfold cscale. cbn. f_equal; f_equal; ring.
Qed.
Lemma line_at h b i q v r c n pq pv : inb b i = true -> at_pt b i q c n pq -> at_pt b i v c n pv ->
  dcls r = c -> well_formed r = true -> leaf_shaped b r = true -> dims_of r = Ok n ->
  (forall f x y, In f (fields c) -> dget (dparams q) (fd_name f) = Some x -> dget (dparams v) (fd_name f) = Some y ->
     if fd_fixed f then dget (dparams r) (fd_name f) = Some x else exists u, lin h x y u /\ dget (dparams r) (fd_name f) = Some u) ->
  at_pt b i r c n (padd c pq pv h).
Proof.
  intros Hi A B C W S D X. split; try assumption. intros m k sh j E Hj. destruct (ctx_field _ _ _ _ _ E) as (f & I & <- & -> & ->).
  destruct (ap_get _ _ _ _ _ _ f A I) as (x & X1 & X2 & X3). destruct (ap_get _ _ _ _ _ _ f B I) as (y & Y1 & Y2 & Y3).
  assert (Hij : inb (b ++ supp_shape (fd_support f) n) (i ++ j) = true) by (rewrite inb_app by (now apply inb_length); now rewrite Hi, Hj).
  pose proof (fixed_names c f I) as N. specialize (X f x y I X1 Y1). pose proof (ap_vals _ _ _ _ _ _ A _ _ _ j E Hj) as Q. pose proof (ap_vals _ _ _ _ _ _ B _ _ _ j E Hj) as V. unfold vals_of in *. rewrite X1 in Q. rewrite Y1 in V.
  destruct (fd_fixed f) eqn:Ef.
  - rewrite X, Q. assert (P : forall k, padd c pq pv h k (fd_name f) j = pq k (fd_name f) j) by (intros k; unfold padd; now rewrite N).
    unfold pvals. destruct (kind_of (fd_support f)); now rewrite ?P.
  - destruct X as (u & U1 & U2). rewrite U2.
    assert (P : forall k, padd c pq pv h k (fd_name f) j = pq k (fd_name f) j + h * pv k (fd_name f) j) by (intros k; unfold padd; rewrite N; ring).
    destruct (ex_intro (fun a => x = pack (kind_of (fd_support f)) a) _ X3) as [a Ea]. destruct (ex_intro (fun a => y = pack (kind_of (fd_support f)) a) _ Y3) as [d Ed]. clear X3 Y3. subst x y.
    revert a d U1 X2 Y2 Q V X1 Y1. clear -P Hij. destruct (kind_of (fd_support f)); cbn [pack get_kind as_real as_complex ashape]; intros a d U1 X2 Y2 Q V _ _.
    + change (tensor xr) in a, d. destruct U1 as [(a' & d' & t & Ea & Ed & -> & T)|(a' & d' & t & Ea & _)]; [|discriminate Ea]. injection Ea as <-. injection Ed as <-. cbn [get_kind as_real pvals]. rewrite P.
      apply T; [now rewrite X2| |]; assumption.
    + change (tensor xc) in a, d. destruct U1 as [(a' & d' & t & Ea & _)|(a' & d' & t & Ea & Ed & -> & T)]; [discriminate Ea|]. injection Ea as <-. injection Ed as <-. cbn [get_kind as_complex pvals]. rewrite !P.
      apply T; [now rewrite X2| |]; assumption.
Qed.

(** the sum of the log-densities *)
Lemma lp_comb f n p v s h x : fix_eq (NP f) n p v -> fix_eq (NP f) n p s -> (forall e, dotP (NP f) (EP f) n s e = dotP (NP f) (EP f) n p e + h * dotP (NP f) (EP f) n v e) ->
  lpR n s x f + h * cmR n p x f + (lnR n s f - lnR n p f - h * lnR n v f) = lpR n p x f + h * lpR n v x f.
Proof.
  intros F1 F2 E. rewrite (lp_fix f n p v x F1), (lp_fix f n p s x F2), E. unfold lpR. ring.
Qed.
(** r is s p + t q, with the fixed parameters of p *)
Definition lincomb (c : cls) (s t : R) (p q r : point) : Prop := forall k nm j,
  r k nm j = if existsb (fun f => fd_fixed f && String.eqb (fd_name f) nm)%bool (fields c) then p k nm j else s * p k nm j + t * q k nm j.
Lemma cauchy2 a a' u w u' w' : a < 0 -> a' < 0 -> u * u + w * w < a * a -> u' * u' + w' * w' < a' * a' -> u * u' + w * w' < a * a'.
Proof.
  intros A A' H H'. assert (P : 0 < a * a') by nra. assert (K : (u * u' + w * w') * (u * u' + w * w') < (a * a') * (a * a')).
  { assert (Q : (u * u' + w * w') * (u * u' + w * w') <= (u * u + w * w) * (u' * u' + w' * w')) by (pose proof (Rle_0_sqr (u * w' - w * u')) as Q; unfold Rsqr in Q; nra).
    assert (0 <= u * u + w * w) by nra. assert (0 <= u' * u' + w' * w') by nra. nra. }
  destruct (Rlt_or_le (u * u' + w * w') (a * a')) as [|G]; [assumption|]. nra.
Qed.
Lemma cone f n p q r s t : closed_under_combination f = true -> 0 < s -> 0 < t -> lincomb (NP f) s t p q r -> nat_dom f n p -> nat_dom f n q -> nat_dom f n r.
Proof.
  intros M Hs Ht X P Q. destruct f; try discriminate M; cbn [nat_dom] in *; try exact Logic.I; repeat (rewrite X; cbn [existsb fields fd_fixed var fixd andb orb fd_name String.eqb Ascii.eqb Bool.eqb]).
  - (* CCSN *) apply hpd_C in P, Q. change (hpdC n (ccsP p)) in P. change (hpdC n (ccsP q)) in Q.
    apply (hpd_ext' n (fun a b => fst (RtoC s * ccsP p a b + RtoC t * ccsP q a b)%C) (fun a b => snd (RtoC s * ccsP p a b + RtoC t * ccsP q a b)%C)).
    { intros a b Ha Hb. rewrite !X. cbn [existsb fields fd_fixed var fixd andb orb fd_name String.eqb Ascii.eqb Bool.eqb]. unfold ccsP. cbn. split; ring. }
    apply C_hpd. split.
    + intros a b Ha Hb. rewrite Cconj_plus, !Cconj_mult, !Cconj_R, <- (proj1 P a b Ha Hb), <- (proj1 Q a b Ha Hb). reflexivity.
    + intros z Hz. pose proof (proj2 P z Hz) as P'. pose proof (proj2 Q z Hz) as Q'.
      rewrite (csum_ext n _ (fun a => RtoC s * csum n (fun b => Cconj (z a) * ccsP p a b * z b) + RtoC t * csum n (fun b => Cconj (z a) * ccsP q a b * z b))%C).
      * rewrite csum_plus, !csum_scal. cbn [fst snd Cplus Cmult RtoC]. rewrite !Rmult_0_l, !Rminus_0_r. set (x := fst _) in *. set (y := fst _) in *. nra.
      * intros a Ha. rewrite <- !csum_scal, <- csum_plus. apply csum_ext. intros. ring.
  - (* ComplexNormal *) destruct P as [P1 P2], Q as [Q1 Q2]. split; [nra|]. pose proof (cauchy2 _ _ _ _ _ _ P1 Q1 P2 Q2) as K.
    set (a := p false "negative_precision" []) in *. set (a' := q false "negative_precision" []) in *. set (u := p false "pseudo_precision" []) in *. set (u' := q false "pseudo_precision" []) in *.
    set (w := p true "pseudo_precision" []) in *. set (w' := q true "pseudo_precision" []) in *.
    assert (0 < s * s * (a * a - (u * u + w * w))) by (apply Rmult_lt_0_compat; nra). assert (0 < t * t * (a' * a' - (u' * u' + w' * w'))) by (apply Rmult_lt_0_compat; nra).
    assert (0 < s * t * (a * a' - (u * u' + w * w'))) by (apply Rmult_lt_0_compat; nra). lra.
  - nra.
  - nra.
  - nra.
  - (* MultivariateNormal *) split.
    + intros a b Ha Hb. pose proof (proj1 P a b Ha Hb) as P1. pose proof (proj1 Q a b Ha Hb) as Q1. cbv beta in P1, Q1. rewrite !X. cbn [existsb fields fd_fixed var fixd andb orb fd_name String.eqb Ascii.eqb Bool.eqb]. nra.
    + intros z Hz. pose proof (proj2 P z Hz) as P'. pose proof (proj2 Q z Hz) as Q'. cbv beta in P', Q'.
      rewrite (sumR_ext n _ (fun a => s * sumR n (fun b => z a * - p false "negative_half_precision" [a; b]%nat * z b) + t * sumR n (fun b => z a * - q false "negative_half_precision" [a; b]%nat * z b))).
      * rewrite sumR_add, !sumR_scal. set (x := sumR n _) in *. set (y := sumR n _) in *. nra.
      * intros a Ha. rewrite <- !sumR_scal, <- sumR_add. apply sumR_ext. intros. rewrite !X. cbn [existsb fields fd_fixed var fixd andb orb fd_name String.eqb Ascii.eqb Bool.eqb]. ring.
  - intros k Hk. rewrite X. cbn [existsb fields fd_fixed var fixd andb orb fd_name String.eqb Ascii.eqb Bool.eqb]. specialize (P k Hk). specialize (Q k Hk). nra.
  - exact P.
  - destruct P as [P1 P2], Q as [Q1 Q2]. split; [exact P1|]. nra.
  - destruct P as [P1 P2], Q as [Q1 Q2]. split; [nra|exact P2].
  - nra.
  - nra.
  - destruct P as [P1 P2], Q as [Q1 Q2]. split; [exact P1|]. nra.
Qed.
Lemma add_lin c p q : lincomb c 1 1 p q (padd c p q 1).
Proof. intros k nm j. unfold padd. destruct (existsb _ _); [reflexivity|ring]. Qed.
Lemma scale_lin c p s : lincomb c (s / 2) (s / 2) p p (padd c p p (s - 1)).
Proof. intros k nm j. unfold padd. destruct (existsb _ _); [reflexivity|field]. Qed.

(** one sub-distribution of parameter_map *)
Lemma map_leaf op h b i f n p v ys : inb b i = true -> at_pt b i p (NP f) n (point_of p i) -> at_pt b i v (NP f) n (point_of v i) ->
  (ys = [v] /\ (forall x y, like x y -> exists u, op [x; y] = Ok u /\ like x u /\ lin h x y u)) \/ (ys = [] /\ v = p /\ (forall x, exists u, op [x] = Ok u /\ like x u /\ lin h x x u)) ->
  exists s, parameter_map op p ys = Ok s /\ dcls s = NP f /\ well_formed s = true /\ leaf_shaped b s = true /\ dims_of s = Ok n /\
    at_pt b i s (NP f) n (padd (NP f) (point_of p i) (point_of v i) h).
Proof.
  intros Hi A A' Hop. pose proof (ap_cls _ _ _ _ _ _ A) as Cf. assert (Jl : is_joint (dcls p) = false) by now rewrite Cf. assert (Jl' : is_joint (dcls v) = false) by now rewrite (ap_cls _ _ _ _ _ _ A').
  assert (ML : forall w, at_pt b i w (NP f) n (point_of w i) -> leaf_match b p w).
  { intros w B. split; [exact (ap_wf _ _ _ _ _ _ A)|]. split; [exact (ap_wf _ _ _ _ _ _ B)|]. split; [exact (ap_shaped _ _ _ _ _ _ A)|]. split; [exact (ap_shaped _ _ _ _ _ _ B)|].
    split; [pose proof (ap_dims _ _ _ _ _ _ A); pose proof (ap_dims _ _ _ _ _ _ B); congruence|]. exists f. rewrite Cf, (ap_cls _ _ _ _ _ _ B). auto. }
  destruct (map_match op b p ys (ap_wf _ _ _ _ _ _ A)) as (r & R1 & R2 & _ & R4 & R5 & _ & R7).
  { intros y Iy. assert (y = v) by (destruct Hop as [[-> _]|[-> _]]; [destruct Iy as [<-|[]]; reflexivity|destruct Iy]). subst y. split; [exact (ap_wf _ _ _ _ _ _ A')|].
    split; [|now apply leaf_tm; auto]. apply leaf_skel; [pose proof (ap_cls _ _ _ _ _ _ A'); congruence|exact Jl|exact (ap_wf _ _ _ _ _ _ A)|exact (ap_wf _ _ _ _ _ _ A')]. }
  { apply leaf_tm; auto. }
  { intros x ws Hl Hf. destruct Hop as [[-> Ho]|[-> [_ Ho]]].
    - destruct ws as [|w [|? ?]]; try discriminate. inversion Hf; subst. destruct (Ho x w) as (u & U1 & U2 & _); eauto.
    - destruct ws; try discriminate. destruct (Ho x) as (u & U1 & U2 & _). eauto. }
  exists r. split; [exact R1|]. destruct (skel_leafat p r [] p R4 eq_refl) as [Cr _]. assert (Er : leafat r [] = r) by reflexivity. rewrite Er in Cr. clear Er.
  assert (Mr : leaf_match b p r). { unfold tree_match in R5. rewrite !leaf_leaves in R5 by (rewrite ?Cr; assumption). inversion R5 as [|? ? ? ? [_ Q] _]. exact Q. }
  destruct Mr as (_ & Q2 & _ & Q4 & Q5 & _). pose proof (ap_dims _ _ _ _ _ _ A) as Dp. split; [congruence|]. split; [exact Q2|]. split; [exact Q4|]. split; [congruence|].
  apply (line_at h b i p v); auto; [congruence|congruence|]. intros g x y Ig Gx Gy.
  assert (Fg : field_at p [fd_name g] = Some g). { destruct p as [cl ml psl subl]. cbn [dcls] in Cf. subst cl. cbn [field_at dcls]. now apply find_field. }
  assert (Pl : forall d, param_at d [fd_name g] = dget (dparams d) (fd_name g)) by (intros []; reflexivity).
  destruct Hop as [[-> Ho]|[-> [-> Ho]]].
  - specialize (R7 [fd_name g] g x [y] Fg). rewrite !Pl in R7. specialize (R7 Gx). assert (K : Forall2 (fun y w => param_at y [fd_name g] = Some w) [v] [y]) by (constructor; [now rewrite Pl|constructor]). specialize (R7 K).
    destruct (fd_fixed g); [exact R7|]. destruct R7 as (u & U1 & U2). exists u. split; [|exact U2].
    assert (Lk : like x y). { destruct (ap_get _ _ _ _ _ _ g A Ig) as (x' & X1 & X2 & X3). destruct (ap_get _ _ _ _ _ _ g A' Ig) as (y' & Y1 & Y2 & Y3). assert (x' = x) by congruence. assert (y' = y) by congruence. subst.
      split; [congruence|]. rewrite X3, Y3. destruct (kind_of (fd_support g)); exact Logic.I. }
    destruct (Ho x y Lk) as (u' & V1 & _ & V2). assert (u' = u) by congruence. now subst.
  - assert (y = x) by congruence. subst y. specialize (R7 [fd_name g] g x [] Fg). rewrite !Pl in R7. specialize (R7 Gx (Forall2_nil _)).
    destruct (fd_fixed g); [exact R7|]. destruct R7 as (u & U1 & U2). exists u. split; [|exact U2]. destruct (Ho x) as (u' & V1 & _ & V2). assert (u' = u) by congruence. now subst.
Qed.
Lemma observed_same b i p q x xv : dcls p = dcls q -> dims_of p = dims_of q -> observed b i p x xv -> observed b i q x xv.
Proof. intros C D. unfold observed, obs_leaf. now rewrite C, D. Qed.

Section Comb.
  Variable solve : minimizer -> dist -> nat -> xr.
  Let L := fam_methods solve.
  Lemma carrier_val b i f n p H x xv : proper b i f p -> dims_of p = Ok n -> carrier_is L b i f n p H -> observed b i p x xv -> sample_space f n xv -> H xv = cmR n (point_of p i) xv f.
  Proof.
    intros Pp D Hc O X. pose proof Pp as (C & W & S & Hi & _). destruct (proper_dims b i f p Pp) as (n' & D1 & D2 & D3 & _). assert (n' = n) by congruence. subst n'.
    destruct (cm_at solve b i p f n _ x xv Hi (at_pt_self _ _ _ _ _ C W S D Hi D2) D3 O X) as (t & T1 & _ & T3). destruct (Hc x xv O X) as (t' & T1' & _ & T3').
    assert (carrier_measure L p (Leaf x) = Ok t) by (destruct p as [c m ps subs]; cbn [dcls] in C; subst c; exact T1). congruence.
  Qed.
  Lemma comb_density b i f n p v s h : proper b i f p -> proper b i f v -> proper b i f s -> dims_of p = Ok n -> dims_of v = Ok n -> dims_of s = Ok n -> same_fixed_leaf_at b i p v ->
    at_pt b i s (NP f) n (padd (NP f) (point_of p i) (point_of v i) h) ->
    forall P V U H, pdf_is L b i f n p P -> pdf_is L b i f n v V -> pdf_is L b i f n s U -> carrier_is L b i f n p H -> exists Z, 0 < Z /\
      (forall x xv, observed b i p x xv -> sample_space f n xv -> U xv * exp (h * H xv) * Z = P xv * Rpower (V xv) h) /\
      integral_over f n (fun x => P x * Rpower (V x) h * exp (- (h * H x))) Z.
  Proof.
    intros Pp Pv Ps Dp Dv Ds Fx As P V U H HP HV HU HH. pose proof Pp as (Cp & Wp & Sp & Hi & _). pose proof Pv as (Cv & Wv & Sv & _). pose proof Ps as (Cs & Ws & Ss & _).
    destruct (proper_dims b i f p Pp) as (n1 & E1 & F1 & _). destruct (proper_dims b i f v Pv) as (n2 & E2 & F2 & _). destruct (proper_dims b i f s Ps) as (n3 & E3 & F3 & _ & Dok & _).
    assert (n1 = n) by congruence. assert (n2 = n) by congruence. assert (n3 = n) by congruence. subst n1 n2 n3.
    pose proof (at_pt_self b i p _ _ Cp Wp Sp Dp Hi F1) as A. pose proof (at_pt_self b i v _ _ Cv Wv Sv Dv Hi F2) as A'.
    pose proof (at_pt_pt _ _ _ _ _ _ Hi As) as Es. pose proof (fix_leafc b i p v _ n Hi A A' Fx) as Fv.
    assert (Fs : fix_eq (NP f) n (point_of p i) (point_of s i)).
    { unfold fix_eq. apply Forall_forall. intros g Ig Fg j Hj. assert (E : forall k, padd (NP f) (point_of p i) (point_of v i) h k (fd_name g) j = point_of p i k (fd_name g) j) by (intros k; unfold padd; rewrite (fixed_names _ g Ig), Fg; reflexivity).
      split; [rewrite <- (E false); exact (pt_re _ _ _ _ g j Es Ig Hj)|]. intros K. rewrite <- (E true). exact (pt_im _ _ _ _ g j Es Ig K Hj). }
    assert (Ed : forall e, dotP (NP f) (EP f) n (point_of s i) e = dotP (NP f) (EP f) n (point_of p i) e + h * dotP (NP f) (EP f) n (point_of v i) e).
    { intros e. rewrite <- dot_padd. symmetry. apply dotP_pt; [exact Es|]. intros g j Ig Kg. pose proof Ig as Ig'. apply filter_In in Ig as [Ig Fg]. rewrite (im_real b i s _ _ _ g j As Ig Kg). unfold padd. rewrite (fixed_names _ g Ig). destruct (fd_fixed g); [discriminate|].
      rewrite (im_real b i p _ _ _ g j A Ig Kg), (im_real b i v _ _ _ g j A' Ig Kg). ring. }
    set (z := lnR n (point_of s i) f - lnR n (point_of p i) f - h * lnR n (point_of v i) f). exists (exp z). split; [apply exp_pos|].
    assert (K : forall x xv, observed b i p x xv -> sample_space f n xv -> U xv * exp (h * H xv) * exp z = P xv * Rpower (V xv) h).
    { intros x xv O X. assert (Ov : observed b i v x xv) by (apply (observed_same b i p); congruence). assert (Os : observed b i s x xv) by (apply (observed_same b i p); congruence).
      rewrite (density_fun solve _ _ _ _ _ _ (HU x xv Os X) (density_at solve b i f s n x xv Ps Ds Os X)), (density_fun solve _ _ _ _ _ _ (HP x xv O X) (density_at solve b i f p n x xv Pp Dp O X)),
        (density_fun solve _ _ _ _ _ _ (HV x xv Ov X) (density_at solve b i f v n x xv Pv Dv Ov X)), (carrier_val b i f n p H x xv Pp Dp HH O X).
      unfold Rpower. rewrite ln_exp, <- !exp_plus. f_equal. exact (lp_comb f n _ _ _ h xv Fv Fs Ed). }
    split; [exact K|]. pose proof (integral_scal f n _ _ (exp z) (proj2 (normalised solve b i f s n Ps Ds) U HU)) as J. eapply integral_to; [|eapply integral_ext; [|exact J]]; [ring|].
    intros xv [X1 X2]. cbv beta. destruct (observe b i f p n xv Pp Dp X2) as (a & O). rewrite <- (K a xv O X1), exp_Ropp. field. apply Rgt_not_eq, exp_pos.
  Qed.
  Lemma same_fixed_self b i p : same_fixed_leaf_at b i p p.
  Proof. intros f v w j _ _ H1 H2 _. congruence. Qed.

  Lemma proper_at b i f n p : proper b i f p -> dims_of p = Ok n -> inb b i = true /\ at_pt b i p (NP f) n (point_of p i) /\ nat_dom f n (point_of p i).
  Proof.
    intros Pp D. pose proof Pp as (C & W & S & Hi & _). destruct (proper_dims b i f p Pp) as (n' & D1 & D2 & D3 & _). assert (n' = n) by congruence. subst n'. split; [exact Hi|]. split; [now apply at_pt_self|exact D3].
  Qed.
  Theorem combined b i f n p q : proper b i f p -> proper b i f q -> dims_of p = Ok n -> dims_of q = Ok n -> same_fixed_leaf_at b i p q ->
    exists s, combine_evidence p q = Ok s /\ (closed_under_combination f = true -> in_domain s i) /\
      (in_domain s i -> proper b i f s /\ dims_of s = Ok n /\
        forall P Q U H, pdf_is L b i f n p P -> pdf_is L b i f n q Q -> pdf_is L b i f n s U -> carrier_is L b i f n p H -> exists Z, 0 < Z /\
          (forall x xv, observed b i p x xv -> sample_space f n xv -> U xv * exp (H xv) * Z = P xv * Q xv) /\
          integral_over f n (fun x => P x * Q x * exp (- H x)) Z).
  Proof.
    intros Pp Pq Dp Dq Fx. destruct (proper_at b i f n p Pp Dp) as (Hi & A & K). destruct (proper_at b i f n q Pq Dq) as (_ & A' & K').
    destruct (map_leaf add_op 1 b i f n p q [q] Hi A A') as (s & S1 & S2 & S3 & S4 & S5 & S6); [left; split; [reflexivity|exact add_like]|].
    exists s. split; [exact S1|]. split.
    - intros M. eapply at_pt_nat_dom; [exact Hi|exact S6|]. apply (cone f n (point_of p i) (point_of q i) _ 1 1 M); [lra|lra|apply add_lin|exact K|exact K'].
    - intros Ds. assert (Ps : proper b i f s) by (split; [exact S2|]; repeat (split; [assumption|]); exact Ds). split; [exact Ps|]. split; [exact S5|].
      intros P Q U H HP HQ HU HH. destruct (comb_density b i f n p q s 1 Pp Pq Ps Dp Dq S5 Fx S6 P Q U H HP HQ HU HH) as (Z & Z1 & Z2 & Z3). exists Z. split; [exact Z1|].
      assert (E : forall x xv, observed b i p x xv -> sample_space f n xv -> Rpower (Q xv) 1 = Q xv) by (intros x xv O X; apply Rpower_1; apply (pdf_positive solve b i f q n Q x xv Pq Dq HQ); [apply (observed_same b i p); [|congruence|exact O]; pose proof Pp as [? _]; pose proof Pq as [? _]; congruence|exact X]).
      split; [intros x xv O X; rewrite <- (E x xv O X), <- (Z2 x xv O X), Rmult_1_l; reflexivity|].
      eapply integral_ext; [|exact Z3]. intros xv [X1 X2]. cbv beta. destruct (observe b i f p n xv Pp Dp X2) as (a & O). rewrite (E a xv O X1), Rmult_1_l. reflexivity.
  Qed.
  Theorem scaled b i f n p c : proper b i f p -> dims_of p = Ok n ->
    exists s, scale_evidence c p = Ok s /\ (closed_under_combination f = true -> 0 < c -> in_domain s i) /\
      (in_domain s i -> proper b i f s /\ dims_of s = Ok n /\
        forall P U H, pdf_is L b i f n p P -> pdf_is L b i f n s U -> carrier_is L b i f n p H -> exists Z, 0 < Z /\
          (forall x xv, observed b i p x xv -> sample_space f n xv -> U xv * exp ((c - 1) * H xv) * Z = Rpower (P xv) c) /\
          integral_over f n (fun x => Rpower (P x) c * exp (- ((c - 1) * H x))) Z).
  Proof.
    intros Pp Dp. destruct (proper_at b i f n p Pp Dp) as (Hi & A & K).
    destruct (map_leaf (scale_op c) (c - 1) b i f n p p [] Hi A A) as (s & S1 & S2 & S3 & S4 & S5 & S6); [right; split; [reflexivity|]; split; [reflexivity|exact (scale_like c)]|].
    exists s. split; [exact S1|]. split.
    - intros M Hc. eapply at_pt_nat_dom; [exact Hi|exact S6|]. apply (cone f n (point_of p i) (point_of p i) _ (c / 2) (c / 2) M); [lra|lra|apply scale_lin|exact K|exact K].
    - intros Ds. assert (Ps : proper b i f s) by (split; [exact S2|]; repeat (split; [assumption|]); exact Ds). split; [exact Ps|]. split; [exact S5|].
      intros P U H HP HU HH. destruct (comb_density b i f n p p s (c - 1) Pp Pp Ps Dp Dp S5 (same_fixed_self b i p) S6 P P U H HP HP HU HH) as (Z & Z1 & Z2 & Z3). exists Z. split; [exact Z1|].
      assert (E : forall x xv, observed b i p x xv -> sample_space f n xv -> P xv * Rpower (P xv) (c - 1) = Rpower (P xv) c).
      { intros x xv O X. pose proof (pdf_positive solve b i f p n P x xv Pp Dp HP O X) as Pos. rewrite <- (Rpower_1 (P xv) Pos) at 1. rewrite <- Rpower_plus. f_equal. ring. }
      split; [intros x xv O X; rewrite <- (E x xv O X); exact (Z2 x xv O X)|].
      eapply integral_ext; [|exact Z3]. intros xv [X1 X2]. cbv beta. destruct (observe b i f p n xv Pp Dp X2) as (a & O). rewrite (E a xv O X1). reflexivity.
  Qed.
  (** the families without a carrier *)
  Lemma carrier_zero b i f n p H x xv : no_carrier f = true -> proper b i f p -> dims_of p = Ok n -> carrier_is L b i f n p H -> observed b i p x xv -> sample_space f n xv -> H xv = 0.
  Proof.
    intros M Pp D Hc O X. rewrite (carrier_val b i f n p H x xv Pp D Hc O X). destruct f; try discriminate M; try reflexivity. cbn [cmR]. unfold nbcmR.
    set (z := xv false []). replace (z + 1 - 1 + 1) with (z + 1) by ring. replace (z + 1 - 1 - z + 1) with 1 by ring. rewrite lngamma_1. ring.
  Qed.
  Lemma carrier_ex b i f n p : proper b i f p -> dims_of p = Ok n -> carrier_is L b i f n p (fun x => cmR n (point_of p i) x f).
  Proof.
    intros Pp D x xv O X. destruct (proper_at b i f n p Pp D) as (Hi & A & K). destruct (cm_at solve b i p f n _ x xv Hi A K O X) as (t & T1 & T2 & T3). exists t. split; [|auto].
    pose proof Pp as [C _]. destruct p as [c m ps subs]. cbn [dcls] in C. subst c. exact T1.
  Qed.
  Theorem combined_flat b i f n p q s : no_carrier f = true -> proper b i f p -> proper b i f q -> dims_of p = Ok n -> dims_of q = Ok n -> same_fixed_leaf_at b i p q ->
    combine_evidence p q = Ok s -> in_domain s i ->
    forall P Q U, pdf_is L b i f n p P -> pdf_is L b i f n q Q -> pdf_is L b i f n s U -> exists Z, 0 < Z /\ integral_over f n (fun x => P x * Q x) Z /\
      forall x xv, observed b i p x xv -> sample_space f n xv -> U xv = P xv * Q xv / Z.
  Proof.
    intros M Pp Pq Dp Dq Fx Cs Ds P Q U HP HQ HU. destruct (combined b i f n p q Pp Pq Dp Dq Fx) as (s' & S1 & _ & S2). assert (s' = s) by congruence. subst s'. destruct (S2 Ds) as (_ & _ & T).
    pose proof (carrier_ex b i f n p Pp Dp) as Hc. destruct (T P Q U _ HP HQ HU Hc) as (Z & Z1 & Z2 & Z3). exists Z. split; [exact Z1|]. cbv beta in *. split.
    - eapply integral_ext; [|exact Z3]. intros xv [X1 X2]. cbv beta. destruct (observe b i f p n xv Pp Dp X2) as (a & O). rewrite (carrier_zero b i f n p _ a xv M Pp Dp Hc O X1), Ropp_0, exp_0. ring.
    - intros x xv O X. rewrite <- (Z2 x xv O X), (carrier_zero b i f n p _ x xv M Pp Dp Hc O X), exp_0. field. lra.
  Qed.
  (** joint distributions: sub-distribution by sub-distribution *)
  Theorem combined_tree b p q : well_formed p = true -> well_formed q = true -> nat_tree p = true -> same_skeleton p q -> tree_match b p q ->
    exists s, combine_evidence p q = Ok s /\ well_formed s = true /\ same_skeleton p s /\ tree_match b p s /\
      forall pth l, In (pth, l) (leaves [] p) -> exists m r, dist_at q pth = Some m /\ dist_at s pth = Some r /\ combine_evidence l m = Ok r.
  Proof.
    intros W Wq N Sk T. destruct (tm_shaped b p q W Wq T) as [Sh _]. pose proof (nat_tm_self b p W (or_introl N) Sh) as Tp.
    destruct (map_match add_op b p [q] W) as (s & S1 & S2 & _ & S3 & S4 & S5 & _).
    { intros y [<-|[]]. auto. } { exact Tp. } { intros v [|w [|? ?]] Hl Hf; try discriminate. inversion Hf; subst. destruct (add_like v w) as (u & U1 & U2 & _); eauto. }
    exists s. repeat (split; [assumption|]). intros pth l I. destruct (proj1 (leaf_in p pth l W) I) as [Hd _]. exists (leafat q pth), (leafat s pth). split; [exact (proj2 (skel_leafat p q pth l Sk Hd))|]. split; [exact (proj2 (skel_leafat p s pth l S3 Hd))|]. exact (S5 pth l I).
  Qed.
  Theorem scaled_tree b c p : well_formed p = true -> nat_tree p = true -> shaped b p = true ->
    exists s, scale_evidence c p = Ok s /\ well_formed s = true /\ same_skeleton p s /\ tree_match b p s /\
      forall pth l, In (pth, l) (leaves [] p) -> exists r, dist_at s pth = Some r /\ scale_evidence c l = Ok r.
  Proof.
    intros W N Sh. pose proof (nat_tm_self b p W (or_introl N) Sh) as Tp.
    destruct (map_match (scale_op c) b p [] W) as (s & S1 & S2 & _ & S3 & S4 & S5 & _).
    { intros y []. } { exact Tp. } { intros v [|w ?] Hl Hf; try discriminate. destruct (scale_like c v) as (u & U1 & U2 & _); eauto. }
    exists s. repeat (split; [assumption|]). intros pth l I. destruct (proj1 (leaf_in p pth l W) I) as [Hd _]. exists (leafat s pth). split; [exact (proj2 (skel_leafat p s pth l S3 Hd))|]. exact (S5 pth l I).
  Qed.
End Comb.
