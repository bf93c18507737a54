(** to_exp is injective, and the natural parameters found by a search are unique (C21, C28). *)
From Coquelicot Require Import Coquelicot.
From Coq Require Import String List Bool Arith Reals Lia Lra.
From Verif Require Import Base XReal Tensor TensorFacts TensorFacts2 Support Dist DictFacts Iteration Structure Spec FlattenSpec StructFacts AssembleFacts SumSpec DotSpec Tools
  ToolThms Joint StructThms FlattenThms MapFacts SumFacts JointThms JointThms2 SpecFun GammaFn Expr Fam ExprFacts FamTy FamFacts SearchFacts DotFacts Laws DotLaws BatchFacts PointSpec PointFacts Val FamR FamVal ConvFacts LeafVal ConvThms DerivFacts MatDeriv MatHess MatBreg DerivThms
  BregFacts BregThms KlSpec KlPos VarSpec Var VarThms DensSpec RootSpec RootVal RootThms.
Import ListNotations.
Local Unset Asymmetric Patterns.
Local Open Scope string_scope.
Local Open Scope R_scope.

Lemma dot_neg c e n p q x : dotP c e n (psub p q) x = - dotP c e n (psub q p) x.
Proof.
  unfold dotP. rewrite <- rsum_opp, map_map. apply rsum_ext. intros [g h] _. cbn [fst snd]. rewrite <- rsum_opp, map_map. apply rsum_ext. intros j _. unfold psub. ring.
Qed.
Definition real_im (c : cls) (p : point) : Prop := forall g j, In g (fields c) -> kind_of (fd_support g) = KR -> p true (fd_name g) j = 0.
Lemma dot_ext_r f n v x y : real_im (NP f) v -> pt_eq (EP f) n x y -> dotP (NP f) (EP f) n v x = dotP (NP f) (EP f) n v y.
Proof.
  intros Z H. unfold dotP. apply rsum_ext. intros [g h] Hgh. cbn [fst snd]. apply rsum_ext. intros j Hj. apply in_indices in Hj. destruct (F2_combine _ _ _ _ _ (pair_kinds f n) Hgh) as [Ek Es].
  apply in_combine_both in Hgh as [Hg Hh]. cbn [fst snd] in Hg, Hh. apply filter_In in Hg as [Hg _]. apply filter_In in Hh as [Hh _]. rewrite Es in Hj. rewrite (pt_re _ n x y h j H Hh Hj).
  destruct (kind_of (fd_support g)) eqn:K; [rewrite (Z g j Hg K); ring|]. rewrite (pt_im _ n x y h j H Hh); auto.
Qed.
Lemma fix_of_exp f n p q : pt_eq (EP f) n (expR n p f) (expR n q f) -> fix_eq (NP f) n p q.
Proof.
  intros H. apply Forall_forall. intros g I F. destruct f; cbn [fields In] in I; repeat (destruct I as [<-|I]; [try discriminate F|]); try destruct I; intros j Hj; apply inb0 in Hj; subst j; pts H; unp;
  split; try discriminate; match goal with Q : _ |- ?a = ?b => revert Q; mk; intros Q; exact Q end.
Qed.
Lemma fix_sym c n p q : fix_eq c n p q -> fix_eq c n q p.
Proof. unfold fix_eq. rewrite !Forall_forall. intros H g I F j Hj. destruct (H g I F j Hj) as [A B]. split; [now symmetry|]. intros K. symmetry. auto. Qed.
Lemma exp_inj f n p q : nat_dom f n p -> nat_dom f n q -> real_im (NP f) p -> real_im (NP f) q -> pt_eq (EP f) n (expR n p f) (expR n q f) -> pt_eq (NP f) n p q.
Proof.
  intros P Q Ip Iq E. pose proof (fix_of_exp f n p q E) as X. destruct (br_pos f n p q P Q X) as [|B1]; [assumption|]. destruct (br_pos f n q p Q P (fix_sym _ _ _ _ X)) as [|B2]; [now apply pt_sym|]. exfalso.
  assert (Z : real_im (NP f) (psub q p)) by (intros g j I K; unfold psub; rewrite Ip, Iq by assumption; ring).
  pose proof (dot_ext_r f n (psub q p) _ _ Z E) as D. unfold brR in B1, B2. rewrite (dot_neg _ _ _ p q) in B2. lra.
Qed.
Lemma real_im_at b i q c n p : at_pt b i q c n p -> real_im c (point_of q i).
Proof. intros A g j I K. exact (im_real b i q c n p g j A I K). Qed.

(** ** the logarithmic distribution: finite expectation parameters above 1 are only computed by the exact formula *)
Lemma V_where1 G p c a b τ va vb : VR G p c τ (fun _ => 1) -> V (k := KR) G p a τ va -> V (k := KR) G p b τ vb -> V (k := KR) G p (ewhere c a b) τ va.
Proof.
  intros (dc & Tc & Hc) (da & Ta & Ha) (db & Tb & Hb). unfold ewhere. eexists. split; [eapply T_map3; [exact Tc|exact Ta|exact Tb|apply sub_refl|apply sub_refl|apply sub_refl|now left]|].
  intros j Hj. cbn beta. assert (B : bidx (evs τ) j = j) by now apply bidx_id. rewrite B, (Hc j Hj), (Ha j Hj). cbn [xeqb]. unfold reqb. destruct (Req_EM_T 1 0); [lra|reflexivity].
Qed.
Lemma V_where0 G p c a b τ va vb : VR G p c τ (fun _ => 0) -> V (k := KR) G p a τ va -> V (k := KR) G p b τ vb -> V (k := KR) G p (ewhere c a b) τ vb.
Proof.
  intros (dc & Tc & Hc) (da & Ta & Ha) (db & Tb & Hb). unfold ewhere. eexists. split; [eapply T_map3; [exact Tc|exact Ta|exact Tb|apply sub_refl|apply sub_refl|apply sub_refl|now left]|].
  intros j Hj. cbn beta. assert (B : bidx (evs τ) j = j) by now apply bidx_id. rewrite B, (Hc j Hj), (Hb j Hj). cbn [xeqb]. unfold reqb. destruct (Req_EM_T 0 0); [reflexivity|lra].
Qed.
Lemma V_where1n G p c (v : R) b s vb : VR G p c (Ev s) (fun _ => 1) -> V (k := KR) G p b (Ev s) vb -> V (k := KR) G p (ewhere c (ENum v) b) (Ev s) (fun _ => Fin v).
Proof.
  intros (dc & Tc & Hc) (db & Tb & Hb). unfold ewhere. eexists. split; [eapply T_map3; [exact Tc|apply T_num|exact Tb|apply sub_refl|exact I|apply sub_refl|now left]|].
  intros j Hj. cbn beta. assert (B : bidx s j = j) by now apply bidx_id. cbn [evs]. rewrite B, (Hc j Hj). cbn [xeqb]. unfold reqb. destruct (Req_EM_T 1 0); [lra|reflexivity].
Qed.
Lemma V_where0n G p c (v : R) b s vb : VR G p c (Ev s) (fun _ => 0) -> V (k := KR) G p b (Ev s) vb -> V (k := KR) G p (ewhere c (ENum v) b) (Ev s) vb.
Proof.
  intros (dc & Tc & Hc) (db & Tb & Hb). unfold ewhere. eexists. split; [eapply T_map3; [exact Tc|apply T_num|exact Tb|apply sub_refl|exact I|apply sub_refl|now left]|].
  intros j Hj. cbn beta. assert (B : bidx s j = j) by now apply bidx_id. cbn [evs]. rewrite B, (Hc j Hj), (Hb j Hj). cbn [xeqb]. unfold reqb. destruct (Req_EM_T 0 0); [reflexivity|lra].
Qed.
Lemma VR_test1 G p (F : xr -> bool) e τ r : VR G p e τ r -> (forall j, inb (evs τ) j = true -> F (Fin (r j)) = true) -> VR G p (r1 (fun v => efalse_true (F v)) e) τ (fun _ => 1).
Proof. intros (d & T & H) W. eexists. split; [eapply T_map; exact T|]. intros j Hj. cbn beta. rewrite (H j Hj), (W j Hj). reflexivity. Qed.
Lemma ty_form p : p false "log_probability" [] < 0 -> exists vf, V (k := KR) (ctx_of (NP Logarithmic) 1) p (jexp (self "log_probability") / (jexpm1 (self "log_probability") * jlog1p (- jexp (self "log_probability"))))%ae (Ev []) vf.
Proof.
  intros H. pose proof (exp_lt1 _ H). pose proof (exp_pos (p false "log_probability" [])). pose proof (log1m_neg (exp (p false "log_probability" [])) ltac:(lra)).
  assert (X : exists r, VR (ctx_of (NP Logarithmic) 1) p (jexp (self "log_probability") / (jexpm1 (self "log_probability") * jlog1p (- jexp (self "log_probability"))))%ae (Ev []) r).
  { eexists. vr; jj; [lra|]. apply Rmult_integral_contrapositive. split; lra. }
  destruct X as [r X]. exists (fun j => Fin (r j)). exact X.
Qed.
Lemma log_unclipped b i q e p pe : inb b i = true -> at_pt b i q (NP Logarithmic) 1 p -> nat_dom Logarithmic 1 p -> fam_to_exp q = Ok e -> at_pt b i e (EP Logarithmic) 1 pe -> 1 < pe false "chi" [] -> unclipped Logarithmic p.
Proof.
  intros Hi A H E B Hc. cbn [nat_dom] in H. pose proof A as [C W S D Vv]. pose proof (leaf_env b q 1 S D) as HE. rewrite C in HE. unfold fam_to_exp in E. rewrite C in E.
  assert (Tx : V (k := KR) (ctx_of (NP Logarithmic) 1) p (r1 (fun _ => PInf) (self "log_probability")) (Ev []) (fun _ => PInf)) by (eapply (V_map (k1 := KR) (k2 := KR) _ _ (fun _ => PInf)); [eapply VR_self; reflexivity|]; reflexivity).
  set (x := p false "log_probability" []) in *. change (log_probability_floor <= x <= log_probability_ceiling).
  destruct (make_ok b _ _ _ (EP Logarithmic) 1 HE (exp_ty Logarithmic 1 eq_refl) eq_refl (fun _ => eq_refl) eq_refl) as (ps & P1 & _ & _ & _ & _ & P6). rewrite E in P1. injection P1 as ->.
  inversion P6 as [|? ? ? ? (N1 & t & T1 & T2) P7]; subst. inversion P7; subst. clear P6 P7. destruct y as [nm v]. cbn [fst snd projT1 projT2] in *. subst nm v.
  pose proof (ap_vals _ _ _ _ _ _ B "chi" KR [] [] eq_refl eq_refl) as Bv. cbn in Bv. change (tget t (i ++ [])%list = Fin (pe false "chi" [])) in Bv.
  assert (Vl : VR (ctx_of (NP Logarithmic) 1) p (self "log_probability") (Ev []) (fun _ => x)) by (eapply VR_ext; [eapply VR_self; reflexivity|jj; reflexivity]).
  destruct (ty_form p H) as (vf & Tf).
  set (lp := self "log_probability") in *.
  set (inner := ewhere (r1 (fun v => efalse_true (xltb (Fin log_probability_ceiling) v)) lp) (r1 (fun _ => PInf) lp) (jexp lp / (jexpm1 lp * jlog1p (- jexp lp)))%ae).
  change (eval (dparams q) (ewhere (r1 (fun v => efalse_true (xltb v (Fin log_probability_floor))) lp) (#1)%ae inner) = Ok t) in T1.
  assert (In1 : log_probability_ceiling < x -> V (k := KR) (ctx_of (NP Logarithmic) 1) p inner (Ev []) (fun _ => PInf)).
  { intros L2. eapply V_where1; [eapply VR_test1; [exact Vl|]|exact Tx|exact Tf]. intros j _. unfold xltb, rltb. destruct (Rlt_dec _ _); [reflexivity|lra]. }
  assert (In0 : ~ log_probability_ceiling < x -> V (k := KR) (ctx_of (NP Logarithmic) 1) p inner (Ev []) vf).
  { intros L2. eapply V_where0; [eapply VR_test; [exact Vl|]|exact Tx|exact Tf]. intros j _. unfold xltb, rltb. destruct (Rlt_dec _ _); [lra|reflexivity]. }
  assert (Ty : exists v, V (k := KR) (ctx_of (NP Logarithmic) 1) p inner (Ev []) v) by (destruct (Rlt_dec log_probability_ceiling x) as [L2|L2]; [exists (fun _ => PInf); auto|exists vf; auto]).
  destruct (Rlt_dec x log_probability_floor) as [L1|L1].
  - exfalso. destruct Ty as [v Ty]. assert (Q : V (k := KR) (ctx_of (NP Logarithmic) 1) p (ewhere (r1 (fun v => efalse_true (xltb v (Fin log_probability_floor))) lp) (#1)%ae inner) (Ev []) (fun _ => Fin 1)).
    { eapply V_where1n; [eapply VR_test1; [exact Vl|]|exact Ty]. intros j _. unfold xltb, rltb. destruct (Rlt_dec _ _); [reflexivity|lra]. }
    destruct (eval_at b _ _ i p _ [] _ HE Hi Vv Q) as (u & U1 & _ & U3). rewrite U1 in T1. injection T1 as <-. specialize (U3 [] eq_refl). pose proof (eq_trans (eq_sym U3) Bv) as X. injection X as X. lra.
  - destruct (Rlt_dec log_probability_ceiling x) as [L2|L2]; [exfalso|lra].
    assert (Q : V (k := KR) (ctx_of (NP Logarithmic) 1) p (ewhere (r1 (fun v => efalse_true (xltb v (Fin log_probability_floor))) lp) (#1)%ae inner) (Ev []) (fun _ => PInf)).
    { eapply V_where0n; [eapply VR_test; [exact Vl|]|exact (In1 L2)]. intros j _. unfold xltb, rltb. destruct (Rlt_dec _ _); [lra|reflexivity]. }
    destruct (eval_at b _ _ i p _ [] _ HE Hi Vv Q) as (u & U1 & _ & U3). rewrite U1 in T1. injection T1 as <-. specialize (U3 [] eq_refl). pose proof (eq_trans (eq_sym U3) Bv) as X. discriminate X.
Qed.
Section T.
  Variable solve : minimizer -> dist -> nat -> xr.
  Notation L := (fam_methods solve).
  Notation G := (fam_good solve).
  (** two natural distributions with the same expectation parameters *)
  Lemma leaf_exp_inj b i f n q r e e' : inb b i = true -> at_pt b i q (NP f) n (point_of q i) -> nat_dom f n (point_of q i) -> at_pt b i r (NP f) n (point_of r i) -> nat_dom f n (point_of r i) ->
    unclipped f (point_of q i) -> l_to_exp L q = Ok e -> l_to_exp L r = Ok e' -> (forall pe, at_pt b i e (EP f) n pe -> at_pt b i e' (EP f) n pe) -> at_pt b i r (NP f) n (point_of q i).
  Proof.
    intros Hi A P B Q U E E' X. destruct (exp_at solve b i q f n _ Hi A P U) as (x & X1 & X2). rewrite E in X1. injection X1 as <-. specialize (X _ X2).
    assert (U' : unclipped f (point_of r i)).
    { destruct f; try exact I. assert (n = 1%nat) by (apply (dims_none _ _ (ap_dims _ _ _ _ _ _ A)); now rewrite (ap_cls _ _ _ _ _ _ A)). subst n. apply (log_unclipped b i r e' _ (expR 1 (point_of q i) Logarithmic) Hi B Q E' X). exact (exp_ok Logarithmic 1 _ P). }
    destruct (exp_at solve b i r f n _ Hi B Q U') as (y & Y1 & Y2). rewrite E' in Y1. injection Y1 as <-.
    apply (at_pt_eq _ _ _ _ _ _ _ B). apply pt_sym. apply exp_inj; auto; [exact (real_im_at _ _ _ _ _ _ A)|exact (real_im_at _ _ _ _ _ _ B)|].
    apply (pt_trans _ _ _ (point_of e' i)); [exact (at_pt_pt b i _ _ _ _ Hi X)|apply pt_sym; exact (at_pt_pt b i _ _ _ _ Hi Y2)].
  Qed.
  Theorem t_exp_inj b d d' i e e' : well_formed d = true -> well_formed d' = true -> nat_tree d = true -> same_skeleton d d' -> tree_match b d d' -> inb b i = true ->
    tree_in_domain d i -> tree_in_domain d' i -> not_clipped d i ->
    to_exp L d = Ok e -> to_exp L d' = Ok e' -> same_at b i e e' -> same_at b i d d'.
  Proof.
    intros W W' N Sk T Hi H H' U E E' Sm. destruct (tm_shaped b d d' W W' T) as [S S']. assert (N' : nat_tree d' = true) by (now apply (skel_all is_nat d d')).
    destruct (g_exp_tree L G b d W N S) as (x & E1 & E2 & E3 & _ & E5 & E6). rewrite E in E1. injection E1 as <-. destruct (g_exp_tree L G b d' W' N' S') as (x & F1 & F2 & F3 & _ & F5 & F6). rewrite E' in F1. injection F1 as <-.
    apply F2_leaf_rel; auto. { exact (F2_paths _ _ _ T). } intros p l I.
    destruct (nat_leaf d [] p l W N I) as [f Hf]. destruct (leaf_wf d [] p l W I) as [Wl _]. pose proof (shaped_in b d p l S I) as Sl. destruct (nat_dom_at b i l f Hi Hf Wl Sl (H p l I)) as (n & A & K).
    destruct (tm_leaf b d d' p l W W' T I) as [(_ & Wl' & _ & Sl' & Ed & _) I']. pose proof (proj1 (leaf_in d p l W) I) as [Hd _]. destruct (skel_leafat d d' p l Sk Hd) as [Cl _].
    destruct (nat_dom_at b i (leafat d' p) f Hi ltac:(congruence) Wl' Sl' (H' _ _ I')) as (n' & A' & K'). assert (n' = n) by (pose proof (ap_dims _ _ _ _ _ _ A); pose proof (ap_dims _ _ _ _ _ _ A'); congruence). subst n'.
    destruct (F2_in _ _ _ _ E6 I) as ([p1 l1] & I1 & K1 & K2). destruct (F2_in _ _ _ _ F6 I') as ([p2 l2] & I2 & K3 & K4). cbn [fst snd] in *. subst p1 p2.
    destruct (F2_in _ _ _ _ Sm I1) as ([p3 l3] & I3 & K5 & K6). cbn [fst snd] in *. subst p3.
    assert (l3 = l2). { apply (leaf_in e' p l3 F2) in I3 as [H3 _]. apply (leaf_in e' p l2 F2) in I2 as [H2 _]. congruence. } subst l3.
    apply (at_pt_same b i _ _ (NP f) f n (point_of l i) eq_refl A). apply (leaf_exp_inj b i f n l (leafat d' p) l1 l2); auto; [exact (clip_leaf d i p l f U I Hf)|].
    intros pe Q. destruct K6 as (C6 & (_ & W6 & _ & S6 & D6 & _) & V6). apply (params_at_pt b i l1 l2 (EP f) n pe Hi Q). split; [exact C6|]. split; [exact (ap_wf _ _ _ _ _ _ Q)|]. split; [exact W6|]. split; [exact (ap_shaped _ _ _ _ _ _ Q)|]. split; [exact S6|]. split; [exact D6|exact V6].
  Qed.
  (** e.to_nat() for the expectation parameters e of q is q, whenever the solver finds a root *)
  Theorem t_nat_unique f q e : proper [] [] f q -> not_clipped q [] -> to_exp L q = Ok e ->
    dist_vals true [] (snd (searched f e)) -> root_found solve (fst (searched f e)) (snd (searched f e)) ->
    exists r, to_nat L e = Ok r /\ same_params_at [] [] q r.
  Proof.
    intros (C & W & S & Hi & Dom) U E V R. destruct (nat_dom_at [] [] q f Hi C W S Dom) as (n & A & K). rewrite (api_exp_leaf L q f C) in E.
    assert (Uq : unclipped f (point_of q [])). { apply (clip_leaf q [] [] q f U); [|exact C]. rewrite leaf_leaves by now rewrite C. now left. }
    destruct (exp_at solve [] [] q f n _ Hi A K Uq) as (x & X1 & X2). rewrite E in X1. injection X1 as <-. pose proof (exp_ok f n _ K) as Ko.
    assert (P : proper_e [] [] f e). { destruct X2 as [C2 W2 S2 D2 V2] eqn:EX. repeat (split; [assumption|]). exact (at_pt_exp_dom [] [] e f n _ Hi X2 Ko). }
    destruct (t_to_nat solve f e P) as (r & e' & R1 & (Cr & Wr & Sr & _ & Dr) & R3 & R4); auto. { intros m -> Dm. rewrite (ap_dims _ _ _ _ _ _ X2) in Dm. injection Dm as <-. exact (proj1 K). }
    exists r. split; [exact R1|]. destruct (nat_dom_at [] [] r f Hi Cr Wr Sr Dr) as (n' & B & K').
    rewrite (api_exp_leaf L r f Cr) in R3. assert (n' = n).
    { destruct (exp_builds solve [] r f n' Cr Wr Sr (ap_dims _ _ _ _ _ _ B)) as (ps & P1 & _ & _ & P4 & _). rewrite R3 in P1. injection P1 as ->. destruct R4 as (_ & _ & _ & _ & _ & D4 & _). rewrite (ap_dims _ _ _ _ _ _ X2), P4 in D4. congruence. }
    subst n'. apply (at_pt_params [] [] q r (NP f) n (point_of q [])); [exact A|]. apply (leaf_exp_inj [] [] f n q r e e'); auto. intros pe Q. exact (params_at_pt [] [] e e' (EP f) n pe Hi Q R4).
  Qed.
End T.

(** C36: GammaVP.to_exp().to_nat() *)
Lemma t_gamma_vp solve d e : well_formed d = true -> leaf_shaped [] d = true -> vp_domain d [] -> dcls d = GammaVP ->
  vp_to_exp d = Ok e -> dist_vals true [] e -> root_found solve Gamma e ->
  exists q q', vp_to_nat d = Ok q /\ to_nat (fam_methods solve) e = Ok q' /\ same_params_at [] [] q q'.
Proof.
  intros W S H C E V R. destruct (gamma_var_nat solve [] [] eq_refl d W S H C) as (q & r & e' & Q1 & Q2 & _ & _ & Q3 & _ & Q4 & _). assert (e' = e) by congruence. subst e'.
  destruct (vp_dom_at [] [] d eq_refl W S H) as (n & A & (n' & D & F & P)). rewrite C in A, P. destruct (gamma_vp_nat_at [] [] eq_refl d n (point_of d []) A) as (q' & Q1' & Q5). { exact (proj2 P). }
  assert (q' = q) by congruence. subst q'. destruct Q5 as [Cq Wq Sq Dq Vq].
  destruct (t_nat_unique solve Gamma q e) as (r' & R1 & R2); auto; [repeat (split; [assumption|]); split; [reflexivity|exact Q2]| |exists q, r'; auto].
  intros p l I Z. rewrite leaf_leaves in I by now rewrite Cq. destruct I as [I|[]]. injection I as <- <-. rewrite Cq in Z. discriminate Z.
Qed.
