(** C36: the variance parametrizations. *)
From Coquelicot Require Import Coquelicot.
From Coq Require Import String List Bool Arith Reals Lia Lra.
From Verif Require Import Base XReal Tensor TensorFacts TensorFacts2 Support Dist DictFacts Iteration Structure Spec StructFacts AssembleFacts SumSpec DotSpec Tools
  ToolThms Joint StructThms MapFacts SpecFun GammaFn Expr Fam ExprFacts FamTy FamFacts SearchFacts DotFacts DotLaws BatchFacts PointSpec PointFacts Val FamR FamVal ConvFacts LeafVal MatVal Var VarSpec.
Import ListNotations.
Local Unset Asymmetric Patterns.
Local Open Scope string_scope.
Local Open Scope R_scope.

(** one constructor call at a batch element *)
Lemma make_pt b i q c n p c' w l : inb b i = true -> at_pt b i q c n p -> args_at (ctx_of c n) p w l (ctx_of c' n) -> is_joint c' = false ->
  (dimensions_field c' = None -> n = 1%nat) -> dims_ok c' n = true -> exists e, make c' (dparams q) l = Ok e /\ at_pt b i e c' n w.
Proof.
  intros Hi [C W S D V] A J D1 D2. pose proof (leaf_env b q n S D) as HE. rewrite C in HE.
  destruct (make_at b _ _ _ c' n i p _ HE Hi V A J D1 D2) as (e & E1 & E2 & E3 & E4 & E5 & E6 & E7). exists e. split; [exact E1|].
  apply (at_pt_eq _ _ _ _ _ (point_of e i)); [now apply at_pt_self|exact E7].
Qed.
Lemma at_pt_d1 b i q c n p : at_pt b i q c n p -> dimensions_field c = None -> n = 1%nat.
Proof. intros [C W S D V] E. subst c. exact (dims_none _ _ D E). Qed.
Lemma at_pt_dok b i q c n p : at_pt b i q c n p -> dims_ok c n = true.
Proof. intros [C W S D V]. destruct (leaf_dims _ _ S) as (m & D' & K). assert (m = n) by congruence. subst m. now rewrite C in K. Qed.
Lemma at_pt_params b i q r c n p : at_pt b i q c n p -> at_pt b i r c n p -> same_params_at b i q r.
Proof.
  intros A B. pose proof A as [C W S D V]. pose proof B as [C' W' S' D' V']. split; [congruence|]. do 4 (split; [assumption|]). split; [congruence|].
  intros g v w j I E1 E2 Hj. rewrite C in I. assert (Hj' : inb (supp_shape (fd_support g) n) j = true).
  { rewrite (leaf_fields b q n g v S D) in Hj by (congruence || assumption). now rewrite skipn_app, skipn_all, Nat.sub_diag in Hj. }
  rewrite (entry_eq b i q c n p g v j A I E1 Hj'), (entry_eq b i r c n p g w j B I E2 Hj'). reflexivity.
Qed.
Lemma vp_dom_at b i q : inb b i = true -> well_formed q = true -> leaf_shaped b q = true -> vp_domain q i ->
  exists n, at_pt b i q (dcls q) n (point_of q i) /\ vp_domain q i.
Proof. intros Hi W S (n & D & F & H). exists n. split; [now apply at_pt_self|]. exists n. auto. Qed.

(** values *)
Section P.
  Variable p : point.
  Definition vnR : point := mkpt [("mean_times_precision", re (fun j => p false "mean" j * (1 / p false "variance" j))); ("negative_half_precision", re (fun j => -1 / 2 * (1 / p false "variance" j)))].
  Definition veR : point := mkpt [("mean", re (fun j => p false "mean" j)); ("second_moment", re (fun j => p false "variance" j + p false "mean" j * p false "mean" j))].
  Definition evR : point := mkpt [("mean", re (fun j => p false "mean" j)); ("variance", re (fun j => p false "second_moment" j - p false "mean" j * p false "mean" j))].
  Definition mveR : point := mkpt [("mean", re (fun j => p false "mean" j)); ("second_moment", re (fun j => p false "variance" j + p false "mean" [nth 0 j 0%nat] * p false "mean" [nth 1 j 0%nat]))].
  Definition mevR : point := mkpt [("mean", re (fun j => p false "mean" j)); ("variance", re (fun j => p false "second_moment" j - p false "mean" [nth 0 j 0%nat] * p false "mean" [nth 1 j 0%nat]))].
  Definition gnR : point := mkpt [("negative_rate", re (fun j => - (p false "mean" j / p false "variance" j))); ("shape_minus_one", re (fun j => p false "mean" j * (p false "mean" j / p false "variance" j) - 1))].
  Definition gvR : point := mkpt [("mean", re (fun j => (p false "shape_minus_one" j + 1) / - p false "negative_rate" j)); ("variance", re (fun j => (p false "shape_minus_one" j + 1) / - p false "negative_rate" j / - p false "negative_rate" j))].
End P.
Ltac mkv := cbv beta iota zeta delta [vnR veR evR mveR mevR gnR gvR expR natR sumsq mkpt re cx cpt]; cbn [slook String.eqb Ascii.eqb Bool.eqb fst snd hd nth].
Section C.
  Variables (b i : list nat) (Hi : inb b i = true).
  Ltac mkc A := eapply make_pt; [exact Hi|exact A| |reflexivity|first [exact (at_pt_d1 _ _ _ _ _ _ A)|discriminate]|first [reflexivity|exact (at_pt_dok _ _ _ _ _ _ A)]].
  Lemma normal_vp_nat_at q n p : at_pt b i q NormalVP n p -> 0 < p false "variance" [] -> exists e, vp_to_nat q = Ok e /\ at_pt b i e (NP Normal) n (vnR p).
  Proof.
    intros A H. unfold vp_to_nat. rewrite (ap_cls _ _ _ _ _ _ A). mkc A. unfold args_at, normal_vp_nat, ctx_of; cbn [map fields]; argv; vx; jj; mkv; try reflexivity; lra.
  Qed.
  Lemma normal_vp_exp_at q n p : at_pt b i q NormalVP n p -> exists e, vp_to_exp q = Ok e /\ at_pt b i e (EP Normal) n (veR p).
  Proof.
    intros A. unfold vp_to_exp. rewrite (ap_cls _ _ _ _ _ _ A). mkc A. unfold args_at, normal_vp_exp, ctx_of; cbn [map fields]; argv; vx; jj; mkv; reflexivity.
  Qed.
  Lemma normal_ep_var_at q n p : at_pt b i q (EP Normal) n p -> exists e, ep_to_var q = Ok e /\ at_pt b i e NormalVP n (evR p).
  Proof.
    intros A. unfold ep_to_var. rewrite (ap_cls _ _ _ _ _ _ A). mkc A. unfold args_at, variance_e, ctx_of; cbn [map fields]; argv; vx; jj; mkv; reflexivity.
  Qed.
  Lemma diag_vp_nat_at q n p : at_pt b i q MultivariateDiagonalNormalVP n p -> (forall k, (k < n)%nat -> 0 < p false "variance" [k]) ->
    exists e, vp_to_nat q = Ok e /\ at_pt b i e (NP MultivariateDiagonalNormal) n (vnR p).
  Proof.
    intros A H. unfold vp_to_nat. rewrite (ap_cls _ _ _ _ _ _ A). mkc A. unfold args_at, normal_vp_nat, ctx_of; cbn [map fields]; argv; vx; jj; mkv; try reflexivity; specialize (H _ Hk); lra.
  Qed.
  Lemma diag_vp_exp_at q n p : at_pt b i q MultivariateDiagonalNormalVP n p -> exists e, vp_to_exp q = Ok e /\ at_pt b i e (EP MultivariateDiagonalNormal) n (veR p).
  Proof.
    intros A. unfold vp_to_exp. rewrite (ap_cls _ _ _ _ _ _ A). mkc A. unfold args_at, normal_vp_exp, ctx_of; cbn [map fields]; argv; vx; jj; mkv; reflexivity.
  Qed.
  Lemma diag_ep_var_at q n p : at_pt b i q (EP MultivariateDiagonalNormal) n p -> exists e, ep_to_var q = Ok e /\ at_pt b i e MultivariateDiagonalNormalVP n (evR p).
  Proof.
    intros A. unfold ep_to_var. rewrite (ap_cls _ _ _ _ _ _ A). mkc A. unfold args_at, variance_e, ctx_of; cbn [map fields]; argv; vx; jj; mkv; reflexivity.
  Qed.
  Lemma mvn_vp_exp_at q n p : at_pt b i q MultivariateNormalVP n p -> exists e, vp_to_exp q = Ok e /\ at_pt b i e (EP MultivariateNormal) n (mveR p).
  Proof.
    intros A. unfold vp_to_exp. rewrite (ap_cls _ _ _ _ _ _ A). mkc A. unfold args_at, mvn_vp_exp, ctx_of; cbn [map fields]; argv; [vx; jj; mkv; reflexivity|].
    eapply VR_ext; [eapply VR_add; [vr|eapply VR_outer; vr|alt_]|]. intros j Hj. mkv. reflexivity.
  Qed.
  Lemma mvn_ep_var_at q n p : at_pt b i q (EP MultivariateNormal) n p -> exists e, ep_to_var q = Ok e /\ at_pt b i e MultivariateNormalVP n (mevR p).
  Proof.
    intros A. unfold ep_to_var. rewrite (ap_cls _ _ _ _ _ _ A). mkc A. unfold args_at, mvn_variance_e, ctx_of; cbn [map fields]; argv; [vx; jj; mkv; reflexivity|].
    eapply VR_ext; [eapply VR_sub; [vr|eapply VR_outer; vr|alt_]|]. intros j Hj. mkv. reflexivity.
  Qed.
  Lemma gamma_vp_nat_at q n p : at_pt b i q GammaVP n p -> 0 < p false "variance" [] -> exists e, vp_to_nat q = Ok e /\ at_pt b i e (NP Gamma) n (gnR p).
  Proof.
    intros A H. unfold vp_to_nat. rewrite (ap_cls _ _ _ _ _ _ A). mkc A. unfold args_at, gamma_vp_nat, ctx_of; cbn [map fields]; argv; vx; jj; mkv; try reflexivity; lra.
  Qed.
  Lemma gamma_np_var_at q n p : at_pt b i q (NP Gamma) n p -> p false "negative_rate" [] < 0 -> exists e, np_to_var q = Ok e /\ at_pt b i e GammaVP n (gvR p).
  Proof.
    intros A H. unfold np_to_var. rewrite (ap_cls _ _ _ _ _ _ A). mkc A. unfold args_at, gamma_to_var, ctx_of; cbn [map fields]; argv; vx; jj; mkv; try reflexivity; lra.
  Qed.
End C.

Ltac pf := apply pt_intro; cbn [fields]; ptf; (split; [|intros KK; discriminate KK]); mkv.
Lemma v_rt p n : 0 < p false "variance" [] -> pt_eq (NP Normal) n (natR n (veR p) Normal) (vnR p).
Proof. intros H. pf; field; repeat split; lra. Qed.
Lemma v_rt_e p n : 0 < p false "variance" [] -> pt_eq (EP Normal) n (expR n (vnR p) Normal) (veR p).
Proof. intros H. pf; field; repeat split; lra. Qed.
Lemma d_rt p n : (forall k, (k < n)%nat -> 0 < p false "variance" [k]) -> pt_eq (NP MultivariateDiagonalNormal) n (natR n (veR p) MultivariateDiagonalNormal) (vnR p).
Proof. intros H. pf; specialize (H k Hk); field; repeat split; lra. Qed.
Lemma d_rt_e p n : (forall k, (k < n)%nat -> 0 < p false "variance" [k]) -> pt_eq (EP MultivariateDiagonalNormal) n (expR n (vnR p) MultivariateDiagonalNormal) (veR p).
Proof. intros H. pf; specialize (H k Hk); field; repeat split; lra. Qed.
Lemma v_ev p n c : c = NormalVP \/ c = MultivariateDiagonalNormalVP -> pt_eq c n (evR (veR p)) p.
Proof. intros [-> | ->]; pf; ring. Qed.
Lemma v_ve p n c : c = EP Normal \/ c = EP MultivariateDiagonalNormal -> pt_eq c n (veR (evR p)) p.
Proof. intros [-> | ->]; pf; ring. Qed.
Lemma m_ev p n : pt_eq MultivariateNormalVP n (mevR (mveR p)) p.
Proof.
  apply pt_intro; cbn [fields]. apply Forall_cons; [|apply Forall_cons; [|apply Forall_nil]]; intros j Hj; cbn [fd_name fd_support var kind_of]; (split; [|intros KK; discriminate KK]); mkv; [reflexivity|ring].
Qed.
Lemma m_ve p n : pt_eq (EP MultivariateNormal) n (mveR (mevR p)) p.
Proof.
  apply pt_intro; cbn [fields]. apply Forall_cons; [|apply Forall_cons; [|apply Forall_nil]]; intros j Hj; cbn [fd_name fd_support var kind_of]; (split; [|intros KK; discriminate KK]); mkv; [reflexivity|ring].
Qed.
Lemma g_nv p n : 0 < p false "mean" [] -> 0 < p false "variance" [] -> pt_eq GammaVP n (gvR (gnR p)) p.
Proof. intros H1 H2. pf; field; repeat split; lra. Qed.
Lemma g_vn p n : nat_dom Gamma n p -> pt_eq (NP Gamma) n (gnR (gvR p)) p.
Proof. cbn [nat_dom]. intros H. pf; field; repeat split; lra. Qed.
Lemma spd_ext n m m' : (forall a b, (a < n)%nat -> (b < n)%nat -> m a b = m' a b) -> spd n m -> spd n m'.
Proof.
  intros E [S P]. split; [intros a b Ha Hb; rewrite <- !E by assumption; now apply S|]. intros z Z. eapply Rlt_le_trans; [exact (P z Z)|]. right.
  apply sumR_ext. intros a Ha. apply sumR_ext. intros c Hc. now rewrite E.
Qed.
Lemma api_exp_leaf L q f : dcls q = NP f -> to_exp L q = l_to_exp L q.
Proof. destruct q as [c m ps subs]. cbn [dcls]. now intros ->. Qed.
Lemma api_nat_leaf L q f : dcls q = EP f -> to_nat L q = l_to_nat L q.
Proof. destruct q as [c m ps subs]. cbn [dcls]. now intros ->. Qed.

Ltac ptrw Q f j := let E := fresh "E" in pose proof (pt_re _ _ _ _ f j Q) as E; cbn [fd_name var] in E; rewrite <- E by first [now left | now (right; left) | reflexivity | now apply inb1_intro | now apply inb2_intro]; clear E.
Section T.
  Variable solve : minimizer -> dist -> nat -> xr.
  Notation L := (fam_methods solve).
  Variables (b i : list nat) (Hi : inb b i = true).
  Theorem vp_nat_exp d : well_formed d = true -> leaf_shaped b d = true -> vp_domain d i -> dcls d = NormalVP \/ dcls d = MultivariateDiagonalNormalVP ->
    exists e q q' e', vp_to_exp d = Ok e /\ vp_to_nat d = Ok q /\ in_domain e i /\ in_domain q i /\
      to_nat L e = Ok q' /\ same_params_at b i q q' /\ to_exp L q = Ok e' /\ same_params_at b i e e'.
  Proof.
    intros W S H C. destruct (vp_dom_at b i d Hi W S H) as (n & A & (n' & D & F & P)). assert (n' = n) by (pose proof (ap_dims _ _ _ _ _ _ A); congruence). subst n'.
    destruct C as [C|C]; rewrite C in A, P; cbn iota in P; set (p := point_of d i) in *; change (point_of d i) with p in P.
    - destruct (normal_vp_exp_at b i Hi d n p A) as (e & E1 & E2). destruct (normal_vp_nat_at b i Hi d n p A P) as (q & Q1 & Q2).
      assert (DE : exp_dom Normal n (veR p)) by (cbn [exp_dom]; mkv; lra).
      assert (DN : nat_dom Normal n (vnR p)) by (cbn [nat_dom]; mkv; apply Ropp_lt_cancel; replace (- (-1 / 2 * (1 / p false "variance" []))) with (/ (2 * p false "variance" [])) by (field; lra); rewrite Ropp_0; apply Rinv_0_lt_compat; lra).
      destruct (nat_at solve b i e Normal n _ Hi E2 DE eq_refl) as (q' & N1 & N2). destruct (exp_at solve b i q Normal n _ Hi Q2 DN Logic.I) as (e' & X1 & X2).
      exists e, q, q', e'. repeat (split; [assumption || solve [eapply at_pt_exp_dom; eauto] || solve [eapply at_pt_nat_dom; eauto]|]).
      split; [rewrite (api_nat_leaf _ _ Normal); [exact N1|exact (ap_cls _ _ _ _ _ _ E2)]|]. split; [exact (at_pt_params _ _ _ _ _ _ _ Q2 (at_pt_eq _ _ _ _ _ _ _ N2 (v_rt p n P)))|].
      split; [rewrite (api_exp_leaf _ _ Normal); [exact X1|exact (ap_cls _ _ _ _ _ _ Q2)]|]. exact (at_pt_params _ _ _ _ _ _ _ E2 (at_pt_eq _ _ _ _ _ _ _ X2 (v_rt_e p n P))).
    - destruct (diag_vp_exp_at b i Hi d n p A) as (e & E1 & E2). destruct (diag_vp_nat_at b i Hi d n p A P) as (q & Q1 & Q2).
      assert (DE : exp_dom MultivariateDiagonalNormal n (veR p)) by (cbn [exp_dom]; mkv; intros k Hk; specialize (P k Hk); lra).
      assert (DN : nat_dom MultivariateDiagonalNormal n (vnR p)) by (cbn [nat_dom]; mkv; intros k Hk; specialize (P k Hk); apply Ropp_lt_cancel; replace (- (-1 / 2 * (1 / p false "variance" [k]))) with (/ (2 * p false "variance" [k])) by (field; lra); rewrite Ropp_0; apply Rinv_0_lt_compat; lra).
      destruct (nat_at solve b i e MultivariateDiagonalNormal n _ Hi E2 DE eq_refl) as (q' & N1 & N2). destruct (exp_at solve b i q MultivariateDiagonalNormal n _ Hi Q2 DN Logic.I) as (e' & X1 & X2).
      exists e, q, q', e'. repeat (split; [assumption || solve [eapply at_pt_exp_dom; eauto] || solve [eapply at_pt_nat_dom; eauto]|]).
      split; [rewrite (api_nat_leaf _ _ MultivariateDiagonalNormal); [exact N1|exact (ap_cls _ _ _ _ _ _ E2)]|]. split; [exact (at_pt_params _ _ _ _ _ _ _ Q2 (at_pt_eq _ _ _ _ _ _ _ N2 (d_rt p n P)))|].
      split; [rewrite (api_exp_leaf _ _ MultivariateDiagonalNormal); [exact X1|exact (ap_cls _ _ _ _ _ _ Q2)]|]. exact (at_pt_params _ _ _ _ _ _ _ E2 (at_pt_eq _ _ _ _ _ _ _ X2 (d_rt_e p n P))).
  Qed.
  Theorem vp_exp_var d : well_formed d = true -> leaf_shaped b d = true -> vp_domain d i -> dcls d = NormalVP \/ dcls d = MultivariateDiagonalNormalVP \/ dcls d = MultivariateNormalVP ->
    exists e r, vp_to_exp d = Ok e /\ in_domain e i /\ ep_to_var e = Ok r /\ same_params_at b i d r.
  Proof.
    intros W S H C. destruct (vp_dom_at b i d Hi W S H) as (n & A & (n' & D & F & P)). assert (n' = n) by (pose proof (ap_dims _ _ _ _ _ _ A); congruence). subst n'.
    destruct C as [C|[C|C]]; rewrite C in A, P; cbn iota in P; set (p := point_of d i) in *; change (point_of d i) with p in P.
    - destruct (normal_vp_exp_at b i Hi d n p A) as (e & E1 & E2). destruct (normal_ep_var_at b i Hi e n _ E2) as (r & R1 & R2).
      assert (DE : exp_dom Normal n (veR p)) by (cbn [exp_dom]; mkv; lra).
      exists e, r. split; [exact E1|]. split; [eapply at_pt_exp_dom; eauto|]. split; [exact R1|]. exact (at_pt_params _ _ _ _ _ _ _ A (at_pt_eq _ _ _ _ _ _ _ R2 (v_ev p n _ (or_introl eq_refl)))).
    - destruct (diag_vp_exp_at b i Hi d n p A) as (e & E1 & E2). destruct (diag_ep_var_at b i Hi e n _ E2) as (r & R1 & R2).
      assert (DE : exp_dom MultivariateDiagonalNormal n (veR p)) by (cbn [exp_dom]; mkv; intros k Hk; specialize (P k Hk); lra).
      exists e, r. split; [exact E1|]. split; [eapply at_pt_exp_dom; eauto|]. split; [exact R1|]. exact (at_pt_params _ _ _ _ _ _ _ A (at_pt_eq _ _ _ _ _ _ _ R2 (v_ev p n _ (or_intror eq_refl)))).
    - destruct (mvn_vp_exp_at b i Hi d n p A) as (e & E1 & E2). destruct (mvn_ep_var_at b i Hi e n _ E2) as (r & R1 & R2).
      exists e, r. split; [exact E1|]. split; [|split; [exact R1|exact (at_pt_params _ _ _ _ _ _ _ A (at_pt_eq _ _ _ _ _ _ _ R2 (m_ev p n)))]].
      exists n. split; [exact (ap_dims _ _ _ _ _ _ E2)|]. split; [exact (at_pt_fin _ _ _ _ _ _ E2)|]. rewrite (ap_cls _ _ _ _ _ _ E2). cbn [exp_dom].
      pose proof (at_pt_pt _ _ _ _ _ _ Hi E2) as Q. eapply spd_ext; [|exact P]. intros a c Ha Hc. cbn beta.
      ptrw Q (var "second_moment" (SymS real_field false true false)) [a; c].
      ptrw Q (var "mean" (VectorS real_field)) [a].
      ptrw Q (var "mean" (VectorS real_field)) [c]. cbn [fd_name var]. mkv. ring.
  Qed.
  Theorem ep_var_exp d : well_formed d = true -> leaf_shaped b d = true -> in_domain d i -> dcls d = EP Normal \/ dcls d = EP MultivariateDiagonalNormal \/ dcls d = EP MultivariateNormal ->
    exists v r, ep_to_var d = Ok v /\ vp_domain v i /\ vp_to_exp v = Ok r /\ same_params_at b i d r.
  Proof.
    intros W S H C. destruct C as [C|[C|C]]; destruct (exp_dom_at b i d _ Hi C W S H) as (n & A & P); set (p := point_of d i) in *; cbn [exp_dom] in P.
    - destruct (normal_ep_var_at b i Hi d n p A) as (v & E1 & E2). destruct (normal_vp_exp_at b i Hi v n _ E2) as (r & R1 & R2). exists v, r. split; [exact E1|]. split; [|split; [exact R1|]].
      + exists n. split; [exact (ap_dims _ _ _ _ _ _ E2)|]. split; [exact (at_pt_fin _ _ _ _ _ _ E2)|]. rewrite (ap_cls _ _ _ _ _ _ E2). cbv iota beta zeta. pose proof (at_pt_pt _ _ _ _ _ _ Hi E2) as Q.
        ptrw Q (var "variance" (ScalarS positive_support)) (@nil nat). cbn [fd_name var]. mkv. lra.
      + exact (at_pt_params _ _ _ _ _ _ _ A (at_pt_eq _ _ _ _ _ _ _ R2 (v_ve p n _ (or_introl eq_refl)))).
    - destruct (diag_ep_var_at b i Hi d n p A) as (v & E1 & E2). destruct (diag_vp_exp_at b i Hi v n _ E2) as (r & R1 & R2). exists v, r. split; [exact E1|]. split; [|split; [exact R1|]].
      + exists n. split; [exact (ap_dims _ _ _ _ _ _ E2)|]. split; [exact (at_pt_fin _ _ _ _ _ _ E2)|]. rewrite (ap_cls _ _ _ _ _ _ E2). cbv iota beta zeta. pose proof (at_pt_pt _ _ _ _ _ _ Hi E2) as Q. intros k Hk.
        ptrw Q (var "variance" (VectorS real_field)) [k]. cbn [fd_name var]. mkv. specialize (P k Hk). lra.
      + exact (at_pt_params _ _ _ _ _ _ _ A (at_pt_eq _ _ _ _ _ _ _ R2 (v_ve p n _ (or_intror eq_refl)))).
    - destruct (mvn_ep_var_at b i Hi d n p A) as (v & E1 & E2). destruct (mvn_vp_exp_at b i Hi v n _ E2) as (r & R1 & R2). exists v, r. split; [exact E1|]. split; [|split; [exact R1|]].
      + exists n. split; [exact (ap_dims _ _ _ _ _ _ E2)|]. split; [exact (at_pt_fin _ _ _ _ _ _ E2)|]. rewrite (ap_cls _ _ _ _ _ _ E2). cbv iota beta zeta. pose proof (at_pt_pt _ _ _ _ _ _ Hi E2) as Q.
        eapply spd_ext; [|exact P]. intros a c Ha Hc. cbn beta.
        ptrw Q (var "variance" (SymS real_field false false false)) [a; c]. cbn [fd_name var]. mkv. ring.
      + exact (at_pt_params _ _ _ _ _ _ _ A (at_pt_eq _ _ _ _ _ _ _ R2 (m_ve p n))).
  Qed.
  Theorem gamma_var_nat d : well_formed d = true -> leaf_shaped b d = true -> vp_domain d i -> dcls d = GammaVP ->
    exists q r e, vp_to_nat d = Ok q /\ in_domain q i /\ np_to_var q = Ok r /\ same_params_at b i d r /\ vp_to_exp d = Ok e /\ in_domain e i /\ to_exp L q = Ok e /\
      point_of e i false "mean" [] = point_of d i false "mean" [].
  Proof.
    intros W S H C. destruct (vp_dom_at b i d Hi W S H) as (n & A & (n' & D & F & P)). assert (n' = n) by (pose proof (ap_dims _ _ _ _ _ _ A); congruence). subst n'.
    rewrite C in A, P; cbn iota in P; set (p := point_of d i) in *; change (point_of d i) with p in P. destruct P as [P1 P2].
    destruct (gamma_vp_nat_at b i Hi d n p A P2) as (q & Q1 & Q2). assert (R : 0 < p false "mean" [] / p false "variance" []) by (apply Rdiv_lt_0_compat; assumption).
    assert (DN : nat_dom Gamma n (gnR p)). { cbn [nat_dom]; mkv. pose proof (Rmult_lt_0_compat _ _ P1 R). lra. }
    destruct (gamma_np_var_at b i Hi q n _ Q2 (proj1 DN)) as (r & R1 & R2). destruct (exp_at solve b i q Gamma n _ Hi Q2 DN Logic.I) as (e & X1 & X2).
    exists q, r, e. split; [exact Q1|]. split; [eapply at_pt_nat_dom; eauto|]. split; [exact R1|]. split; [exact (at_pt_params _ _ _ _ _ _ _ A (at_pt_eq _ _ _ _ _ _ _ R2 (g_nv p n P1 P2)))|].
    split; [unfold vp_to_exp; rewrite C, Q1; exact X1|]. split; [eapply at_pt_exp_dom; eauto; now apply exp_ok|]. split; [rewrite (api_exp_leaf _ _ Gamma); [exact X1|exact (ap_cls _ _ _ _ _ _ Q2)]|].
    pose proof (at_pt_pt _ _ _ _ _ _ Hi X2) as Q. ptrw Q (var "mean" (ScalarS positive_support)) (@nil nat). cbn [fd_name var]. mkv. field. split; lra.
  Qed.
  Theorem np_var_nat d : well_formed d = true -> leaf_shaped b d = true -> in_domain d i -> dcls d = NP Normal \/ dcls d = NP Gamma ->
    exists v r, np_to_var d = Ok v /\ vp_domain v i /\ vp_to_nat v = Ok r /\ same_params_at b i d r.
  Proof.
    intros W S H C. destruct C as [C|C]; destruct (nat_dom_at b i d _ Hi C W S H) as (n & A & P); set (p := point_of d i) in *; pose proof P as P'; cbn [nat_dom] in P.
    - destruct (exp_at solve b i d Normal n _ Hi A P Logic.I) as (e & X1 & X2). pose proof (exp_ok Normal n p P) as DE.
      destruct (normal_ep_var_at b i Hi e n _ X2) as (v & E1 & E2).
      assert (PV : 0 < evR (expR n p Normal) false "variance" []). { cbn [exp_dom] in DE. revert DE. mkv. lra. }
      destruct (normal_vp_nat_at b i Hi v n _ E2 PV) as (r & R1 & R2). exists v, r. split; [unfold np_to_var; rewrite C; cbn [l_to_exp fam_methods] in X1; rewrite X1; exact E1|]. split; [|split; [exact R1|]].
      + exists n. split; [exact (ap_dims _ _ _ _ _ _ E2)|]. split; [exact (at_pt_fin _ _ _ _ _ _ E2)|]. rewrite (ap_cls _ _ _ _ _ _ E2). cbv iota beta zeta. pose proof (at_pt_pt _ _ _ _ _ _ Hi E2) as Q.
        ptrw Q (var "variance" (ScalarS positive_support)) (@nil nat). exact PV.
      + eapply at_pt_params; [exact A|]. eapply at_pt_eq; [exact R2|]. pf; field; repeat split; lra.
    - destruct (gamma_np_var_at b i Hi d n _ A (proj1 P)) as (v & E1 & E2).
      assert (PM : 0 < gvR p false "mean" []). { mkv. apply Rdiv_lt_0_compat; lra. }
      assert (PV : 0 < gvR p false "variance" []). { mkv. apply Rdiv_lt_0_compat; [|lra]. apply Rdiv_lt_0_compat; lra. }
      destruct (gamma_vp_nat_at b i Hi v n _ E2 PV) as (r & R1 & R2). exists v, r. split; [exact E1|]. split; [|split; [exact R1|]].
      + exists n. split; [exact (ap_dims _ _ _ _ _ _ E2)|]. split; [exact (at_pt_fin _ _ _ _ _ _ E2)|]. rewrite (ap_cls _ _ _ _ _ _ E2). cbv iota beta zeta. pose proof (at_pt_pt _ _ _ _ _ _ Hi E2) as Q.
        ptrw Q (var "variance" (ScalarS positive_support)) (@nil nat).
        ptrw Q (var "mean" (ScalarS positive_support)) (@nil nat). exact (conj PM PV).
      + exact (at_pt_params _ _ _ _ _ _ _ A (at_pt_eq _ _ _ _ _ _ _ R2 (g_vn p n P'))).
  Qed.
End T.
