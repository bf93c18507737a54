(** C46: the Fisher information matrix exists, is symmetric and positive semidefinite. *)
From Coquelicot Require Import Coquelicot.
From Coq Require Import String List Bool Arith Reals Lia Lra FunctionalExtensionality.
From Verif Require Import Base XReal Tensor TensorFacts TensorFacts2 Support SupportSpec Dist DictFacts Iteration Structure Spec StructFacts AssembleFacts SumSpec DotSpec Tools FlattenSpec FlattenFacts RefillFacts
  ToolThms Joint StructThms FlattenThms MapFacts SumFacts JointThms JointThms2 SpecFun GammaFn Expr Fam ExprFacts FamTy FamFacts SearchFacts DotFacts Laws DotLaws BatchFacts PointSpec PointFacts Val MatFacts MatVal FamR FamVal ConvFacts LeafVal ConvThms DerivFacts MatDeriv MatHess MatBreg DerivThms
  KlPos InjThms HessFacts Fisher FisherSpec FisherThms FlatLin.
Import ListNotations.
Local Unset Asymmetric Patterns.
Local Open Scope string_scope.
Local Open Scope R_scope.

(** ** positive semidefinite matrices have non-negative determinants *)
Definition qform (n : nat) (m : nat -> nat -> R) (z : nat -> R) : R := sumR n (fun a => sumR n (fun c => z a * m a c * z c)).
Lemma qform_shift n m z e : qform n (fun a c => m a c + e * (if Nat.eqb a c then 1 else 0)) z = qform n m z + e * sumR n (fun a => z a * z a).
Proof.
  unfold qform. rewrite <- sumR_scal, <- sumR_plus. apply sumR_ext. intros a Ha.
  rewrite (sumR_ext n _ (fun c => z a * m a c * z c + e * (z a * z c * (if Nat.eqb c a then 1 else 0)))) by (intros c _; rewrite Nat.eqb_sym; ring). rewrite sumR_plus. f_equal. rewrite sumR_scal. f_equal.
  clear m. revert a Ha. generalize z at 1 3. intros y a Ha. induction n as [|n IH]; [lia|]. rewrite sumR_S. destruct (Nat.eq_dec a n) as [->|Ne].
  - rewrite Nat.eqb_refl. rewrite sumR_zero; [ring|]. intros k Hk. assert ((k =? n)%nat = false) as -> by (apply Nat.eqb_neq; lia). ring.
  - rewrite IH by lia. assert ((n =? a)%nat = false) as -> by (apply Nat.eqb_neq; lia). ring.
Qed.
Lemma psd_det n m : (forall a c, (a < n)%nat -> (c < n)%nat -> m a c = m c a) -> (forall z, 0 <= qform n m z) -> 0 <= rdet n m.
Proof.
  intros Sy P. destruct (Rle_or_lt 0 (rdet n m)) as [|N]; [assumption|exfalso].
  assert (D : DV (fun s => rdet n (fun a c => m a c + s * (if Nat.eqb a c then 1 else 0))) (rdet n m) (rdet n m * sumR n (fun k => sumR n (fun j => (if Nat.eqb k j then 1 else 0) * rinv n m j k)))).
  { apply DV_rdet; [|lra]. intros a c _ _. apply DV_lin. }
  pose proof (loc_lt _ _ _ _ _ _ D (DV_const 0) N) as [e L]. pose proof (cond_pos e) as Pe. specialize (L (e / 2)). cbv beta in L.
  assert (X : rdet n (fun a c => m a c + e / 2 * (if Nat.eqb a c then 1 else 0)) < 0). { apply L. unfold ball; cbn; unfold AbsRing_ball, abs, minus, plus, opp; cbn. rewrite Ropp_0, Rplus_0_r, Rabs_right; lra. }
  assert (Y : spd n (fun a c => m a c + e / 2 * (if Nat.eqb a c then 1 else 0))).
  { split; [intros a c Ha Hc; rewrite (Sy a c Ha Hc), Nat.eqb_sym; reflexivity|]. intros z (k & Hk & Zk). change (0 < qform n (fun a c => m a c + e / 2 * (if Nat.eqb a c then 1 else 0)) z). rewrite qform_shift.
    pose proof (P z). assert (0 < sumR n (fun a => z a * z a)). { apply Rlt_le_trans with (z k * z k); [nra|]. apply (sumR_term n (fun a => z a * z a)); [intros; nra|exact Hk]. } nra. }
  pose proof (spd_det n _ Y). lra.
Qed.

(** ** second derivatives of one log-normalizer *)
Definition hL (f : family) (n : nat) (p u v : point) : R := Derive (fun s => dotP (NP f) (EP f) n u (expR n (padd (NP f) p v s) f)) 0.
Lemma hL_derive f n p u v : nat_dom f n p -> sym_dir f n u -> sym_dir f n v -> is_derive (fun s => dotP (NP f) (EP f) n u (expR n (padd (NP f) p v s) f)) 0 (hL f n p u v).
Proof. intros K Su Sv. destruct (hess f n p K) as (H & D & _). destruct (D u v Su Sv) as [_ X]. unfold hL. rewrite (is_derive_unique _ _ _ X). exact X. Qed.
Lemma hL_sym f n p u v : nat_dom f n p -> sym_dir f n u -> sym_dir f n v -> hL f n p u v = hL f n p v u.
Proof.
  intros K Su Sv. destruct (hess f n p K) as (H & D & E). destruct (D u v Su Sv) as [_ X]. destruct (D v u Sv Su) as [_ Y]. unfold hL. now rewrite (is_derive_unique _ _ _ X), (is_derive_unique _ _ _ Y).
Qed.
(** the linear combination of k directions *)
Definition comb (k : nat) (w : nat -> R) (u : nat -> point) : point := fun c nm j => sumR k (fun a => w a * u a c nm j).
Lemma dot_comb c c' n k w u e : dotP c c' n (comb k w u) e = sumR k (fun a => w a * dotP c c' n (u a) e).
Proof.
  unfold dotP, comb. induction k as [|k IH].
  - rewrite sumR_0. induction (combine _ _) as [|x l Il]; [reflexivity|]. cbn [map rsum]. rewrite Il, Rplus_0_r. clear. induction (indices _) as [|j l IH]; [reflexivity|]. cbn [map rsum]. rewrite IH, !sumR_0. ring.
  - rewrite sumR_S, <- IH. clear IH. induction (combine _ _) as [|x l Il]; [cbn; ring|]. cbn [map rsum]. rewrite Il.
    assert (E : forall l, rsum (map (fun j => sumR (S k) (fun a => w a * u a false (fd_name (fst x)) j) * e false (fd_name (snd x)) j - sumR (S k) (fun a => w a * u a true (fd_name (fst x)) j) * e true (fd_name (snd x)) j) l)
      = rsum (map (fun j => sumR k (fun a => w a * u a false (fd_name (fst x)) j) * e false (fd_name (snd x)) j - sumR k (fun a => w a * u a true (fd_name (fst x)) j) * e true (fd_name (snd x)) j) l)
        + w k * rsum (map (fun j => u k false (fd_name (fst x)) j * e false (fd_name (snd x)) j - u k true (fd_name (fst x)) j * e true (fd_name (snd x)) j) l)).
    { induction l0 as [|j l0 IH]; cbn [map rsum]; [ring|]. rewrite IH, !sumR_S. ring. }
    rewrite E. ring.
Qed.
Lemma sym_comb f n k w u : (forall a, (a < k)%nat -> sym_dir f n (u a)) -> sym_dir f n (comb k w u).
Proof.
  intros H. destruct f; try exact Logic.I; cbn [sym_dir] in *; intros a c Ha Hc; unfold comb.
  - split; [apply sumR_ext; intros m Hm; now rewrite (proj1 (H m Hm a c Ha Hc))|]. rewrite <- sumR_opp. apply sumR_ext. intros m Hm. rewrite (proj2 (H m Hm a c Ha Hc)). ring.
  - apply sumR_ext. intros m Hm. now rewrite (H m Hm a c Ha Hc).
Qed.
Lemma real_comb f k w u : (forall a, (a < k)%nat -> real_im (NP f) (u a)) -> real_im (NP f) (comb k w u).
Proof. intros H g j I K. unfold comb. apply sumR_zero. intros a Ha. rewrite (H a Ha g j I K). ring. Qed.
Lemma hL_comb f n p k w u v : nat_dom f n p -> (forall a, (a < k)%nat -> sym_dir f n (u a)) -> sym_dir f n v -> hL f n p (comb k w u) v = sumR k (fun a => w a * hL f n p (u a) v).
Proof.
  intros K Su Sv. unfold hL at 1. apply is_derive_unique. apply (is_derive_ext (fun s => sumR k (fun a => w a * dotP (NP f) (EP f) n (u a) (expR n (padd (NP f) p v s) f)))); [intros s; symmetry; apply dot_comb|].
  induction k as [|k IH]; [rewrite sumR_0; exact (is_derive_const 0 0)|]. rewrite sumR_S. apply (is_derive_ext (fun s => plus (sumR k (fun a => w a * dotP (NP f) (EP f) n (u a) (expR n (padd (NP f) p v s) f))) (w k * dotP (NP f) (EP f) n (u k) (expR n (padd (NP f) p v s) f)))); [intros s; now rewrite sumR_S|].
  apply @is_derive_plus; [apply IH; intros a Ha; apply Su; lia|]. apply is_derive_scal. apply hL_derive; auto.
Qed.
Lemma hL_psd f n p k w u : nat_dom f n p -> (forall a, (a < k)%nat -> sym_dir f n (u a) /\ real_im (NP f) (u a)) -> 0 <= sumR k (fun a => sumR k (fun c => w a * hL f n p (u c) (u a) * w c)).
Proof.
  intros K H. set (z := comb k w u). assert (Sz : sym_dir f n z) by (apply sym_comb; intros a Ha; apply (H a Ha)).
  assert (E : sumR k (fun a => sumR k (fun c => w a * hL f n p (u c) (u a) * w c)) = hL f n p z z).
  { unfold z at 1. rewrite hL_comb; [|exact K|intros a Ha; apply (H a Ha)|exact Sz]. apply sumR_ext. intros a Ha. rewrite (hL_sym f n p (u a) z K (proj1 (H a Ha)) Sz). unfold z. rewrite hL_comb; [|exact K|intros c Hc; apply (H c Hc)|apply (H a Ha)].
    rewrite <- sumR_scal. apply sumR_ext. intros c Hc. ring. }
  rewrite E. eapply (hess_psd f n p z _ Sz K); [apply real_comb; intros a Ha; apply (H a Ha)|now apply hL_derive].
Qed.

(** ** the points p + s v + t w are in the domain for small s and t *)
Lemma padd_at c p v s k nm j : padd c p v s k nm j = if existsb (fun f => fd_fixed f && String.eqb (fd_name f) nm)%bool (fields c) then p k nm j else p k nm j + s * v k nm j.
Proof. reflexivity. Qed.
Lemma mat_dom_ext f n p q : mat f = true -> (forall k nm j, p k nm j = q k nm j) -> nat_dom f n p -> nat_dom f n q.
Proof. intros _ E H. assert (p = q) as <-; [|exact H]. extensionality k. extensionality nm. extensionality j. apply E. Qed.
Lemma cone a1 b1 c1 a2 b2 c2 : c1 < 0 -> a1 * a1 + b1 * b1 < c1 * c1 -> c2 < 0 -> a2 * a2 + b2 * b2 < c2 * c2 ->
  (a1 + a2) * (a1 + a2) + (b1 + b2) * (b1 + b2) < (c1 + c2) * (c1 + c2).
Proof.
  intros H1 H2 H3 H4. assert (Y : 0 < c1 * c2) by nra. assert (X : (a1 * a2 + b1 * b2) * (a1 * a2 + b1 * b2) < (c1 * c2) * (c1 * c2)).
  { apply Rle_lt_trans with ((a1 * a1 + b1 * b1) * (a2 * a2 + b2 * b2)); [pose proof (Rle_0_sqr (a1 * b2 - b1 * a2)) as Z; unfold Rsqr in Z; lra|].
    replace (c1 * c2 * (c1 * c2)) with ((c1 * c1) * (c2 * c2)) by ring. pose proof (Rle_0_sqr a1). pose proof (Rle_0_sqr b1). pose proof (Rle_0_sqr a2). pose proof (Rle_0_sqr b2). unfold Rsqr in *. apply Rle_lt_trans with ((c1 * c1) * (a2 * a2 + b2 * b2)); [apply Rmult_le_compat_r; lra|apply Rmult_lt_compat_l; lra]. }
  assert (a1 * a2 + b1 * b2 < c1 * c2) by nra. lra.
Qed.
Lemma mid f n p v w s t : f <> VonMisesFisher -> nat_dom f n (padd (NP f) p v (2 * s)) -> nat_dom f n (padd (NP f) p w (2 * t)) -> nat_dom f n (padd (NP f) (padd (NP f) p v s) w t).
Proof.
  intros Nv A B. destruct (mat f) eqn:M.
  - pose proof (mat_convex f n _ _ (1 / 2) M A B ltac:(lra)) as C. refine (mat_dom_ext f n _ _ M _ C). intros k nm j. rewrite !padd_at. destruct (existsb _ _); [reflexivity|]. field.
  - destruct f; try discriminate M; try (now destruct Nv); revert A B; cbn [nat_dom]; adds; try (intros; exact Logic.I); try lra.
    + intros [N A] [_ B]. split; [exact N|]. intros k K. specialize (A k K). specialize (B k K). lra.
    + intros [A1 A2] [B1 B2]. split; [lra|]. pose proof (cone _ _ _ _ _ _ A1 A2 B1 B2) as C. lra.
    + intros [N A] [_ B]. split; [exact N|]. intros k K. specialize (A k K). specialize (B k K). lra.
    + intros A B k K. specialize (A k K). specialize (B k K). lra.
    + intros A B k K. specialize (A k K). specialize (B k K). lra.
    + intros [N A] [_ B]. split; [exact N|]. lra.
    + intros [A1 A2] [B1 B2]. split; [lra|exact A2].
Qed.
Lemma abs2 e s : Rabs s < e / 2 -> Rabs (2 * s) < e.
Proof. intros H. rewrite Rabs_mult, (Rabs_right 2) by lra. lra. Qed.
Lemma box f n p v w : sym_dir f n v -> sym_dir f n w -> nat_dom f n p -> exists eps, 0 < eps /\ forall s t, Rabs s < eps -> Rabs t < eps -> nat_dom f n (padd (NP f) (padd (NP f) p v s) w t).
Proof.
  intros Sv Sw K. assert (V : f = VonMisesFisher \/ f <> VonMisesFisher) by (destruct f; (left; reflexivity) || (right; discriminate)). destruct V as [->|V].
  - destruct K as (k & Hk & Pk). set (x := p false "mean_times_concentration" [k]) in *. set (a := v false "mean_times_concentration" [k]). set (c := w false "mean_times_concentration" [k]).
    assert (Lv : forall a, locally 0 (fun s => 0 < x * (x + s * a))). { intros a'. eapply loc_lt; [apply DV_const|dv|]. assert (0 < x * x) by nra. lra. }
    destruct (Lv a) as [e1 L1]. destruct (Lv c) as [e2 L2]. pose proof (cond_pos e1). pose proof (cond_pos e2). exists (Rmin (e1 / 2) (e2 / 2)). split; [apply Rmin_glb_lt; lra|]. intros s t Hs Ht.
    pose proof (Rmin_l (e1 / 2) (e2 / 2)). pose proof (Rmin_r (e1 / 2) (e2 / 2)). pose proof (L1 (2 * s) (ball_abs e1 _ (abs2 e1 s ltac:(lra)))) as M1. pose proof (L2 (2 * t) (ball_abs e2 _ (abs2 e2 t ltac:(lra)))) as M2.
    cbn [nat_dom]. exists k. split; [exact Hk|]. adds. fold x a c. intros Z. assert (0 < x * (2 * x + 2 * s * a + 2 * t * c)) by lra. replace (2 * x + 2 * s * a + 2 * t * c) with (2 * (x + s * a + t * c)) in H3 by ring. rewrite Z in H3. lra.
  - destruct (dom_open_s f n p v Sv K) as [e1 L1]. destruct (dom_open_s f n p w Sw K) as [e2 L2]. pose proof (cond_pos e1). pose proof (cond_pos e2). exists (Rmin (e1 / 2) (e2 / 2)). split; [apply Rmin_glb_lt; lra|]. intros s t Hs Ht.
    pose proof (Rmin_l (e1 / 2) (e2 / 2)). pose proof (Rmin_r (e1 / 2) (e2 / 2)). apply mid; [exact V|apply L1, ball_abs, abs2; lra|apply L2, ball_abs, abs2; lra].
Qed.
Lemma eps_list {A} (l : list A) (P : A -> R -> R -> Prop) : (forall a, In a l -> exists eps, 0 < eps /\ forall s t, Rabs s < eps -> Rabs t < eps -> P a s t) -> exists eps, 0 < eps /\ forall s t, Rabs s < eps -> Rabs t < eps -> forall a, In a l -> P a s t.
Proof.
  induction l as [|a l IH]; intros H; [exists 1; split; [lra|]; intros s t _ _ a []|]. destruct (H a (or_introl eq_refl)) as (e1 & E1 & L1). destruct IH as (e2 & E2 & L2); [intros; apply H; now right|].
  exists (Rmin e1 e2). split; [now apply Rmin_glb_lt|]. intros s t Hs Ht x [<-|I]; [apply L1|apply L2; auto]; (eapply Rlt_le_trans; [eassumption|apply Rmin_l]) || (eapply Rlt_le_trans; [eassumption|apply Rmin_r]).
Qed.

(** ** points on the line between flat arrays *)
Lemma lin_at b i c n q v r s P : inb b i = true -> at_pt b i q c n P -> dcls r = c -> well_formed r = true -> leaf_shaped b r = true -> dims_of r = Ok n ->
  (forall f, In f (variable_fields c) -> forall j, inb (supp_shape (fd_support f) n) j = true -> ent_lin s (entry_c (gval q f) (i ++ j)%list) (entry_c (gval v f) (i ++ j)%list) (entry_c (gval r f) (i ++ j)%list)) ->
  (forall f, In f (fields c) -> fd_fixed f = true -> dget (dparams r) (fd_name f) = dget (dparams q) (fd_name f)) ->
  at_pt b i r c n (padd c P (point_of v i) s).
Proof.
  intros Hi A C W Sh D V X. split; try assumption. intros m k sh j E Hj. destruct (ctx_field _ _ _ _ _ E) as (f & I & <- & -> & ->).
  pose proof (ap_vals _ _ _ _ _ _ A _ _ _ j E Hj) as Q. destruct (ap_get _ _ _ _ _ _ f A I) as (x & X1 & X2 & X3). pose proof (fixed_names c f I) as N. destruct (fd_fixed f) eqn:Ef.
  - unfold vals_of in *. rewrite (X f I Ef), Q. assert (Z : forall k, padd c P (point_of v i) s k (fd_name f) j = P k (fd_name f) j) by (intros k; rewrite padd_at; now rewrite N). unfold pvals. destruct (kind_of (fd_support f)); rewrite ?Z; reflexivity.
  - assert (Z : forall k, padd c P (point_of v i) s k (fd_name f) j = P k (fd_name f) j + s * point_of v i k (fd_name f) j) by (intros k; rewrite padd_at; now rewrite N).
    assert (If : In f (variable_fields c)) by (apply filter_In; cbn; now rewrite Ef). specialize (V f If j Hj).
    assert (E' : dget (ctx_of (dcls r) n) (fd_name f) = Some (kind_of (fd_support f), supp_shape (fd_support f) n)) by (rewrite C; exact E).
    destruct (leaf_env b r n Sh D _ _ _ E') as (t & T1 & T2). unfold vals_of in *. unfold gval in V. rewrite T1 in *. rewrite X1 in *. rewrite get_pack. rewrite X3 in Q, V. clear X3.
    destruct V as (a & a' & c1 & c2 & V1 & V2 & V3). unfold pvals in *. destruct (kind_of (fd_support f)); cbn [pack] in *; rewrite ?Z.
    + set (y := match get_kind KR x with Ok t => t | Err _ => tscalar dflt end) in *. cbn [entry_c] in V1, V3. unfold cofr in V1, V3. injection V1 as V1 _. injection V3 as V3 _.
      assert (Q' : tget y (i ++ j)%list = Fin (P false (fd_name f) j)) by exact Q. etransitivity; [exact V3|]. pose proof (eq_trans (eq_sym V1) Q') as Q2. injection Q2 as ->. do 2 f_equal. f_equal.
      unfold point_of. destruct (dget (dparams v) (fd_name f)); [now rewrite V2|discriminate V2].
    + set (y := match get_kind KC x with Ok t => t | Err _ => tscalar dflt end) in *. cbn [entry_c] in V1, V3.
      assert (Q' : tget y (i ++ j)%list = XC (Fin (P false (fd_name f) j)) (Fin (P true (fd_name f) j))) by exact Q. etransitivity; [exact V3|]. pose proof (eq_trans (eq_sym V1) Q') as Q2. injection Q2 as -> ->.
      assert (G : forall k, point_of v i k (fd_name f) j = if k then c2 else c1). { intros k. unfold point_of. destruct (dget (dparams v) (fd_name f)); [rewrite V2; now destruct k|]. cbn in V2. injection V2 as V2 _. discriminate V2. }
      rewrite !G. reflexivity.
Qed.
