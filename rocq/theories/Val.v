(** Rules for the value of an array expression at one batch element, when every intermediate value is finite. *)
From Coq Require Import String List Bool Arith Reals Lia Lra.
From Coquelicot Require Import Coquelicot.
From Verif Require Import Base XReal Tensor TensorFacts TensorFacts2 BroadcastFacts Support Dist SpecFun Expr Fam ExprFacts FamTy DotFacts PointSpec PointFacts.
Import ListNotations.
Local Unset Asymmetric Patterns.
Local Open Scope list_scope.
Local Open Scope R_scope.

(** ** lists of indices *)
Lemma indices1 n : indices [n] = map (fun k => [k]) (seq 0 n).
Proof. cbn [indices]. induction (seq 0 n) as [|a l IH]; [reflexivity|]. cbn [flat_map map app] in *. now rewrite IH. Qed.
Lemma indices2 m n : indices [m; n] = flat_map (fun a => map (fun b => [a; b]) (seq 0 n)) (seq 0 m).
Proof.
  change (indices [m; n]) with (flat_map (fun k => map (cons k) (indices [n])) (seq 0 m)). rewrite indices1. apply flat_map_ext. intros a. now rewrite map_map.
Qed.
Lemma inb1 n j : inb [n] j = true -> exists k, j = [k] /\ (k < n)%nat.
Proof. destruct j as [|k [|? ?]]; cbn; try discriminate; intros H; rewrite ?andb_false_r in H; try discriminate. rewrite andb_true_r in H. apply Nat.ltb_lt in H. eauto. Qed.
Lemma inb0 j : inb [] j = true -> j = [].
Proof. destruct j; [reflexivity|discriminate]. Qed.
Lemma inb1_intro n k : (k < n)%nat -> inb [n] [k] = true.
Proof. intros H. cbn. rewrite andb_true_r. now apply Nat.ltb_lt. Qed.
Lemma inb2 m n j : inb [m; n] j = true -> exists a b, j = [a; b] /\ (a < m)%nat /\ (b < n)%nat.
Proof.
  destruct j as [|a j]; [discriminate|]. cbn [inb]. intros H. apply andb_prop in H as [H1 H2]. destruct (inb1 n j H2) as (b & -> & ?). apply Nat.ltb_lt in H1. eauto.
Qed.
Lemma inb2_intro m n a b : (a < m)%nat -> (b < n)%nat -> inb [m; n] [a; b] = true.
Proof. intros H K. cbn. rewrite andb_true_r. apply andb_true_intro. split; now apply Nat.ltb_lt. Qed.
Lemma sumR_ext n g h : (forall k, (k < n)%nat -> g k = h k) -> sumR n g = sumR n h.
Proof. intros H. unfold sumR. f_equal. apply map_ext_in. intros k K. apply in_seq in K. apply H. lia. Qed.
Lemma xsum_rows n (g : list nat -> xr) h : (forall k, (k < n)%nat -> g [k] = Fin (h k)) -> xsum (map g (indices [n])) = Fin (sumR n h).
Proof.
  intros H. rewrite indices1, map_map. unfold sumR. assert (A : forall k, In k (seq 0 n) -> g [k] = Fin (h k)) by (intros k K; apply in_seq in K; apply H; lia).
  revert A. generalize (seq 0 n). induction l as [|a l IH]; intros A; [reflexivity|]. cbn [map xsum fold_right]. rewrite (A a (or_introl eq_refl)). change (fold_right xadd (Fin 0) (map (fun x : nat => g [x]) l)) with (xsum (map (fun x : nat => g [x]) l)).
  rewrite IH by (intros; apply A; now right). reflexivity.
Qed.
Lemma map_rows n (g : list nat -> xr) h : (forall k, (k < n)%nat -> g [k] = Fin (h k)) -> map g (indices [n]) = map (fun k => Fin (h k)) (seq 0 n).
Proof. intros H. rewrite indices1, map_map. apply map_ext_in. intros k K. apply in_seq in K. apply H. lia. Qed.
Lemma xsum_seq n h : xsum (map (fun k => Fin (h k)) (seq 0 n)) = Fin (sumR n h).
Proof. unfold sumR. generalize (seq 0 n). induction l as [|a l IH]; [reflexivity|]. cbn [map xsum fold_right] in *. unfold xsum in IH. rewrite IH. reflexivity. Qed.
Lemma sumR_S n g : sumR (S n) g = sumR n g + g n.
Proof. unfold sumR. rewrite seq_S, map_app, Nat.add_0_l. cbn [map]. generalize (map g (seq 0 n)). induction l as [|a l IH]; cbn [fold_right app]; [ring|]. rewrite IH. ring. Qed.
Lemma sumR_0 g : sumR 0 g = 0. Proof. reflexivity. Qed.
Lemma sumR_Sl n g : sumR (S n) g = g 0%nat + sumR n (fun k => g (S k)).
Proof. unfold sumR. cbn [seq map fold_right]. f_equal. rewrite <- seq_shift, map_map. reflexivity. Qed.
Lemma sumR_plus n g h : sumR n (fun k => g k + h k) = sumR n g + sumR n h.
Proof. induction n; [rewrite !sumR_0; ring|]. rewrite !sumR_S, IHn. ring. Qed.
Lemma sumR_scal n c g : sumR n (fun k => c * g k) = c * sumR n g.
Proof. induction n; [rewrite !sumR_0; ring|]. rewrite !sumR_S, IHn. ring. Qed.
Lemma sumR_opp n g : sumR n (fun k => - g k) = - sumR n g.
Proof. induction n; [rewrite !sumR_0; ring|]. rewrite !sumR_S, IHn. ring. Qed.
Lemma sumR_minus n g h : sumR n (fun k => g k - h k) = sumR n g - sumR n h.
Proof. induction n; [rewrite !sumR_0; ring|]. rewrite !sumR_S, IHn. ring. Qed.
Lemma sumR_const n c : sumR n (fun _ => c) = INR n * c.
Proof. induction n; [rewrite sumR_0; cbn; ring|]. rewrite sumR_S, IHn, S_INR. ring. Qed.
Lemma sumR_pos n g : (forall k, (k < n)%nat -> 0 < g k) -> (0 < n)%nat -> 0 < sumR n g.
Proof.
  intros H N. induction n; [lia|]. rewrite sumR_S. destruct n; [rewrite sumR_0; specialize (H 0%nat ltac:(lia)); lra|].
  assert (0 < sumR (S n) g) by (apply IHn; [intros; apply H; lia|lia]). specialize (H (S n) ltac:(lia)). lra.
Qed.
Lemma sumR_nonneg n g : (forall k, (k < n)%nat -> 0 <= g k) -> 0 <= sumR n g.
Proof. intros H. induction n; [rewrite sumR_0; lra|]. rewrite sumR_S. specialize (IHn ltac:(intros; apply H; lia)). specialize (H n ltac:(lia)). lra. Qed.
Lemma sumR_le n g h : (forall k, (k < n)%nat -> g k <= h k) -> sumR n g <= sumR n h.
Proof. intros H. induction n; [rewrite !sumR_0; lra|]. rewrite !sumR_S. specialize (IHn ltac:(intros; apply H; lia)). specialize (H n ltac:(lia)). lra. Qed.
Lemma sumR_term n g k : (forall k, (k < n)%nat -> 0 <= g k) -> (k < n)%nat -> g k <= sumR n g.
Proof.
  intros H K. induction n; [lia|]. rewrite sumR_S. destruct (Nat.eq_dec k n) as [->|N].
  - assert (0 <= sumR n g) by (apply sumR_nonneg; intros; apply H; lia). lra.
  - specialize (IHn ltac:(intros; apply H; lia) ltac:(lia)). specialize (H n ltac:(lia)). lra.
Qed.
Lemma sumR_zero n g : (forall k, (k < n)%nat -> g k = 0) -> sumR n g = 0.
Proof. intros H. rewrite (sumR_ext n g (fun _ => 0) H), sumR_const. ring. Qed.

(** ** values *)
Definition V {k} (G : ctx) (p : point) (e : aexp k) (τ : tsh) (v : list nat -> elt k) : Prop :=
  exists d, ty G k e τ d /\ forall j, inb (evs τ) j = true -> d (pvals p) j = v j.
Definition VR (G : ctx) (p : point) (e : aexp KR) (τ : tsh) (r : list nat -> R) : Prop := V (k := KR) G p e τ (fun j => Fin (r j)).
Definition VC (G : ctx) (p : point) (e : aexp KC) (τ : tsh) (z : list nat -> C) : Prop := V (k := KC) G p e τ (fun j => XC (Fin (fst (z j))) (Fin (snd (z j)))).

(** how the operands of a binary operation are aligned *)
Inductive al : tsh -> tsh -> tsh -> (list nat -> list nat) -> (list nat -> list nat) -> Prop :=
  | al_same τ : al τ τ τ (fun j => j) (fun j => j)
  | al_nl s : al Num (Ev s) (Ev s) (fun _ => []) (fun j => j)
  | al_nr s : al (Ev s) Num (Ev s) (fun j => j) (fun _ => [])
  | al_1n n : al (Ev [1%nat]) (Ev [n]) (Ev [n]) (fun _ => [0%nat]) (fun j => j)
  | al_n1 n : al (Ev [n]) (Ev [1%nat]) (Ev [n]) (fun j => j) (fun _ => [0%nat]).
Lemma F2_b1_refl s : Forall2 b1 s s.
Proof. induction s; constructor; [now left|assumption]. Qed.
Lemma al_sub τ1 τ2 τ a1 a2 : al τ1 τ2 τ a1 a2 -> sub τ1 τ /\ sub τ2 τ /\ (τ = τ1 \/ τ = τ2).
Proof.
  intros []; repeat split; auto using sub_refl; cbn; auto using F2_b1_refl; (constructor; [now right|constructor]).
Qed.
Lemma al_idx τ1 τ2 τ a1 a2 j : al τ1 τ2 τ a1 a2 -> inb (evs τ) j = true ->
  bidx (evs τ1) j = a1 j /\ bidx (evs τ2) j = a2 j /\ inb (evs τ1) (a1 j) = true /\ inb (evs τ2) (a2 j) = true.
Proof.
  intros [τ0|s|s|n|n] Hj; cbn [evs] in *; rewrite ?(bidx_id _ j Hj); repeat split; auto; try (unfold bidx; cbn [length]; rewrite Nat.sub_0_r, skipn_all; reflexivity);
    destruct (inb1 _ _ Hj) as (k & -> & _); reflexivity.
Qed.
Section Rules.
  Variables (G : ctx) (p : point).
  Notation VR := (VR G p). Notation VC := (VC G p).
  Lemma V_map {k1 k2} (f : elt k1 -> elt k2) e τ v w : V (k := k1) G p e τ v -> (forall j, inb (evs τ) j = true -> f (v j) = w j) -> V (k := k2) G p (EMap f e) τ w.
  Proof. intros (d & T & H) W. eexists. split; [apply T_map; exact T|]. intros j Hj. cbn beta. now rewrite (H j Hj), (W j Hj). Qed.
  Lemma V_map2 {k1 k2 k3} (f : elt k1 -> elt k2 -> elt k3) e1 e2 τ1 τ2 τ a1 a2 v1 v2 w : V (k := k1) G p e1 τ1 v1 -> V (k := k2) G p e2 τ2 v2 -> al τ1 τ2 τ a1 a2 ->
    (forall j, inb (evs τ) j = true -> f (v1 (a1 j)) (v2 (a2 j)) = w j) -> V (k := k3) G p (EMap2 f e1 e2) τ w.
  Proof.
    intros (d1 & T1 & H1) (d2 & T2 & H2) A W. destruct (al_sub _ _ _ _ _ A) as (S1 & S2 & S3). eexists. split; [eapply T_map2; eassumption|]. intros j Hj. cbn beta.
    destruct (al_idx _ _ _ _ _ j A Hj) as (E1 & E2 & I1 & I2). now rewrite E1, E2, (H1 _ I1), (H2 _ I2), (W j Hj).
  Qed.
  Lemma V_ext {k} e τ v w : V (k := k) G p e τ v -> (forall j, inb (evs τ) j = true -> v j = w j) -> V (k := k) G p e τ w.
  Proof. intros (d & T & H) W. exists d. split; [exact T|]. intros j Hj. now rewrite (H j Hj), (W j Hj). Qed.
  Lemma VR_ext e τ r r' : VR e τ r -> (forall j, inb (evs τ) j = true -> r j = r' j) -> VR e τ r'.
  Proof. intros H W. apply (V_ext _ _ _ _ H). intros j Hj. now rewrite (W j Hj). Qed.
  Lemma VC_ext e τ r r' : VC e τ r -> (forall j, inb (evs τ) j = true -> r j = r' j) -> VC e τ r'.
  Proof. intros H W. apply (V_ext _ _ _ _ H). intros j Hj. now rewrite (W j Hj). Qed.
  (** leaves *)
  Lemma VR_self n s : dget G n = Some (KR, s) -> VR (self n) (Ev s) (fun j => p false n j).
  Proof. intros E. eexists. split; [now apply T_var|]. reflexivity. Qed.
  Lemma VC_self n s : dget G n = Some (KC, s) -> VC (selfc n) (Ev s) (fun j => (p false n j, p true n j)).
  Proof. intros E. eexists. split; [now apply T_var|]. reflexivity. Qed.
  Lemma VR_num x : VR (ENum x) Num (fun _ => x).
  Proof. eexists. split; [apply T_num|]. reflexivity. Qed.
  Lemma VR_dim n k s m : dget G n = Some (k, s) -> last_dim s = Some m -> VR (EDim n) Num (fun _ => INR m).
  Proof. intros E L. eexists. split; [eapply T_dim; eassumption|]. reflexivity. Qed.
  Lemma VR_zeros {k} drop (e : aexp k) s v : V G p e (Ev s) v -> (drop <= length s)%nat -> VR (EZeros drop e) (Ev (firstn (length s - drop) s)) (fun _ => 0).
  Proof. intros (d & T & _) L. eexists. split; [eapply T_zeros; eassumption|]. reflexivity. Qed.
  (** elementwise *)
  Lemma VR_1 (F : xr -> xr) (g : R -> R) (P : R -> Prop) e τ r : (forall x, P x -> F (Fin x) = Fin (g x)) -> VR e τ r -> (forall j, inb (evs τ) j = true -> P (r j)) ->
    VR (@EMap KR KR F e) τ (fun j => g (r j)).
  Proof. intros H A B. eapply V_map; [exact A|]. intros j Hj. cbn beta. apply H. now apply B. Qed.
  Lemma VR_2 (F : xr -> xr -> xr) (g : R -> R -> R) (P : R -> R -> Prop) e1 e2 τ1 τ2 τ a1 a2 r1 r2 : (forall x y, P x y -> F (Fin x) (Fin y) = Fin (g x y)) ->
    VR e1 τ1 r1 -> VR e2 τ2 r2 -> al τ1 τ2 τ a1 a2 -> (forall j, inb (evs τ) j = true -> P (r1 (a1 j)) (r2 (a2 j))) -> VR (@EMap2 KR KR KR F e1 e2) τ (fun j => g (r1 (a1 j)) (r2 (a2 j))).
  Proof. intros H A B C D. eapply V_map2; [exact A|exact B|exact C|]. intros j Hj. cbn beta. apply H. now apply D. Qed.
  Ltac op := first [eapply (VR_2 _ _ (fun _ _ => True)) | eapply (VR_1 _ _ (fun _ => True))]; eauto.
  Lemma VR_add e1 e2 τ1 τ2 τ a1 a2 r1 r2 : VR e1 τ1 r1 -> VR e2 τ2 r2 -> al τ1 τ2 τ a1 a2 -> VR (eadd e1 e2) τ (fun j => r1 (a1 j) + r2 (a2 j)).
  Proof. intros. unfold eadd. eapply (VR_2 xadd Rplus (fun _ _ => True)); eauto. Qed.
  Lemma VR_sub e1 e2 τ1 τ2 τ a1 a2 r1 r2 : VR e1 τ1 r1 -> VR e2 τ2 r2 -> al τ1 τ2 τ a1 a2 -> VR (esub e1 e2) τ (fun j => r1 (a1 j) - r2 (a2 j)).
  Proof. intros. unfold esub. eapply (VR_2 xsub Rminus (fun _ _ => True)); eauto. Qed.
  Lemma VR_mul e1 e2 τ1 τ2 τ a1 a2 r1 r2 : VR e1 τ1 r1 -> VR e2 τ2 r2 -> al τ1 τ2 τ a1 a2 -> VR (emul e1 e2) τ (fun j => r1 (a1 j) * r2 (a2 j)).
  Proof. intros. unfold emul. eapply (VR_2 xmul Rmult (fun _ _ => True)); eauto. Qed.
  Lemma xdiv_fin x y : y <> 0 -> xdiv (Fin x) (Fin y) = Fin (x / y).
  Proof. intros H. cbn. destruct (Req_EM_T y 0); [contradiction|reflexivity]. Qed.
  Lemma VR_div e1 e2 τ1 τ2 τ a1 a2 r1 r2 : VR e1 τ1 r1 -> VR e2 τ2 r2 -> al τ1 τ2 τ a1 a2 -> (forall j, inb (evs τ) j = true -> r2 (a2 j) <> 0) -> VR (ediv e1 e2) τ (fun j => r1 (a1 j) / r2 (a2 j)).
  Proof. intros. unfold ediv. eapply (VR_2 xdiv Rdiv (fun _ y => y <> 0)); eauto. intros; now apply xdiv_fin. Qed.
  Lemma VR_neg e τ r : VR e τ r -> VR (eneg e) τ (fun j => - r j).
  Proof. intros. unfold eneg. eapply (VR_1 xneg Ropp (fun _ => True)); eauto. Qed.
  Lemma VR_square e τ r : VR e τ r -> VR (jsquare e) τ (fun j => r j * r j).
  Proof. intros. unfold jsquare. eapply (VR_1 xsquare (fun x => x * x) (fun _ => True)); eauto. Qed.
  Lemma VR_exp e τ r : VR e τ r -> VR (jexp e) τ (fun j => exp (r j)).
  Proof. intros. unfold jexp. eapply (VR_1 xexp exp (fun _ => True)); eauto. Qed.
  Lemma xlog_pos x : 0 < x -> xlog (Fin x) = Fin (ln x).
  Proof. intros H. cbn. destruct (Rlt_dec 0 x); [reflexivity|contradiction]. Qed.
  Lemma VR_log e τ r : VR e τ r -> (forall j, inb (evs τ) j = true -> 0 < r j) -> VR (jlog e) τ (fun j => ln (r j)).
  Proof. intros. unfold jlog. eapply (VR_1 xlog ln (fun x => 0 < x)); eauto. apply xlog_pos. Qed.
  Lemma VR_log1p e τ r : VR e τ r -> (forall j, inb (evs τ) j = true -> 0 < 1 + r j) -> VR (jlog1p e) τ (fun j => ln (1 + r j)).
  Proof. intros. unfold jlog1p. eapply (VR_1 xlog1p (fun x => ln (1 + x)) (fun x => 0 < 1 + x)); eauto. intros. unfold xlog1p. now apply xlog_pos. Qed.
  Lemma VR_expm1 e τ r : VR e τ r -> VR (jexpm1 e) τ (fun j => exp (r j) - 1).
  Proof. intros. unfold jexpm1. eapply (VR_1 xexpm1 (fun x => exp x - 1) (fun _ => True)); eauto. Qed.
  Lemma VR_gammaln e τ r : VR e τ r -> (forall j, inb (evs τ) j = true -> 0 < r j) -> VR (gammaln e) τ (fun j => lngamma (r j)).
  Proof. intros. unfold gammaln. eapply (VR_1 xgammaln lngamma (fun x => 0 < x)); eauto. intros x H1. unfold xgammaln. destruct (Rlt_dec 0 x); [reflexivity|contradiction]. Qed.
  Lemma VR_digamma e τ r : VR e τ r -> (forall j, inb (evs τ) j = true -> 0 < r j) -> VR (jdigamma e) τ (fun j => digamma (r j)).
  Proof. intros. unfold jdigamma. eapply (VR_1 xdigamma digamma (fun x => 0 < x)); eauto. intros x H1. unfold xdigamma. destruct (Rlt_dec 0 x); [reflexivity|contradiction]. Qed.
  Lemma VR_softplus e τ r : VR e τ r -> VR (softplus e) τ (fun j => ln (1 + exp (r j))).
  Proof. intros. unfold softplus. eapply (VR_1 xsoftplus (fun x => ln (1 + exp x)) (fun _ => True)); eauto. intros x _. unfold xsoftplus. cbn [xexp xadd]. apply xlog_pos. pose proof (exp_pos x). lra. Qed.
  Lemma VR_expit e τ r : VR e τ r -> VR (r1 xexpit e) τ (fun j => expit (r j)).
  Proof. intros. eapply (VR_1 xexpit expit (fun _ => True)); eauto. Qed.
  Lemma VR_logit e τ r : VR e τ r -> (forall j, inb (evs τ) j = true -> 0 < r j < 1) -> VR (r1 xlogit e) τ (fun j => ln (r j / (1 - r j))).
  Proof.
    intros. eapply (VR_1 xlogit (fun x => ln (x / (1 - x))) (fun x => 0 < x < 1)); eauto. intros x Hx. unfold xlogit. change (xsub (Fin 1) (Fin x)) with (Fin (1 - x)). rewrite xdiv_fin by lra.
    apply xlog_pos. apply Rdiv_lt_0_compat; lra.
  Qed.
  Lemma VR_logaddexp e1 e2 τ1 τ2 τ a1 a2 r1 r2 : VR e1 τ1 r1 -> VR e2 τ2 r2 -> al τ1 τ2 τ a1 a2 -> VR (logaddexp e1 e2) τ (fun j => ln (exp (r1 (a1 j)) + exp (r2 (a2 j)))).
  Proof.
    intros. unfold logaddexp. eapply (VR_2 xlogaddexp (fun x y => ln (exp x + exp y)) (fun _ _ => True)); eauto. intros x y _. unfold xlogaddexp. cbn [xexp xadd]. apply xlog_pos.
    pose proof (exp_pos x). pose proof (exp_pos y). lra.
  Qed.
  Lemma VR_max e1 e2 τ1 τ2 τ a1 a2 r1 r2 : VR e1 τ1 r1 -> VR e2 τ2 r2 -> al τ1 τ2 τ a1 a2 -> VR (@EMap2 KR KR KR xmax e1 e2) τ (fun j => Rmax (r1 (a1 j)) (r2 (a2 j))).
  Proof.
    intros. eapply (VR_2 xmax Rmax (fun _ _ => True)); eauto. intros x y _. unfold xmax, xltb, rltb, Rmax. destruct (Rlt_dec x y), (Rle_dec x y); try reflexivity; f_equal; lra.
  Qed.
  Lemma VR_betaln e1 e2 τ1 τ2 τ a1 a2 r1 r2 : VR e1 τ1 r1 -> VR e2 τ2 r2 -> al τ1 τ2 τ a1 a2 -> (forall j, inb (evs τ) j = true -> 0 < r1 (a1 j) /\ 0 < r2 (a2 j)) ->
    VR (@EMap2 KR KR KR xbetaln e1 e2) τ (fun j => lngamma (r1 (a1 j)) + lngamma (r2 (a2 j)) - lngamma (r1 (a1 j) + r2 (a2 j))).
  Proof.
    intros. eapply (VR_2 xbetaln (fun x y => lngamma x + lngamma y - lngamma (x + y)) (fun x y => 0 < x /\ 0 < y)); eauto. intros x y [Hx Hy]. unfold xbetaln. cbn [xadd xgammaln].
    destruct (Rlt_dec 0 x); [|contradiction]. destruct (Rlt_dec 0 y); [|contradiction]. destruct (Rlt_dec 0 (x + y)); [reflexivity|lra].
  Qed.
  Lemma VR_pow e1 e2 τ1 τ2 τ a1 a2 r1 r2 : VR e1 τ1 r1 -> VR e2 τ2 r2 -> al τ1 τ2 τ a1 a2 -> (forall j, inb (evs τ) j = true -> 0 < r1 (a1 j)) -> VR (jpow e1 e2) τ (fun j => Rpower (r1 (a1 j)) (r2 (a2 j))).
  Proof. intros. unfold jpow. eapply (VR_2 xpow Rpower (fun x _ => 0 < x)); eauto. intros x y Hx. cbn. destruct (Rlt_dec 0 x); [reflexivity|contradiction]. Qed.
  Lemma VR_log_ive e1 e2 τ1 τ2 τ a1 a2 r1 r2 : VR e1 τ1 r1 -> VR e2 τ2 r2 -> al τ1 τ2 τ a1 a2 -> (forall j, inb (evs τ) j = true -> 0 < r2 (a2 j)) ->
    VR (@EMap2 KR KR KR xlog_ive e1 e2) τ (fun j => ln (bessel_i (r1 (a1 j)) (r2 (a2 j))) - r2 (a2 j)).
  Proof. intros. eapply (VR_2 xlog_ive (fun v z => ln (bessel_i v z) - z) (fun _ z => 0 < z)); eauto. intros x y Hx. cbn. destruct (Rlt_dec 0 y); [reflexivity|contradiction]. Qed.
  Lemma VR_iv_ratio e1 e2 τ1 τ2 τ a1 a2 r1 r2 : VR e1 τ1 r1 -> VR e2 τ2 r2 -> al τ1 τ2 τ a1 a2 -> (forall j, inb (evs τ) j = true -> 0 < r2 (a2 j)) ->
    VR (@EMap2 KR KR KR xiv_ratio e1 e2) τ (fun j => bessel_i (r1 (a1 j)) (r2 (a2 j)) / bessel_i (r1 (a1 j) - 1) (r2 (a2 j))).
  Proof. intros. eapply (VR_2 xiv_ratio (fun v z => bessel_i v z / bessel_i (v - 1) z) (fun _ z => 0 < z)); eauto. intros x y Hx. cbn. destruct (Rlt_dec 0 y); [reflexivity|contradiction]. Qed.
  (** reductions *)
  Lemma V_red {k1 k2} (g : list (elt k1) -> elt k2) e n v w : V (k := k1) G p e (Ev [n]) v -> g (map v (indices [n])) = w -> V (k := k2) G p (EGu (g_red g) e) (Ev []) (fun _ => w).
  Proof.
    intros (d & T & H) W. eexists. split; [eapply T_eq; [eapply T_gu; [exact T|reflexivity|reflexivity]|reflexivity]|]. intros j Hj. cbn beta. cbn [g_red g_fun].
    rewrite <- W. f_equal. apply map_ext_in. intros a Ha. apply H. now apply in_indices.
  Qed.
  Lemma V_keep (g : list xr -> xr) e n v w : V (k := KR) G p e (Ev [n]) v -> g (map (fun m => v [m]) (seq 0 n)) = w -> V (k := KR) G p (@EKeep KR g e) (Ev [1%nat]) (fun _ => w).
  Proof.
    intros (d & T & H) W. eexists. split; [eapply T_eq; [eapply (T_keep G KR g e [] n); exact T|reflexivity]|]. intros j Hj. cbn beta.
    destruct (inb1 _ _ Hj) as (k & -> & _). cbn [removelast app]. rewrite <- W. f_equal. apply map_ext_in. intros a Ha. apply in_seq in Ha. apply H. apply inb1_intro. lia.
  Qed.
  Lemma VR_red (g : list xr -> xr) e n r w : VR e (Ev [n]) r -> g (map (fun k => Fin (r [k])) (seq 0 n)) = Fin w -> VR (EGu (g_red (k1 := KR) (k2 := KR) g) e) (Ev []) (fun _ => w).
  Proof. intros H W. apply (V_red (k1 := KR) (k2 := KR) g e n (fun j => Fin (r j)) (Fin w) H). now rewrite (map_rows n _ (fun k => r [k])) by reflexivity. Qed.
  Lemma VR_keep (g : list xr -> xr) e n r w : VR e (Ev [n]) r -> g (map (fun k => Fin (r [k])) (seq 0 n)) = Fin w -> VR (@EKeep KR g e) (Ev [1%nat]) (fun _ => w).
  Proof. intros H W. exact (V_keep g e n (fun j => Fin (r j)) (Fin w) H W). Qed.
  Lemma VR_sum e n r : VR e (Ev [n]) r -> VR (jsum e) (Ev []) (fun _ => sumR n (fun k => r [k])).
  Proof. intros H. unfold jsum. eapply VR_red; [exact H|]. apply xsum_seq. Qed.
  Lemma VR_sum_keep e n r : VR e (Ev [n]) r -> VR (jsum_keep e) (Ev [1%nat]) (fun _ => sumR n (fun k => r [k])).
  Proof. intros H. unfold jsum_keep. eapply VR_keep; [exact H|]. apply xsum_seq. Qed.
  Lemma VR_logsumexp e n r : VR e (Ev [n]) r -> (1 <= n)%nat -> VR (jlogsumexp e) (Ev []) (fun _ => ln (sumR n (fun k => exp (r [k])))).
  Proof.
    intros H N. unfold jlogsumexp. eapply VR_red; [exact H|]. unfold xlogsumexp. rewrite map_map. cbn [xexp]. rewrite xsum_seq. apply xlog_pos.
    apply sumR_pos; [intros; apply exp_pos|lia].
  Qed.
  Lemma norm_val n (h : nat -> R) : xnorm (map (fun k => Fin (h k)) (seq 0 n)) = Fin (sqrt (sumR n (fun k => h k * h k))).
  Proof.
    unfold xnorm. rewrite map_map. change (fun x : nat => xsquare (Fin (h x))) with (fun x : nat => Fin (h x * h x)). rewrite xsum_seq. cbn [xsqrt].
    destruct (Rle_dec 0 (sumR n (fun k => h k * h k))) as [|N]; [reflexivity|]. destruct N. apply sumR_nonneg. intros k _. pose proof (Rle_0_sqr (h k)). exact H.
  Qed.
  Lemma VR_norm e n r : VR e (Ev [n]) r -> VR (jnorm e) (Ev []) (fun _ => sqrt (sumR n (fun k => r [k] * r [k]))).
  Proof. intros H. unfold jnorm. eapply VR_red; [exact H|]. apply (norm_val n (fun k => r [k])). Qed.
  Lemma VR_norm_keep e n r : VR e (Ev [n]) r -> VR (jnorm_keep e) (Ev [1%nat]) (fun _ => sqrt (sumR n (fun k => r [k] * r [k]))).
  Proof. intros H. unfold jnorm_keep. eapply VR_keep; [exact H|]. apply (norm_val n (fun k => r [k])). Qed.
  (** the maximum is some finite number: all that the log-sum-exp trick needs *)
  Lemma amax_fin h l a : exists m, fold_left xmax (map (fun k : nat => Fin (h k)) l) (Fin a) = Fin m.
  Proof. revert a. induction l as [|k l IH]; intros a; [cbn; eauto|]. cbn [map fold_left]. unfold xmax at 2. cbn [xltb]. destruct (rltb a (h k)); apply IH. Qed.
  Lemma VR_amax e n r : VR e (Ev [n]) r -> (1 <= n)%nat -> exists m, VR (jamax e) (Ev []) (fun _ => m).
  Proof.
    intros (d & T & H) N. destruct n as [|n]; [lia|]. destruct (amax_fin (fun k => r [k]) (seq 1 n) (r [0%nat])) as (m & M). exists m. unfold jamax.
    eexists. split; [eapply T_eq; [eapply T_gu; [exact T|reflexivity|reflexivity]|reflexivity]|]. intros j Hj. cbn beta. cbn [g_fun].
    transitivity (xamax (map (fun k => Fin (r [k])) (seq 0 (S n)))); [|exact M]. f_equal. rewrite indices1, map_map. apply map_ext_in. intros a Ha. apply in_seq in Ha. apply H. apply inb1_intro. lia.
  Qed.
  Lemma VR_newaxis e s r : VR e (Ev s) r -> VR (ENewaxis e) (Ev (s ++ [1%nat])) (fun j => r (removelast j)).
  Proof. intros (d & T & H). eexists. split; [eapply T_newaxis; exact T|]. intros j Hj. cbn beta. apply H. cbn [evs] in *. destruct (inb_snoc _ _ _ Hj) as (j' & m & -> & Hj' & _). now rewrite removelast_last. Qed.
  (** complex *)
  Lemma VC_1 (F : xc -> xc) (g : C -> C) (P : C -> Prop) e τ r : (forall x, P x -> F (XC (Fin (fst x)) (Fin (snd x))) = XC (Fin (fst (g x))) (Fin (snd (g x)))) -> VC e τ r -> (forall j, inb (evs τ) j = true -> P (r j)) ->
    VC (@EMap KC KC F e) τ (fun j => g (r j)).
  Proof. intros H A B. eapply V_map; [exact A|]. intros j Hj. cbn beta. apply H. now apply B. Qed.
  Lemma VCR_1 (F : xc -> xr) (g : C -> R) e τ r : (forall x, F (XC (Fin (fst x)) (Fin (snd x))) = Fin (g x)) -> VC e τ r -> VR (@EMap KC KR F e) τ (fun j => g (r j)).
  Proof. intros H A. eapply V_map; [exact A|]. intros j Hj. cbn beta. apply H. Qed.
  Lemma VC_2 (F : xc -> xc -> xc) (g : C -> C -> C) e1 e2 τ1 τ2 τ a1 a2 r1 r2 :
    (forall x y, F (XC (Fin (fst x)) (Fin (snd x))) (XC (Fin (fst y)) (Fin (snd y))) = XC (Fin (fst (g x y))) (Fin (snd (g x y)))) ->
    VC e1 τ1 r1 -> VC e2 τ2 r2 -> al τ1 τ2 τ a1 a2 -> VC (@EMap2 KC KC KC F e1 e2) τ (fun j => g (r1 (a1 j)) (r2 (a2 j))).
  Proof. intros H A B D. eapply V_map2; [exact A|exact B|exact D|]. intros j Hj. cbn beta. apply H. Qed.
  Lemma VC_conj e τ r : VC e τ r -> VC (conj_ e) τ (fun j => Cconj (r j)).
  Proof. intros. unfold conj_. eapply (VC_1 cconj Cconj (fun _ => True)); eauto. Qed.
  Lemma VC_neg e τ r : VC e τ r -> VC (cneg_ e) τ (fun j => Copp (r j)).
  Proof. intros. unfold cneg_. eapply (VC_1 cneg Copp (fun _ => True)); eauto. Qed.
  Lemma VC_sq e τ r : VC e τ r -> VC (csq e) τ (fun j => Cmult (r j) (r j)).
  Proof. intros. unfold csq. eapply (VC_1 csquare (fun z => Cmult z z) (fun _ => True)); eauto. Qed.
  Definition csq_abs (z : C) : R := fst z * fst z + snd z * snd z.
  Lemma VR_abs_sq e τ r : VC e τ r -> VR (abs_sq e) τ (fun j => csq_abs (r j)).
  Proof. intros. unfold abs_sq. eapply (VCR_1 cabs_square csq_abs); eauto. Qed.
  Lemma VR_real e τ r : VC e τ r -> VR (real_ e) τ (fun j => fst (r j)).
  Proof. intros. unfold real_. eapply (VCR_1 xre fst); eauto. Qed.
  Lemma VC_add e1 e2 τ1 τ2 τ a1 a2 r1 r2 : VC e1 τ1 r1 -> VC e2 τ2 r2 -> al τ1 τ2 τ a1 a2 -> VC (cadd_ e1 e2) τ (fun j => Cplus (r1 (a1 j)) (r2 (a2 j))).
  Proof. intros. unfold cadd_. eapply (VC_2 cadd Cplus); eauto. Qed.
  Lemma VC_sub e1 e2 τ1 τ2 τ a1 a2 r1 r2 : VC e1 τ1 r1 -> VC e2 τ2 r2 -> al τ1 τ2 τ a1 a2 -> VC (csub_ e1 e2) τ (fun j => Cminus (r1 (a1 j)) (r2 (a2 j))).
  Proof. intros. unfold csub_. eapply (VC_2 csub Cminus); eauto. Qed.
  Lemma VC_mul e1 e2 τ1 τ2 τ a1 a2 r1 r2 : VC e1 τ1 r1 -> VC e2 τ2 r2 -> al τ1 τ2 τ a1 a2 -> VC (cmul_ e1 e2) τ (fun j => Cmult (r1 (a1 j)) (r2 (a2 j))).
  Proof. intros. unfold cmul_. eapply (VC_2 cmul Cmult); eauto. Qed.
  Lemma VC_scale e1 e2 τ1 τ2 τ a1 a2 r1 r2 : VR e1 τ1 r1 -> VC e2 τ2 r2 -> al τ1 τ2 τ a1 a2 -> VC (rscale e1 e2) τ (fun j => (r1 (a1 j) * fst (r2 (a2 j)), r1 (a1 j) * snd (r2 (a2 j)))).
  Proof. intros A B D. unfold rscale. eapply V_map2; [exact A|exact B|exact D|]. reflexivity. Qed.
  Lemma VC_rsub e1 e2 τ1 τ2 τ a1 a2 r1 r2 : VR e1 τ1 r1 -> VC e2 τ2 r2 -> al τ1 τ2 τ a1 a2 -> VC (rsubc e1 e2) τ (fun j => Cminus (RtoC (r1 (a1 j))) (r2 (a2 j))).
  Proof. intros A B D. unfold rsubc. eapply V_map2; [exact A|exact B|exact D|]. reflexivity. Qed.
  Lemma VC_divr e1 e2 τ1 τ2 τ a1 a2 r1 r2 : VC e1 τ1 r1 -> VR e2 τ2 r2 -> al τ1 τ2 τ a1 a2 -> (forall j, inb (evs τ) j = true -> r2 (a2 j) <> 0) ->
    VC (cdivr_ e1 e2) τ (fun j => (fst (r1 (a1 j)) / r2 (a2 j), snd (r1 (a1 j)) / r2 (a2 j))).
  Proof. intros A B D N. unfold cdivr_. eapply V_map2; [exact A|exact B|exact D|]. intros j Hj. cbn beta. unfold cdivr. cbn [xre xim]. rewrite !xdiv_fin by (now apply N). reflexivity. Qed.
  Lemma VC_recip e τ r : VC e τ r -> (forall j, inb (evs τ) j = true -> csq_abs (r j) <> 0) -> VC (crecip_ e) τ (fun j => (fst (r j) / csq_abs (r j), - snd (r j) / csq_abs (r j))).
  Proof.
    intros. unfold crecip_. eapply (VC_1 crecip (fun z => (fst z / csq_abs z, - snd z / csq_abs z)) (fun z => csq_abs z <> 0)); eauto. intros x Hx. unfold crecip, cdivr. cbn [xre xim cconj cabs_square].
    change (cabs_square (XC (Fin (fst x)) (Fin (snd x)))) with (Fin (csq_abs x)). cbn [xneg fst snd]. now rewrite !xdiv_fin.
  Qed.
End Rules.

(** a tactic that applies the rules; side conditions remain *)
Ltac alt_ := first [apply al_same | apply al_nl | apply al_nr | apply al_1n | apply al_n1].
Ltac vr :=
  lazymatch goal with
  | |- VR _ _ (self _) _ _ => eapply VR_self; reflexivity
  | |- VR _ _ X _ _ => eapply VR_self; reflexivity
  | |- VC _ _ (selfc _) _ _ => eapply VC_self; reflexivity
  | |- VC _ _ XX _ _ => eapply VC_self; reflexivity
  | |- VR _ _ (ENum _) _ _ => apply VR_num
  | |- VR _ _ (EDim _) _ _ => eapply VR_dim; reflexivity
  | |- VR _ _ (eadd _ _) _ _ => eapply VR_add; [vr | vr | alt_]
  | |- VR _ _ (esub _ _) _ _ => eapply VR_sub; [vr | vr | alt_]
  | |- VR _ _ (emul _ _) _ _ => eapply VR_mul; [vr | vr | alt_]
  | |- VR _ _ (ediv _ _) _ _ => eapply VR_div; [vr | vr | alt_ | ]
  | |- VR _ _ (eneg _) _ _ => eapply VR_neg; vr
  | |- VR _ _ (jsquare _) _ _ => eapply VR_square; vr
  | |- VR _ _ (jexp _) _ _ => eapply VR_exp; vr
  | |- VR _ _ (jlog _) _ _ => eapply VR_log; [vr | ]
  | |- VR _ _ (jlog1p _) _ _ => eapply VR_log1p; [vr | ]
  | |- VR _ _ (jexpm1 _) _ _ => eapply VR_expm1; vr
  | |- VR _ _ (gammaln _) _ _ => eapply VR_gammaln; [vr | ]
  | |- VR _ _ (jdigamma _) _ _ => eapply VR_digamma; [vr | ]
  | |- VR _ _ (softplus _) _ _ => eapply VR_softplus; vr
  | |- VR _ _ (EMap xexpit _) _ _ => eapply VR_expit; vr
  | |- VR _ _ (EMap xlogit _) _ _ => eapply VR_logit; [vr | ]
  | |- VR _ _ (logaddexp _ _) _ _ => eapply VR_logaddexp; [vr | vr | alt_]
  | |- VR _ _ (EMap2 xmax _ _) _ _ => eapply VR_max; [vr | vr | alt_]
  | |- VR _ _ (EMap2 xbetaln _ _) _ _ => eapply VR_betaln; [vr | vr | alt_ | ]
  | |- VR _ _ (EMap2 xlog_ive _ _) _ _ => eapply VR_log_ive; [vr | vr | alt_ | ]
  | |- VR _ _ (EMap2 xiv_ratio _ _) _ _ => eapply VR_iv_ratio; [vr | vr | alt_ | ]
  | |- VR _ _ (jpow _ _) _ _ => eapply VR_pow; [vr | vr | alt_ | ]
  | |- VR _ _ (jsum _) _ _ => eapply VR_sum; vr
  | |- VR _ _ (jsum_keep _) _ _ => eapply VR_sum_keep; vr
  | |- VR _ _ (jnorm _) _ _ => eapply VR_norm; vr
  | |- VR _ _ (jnorm_keep _) _ _ => eapply VR_norm_keep; vr
  | |- VR _ _ (jlogsumexp _) _ _ => eapply VR_logsumexp; [vr | ]
  | |- VR _ _ (ENewaxis _) _ _ => eapply VR_newaxis; vr
  | |- VR _ _ (abs_sq _) _ _ => eapply VR_abs_sq; vr
  | |- VR _ _ (real_ _) _ _ => eapply VR_real; vr
  | |- VC _ _ (conj_ _) _ _ => eapply VC_conj; vr
  | |- VC _ _ (cneg_ _) _ _ => eapply VC_neg; vr
  | |- VC _ _ (csq _) _ _ => eapply VC_sq; vr
  | |- VC _ _ (crecip_ _) _ _ => eapply VC_recip; [vr | ]
  | |- VC _ _ (cadd_ _ _) _ _ => eapply VC_add; [vr | vr | alt_]
  | |- VC _ _ (csub_ _ _) _ _ => eapply VC_sub; [vr | vr | alt_]
  | |- VC _ _ (cmul_ _ _) _ _ => eapply VC_mul; [vr | vr | alt_]
  | |- VC _ _ (rscale _ _) _ _ => eapply VC_scale; [vr | vr | alt_]
  | |- VC _ _ (rsubc _ _) _ _ => eapply VC_rsub; [vr | vr | alt_]
  | |- VC _ _ (cdivr_ _ _) _ _ => eapply VC_divr; [vr | vr | alt_ | ]
  | |- VR ?G ?p ?e ?τ ?r => let e1 := eval red in e in let e' := eval cbv beta zeta in e1 in change (VR G p e' τ r); vr
  | |- VC ?G ?p ?e ?τ ?r => let e1 := eval red in e in let e' := eval cbv beta zeta in e1 in change (VC G p e' τ r); vr
  end.
(** ** rows *)
Lemma rev_seq {A} (f : nat -> A) n : rev (map f (seq 0 n)) = map (fun k => f (n - 1 - k)%nat) (seq 0 n).
Proof.
  rewrite <- map_rev. induction n as [|n IH]; [reflexivity|]. rewrite seq_S at 1. rewrite rev_app_distr, Nat.add_0_l. cbn [rev app map seq]. apply f_equal2; [f_equal; lia|].
  rewrite IH, <- seq_shift, map_map. apply map_ext. intros a. f_equal. lia.
Qed.
Lemma removelast_seq {A} (f : nat -> A) n : removelast (map f (seq 0 n)) = map f (seq 0 (pred n)).
Proof. destruct n; [reflexivity|]. rewrite seq_S, map_app. cbn [map]. now rewrite removelast_last. Qed.
Lemma tl_seq {A} (f : nat -> A) n : tl (map f (seq 0 n)) = map (fun k => f (S k)) (seq 0 (pred n)).
Proof. destruct n; [reflexivity|]. cbn [seq map tl pred]. rewrite <- seq_shift, map_map. reflexivity. Qed.
Lemma cumsum_seq h n : forall s, xcumsum_from (Fin (sumR s h)) (map (fun k => Fin (h k)) (seq s n)) = map (fun k => Fin (sumR (S k) h)) (seq s n).
Proof. induction n as [|n IH]; intros s; [reflexivity|]. cbn [seq map xcumsum_from xadd]. rewrite <- sumR_S. f_equal. apply IH. Qed.
Lemma nth_seq_map {A} (h : nat -> A) d n k : (k < n)%nat -> nth k (map h (seq 0 n)) d = h k.
Proof. intros H. rewrite (nth_indep _ d (h n)) by (rewrite map_length, seq_length; exact H). rewrite map_nth, seq_nth by exact H. reflexivity. Qed.
Lemma firstn_seq_map {A} (h : nat -> A) m n : (m <= n)%nat -> firstn m (map h (seq 0 n)) = map h (seq 0 m).
Proof. intros H. rewrite firstn_map. f_equal. replace n with (m + (n - m))%nat by lia. rewrite seq_app. rewrite firstn_app_len; [reflexivity|now rewrite seq_length]. Qed.
Lemma skipn_seq_map {A} (h : nat -> A) m n : (m <= n)%nat -> skipn m (map h (seq 0 n)) = map (fun k => h (m + k)%nat) (seq 0 (n - m)).
Proof.
  intros H. replace (seq 0 n) with (seq 0 m ++ seq m (n - m)) by (rewrite <- (Nat.add_0_l m) at 2; rewrite <- seq_app; f_equal; lia).
  rewrite map_app, skipn_app_len by (now rewrite map_length, seq_length). clear. generalize (n - m)%nat as c. intros c. revert m. induction c as [|c IH]; intros m; [reflexivity|].
  cbn [seq map]. apply f_equal2; [f_equal; lia|]. rewrite IH, <- seq_shift, map_map. apply map_ext. intros a. f_equal. lia.
Qed.
Section Rows.
  Variables (G : ctx) (p : point).
  Notation VR := (VR G p).
  Lemma row_of e n r : VR e (Ev [n]) r -> exists d, ty G KR e (Ev [n]) d /\ map (d (pvals p)) (indices [n]) = map (fun k => Fin (r [k])) (seq 0 n).
  Proof. intros (d & T & H). exists d. split; [exact T|]. rewrite indices1, map_map. apply map_ext_in. intros a Ha. apply in_seq in Ha. apply H. apply inb1_intro. lia. Qed.
  Lemma VR_row (F : list xr -> list xr) (len : nat -> nat) e n r (h : nat -> R) : VR e (Ev [n]) r ->
    F (map (fun k => Fin (r [k])) (seq 0 n)) = map (fun k => Fin (h k)) (seq 0 (len n)) -> VR (EGu (g_row F len) e) (Ev [len n]) (fun j => h (hd 0%nat j)).
  Proof.
    intros H W. destruct (row_of e n r H) as (d & T & E). eexists. split; [eapply T_eq; [eapply T_gu; [exact T|reflexivity|reflexivity]|reflexivity]|]. intros j Hj. cbn beta. cbn [g_row g_fun].
    destruct (inb1 _ _ Hj) as (k & -> & Hk). cbn [hd]. etransitivity; [|exact (nth_seq_map (fun k => Fin (h k)) NaN (len n) k Hk)]. rewrite <- W. f_equal. f_equal. exact E.
  Qed.
  Lemma VR_rev e n r : VR e (Ev [n]) r -> VR (jrev e) (Ev [n]) (fun j => r [(n - 1 - hd 0%nat j)%nat]).
  Proof. intros H. unfold jrev. apply (VR_row (@rev xr) (fun n => n) e n r (fun k => r [(n - 1 - k)%nat]) H). apply (rev_seq (fun k => Fin (r [k]))). Qed.
  Lemma VR_init e n r : VR e (Ev [n]) r -> VR (jinit e) (Ev [pred n]) (fun j => r [hd 0%nat j]).
  Proof. intros H. unfold jinit. apply (VR_row (@removelast xr) pred e n r (fun k => r [k]) H). apply (removelast_seq (fun k => Fin (r [k]))). Qed.
  Lemma VR_tail e n r : VR e (Ev [n]) r -> VR (jtail e) (Ev [pred n]) (fun j => r [S (hd 0%nat j)]).
  Proof. intros H. unfold jtail. apply (VR_row (@tl xr) pred e n r (fun k => r [S k]) H). apply (tl_seq (fun k => Fin (r [k]))). Qed.
  Lemma VR_cumsum e n r : VR e (Ev [n]) r -> VR (jcumsum e) (Ev [n]) (fun j => sumR (S (hd 0%nat j)) (fun m => r [m])).
  Proof. intros H. unfold jcumsum. apply (VR_row xcumsum (fun n => n) e n r (fun k => sumR (S k) (fun m => r [m])) H). exact (cumsum_seq (fun m => r [m]) n 0). Qed.
  Lemma VR_cumsum0 e n r : VR e (Ev [n]) r -> VR (jcumsum0 e) (Ev [S n]) (fun j => sumR (hd 0%nat j) (fun m => r [m])).
  Proof.
    intros H. unfold jcumsum0. apply (VR_row xcumsum0 S e n r (fun k => sumR k (fun m => r [m])) H). unfold xcumsum0, xcumsum. cbn [seq map]. f_equal.
    rewrite <- seq_shift, map_map. exact (cumsum_seq (fun m => r [m]) n 0).
  Qed.
  Lemma VR_at k e n r : VR e (Ev [n]) r -> (k < n)%nat -> VR (jat k e) (Ev []) (fun _ => r [k]).
  Proof.
    intros H L. destruct (row_of e n r H) as (d & T & E). unfold jat. eexists. split; [eapply T_eq; [eapply T_gu; [exact T|reflexivity|cbn; now apply Nat.ltb_lt]|reflexivity]|]. intros j Hj. cbn beta. cbn [g_fun].
    etransitivity; [|exact (nth_seq_map (fun k => Fin (r [k])) NaN n k L)]. f_equal. exact E.
  Qed.
  Lemma VR_append e1 e2 m n r1 r2 : VR e1 (Ev [m]) r1 -> VR e2 (Ev [n]) r2 -> VR (jappend e1 e2) (Ev [(m + n)%nat]) (fun j => if hd 0%nat j <? m then r1 [hd 0%nat j] else r2 [(hd 0%nat j - m)%nat]).
  Proof.
    intros H1 H2. destruct (row_of _ _ _ H1) as (d1 & T1 & E1). destruct (row_of _ _ _ H2) as (d2 & T2 & E2). unfold jappend.
    eexists. split; [eapply T_eq; [eapply T_gu2; [exact T1|exact T2|reflexivity|reflexivity|reflexivity]|reflexivity]|]. intros j Hj. cbn beta. cbn [h_fun]. cbn [elt] in *. rewrite E1, E2.
    destruct (inb1 _ _ Hj) as (k & -> & Hk). cbn [hd]. destruct (k <? m) eqn:L.
    - apply Nat.ltb_lt in L. rewrite app_nth1 by (now rewrite map_length, seq_length). exact (nth_seq_map (fun k => Fin (r1 [k])) NaN m k L).
    - apply Nat.ltb_ge in L. rewrite app_nth2 by (now rewrite map_length, seq_length). rewrite map_length, seq_length. exact (nth_seq_map (fun k => Fin (r2 [k])) NaN n (k - m) ltac:(lia)).
  Qed.
  Lemma VR_stack e1 e2 r1 r2 : VR e1 (Ev []) r1 -> VR e2 (Ev []) r2 -> VR (jstack e1 e2) (Ev [2%nat]) (fun j => if (hd 0 j =? 0)%nat then r1 [] else r2 []).
  Proof.
    intros (d1 & T1 & E1) (d2 & T2 & E2). unfold jstack. eexists. split; [eapply T_eq; [eapply T_gu2; [exact T1|exact T2|reflexivity|reflexivity|reflexivity]|reflexivity]|].
    intros j Hj. cbn beta. cbn [h_fun indices map hd]. rewrite (E1 [] eq_refl), (E2 [] eq_refl). destruct (hd 0 j =? 0)%nat; reflexivity.
  Qed.
  Lemma VR_take e1 e2 m n r1 r2 : VR e1 (Ev [m]) r1 -> VR e2 (Ev [n]) r2 -> (n <= m)%nat -> VR (jtake e1 e2) (Ev [n]) (fun j => r1 [hd 0%nat j]).
  Proof.
    intros H1 H2 L. destruct (row_of _ _ _ H1) as (d1 & T1 & E1). destruct (row_of _ _ _ H2) as (d2 & T2 & E2). unfold jtake.
    eexists. split; [eapply T_eq; [eapply T_gu2; [exact T1|exact T2|reflexivity|reflexivity|reflexivity]|cbn; do 2 f_equal; now apply Nat.min_l]|]. intros j Hj. cbn beta. cbn [h_fun]. cbn [elt] in *. rewrite E1, E2.
    destruct (inb1 _ _ Hj) as (k & -> & Hk). cbn [hd]. rewrite map_length, seq_length, (firstn_seq_map (fun k => Fin (r1 [k]))) by exact L. exact (nth_seq_map (fun k => Fin (r1 [k])) NaN n k Hk).
  Qed.
  Lemma VR_drop e1 e2 m n r1 r2 : VR e1 (Ev [m]) r1 -> VR e2 (Ev [n]) r2 -> (n <= m)%nat -> VR (jdrop e1 e2) (Ev [(m - n)%nat]) (fun j => r1 [(n + hd 0%nat j)%nat]).
  Proof.
    intros H1 H2 L. destruct (row_of _ _ _ H1) as (d1 & T1 & E1). destruct (row_of _ _ _ H2) as (d2 & T2 & E2). unfold jdrop.
    eexists. split; [eapply T_eq; [eapply T_gu2; [exact T1|exact T2|reflexivity|reflexivity|reflexivity]|reflexivity]|]. intros j Hj. cbn beta. cbn [h_fun]. cbn [elt] in *. rewrite E1, E2.
    destruct (inb1 _ _ Hj) as (k & -> & Hk). cbn [hd]. rewrite map_length, seq_length, (skipn_seq_map (fun k => Fin (r1 [k]))) by exact L. exact (nth_seq_map (fun k => Fin (r1 [(n + k)%nat])) NaN (m - n) k Hk).
  Qed.
  Lemma VR_broadcast e s to v : VR e (Ev s) v -> (exists d, ty G KR to (Ev s) d) -> VR (EBroadcast e to) (Ev s) v.
  Proof.
    intros (d & T & H) (d' & T'). eexists. split; [eapply T_broadcast; [exact T|exact T'|apply sub_refl]|]. intros j Hj. cbn beta. cbn [evs] in *. rewrite (bidx_id _ _ Hj). now apply H.
  Qed.
End Rows.
