(** Values of the matrix operations at one batch element. *)
From Coquelicot Require Import Coquelicot.
From Coq Require Import String List Bool Arith Reals Lia Lra.
From Verif Require Import Base XReal Tensor TensorFacts Support Dist DictFacts SpecFun Expr Fam ExprFacts FamTy FamFacts PointSpec PointFacts DetFacts MatFacts Val.
Import ListNotations.
Local Unset Asymmetric Patterns.
Local Open Scope string_scope.
Local Open Scope R_scope.

Section M.
  Variables (G : ctx) (p : point).
  Notation VR := (VR G p). Notation VC := (VC G p).
  Lemma VR_outer e1 e2 m n r1 r2 : VR e1 (Ev [m]) r1 -> VR e2 (Ev [n]) r2 -> VR (outer e1 e2) (Ev [m; n]) (fun j => r1 [nth 0 j 0%nat] * r2 [nth 1 j 0%nat]).
  Proof.
    intros H1 H2. destruct (row_of _ _ _ _ _ H1) as (d1 & T1 & E1). destruct (row_of _ _ _ _ _ H2) as (d2 & T2 & E2). unfold outer.
    eexists. split; [eapply T_eq; [eapply T_gu2; [exact T1|exact T2|reflexivity|reflexivity|reflexivity]|reflexivity]|]. intros j Hj. cbn beta. cbn [h_fun]. cbn [elt] in *. rewrite E1, E2.
    destruct (inb2 _ _ _ Hj) as (a & b & -> & Ha & Hb). cbn [ix nth]. unfold ix. cbn [nth].
    pose proof (nth_seq_map (fun k => Fin (r1 [k])) NaN m a Ha) as A. pose proof (nth_seq_map (fun k => Fin (r2 [k])) NaN n b Hb) as B. cbn beta in A, B. rewrite A, B. reflexivity.
  Qed.
  Lemma crow_of e n z : VC e (Ev [n]) z -> exists d, ty G KC e (Ev [n]) d /\ map (d (pvals p)) (indices [n]) = map (fun k => XC (Fin (fst (z [k]))) (Fin (snd (z [k])))) (seq 0 n).
  Proof. intros (d & T & H). exists d. split; [exact T|]. rewrite indices1, map_map. apply map_ext_in. intros a Ha. apply in_seq in Ha. apply H. apply inb1_intro. lia. Qed.
  Lemma VC_couter e1 e2 m n z1 z2 : VC e1 (Ev [m]) z1 -> VC e2 (Ev [n]) z2 -> VC (couter e1 e2) (Ev [m; n]) (fun j => Cmult (z1 [nth 0 j 0%nat]) (Cconj (z2 [nth 1 j 0%nat]))).
  Proof.
    intros H1 H2. destruct (crow_of _ _ _ H1) as (d1 & T1 & E1). destruct (crow_of _ _ _ H2) as (d2 & T2 & E2). unfold couter.
    eexists. split; [eapply T_eq; [eapply T_gu2; [exact T1|exact T2|reflexivity|reflexivity|reflexivity]|reflexivity]|]. intros j Hj. cbn beta. cbn [h_fun]. cbn [elt] in *. rewrite E1, E2.
    destruct (inb2 _ _ _ Hj) as (a & b & -> & Ha & Hb). unfold ix. cbn [nth].
    pose proof (nth_seq_map (fun k => XC (Fin (fst (z1 [k]))) (Fin (snd (z1 [k])))) (XC NaN NaN) m a Ha) as A. pose proof (nth_seq_map (fun k => XC (Fin (fst (z2 [k]))) (Fin (snd (z2 [k])))) (XC NaN NaN) n b Hb) as B. cbn beta in A, B. rewrite A, B.
    unfold cmul, cconj. cbn [xre xim xmul xneg xsub xadd Cmult Cconj fst snd]. f_equal; f_equal; ring.
  Qed.
  (** square matrices *)
  Lemma in_indices2 m n a b : (a < m)%nat -> (b < n)%nat -> inb [m; n] [a; b] = true.
  Proof. intros Ha Hb. cbn [inb]. now rewrite (proj2 (Nat.ltb_lt _ _) Ha), (proj2 (Nat.ltb_lt _ _) Hb). Qed.
  Lemma all_of {k} e s v : V (k := k) G p e (Ev s) v -> exists d, ty G k e (Ev s) d /\ map (d (pvals p)) (indices s) = map v (indices s).
  Proof. intros (d & T & H). exists d. split; [exact T|]. apply map_ext_in. intros j Hj. apply H. now apply in_indices. Qed.
  Lemma nth_mat {A} (g : list nat -> A) m n a b d : (a < m)%nat -> (b < n)%nat -> nth (a * n + b) (map g (indices [m; n])) d = g [a; b].
  Proof.
    intros Ha Hb. assert (R : (a * n + b)%nat = ravel [m; n] [a; b]) by (cbn; lia). rewrite R.
    rewrite nth_indep with (d' := g [a; b]); [|rewrite map_length, length_indices; now apply ravel_lt, in_indices2]. rewrite map_nth. now rewrite nth_indices by now apply in_indices2.
  Qed.
  Lemma sequence_map {A B} (f : B -> option A) (g : B -> A) l : (forall b, f b = Some (g b)) -> sequence (map f l) = Some (map g l).
  Proof. intros E. induction l as [|b l IH]; [reflexivity|]. cbn [map sequence]. now rewrite E, IH. Qed.
  Lemma entries_R n (r : list nat -> R) : sequence (map xfin (map (fun j => Fin (r j)) (indices [n; n]))) = Some (map r (indices [n; n])).
  Proof. rewrite map_map. now apply sequence_map. Qed.
  Lemma entries_Cx n (z : list nat -> Complex.C) : sequence (map xcfin (map (fun j => XC (Fin (fst (z j))) (Fin (snd (z j)))) (indices [n; n]))) = Some (map z (indices [n; n])).
  Proof. rewrite map_map. apply sequence_map. intros b. unfold xcfin. cbn. now rewrite <- surjective_pairing. Qed.
  Lemma VR_inv e n r : VR e (Ev [n; n]) r -> rdet n (fun a b => r [a; b]) <> 0 -> VR (jinv e) (Ev [n; n]) (fun j => rinv n (fun a b => r [a; b]) (nth 0 j 0%nat) (nth 1 j 0%nat)).
  Proof.
    intros H N. destruct (all_of _ _ _ H) as (d & T & E). unfold jinv. eexists.
    split; [eapply T_eq; [eapply T_gu; [exact T|reflexivity|cbn; now rewrite Nat.eqb_refl]|reflexivity]|]. intros j Hj. cbn beta. cbn [g_fun]. cbn [elt hd] in *. rewrite E.
    unfold xinv. rewrite entries_R. destruct (inb2 _ _ _ Hj) as (a & b & -> & Ha & Hb). unfold ix. cbn [nth].
    assert (X : forall a b, (a < n)%nat -> (b < n)%nat -> entries 0 n (map r (indices [n; n])) a b = r [a; b]) by (intros; unfold entries; now apply nth_mat).
    rewrite (rdet_ext n _ _ X). destruct (Req_EM_T _ 0) as [Z|_]; [contradiction|]. f_equal. now apply rinv_ext.
  Qed.
  Lemma VR_slogdet e n r : VR e (Ev [n; n]) r -> rdet n (fun a b => r [a; b]) <> 0 -> VR (jslogdet e) (Ev []) (fun _ => ln (Rabs (rdet n (fun a b => r [a; b])))).
  Proof.
    intros H N. destruct (all_of _ _ _ H) as (d & T & E). unfold jslogdet. eexists.
    split; [eapply T_eq; [eapply T_gu; [exact T|reflexivity|cbn; now rewrite Nat.eqb_refl]|reflexivity]|]. intros j Hj. cbn beta. cbn [g_fun]. cbn [elt hd] in *. rewrite E.
    unfold xslogdet. rewrite entries_R. rewrite (rdet_ext n _ (fun a b => r [a; b])) by (intros; unfold entries; now apply nth_mat). apply xlog_pos. now apply Rabs_pos_lt.
  Qed.
  Lemma VC_inv e n z : VC e (Ev [n; n]) z -> cdet n (fun a b => z [a; b]) <> RtoC 0 -> VC (jcinv e) (Ev [n; n]) (fun j => cinv n (fun a b => z [a; b]) (nth 0 j 0%nat) (nth 1 j 0%nat)).
  Proof.
    intros H N. destruct (all_of _ _ _ H) as (d & T & E). unfold jcinv. eexists.
    split; [eapply T_eq; [eapply T_gu; [exact T|reflexivity|cbn; now rewrite Nat.eqb_refl]|reflexivity]|]. intros j Hj. cbn beta. cbn [g_fun]. cbn [elt hd] in *. rewrite E.
    unfold xcinv. rewrite entries_Cx. destruct (inb2 _ _ _ Hj) as (a & b & -> & Ha & Hb). unfold ix. cbn [nth].
    assert (X : forall a b, (a < n)%nat -> (b < n)%nat -> entries (RtoC 0) n (map z (indices [n; n])) a b = z [a; b]) by (intros; unfold entries; now apply nth_mat).
    rewrite (cdet_ext n _ _ X). destruct (Req_EM_T _ 0) as [Z|_]; [apply Cmod_eq_0 in Z; contradiction|]. unfold xcof. now rewrite (cinv_ext n _ _ a b X Ha Hb).
  Qed.
  Lemma VC_det e n z : VC e (Ev [n; n]) z -> VC (jcdet e) (Ev []) (fun _ => cdet n (fun a b => z [a; b])).
  Proof.
    intros H. destruct (all_of _ _ _ H) as (d & T & E). unfold jcdet. eexists.
    split; [eapply T_eq; [eapply T_gu; [exact T|reflexivity|cbn; now rewrite Nat.eqb_refl]|reflexivity]|]. intros j Hj. cbn beta. cbn [g_fun]. cbn [elt hd] in *. rewrite E.
    unfold xcdet. rewrite entries_Cx. now rewrite (cdet_ext n _ (fun a b => z [a; b])) by (intros; unfold entries; now apply nth_mat).
  Qed.
  Lemma VR_mat_vec e1 e2 m n r1 r2 : VR e1 (Ev [m; n]) r1 -> VR e2 (Ev [n]) r2 -> VR (mat_vec e1 e2) (Ev [m]) (fun j => sumR n (fun b => r1 [hd 0%nat j; b] * r2 [b])).
  Proof.
    intros H1 H2. destruct (all_of _ _ _ H1) as (d1 & T1 & E1). destruct (row_of _ _ _ _ _ H2) as (d2 & T2 & E2). unfold mat_vec.
    eexists. split; [eapply T_eq; [eapply T_gu2; [exact T1|exact T2|reflexivity|reflexivity|cbn; now rewrite Nat.eqb_refl]|reflexivity]|]. intros j Hj. cbn beta. cbn [h_fun]. cbn [elt] in *. rewrite E1, E2.
    destruct (inb1 _ _ Hj) as (a & -> & Ha). unfold ix. cbn [nth hd]. rewrite <- xsum_seq. f_equal. apply map_ext_in. intros b Hb. apply in_seq in Hb.
    rewrite (nth_mat (fun j => Fin (r1 j)) m n a b NaN) by lia. pose proof (nth_seq_map (fun k => Fin (r2 [k])) NaN n b ltac:(lia)) as B. cbn beta in B. rewrite B. reflexivity.
  Qed.
  Lemma xsum_fins l : xsum (map Fin l) = Fin (fold_right Rplus 0 l).
  Proof. induction l as [|x l IH]; [reflexivity|]. cbn [map xsum fold_right] in *. unfold xsum in *. cbn [fold_right]. now rewrite IH. Qed.
  Lemma VR_mat_dot e1 e2 m n r1 r2 : VR e1 (Ev [m; n]) r1 -> VR e2 (Ev [m; n]) r2 -> VR (mat_dot e1 e2) (Ev []) (fun _ => sumR m (fun a => sumR n (fun b => r1 [a; b] * r2 [a; b]))).
  Proof.
    intros H1 H2. destruct (all_of _ _ _ H1) as (d1 & T1 & E1). destruct (all_of _ _ _ H2) as (d2 & T2 & E2). unfold mat_dot.
    eexists. split; [eapply T_eq; [eapply T_gu2; [exact T1|exact T2|reflexivity|reflexivity|cbn; now rewrite !Nat.eqb_refl]|reflexivity]|]. intros j Hj. cbn beta. cbn [h_fun]. cbn [elt] in *. rewrite E1, E2.
    assert (C : forall l, map (fun q : xr * xr => xmul (fst q) (snd q)) (combine (map (fun j => Fin (r1 j)) l) (map (fun j => Fin (r2 j)) l)) = map Fin (map (fun j => r1 j * r2 j) l)).
    { induction l as [|x l IH]; [reflexivity|]. cbn [map combine]. now rewrite IH. }
    rewrite C, xsum_fins. f_equal. rewrite indices2. unfold sumR. induction (seq 0 m) as [|a l IH]; [reflexivity|]. cbn [flat_map map fold_right]. rewrite map_app, fold_right_app, IH, map_map.
    generalize (fold_right Rplus 0 (map (fun a0 => fold_right Rplus 0 (map (fun b => r1 [a0; b] * r2 [a0; b]) (seq 0 n))) l)). intros t. clear IH E1 E2 C.
    induction (seq 0 n) as [|b l' IH']; cbn [map fold_right]; [ring|]. rewrite IH'. ring.
  Qed.
End M.
