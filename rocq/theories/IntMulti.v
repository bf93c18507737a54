(** Iterated integrals. *)
From Coquelicot Require Import Coquelicot.
From Coq Require Import String List Bool Arith Reals Lia Lra.
From Verif Require Import Base XReal Tensor TensorFacts Support Dist Iteration Structure Spec SumSpec DotSpec Tools Joint SpecFun GammaFn Expr Fam DotFacts BatchFacts
  PointSpec PointFacts Val FamR FamVal ConvFacts LeafVal DerivFacts DerivThms DensSpec DensVal DensThms IntSpec IntFacts GammaInt IntNorm IntGen.
Import ListNotations.
Local Unset Asymmetric Patterns.
Local Open Scope string_scope.
Local Open Scope R_scope.

Lemma cont_eq (F G : R -> R) t : (forall s : R, F s = G s) -> continuous F t -> continuous G t. Proof. intros E. apply continuous_ext. exact E. Qed.
Lemma sg_to {X} (m : msr X) F v w : v = w -> sg m F v -> sg m F w. Proof. now intros ->. Qed.
Lemma improper_to lo hi (F : R -> R) v w : v = w -> improper lo hi F v -> improper lo hi F w. Proof. now intros ->. Qed.
Lemma improper_ext lo hi (F G : R -> R) v a0 : inside lo hi a0 -> (forall t, inside lo hi t -> F t = G t) -> improper lo hi F v -> improper lo hi G v.
Proof.
  intros I0 E H. unfold improper in *. assert (Pr : ProperFilter (right_of lo)) by (destruct lo as [l| |]; cbn; typeclasses eauto). assert (Pl : ProperFilter (left_of hi)) by (destruct hi as [l| |]; cbn; typeclasses eauto).
  apply (is_RInt_gen_ext F); [|exact H]. apply (Filter_prod _ _ _ _ _ (right_of_ins lo hi a0 I0) (left_of_ins lo hi a0 I0)). intros x y [Ix _] [Iy _] t Ht. cbn in Ht. apply E. apply (ins_mm lo hi x y); auto. lra.
Qed.
Lemma improper_plus lo hi (F G : R -> R) v w : improper lo hi F v -> improper lo hi G w -> improper lo hi (fun t => F t + G t) (v + w).
Proof.
  intros H K. unfold improper in *. assert (Pr : ProperFilter (right_of lo)) by (destruct lo as [l| |]; cbn; typeclasses eauto). assert (Pl : ProperFilter (left_of hi)) by (destruct hi as [l| |]; cbn; typeclasses eauto).
  exact (is_RInt_gen_plus F G v w H K).
Qed.
Lemma improper_scal lo hi (F : R -> R) v c : improper lo hi F v -> improper lo hi (fun t => c * F t) (c * v).
Proof.
  intros H. unfold improper in *. assert (Pr : ProperFilter (right_of lo)) by (destruct lo as [l| |]; cbn; typeclasses eauto). assert (Pl : ProperFilter (left_of hi)) by (destruct hi as [l| |]; cbn; typeclasses eauto).
  exact (is_RInt_gen_scal F c v H).
Qed.
Section It.
  Variables lo hi : list R -> Rbar.
  Fixpoint valid (l l' : list R) : Prop := match l' with [] => True | t :: r => inside (lo l) (hi l) t /\ valid (l ++ [t])%list r end.
  (** every interval met is nonempty *)
  Definition proper_box : Prop := forall l, valid [] l -> exists a, inside (lo l) (hi l) a.
  Lemma valid_app l a c : valid l (a ++ c)%list <-> valid l a /\ valid (l ++ a)%list c.
  Proof.
    revert l. induction a as [|t a IH]; intros l; cbn [app valid]; [rewrite app_nil_r; tauto|]. rewrite IH, <- app_assoc. cbn [app]. tauto.
  Qed.
  Lemma valid_snoc l t : valid [] l -> inside (lo l) (hi l) t -> valid [] (l ++ [t])%list.
  Proof. intros H I. apply valid_app. cbn. auto. Qed.
  Hypothesis box : proper_box.
  Lemma iterated_ext k : forall l F G v, valid [] l -> (forall l', length l' = k -> valid l l' -> F (l ++ l')%list = G (l ++ l')%list) -> iterated k lo hi l F v -> iterated k lo hi l G v.
  Proof.
    induction k as [|k IH]; intros l F G v Hl E; cbn [iterated].
    - intros ->. specialize (E [] eq_refl Logic.I). now rewrite app_nil_r in E.
    - intros (H & H1 & H2). exists H. split; [|exact H2]. intros t Ht. apply (IH _ F G); [now apply valid_snoc| |now apply H1]. intros l' L V. rewrite <- !app_assoc. cbn [app]. apply E; [cbn; now rewrite L|split; assumption].
  Qed.
  Lemma iterated_plus k : forall l F G v w, iterated k lo hi l F v -> iterated k lo hi l G w -> iterated k lo hi l (fun x => F x + G x) (v + w).
  Proof.
    induction k as [|k IH]; intros l F G v w; cbn [iterated]; [intros -> ->; reflexivity|]. intros (H & H1 & H2) (K & K1 & K2). exists (fun t => H t + K t). split; [|now apply improper_plus]. intros t Ht. apply IH; auto.
  Qed.
  Lemma iterated_scal k c : forall l F v, iterated k lo hi l F v -> iterated k lo hi l (fun x => c * F x) (c * v).
  Proof. induction k as [|k IH]; intros l F v; cbn [iterated]; [intros ->; reflexivity|]. intros (H & H1 & H2). exists (fun t => c * H t). split; [|now apply improper_scal]. intros t Ht. apply IH; auto. Qed.
  Lemma iterated_zero k l F v : iterated k lo hi l F v -> iterated k lo hi l (fun _ => 0) 0.
  Proof. intros H. apply (iterated_scal k 0) in H. rewrite Rmult_0_l in H. replace (fun _ : list R => 0) with (fun x => 0 * F x); [exact H|]. apply FunctionalExtensionality.functional_extensionality. intros; ring. Qed.
  Lemma iterated_sum k l F0 v0 n (F : nat -> list R -> R) v : iterated k lo hi l F0 v0 -> (forall j, (j < n)%nat -> iterated k lo hi l (F j) (v j)) -> iterated k lo hi l (fun x => sumR n (fun j => F j x)) (sumR n v).
  Proof.
    intros H0. induction n as [|n IH]; intros H; [exact (iterated_zero k l F0 v0 H0)|]. rewrite sumR_S.
    replace (fun x => sumR (S n) (fun j => F j x)) with (fun x => sumR n (fun j => F j x) + F n x) by (apply FunctionalExtensionality.functional_extensionality; intros; now rewrite sumR_S). apply iterated_plus; [apply IH; auto|apply H; lia].
  Qed.
End It.
Lemma iterated_to k lo hi l F v w : v = w -> iterated k lo hi l F v -> iterated k lo hi l F w. Proof. now intros ->. Qed.
Definition WL (k : nat) := iterated k (fun _ => m_infty) (fun _ => p_infty).
Lemma box_line : proper_box (fun _ => m_infty) (fun _ => p_infty). Proof. intros l _. exists 0. apply inmp. Qed.
Lemma valid_line l l' : valid (fun _ => m_infty) (fun _ => p_infty) l l'. Proof. revert l. induction l' as [|t r IH]; intros l; cbn; [exact Logic.I|]. split; [apply inmp|apply IH]. Qed.
Lemma WL_ext k l F G v : (forall l', length l' = k -> F (l ++ l')%list = G (l ++ l')%list) -> WL k l F v -> WL k l G v.
Proof. intros E. apply iterated_ext; [apply valid_line|]. intros l' L _. now apply E. Qed.
(** ** products *)
Fixpoint prodR (n : nat) (g : nat -> R) : R := match n with O => 1 | S m => prodR m g * g m end.
Lemma prodR_ext n g h : (forall k, (k < n)%nat -> g k = h k) -> prodR n g = prodR n h.
Proof. induction n as [|n IH]; intros H; [reflexivity|]. cbn. rewrite IH, H by (intros; try apply H; lia). reflexivity. Qed.
Lemma prodR_1 n g : (forall k, (k < n)%nat -> g k = 1) -> prodR n g = 1.
Proof. induction n as [|n IH]; intros H; [reflexivity|]. cbn. rewrite IH, H by (intros; try apply H; lia). ring. Qed.
Lemma prodR_pick n g h j c : (j < n)%nat -> (forall k, (k < n)%nat -> k <> j -> h k = g k) -> h j = c * g j -> prodR n h = c * prodR n g.
Proof.
  intros Hj E Ej. induction n as [|n IH]; [lia|]. cbn. destruct (Nat.eq_dec j n) as [->|N].
  - rewrite Ej. rewrite (prodR_ext n h g) by (intros; apply E; lia). ring.
  - rewrite IH by (intros; try apply E; lia). rewrite (E n) by lia. ring.
Qed.
Lemma prodR_exp n g : prodR n (fun k => exp (g k)) = exp (sumR n g).
Proof. induction n as [|n IH]; [unfold sumR; cbn; now rewrite exp_0|]. cbn [prodR]. rewrite IH, sumR_S, exp_plus. reflexivity. Qed.
Lemma WL_prod (g : nat -> R -> R) (V : nat -> R) n : (forall j, (j < n)%nat -> improper m_infty p_infty (g j) (V j)) ->
  forall k l, (length l + k = n)%nat -> WL k l (fun x => prodR n (fun j => g j (nth j x 0))) (prodR n (fun j => if (j <? length l)%nat then g j (nth j l 0) else V j)).
Proof.
  intros H. induction k as [|k IH]; intros l L; unfold WL; cbn [iterated].
  - apply prodR_ext. intros j Hj. destruct (Nat.ltb_spec j (length l)); [reflexivity|lia].
  - set (m := length l) in *. set (c := prodR n (fun j => if (j <? m)%nat then g j (nth j l 0) else if (j =? m)%nat then 1 else V j)).
    exists (fun t => c * g m t). split.
    + intros t _. eapply iterated_to; [|apply (IH (l ++ [t])%list); rewrite app_length; cbn; lia]. rewrite app_length. cbn [length]. fold m.
      rewrite (Rmult_comm c). unfold c. apply prodR_pick with (j := m); [lia| |].
      * intros j Hj Nj. destruct (Nat.ltb_spec j (m + 1)), (Nat.ltb_spec j m), (Nat.eqb_spec j m); try lia; [|reflexivity]. f_equal. apply app_nth1. exact H1.
      * destruct (Nat.ltb_spec m (m + 1)), (Nat.ltb_spec m m), (Nat.eqb_spec m m); try lia. rewrite app_nth2 by (fold m; lia). fold m. rewrite Nat.sub_diag. cbn. ring.
    + replace (prodR n (fun j => if (j <? m)%nat then g j (nth j l 0) else V j)) with (c * V m); [apply improper_scal, H; lia|]. rewrite Rmult_comm. symmetry. unfold c. apply prodR_pick with (j := m); [lia| |].
      * intros j Hj Nj. destruct (Nat.ltb_spec j m), (Nat.eqb_spec j m); try lia; reflexivity.
      * destruct (Nat.ltb_spec m m), (Nat.eqb_spec m m); try lia. ring.
Qed.
(** ** independent normal coordinates *)
Definition ga (a b : R) : R := - (b * b) / (4 * a) + 1 / 2 * ln (- PI / a).
Definition gd (a b x : R) : R := exp (a * (x * x) + b * x - ga a b).
Lemma gd_norm a b : a < 0 -> nint m_infty p_infty (gd a b) 1.
Proof. intros H. eapply nint_norm; [exact (quad_int a b 0 H)|]. intros t _. unfold gd, ga. cbv beta. rewrite <- exp_plus. f_equal. ring. Qed.
Definition two_par (x : string) (s : R) (y : string) (t : R) : point := fun c m j => if c then 0 else if String.eqb m x then s else if String.eqb m y then t else 0.
Ltac two := cbv beta delta [two_par one_par]; cbn [String.eqb Ascii.eqb Bool.eqb].
Lemma gd_lp a b x : gd a b x = exp (lpR 1 (two_par "mean_times_precision" b "negative_half_precision" a) (scalar_obs x) Normal).
Proof. unfold gd, ga. f_equal. lpe. two. ring. Qed.
Lemma gd_cont a b x : continuous (gd a b) x.
Proof. apply (ex_derive_continuous (gd a b)). unfold gd. auto_derive. auto. Qed.
Lemma gd_moments a b : a < 0 -> sg (line m_infty p_infty) (fun x => gd a b x * x) (- b / (2 * a)) /\ sg (line m_infty p_infty) (fun x => gd a b x * (x * x)) ((- b / (2 * a)) * (- b / (2 * a)) - 1 / 2 / a).
Proof.
  intros H. set (p := two_par "mean_times_precision" b "negative_half_precision" a). assert (D : nat_dom Normal 1 p) by exact H.
  assert (G : forall v, sg (line m_infty p_infty) (fun t => exp (lpR 1 p (scalar_obs t) Normal) * dotP (NP Normal) (EP Normal) 1 v (ssR 1 p (scalar_obs t) Normal)) (dotP (NP Normal) (EP Normal) 1 v (expR 1 p Normal))).
  { intros v. apply gen_expect; [reflexivity|intros; now apply norm_normal|exact D|]. intros t _. dots. cbv beta iota zeta delta [ssR mkpt re slook]. cbn [String.eqb Ascii.eqb Bool.eqb]. unfold scalar_obs. cbv iota.
    apply (cont_eq (fun x => gd a b x * (v false "mean_times_precision" [] * x + v false "negative_half_precision" [] * (x * x)))).
    - intros s. rewrite gd_lp. unfold p, scalar_obs. ring.
    - apply (continuous_mult (gd a b) _ t); [apply gd_cont|]. apply (ex_derive_continuous (fun x => v false "mean_times_precision" [] * x + v false "negative_half_precision" [] * (x * x))). auto_derive. auto. }
  split.
  - specialize (G (one_par "mean_times_precision" 1)). revert G. dots. cbv beta iota zeta delta [ssR mkpt re slook expR]. cbn [String.eqb Ascii.eqb Bool.eqb]. unfold scalar_obs. cbv iota. two. unfold p. two. intros G.
    eapply sg_ext; [|eapply sg_to; [|exact G]; field; lra]. intros t _. cbv beta. rewrite gd_lp. unfold scalar_obs, two_par. ring.
  - specialize (G (one_par "negative_half_precision" 1)). revert G. dots. cbv beta iota zeta delta [ssR mkpt re slook expR]. cbn [String.eqb Ascii.eqb Bool.eqb]. unfold scalar_obs. cbv iota. two. unfold p. two. intros G.
    eapply sg_ext; [|eapply sg_to; [|exact G]; field; lra]. intros t _. cbv beta. rewrite gd_lp. unfold scalar_obs, two_par. ring.
Qed.
Definition gm (a b : R) : R := - b / (2 * a).
Definition gs (a b : R) : R := gm a b * gm a b - 1 / 2 / a.
Section Diag.
  Variables (n : nat) (a b : nat -> R).
  Hypothesis Ha : forall k, (k < n)%nat -> a k < 0.
  Definition diagP (l : list R) : R := exp (sumR n (fun k => a k * (nth k l 0 * nth k l 0) + b k * nth k l 0 - ga (a k) (b k))).
  Lemma diagP_prod l : diagP l = prodR n (fun k => gd (a k) (b k) (nth k l 0)).
  Proof. unfold diagP, gd. rewrite <- prodR_exp. reflexivity. Qed.
  Lemma diag_pick (h : R -> R) (V : R) j : (j < n)%nat -> improper m_infty p_infty (fun x => gd (a j) (b j) x * h x) V -> WL n [] (fun l => diagP l * h (nth j l 0)) V.
  Proof.
    intros Hj H. assert (W := WL_prod (fun k x => if (k =? j)%nat then gd (a k) (b k) x * h x else gd (a k) (b k) x) (fun k => if (k =? j)%nat then V else 1) n).
    eapply WL_ext; [|eapply iterated_to; [|apply (W) with (k := n) (l := [])]].
    - intros l _. cbn [app]. cbv beta. rewrite diagP_prod, Rmult_comm. apply prodR_pick with (j := j); [exact Hj| |].
      + intros k Hk Nk. destruct (Nat.eqb_spec k j); [contradiction|reflexivity].
      + rewrite Nat.eqb_refl. ring.
    - cbn [length]. transitivity (V * prodR n (fun _ => 1)); [|rewrite prodR_1 by auto; ring]. apply prodR_pick with (j := j); [exact Hj| |].
      + intros k Hk Nk. cbn. destruct (Nat.eqb_spec k j); [contradiction|reflexivity].
      + cbn. rewrite Nat.eqb_refl. ring.
    - intros k Hk. destruct (Nat.eqb_spec k j) as [->|]; [exact H|]. apply nint_gen. apply gd_norm. now apply Ha.
    - reflexivity.
  Qed.
  Lemma diag_norm : WL n [] diagP 1.
  Proof.
    eapply WL_ext; [|eapply iterated_to; [|apply (WL_prod (fun k x => gd (a k) (b k) x) (fun _ => 1) n) with (k := n) (l := [])]].
    - intros l _. symmetry. apply diagP_prod.
    - cbn [length]. apply prodR_1. intros k _. reflexivity.
    - intros k Hk. apply nint_gen. apply gd_norm. now apply Ha.
    - reflexivity.
  Qed.
  Lemma diag_moments (c d : nat -> R) (e : R) : WL n [] (fun l => diagP l * (sumR n (fun k => c k * nth k l 0 + d k * (nth k l 0 * nth k l 0)) + e)) (sumR n (fun k => c k * gm (a k) (b k) + d k * gs (a k) (b k)) + e).
  Proof.
    eapply WL_ext; [|apply iterated_to with (v := sumR n (fun k => c k * gm (a k) (b k) + d k * gs (a k) (b k)) + e * 1); [now rewrite Rmult_1_r|apply iterated_plus; [apply (iterated_sum _ _ n [] diagP 1 n (fun k l => c k * (diagP l * nth k l 0) + d k * (diagP l * (nth k l 0 * nth k l 0))) (fun k => c k * gm (a k) (b k) + d k * gs (a k) (b k)) diag_norm)|exact (iterated_scal _ _ n e [] _ _ diag_norm)]]].
    - intros l _. cbv beta. rewrite (sumR_ext n _ (fun k => diagP ([] ++ l) * (c k * nth k ([] ++ l) 0 + d k * (nth k ([] ++ l) 0 * nth k ([] ++ l) 0)))) by (intros; ring). rewrite sumR_scal. ring.
    - intros k Hk. destruct (gd_moments (a k) (b k) (Ha k Hk)) as [M1 M2]. apply iterated_plus; apply iterated_scal.
      + apply (diag_pick (fun x => x)); [exact Hk|]. apply sg_improper. exact M1.
      + apply (diag_pick (fun x => x * x)); [exact Hk|]. apply sg_improper. exact M2.
  Qed.
End Diag.
