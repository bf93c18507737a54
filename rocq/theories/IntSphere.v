(** The density of VonMisesFisher on the unit sphere. *)
From Coquelicot Require Import Coquelicot.
From Coq Require Import String List Bool Arith Reals Lia Lra.
From Verif Require Import Base XReal Tensor TensorFacts Support Dist Iteration Structure Spec SumSpec DotSpec Tools Joint SpecFun GammaFn BesselFn Expr Fam DotFacts BatchFacts
  PointSpec PointFacts Val FamR FamVal ConvFacts LeafVal DerivFacts DerivThms DensSpec DensVal DensThms IntSpec IntFacts GammaInt IntNorm IntGen IntMulti IntFam SphereInt.
Import ListNotations.
Local Unset Asymmetric Patterns.
Local Open Scope string_scope.
Local Open Scope R_scope.

Ltac R_eq := match goal with |- @eq _ ?x ?y => change (@eq R x y) end.
(** ** the relation is functional, linear and extensional *)
Definition lsq (l : list R) : R := lsum (map (fun a => a * a) l).
Lemma lsum_app l m : lsum (l ++ m)%list = lsum l + lsum m.
Proof. unfold lsum. induction l as [|a l IH]; cbn [app fold_right]; [ring|]. rewrite IH. ring. Qed.
Lemma lsq_snoc l a : lsq (l ++ [a])%list = lsq l + a * a.
Proof. unfold lsq. rewrite map_app, lsum_app. cbn. ring. Qed.
Lemma turn s t : s * cos t * (s * cos t) + s * sin t * (s * sin t) = s * s.
Proof. pose proof (sin2_cos2 t) as H. unfold Rsqr in H. transitivity (s * s * (sin t * sin t + cos t * cos t)); [ring|]. rewrite H. ring. Qed.
Lemma sphere_ext k : forall s l F G v, (forall x, length x = (length l + S k)%nat -> lsq x = lsq l + s * s -> F x = G x) -> sphere k s l F v -> sphere k s l G v.
Proof.
  induction k as [|k IH]; intros s l F G v E; cbn [sphere].
  - intros ->. rewrite !E; try reflexivity; try (rewrite app_length; cbn [length]; lia); rewrite lsq_snoc; ring.
  - intros (H & H1 & H2). exists H. split; [|exact H2]. intros t Ht. apply (IH _ _ F); [|now apply H1]. intros x L Q. apply E; [rewrite L, app_length; cbn [length]; lia|].
    rewrite Q, lsq_snoc, Rplus_assoc, turn. reflexivity.
Qed.
Lemma sphere_plus k : forall s l F G v w, sphere k s l F v -> sphere k s l G w -> sphere k s l (fun x => F x + G x) (v + w).
Proof.
  induction k as [|k IH]; intros s l F G v w; cbn [sphere].
  - intros -> ->. ring.
  - intros (f & F1 & F2) (g & G1 & G2). exists (fun t => f t + g t). split; [intros t Ht; apply IH; auto|].
    apply (is_RInt_ext (fun t => plus (sin t ^ k * f t) (sin t ^ k * g t))). { intros t _. change plus with Rplus. R_eq. ring. }
    now apply (is_RInt_plus (V := R_NormedModule)).
Qed.
Lemma sphere_scal k : forall s l F v c, sphere k s l F v -> sphere k s l (fun x => c * F x) (c * v).
Proof.
  induction k as [|k IH]; intros s l F v c; cbn [sphere].
  - intros ->. ring.
  - intros (f & F1 & F2). exists (fun t => c * f t). split; [intros t Ht; apply IH; auto|].
    apply (is_RInt_ext (fun t => scal c (sin t ^ k * f t))). { intros t _. change scal with Rmult. cbn. ring. }
    now apply (is_RInt_scal (V := R_NormedModule)).
Qed.
Lemma sphere_fun k : forall s l F v w, sphere k s l F v -> sphere k s l F w -> v = w.
Proof.
  induction k as [|k IH]; intros s l F v w; cbn [sphere].
  - now intros -> ->.
  - intros (f & F1 & F2) (g & G1 & G2). apply (is_RInt_fun (fun t => sin t ^ k * f t) 0 PI); [exact F2|]. eapply is_RInt_ext; [|exact G2].
    intros t Ht. rewrite Rmin_left, Rmax_right in Ht by (left; apply PI_RGT_0). cbv beta. rewrite (IH _ _ _ _ _ (F1 t Ht) (G1 t Ht)). reflexivity.
Qed.
Lemma sin_pos t : 0 < t < PI -> 0 < sin t. Proof. intros [A B]. now apply sin_gt_0. Qed.
Lemma sphere_le k : forall s l F G v w, (forall x, length x = (length l + S k)%nat -> lsq x = lsq l + s * s -> F x <= G x) -> sphere k s l F v -> sphere k s l G w -> v <= w.
Proof.
  induction k as [|k IH]; intros s l F G v w E; cbn [sphere].
  - intros -> ->. apply Rplus_le_compat; apply E; try (rewrite app_length; cbn [length]; lia); rewrite lsq_snoc; ring.
  - intros (f & F1 & F2) (g & G1 & G2). apply (is_RInt_le (fun t => sin t ^ k * f t) (fun t => sin t ^ k * g t) 0 PI); [left; apply PI_RGT_0|exact F2|exact G2|].
    intros t Ht. apply Rmult_le_compat_l; [apply pow_le; left; now apply sin_pos|]. eapply (IH _ _ F G); [|now apply F1|now apply G1].
    intros x L Q. apply E; [rewrite L, app_length; cbn [length]; lia|]. rewrite Q, lsq_snoc, Rplus_assoc, turn. reflexivity.
Qed.
(** ** Lipschitz functions are integrable *)
Fixpoint ld (l m : list R) : R := match l, m with a :: l', b :: m' => Rabs (a - b) + ld l' m' | _, _ => 0 end.
Lemma ld_snoc l : forall m a b, length l = length m -> ld (l ++ [a])%list (m ++ [b])%list = ld l m + Rabs (a - b).
Proof. induction l as [|c l IH]; intros [|d m] a b H; try discriminate H; cbn [app ld]; [ring|]. rewrite IH by (cbn in H; lia). ring. Qed.
Lemma ld_refl l : ld l l = 0.
Proof. induction l as [|c l IH]; cbn [ld]; [reflexivity|]. rewrite IH, Rminus_eq_0, Rabs_R0. ring. Qed.
Lemma ld_pos l : forall m, 0 <= ld l m.
Proof. induction l as [|c l IH]; intros [|d m]; cbn [ld]; try lra. pose proof (Rabs_pos (c - d)). specialize (IH m). lra. Qed.
Definition small (a : R) : Prop := Rabs a <= 1.
Definition inbox (n : nat) (l : list R) : Prop := length l = n /\ Forall small l.
Lemma small_mult a b : small a -> small b -> small (a * b).
Proof. unfold small. intros A B. rewrite Rabs_mult. pose proof (Rabs_pos a). pose proof (Rabs_pos b). rewrite <- (Rmult_1_r 1). apply Rmult_le_compat; assumption. Qed.
Lemma small_sin t : small (sin t). Proof. apply Rabs_le, SIN_bound. Qed.
Lemma small_cos t : small (cos t). Proof. apply Rabs_le, COS_bound. Qed.
Lemma inbox_snoc n l a : inbox n l -> small a -> inbox (S n) (l ++ [a])%list.
Proof. intros [L F] A. split; [rewrite app_length; cbn [length]; lia|]. apply Forall_app. split; [exact F|]. now constructor. Qed.
Definition Lip (n : nat) (K : R) (F : list R -> R) : Prop := 0 <= K /\ forall x y, inbox n x -> inbox n y -> Rabs (F x - F y) <= K * ld x y.
Fixpoint SI (k : nat) (s : R) (l : list R) (F : list R -> R) : R :=
  match k with O => F (l ++ [s])%list + F (l ++ [- s])%list | S k' => RInt (fun t => sin t ^ k' * SI k' (s * sin t) (l ++ [s * cos t])%list F) 0 PI end.
Fixpoint LC (k : nat) (K : R) : R := match k with O => 2 * K | S k' => 2 * PI * LC k' K end.
Lemma LC_pos k K : 0 <= K -> 0 <= LC k K.
Proof. intros H. induction k as [|k IH]; cbn [LC]; [lra|]. apply Rmult_le_pos; [|exact IH]. pose proof PI_RGT_0. lra. Qed.
Lemma SI_cont_of k s l F m (C : R) : small s -> inbox m l -> 0 <= C ->
  (forall l l' s s', inbox (S m) l -> inbox (S m) l' -> small s -> small s' -> Rabs (SI k s l F - SI k s' l' F) <= C * (ld l l' + Rabs (s - s'))) ->
  forall t, continuous (fun t => SI k (s * sin t) (l ++ [s * cos t])%list F) t.
Proof.
  intros Hs Hl HC H t. set (g := fun t => SI k (s * sin t) (l ++ [s * cos t])%list F). set (b := fun u => C * (Rabs (s * cos u - s * cos t) + Rabs (s * sin u - s * sin t))).
  assert (Cb : continuous b t).
  { unfold b. apply (continuous_mult (fun _ => C) (fun u => Rabs (s * cos u - s * cos t) + Rabs (s * sin u - s * sin t))); [apply continuous_const|].
    apply (continuous_plus (fun u => Rabs (s * cos u - s * cos t)) (fun u => Rabs (s * sin u - s * sin t))).
    - apply (continuous_comp (fun u => s * cos u - s * cos t) Rabs); [apply @ex_derive_continuous; auto_derive; exact Logic.I|apply continuous_Rabs].
    - apply (continuous_comp (fun u => s * sin u - s * sin t) Rabs); [apply @ex_derive_continuous; auto_derive; exact Logic.I|apply continuous_Rabs]. }
  apply filterlim_locally. intros eps. assert (B0 : b t = 0) by (unfold b; rewrite !Rminus_eq_0, Rabs_R0; ring).
  pose proof (proj1 (filterlim_locally b (b t)) Cb eps) as L. apply (filter_imp (fun u => ball (b t) eps (b u))); [|exact L]. intros u Bu. change (Rabs (g u - g t) < eps). change (Rabs (b u - b t) < eps) in Bu. rewrite B0, Rminus_0_r in Bu.
  assert (Q : Rabs (g u - g t) <= b u).
  { unfold g, b. eapply Rle_trans; [apply H; [apply inbox_snoc|apply inbox_snoc| |]; auto using small_mult, small_sin, small_cos|]. rewrite ld_snoc, ld_refl by reflexivity. apply Req_le. ring. }
  pose proof (Rle_abs (b u)). lra.
Qed.
Lemma SI_lip k : forall n K F m, Lip n K F -> (m + S k = n)%nat -> forall l l' s s', inbox m l -> inbox m l' -> small s -> small s' ->
  Rabs (SI k s l F - SI k s' l' F) <= LC k K * (ld l l' + Rabs (s - s')).
Proof.
  induction k as [|k IH]; intros n K F m HF E l l' s s' Hl Hl' Hs Hs'; cbn [SI LC].
  - destruct HF as [K0 HF]. assert (small (- s)) by (unfold small; now rewrite Rabs_Ropp). assert (small (- s')) by (unfold small; now rewrite Rabs_Ropp). replace n with (S m) in HF by lia.
    replace (F (l ++ [s])%list + F (l ++ [- s])%list - (F (l' ++ [s'])%list + F (l' ++ [- s'])%list)) with ((F (l ++ [s])%list - F (l' ++ [s'])%list) + (F (l ++ [- s])%list - F (l' ++ [- s'])%list)) by ring.
    eapply Rle_trans; [apply Rabs_triang|]. assert (L : length l = length l') by (rewrite (proj1 Hl), (proj1 Hl'); reflexivity).
    pose proof (HF (l ++ [s])%list (l' ++ [s'])%list ltac:(now apply inbox_snoc) ltac:(now apply inbox_snoc)) as H1. pose proof (HF (l ++ [- s])%list (l' ++ [- s'])%list ltac:(now apply inbox_snoc) ltac:(now apply inbox_snoc)) as H2.
    rewrite ld_snoc in H1, H2 by exact L. replace (- s - - s') with (- (s - s')) in H2 by ring. rewrite Rabs_Ropp in H2. lra.
  - pose proof (LC_pos k K (proj1 HF)) as C0. pose proof (IH n K F (S m) HF ltac:(lia)) as IH'. set (C := LC k K) in *.
    assert (Cn : forall s l, small s -> inbox m l -> forall t, continuous (fun t => sin t ^ k * SI k (s * sin t) (l ++ [s * cos t])%list F) t).
    { intros a b Ha Hb t. apply (continuous_mult (fun t => sin t ^ k) (fun t => SI k (a * sin t) (b ++ [a * cos t])%list F)); [apply @ex_derive_continuous; auto_derive; exact Logic.I|].
      apply (SI_cont_of k a b F m C); auto. }
    set (f := fun t => sin t ^ k * SI k (s * sin t) (l ++ [s * cos t])%list F). set (g := fun t => sin t ^ k * SI k (s' * sin t) (l' ++ [s' * cos t])%list F).
    assert (If : ex_RInt f 0 PI) by (apply (@ex_RInt_continuous R_CompleteNormedModule); intros; now apply Cn). assert (Ig : ex_RInt g 0 PI) by (apply (@ex_RInt_continuous R_CompleteNormedModule); intros; now apply Cn).
    assert (M := RInt_minus f g 0 PI If Ig). change (RInt (fun t => f t - g t) 0 PI = RInt f 0 PI - RInt g 0 PI) in M. rewrite <- M.
    set (B := C * (ld l l' + 2 * Rabs (s - s'))). assert (L : length l = length l') by (rewrite (proj1 Hl), (proj1 Hl'); reflexivity). pose proof PI_RGT_0 as P0. pose proof (ld_pos l l') as D0. pose proof (Rabs_pos (s - s')) as D1.
    assert (Q : Rabs (RInt (fun t => f t - g t) 0 PI) <= (PI - 0) * B).
    { apply abs_RInt_le_const; [lra|exact (ex_RInt_minus f g 0 PI If Ig)|]. intros t _. unfold f, g. rewrite <- Rmult_minus_distr_l, Rabs_mult. rewrite <- (Rmult_1_l B). apply Rmult_le_compat; [apply Rabs_pos|apply Rabs_pos|apply sin_pow_le|].
      eapply Rle_trans; [apply IH'; [apply inbox_snoc|apply inbox_snoc| |]; auto using small_mult, small_sin, small_cos|]. rewrite ld_snoc by exact L. unfold B. apply Rmult_le_compat_l; [exact C0|].
      rewrite <- !Rmult_minus_distr_r, !Rabs_mult. pose proof (small_sin t). pose proof (small_cos t). unfold small in *. pose proof (Rabs_pos (sin t)). pose proof (Rabs_pos (cos t)).
      assert (Rabs (s - s') * Rabs (cos t) <= Rabs (s - s') * 1) by (apply Rmult_le_compat_l; assumption). assert (Rabs (s - s') * Rabs (sin t) <= Rabs (s - s') * 1) by (apply Rmult_le_compat_l; assumption). lra. }
    eapply Rle_trans; [exact Q|]. unfold B. rewrite Rminus_0_r. replace (2 * PI * C * (ld l l' + Rabs (s - s'))) with (PI * (C * (2 * ld l l' + 2 * Rabs (s - s')))) by ring.
    apply Rmult_le_compat_l; [lra|]. apply Rmult_le_compat_l; [exact C0|]. lra.
Qed.
Lemma SI_ok k : forall n K F m, Lip n K F -> (m + S k = n)%nat -> forall l s, inbox m l -> small s -> sphere k s l F (SI k s l F).
Proof.
  induction k as [|k IH]; intros n K F m HF E l s Hl Hs; cbn [SI sphere]; [reflexivity|].
  exists (fun t => SI k (s * sin t) (l ++ [s * cos t])%list F). split.
  - intros t _. apply (IH n K F (S m)); [exact HF|lia| |auto using small_mult, small_sin]. apply inbox_snoc; auto using small_mult, small_cos.
  - apply (RInt_correct (V := R_CompleteNormedModule)). apply (@ex_RInt_continuous R_CompleteNormedModule). intros t _.
    apply (continuous_mult (fun t => sin t ^ k) (fun t => SI k (s * sin t) (l ++ [s * cos t])%list F)); [apply @ex_derive_continuous; auto_derive; exact Logic.I|].
    apply (SI_cont_of k s l F m (LC k K)); auto; [apply LC_pos, HF|]. intros. apply (SI_lip k n K F (S m)); auto. lia.
Qed.
(** ** Lipschitz and bounded on the box *)
Definition LB (n : nat) (F : list R -> R) : Prop := exists K B, Lip n K F /\ 0 <= B /\ forall x, inbox n x -> Rabs (F x) <= B.
Lemma LB_ext n F G : (forall x, inbox n x -> F x = G x) -> LB n F -> LB n G.
Proof. intros E (K & B & [H0 H1] & H2 & H3). exists K, B. split; [split; [exact H0|]|split; [exact H2|]]; intros; rewrite <- !E by assumption; auto. Qed.
Lemma LB_const n c : LB n (fun _ => c).
Proof. exists 0, (Rabs c). split; [split; [lra|]|split; [apply Rabs_pos|]]; intros; [rewrite Rminus_eq_0, Rabs_R0; lra|lra]. Qed.
Lemma LB_plus n F G : LB n F -> LB n G -> LB n (fun x => F x + G x).
Proof.
  intros (K & B & [H0 H1] & H2 & H3) (K' & B' & [H0' H1'] & H2' & H3'). exists (K + K'), (B + B'). split; [split; [lra|]|split; [lra|]].
  - intros x y X Y. replace (F x + G x - (F y + G y)) with ((F x - F y) + (G x - G y)) by ring. eapply Rle_trans; [apply Rabs_triang|]. specialize (H1 x y X Y). specialize (H1' x y X Y). lra.
  - intros x X. eapply Rle_trans; [apply Rabs_triang|]. specialize (H3 x X). specialize (H3' x X). lra.
Qed.
Lemma LB_mult n F G : LB n F -> LB n G -> LB n (fun x => F x * G x).
Proof.
  intros (K & B & [H0 H1] & H2 & H3) (K' & B' & [H0' H1'] & H2' & H3'). exists (K * B' + B * K'), (B * B'). assert (0 <= K * B') by now apply Rmult_le_pos. assert (0 <= B * K') by now apply Rmult_le_pos. split; [split; [lra|]|split; [now apply Rmult_le_pos|]].
  - intros x y X Y. replace (F x * G x - F y * G y) with ((F x - F y) * G x + F y * (G x - G y)) by ring. eapply Rle_trans; [apply Rabs_triang|]. rewrite !Rabs_mult. specialize (H1 x y X Y). specialize (H1' x y X Y). pose proof (ld_pos x y) as D.
    assert (Rabs (F x - F y) * Rabs (G x) <= K * ld x y * B') by (apply Rmult_le_compat; auto using Rabs_pos). assert (Rabs (F y) * Rabs (G x - G y) <= B * (K' * ld x y)) by (apply Rmult_le_compat; auto using Rabs_pos). lra.
  - intros x X. rewrite Rabs_mult. apply Rmult_le_compat; auto using Rabs_pos.
Qed.
Lemma exp_le x y : x <= y -> exp x <= exp y.
Proof. intros [H| ->]; [left; now apply exp_increasing|right; reflexivity]. Qed.
Lemma exp_lip B a b : Rabs a <= B -> Rabs b <= B -> Rabs (exp a - exp b) <= exp B * Rabs (a - b).
Proof.
  intros A C. destruct (MVT_gen exp b a exp) as (c & [C1 C2] & E).
  - intros x _. apply is_derive_exp.
  - intros x _. apply derivable_continuous_pt, derivable_pt_exp.
  - rewrite E, Rabs_mult. apply Rmult_le_compat_r; [apply Rabs_pos|]. rewrite Rabs_right by (left; apply exp_pos). apply exp_le. apply Rabs_le_between in A. apply Rabs_le_between in C. unfold Rmax in C2. destruct (Rle_dec b a); lra.
Qed.
Lemma LB_exp n F : LB n F -> LB n (fun x => exp (F x)).
Proof.
  intros (K & B & [H0 H1] & H2 & H3). pose proof (exp_pos B) as P. exists (exp B * K), (exp B). split; [split; [apply Rmult_le_pos; lra|]|split; [lra|]].
  - intros x y X Y. eapply Rle_trans; [apply (exp_lip B); auto|]. rewrite Rmult_assoc. apply Rmult_le_compat_l; [lra|]. now apply H1.
  - intros x X. rewrite Rabs_right by (left; apply exp_pos). apply exp_le. specialize (H3 x X). apply Rabs_le_between in H3. lra.
Qed.
Lemma LB_nth n i : LB n (fun x => nth i x 0).
Proof.
  exists 1, 1. split; [split; [lra|]|split; [lra|]].
  - intros x y [Lx _] [Ly _]. rewrite <- Ly in Lx. clear Ly n. rewrite Rmult_1_l. revert x y Lx. induction i as [|i IH]; intros [|a x] [|b y] L; try discriminate L; cbn [nth ld]; try (rewrite Rminus_eq_0, Rabs_R0; lra); pose proof (Rabs_pos (a - b)); pose proof (ld_pos x y).
    + lra.
    + specialize (IH x y ltac:(cbn in L; lia)). lra.
  - intros x [_ F]. clear n. revert i. induction F as [|a x A F IH]; intros [|i]; cbn [nth]; try (rewrite Rabs_R0; lra); [exact A|apply IH].
Qed.
Lemma LB_sumR n m (F : nat -> list R -> R) : (forall i, (i < m)%nat -> LB n (F i)) -> LB n (fun x => sumR m (fun i => F i x)).
Proof.
  induction m as [|m IH]; intros H; [exact (LB_const n 0)|]. apply (LB_ext n (fun x => sumR m (fun i => F i x) + F m x)); [intros; symmetry; apply sumR_S|]. apply LB_plus; [apply IH; intros; apply H; lia|apply H; lia].
Qed.
Lemma box_of_lsq x : lsq x <= 1 -> Forall small x.
Proof.
  assert (P : forall l, 0 <= lsq l). { unfold lsq, lsum. induction l as [|a l IH]; cbn [map fold_right]; [lra|]. pose proof (Rle_0_sqr a) as Q. unfold Rsqr in Q. lra. }
  induction x as [|a x IH]; intros H; constructor; unfold lsq, lsum in *; cbn [map fold_right] in H; pose proof (P x) as Px; unfold lsq, lsum in Px; pose proof (Rle_0_sqr a) as Q; unfold Rsqr in Q.
  - unfold small. apply Rabs_le. split; nra.
  - apply IH. lra.
Qed.
(** ** the sphere as a measure *)
Definition sdom (k : nat) (x : list R) : Prop := length x = S k /\ lsq x = 1.
Definition sgood (k : nat) (F : list R -> R) : Prop := exists F', LB (S k) F' /\ forall x, sdom k x -> F x = F' x.
Definition sint (k : nat) (F : list R -> R) (v : R) : Prop := (forall x, sdom k x -> 0 <= F x) /\ sgood k F /\ sphere k 1 [] F v.
Lemma sdom_at k x : length x = (length (@nil R) + S k)%nat -> lsq x = lsq [] + 1 * 1 -> sdom k x.
Proof. intros L Q. split; [exact L|]. rewrite Q. cbn. ring. Qed.
Lemma sgood_int k F : sgood k F -> exists v, sphere k 1 [] F v.
Proof.
  intros (F' & (K & B & H & _) & E). exists (SI k 1 [] F'). apply (sphere_ext k 1 [] F'); [intros x L Q; symmetry; apply E; now apply sdom_at|].
  apply (SI_ok k (S k) K F' 0%nat H); [reflexivity|split; [reflexivity|constructor]|unfold small; rewrite Rabs_R1; lra].
Qed.
Lemma sgood_plus k F G : sgood k F -> sgood k G -> sgood k (fun x => F x + G x).
Proof. intros (F' & A & E) (G' & B & E'). exists (fun x => F' x + G' x). split; [now apply LB_plus|]. intros x X. now rewrite E, E'. Qed.
Definition sph (k : nat) : msr (list R).
Proof.
  refine {| dom := sdom k; good := sgood k; int := sint k |}.
  - intros F v (_ & G & _). exact G.
  - intros F v (P & _ & _). exact P.
  - intros F G v E (P & (F' & A & E') & S). split; [intros x X; rewrite <- E by exact X; auto|]. split; [exists F'; split; [exact A|intros x X; rewrite <- E by exact X; auto]|].
    eapply sphere_ext; [|exact S]. intros x L Q. apply E. now apply sdom_at.
  - intros F G v w (_ & _ & S) (_ & _ & S') L. eapply sphere_le; [|exact S|exact S']. intros x Lx Q. apply L. now apply sdom_at.
  - intros F G w _ GF B. destruct (sgood_int k F GF) as (v & S). exists v. split; [intros x X; apply (B x X)|]. split; assumption.
  - intros F v c C (P & (F' & A & E) & S). split; [intros x X; apply Rmult_le_pos; auto|]. split; [|now apply sphere_scal]. exists (fun x => c * F' x). split; [apply LB_mult; [apply LB_const|exact A]|]. intros x X. now rewrite E.
  - intros F G v w (P & A & S) (P' & A' & S'). split; [intros x X; apply Rplus_le_le_0_compat; auto|]. split; [now apply sgood_plus|now apply sphere_plus].
  - intros F G A A'. now apply sgood_plus.
Defined.
Lemma sg_sphere k F v : sg (sph k) F v -> sphere k 1 [] F v.
Proof.
  intros (A & B & a & b & (_ & _ & SA) & (_ & _ & SB) & E & ->). apply (sphere_ext k 1 [] (fun x => A x + -1 * B x)); [intros x L Q; rewrite E by (now apply sdom_at); ring|].
  replace (a - b) with (a + -1 * b) by ring. apply sphere_plus; [exact SA|]. now apply sphere_scal.
Qed.
(** ** the exponential of a linear form *)
Definition sfac (k : nat) : R := 2 * Rpower (sqrt PI) (INR k + 1).
Lemma sfac_S k : sfac (S k) = sqrt PI * sfac k.
Proof. unfold sfac. rewrite S_INR, (Rpower_plus (INR k + 1) 1), Rpower_1 by apply sqrtPI. ring. Qed.
Lemma nth_snoc (l : list R) a : nth (length l) (l ++ [a])%list 0 = a.
Proof. rewrite app_nth2, Nat.sub_diag by lia. reflexivity. Qed.
Lemma lin_snoc (w : nat -> R) l a : sumR (S (length l)) (fun i => w i * nth i (l ++ [a])%list 0) = sumR (length l) (fun i => w i * nth i l 0) + w (length l) * a.
Proof. rewrite sumR_S, nth_snoc. f_equal. apply sumR_ext. intros i Hi. now rewrite app_nth1. Qed.
Lemma sphere_exp (w : nat -> R) k : forall l s, sphere k s l (fun x => exp (sumR (length l + S k) (fun i => w i * nth i x 0)))
  (exp (sumR (length l) (fun i => w i * nth i l 0)) * (sfac k * bS ((INR k - 1) / 2) (s * s * sumR (S k) (fun i => w (length l + i)%nat * w (length l + i)%nat) / 4))).
Proof.
  induction k as [|k IH]; intros l s; cbn [sphere].
  - replace (length l + 1)%nat with (S (length l)) by lia. rewrite !lin_snoc, !exp_plus. set (e := exp (sumR (length l) _)). rewrite sumR_S. change (sumR 0 _) with 0. rewrite Nat.add_0_r, Rplus_0_l. set (z := w (length l) * s).
    replace (w (length l) * - s) with (- z) by (unfold z; ring). transitivity (e * (exp z + exp (- z))); [|ring]. rewrite cosh_bS. cbn [INR]. unfold sfac. cbn [INR]. rewrite Rplus_0_l, Rpower_1 by apply sqrtPI.
    replace ((0 - 1) / 2) with (- (1 / 2)) by field. replace (s * s * (w (length l) * w (length l)) / 4) with (z * z / 4) by (unfold z; field). ring.
  - set (e := exp (sumR (length l) (fun i => w i * nth i l 0))). set (a := w (length l)). set (Q := sumR (S k) (fun i => w (S (length l + i)) * w (S (length l + i)))).
    assert (Q0 : 0 <= Q) by (apply sumR_nonneg; intros i _; apply Rle_0_sqr).
    exists (fun t => exp (sumR (length l) (fun i => w i * nth i l 0)) * exp (s * a * cos t) * (sfac k * bS ((INR k - 1) / 2) (s * sqrt Q * sin t * (s * sqrt Q * sin t) / 4))). split.
    + intros t _. specialize (IH (l ++ [s * cos t])%list (s * sin t)). rewrite app_length in IH. cbn [length] in IH. replace (length l + 1)%nat with (S (length l)) in IH by lia. rewrite lin_snoc, exp_plus in IH.
      replace (length l + S (S k))%nat with (S (length l) + S k)%nat by lia. replace (s * a * cos t) with (w (length l) * (s * cos t)) by (unfold a; ring).
      replace (s * sqrt Q * sin t * (s * sqrt Q * sin t)) with (s * sin t * (s * sin t) * (sqrt Q * sqrt Q)) by ring. rewrite sqrt_sqrt by exact Q0. exact IH.
    + fold e. assert (K := angle_int k (s * a) (s * sqrt Q)). apply (is_RInt_scal (V := R_NormedModule) _ 0 PI (e * sfac k)) in K.
      evar_last. { eapply is_RInt_ext; [|exact K]. intros t _. change scal with Rmult. cbn -[pow]. ring. }
      change scal with Rmult. cbn -[sumR INR]. rewrite sfac_S. replace (s * a * (s * a) + s * sqrt Q * (s * sqrt Q)) with (s * s * (a * a + sqrt Q * sqrt Q)) by ring. rewrite sqrt_sqrt by exact Q0.
      replace ((INR (S k) - 1) / 2) with (INR k / 2) by (rewrite S_INR; field).
      assert (EQ : sumR (S (S k)) (fun i => w (length l + i)%nat * w (length l + i)%nat) = a * a + Q).
      { rewrite sumR_Sl. rewrite Nat.add_0_r. fold a. f_equal. unfold Q. apply sumR_ext. intros i _. replace (length l + S i)%nat with (S (length l + i)) by lia. reflexivity. }
      rewrite EQ. R_eq. ring.
Qed.
(** ** VonMisesFisher *)
Notation VM := VonMisesFisher (only parsing).
Lemma vmf_dot n v p x : dotP (NP VM) (EP VM) n v (ssR n p x VM) = sumR n (fun i => v false "mean_times_concentration" [i] * x false [i]).
Proof. dots. vals. rewrite Rplus_0_r. apply sumR_ext. intros; ring. Qed.
Lemma vmf_lp n p l : lpR n p (vector_obs l) VM = sumR n (fun i => p false "mean_times_concentration" [i] * nth i l 0) - lnR n p VM.
Proof. unfold lpR. rewrite vmf_dot. change (cmR n p (vector_obs l) VM) with 0. unfold vector_obs. cbn [hd]. ring. Qed.
Lemma vmf_ln k p : nat_dom VM (S k) p ->
  exp (lnR (S k) p VM) = sfac k * bS ((INR k - 1) / 2) (sumR (S k) (fun i => p false "mean_times_concentration" [i] * p false "mean_times_concentration" [i]) / 4).
Proof.
  intros H. assert (Hs : 0 < sumsq (S k) p "mean_times_concentration") by now apply sumsq_pos. change (sumR (S k) _) with (sumsq (S k) p "mean_times_concentration").
  cbv beta iota zeta delta [lnR norm2]. set (Q := sumsq (S k) p "mean_times_concentration") in *. set (z := sqrt Q). assert (Hz : 0 < z) by now apply sqrt_lt_R0. assert (Ez : z * z = Q) by (apply sqrt_sqrt; lra).
  replace (INR (S k) * (1 / 2) - 1) with ((INR k - 1) / 2) by (rewrite S_INR; field). set (u := (INR k - 1) / 2). assert (Hu : -1 < u) by (unfold u; pose proof (pos_INR k); lra).
  rewrite bessel_bS by exact Hz. rewrite Ez. assert (PB : 0 < bS u (Q / 4)) by (apply bS_pos; lra). assert (Pf : 0 < sfac k) by (unfold sfac; apply Rmult_lt_0_compat; [lra|apply exp_pos]).
  assert (P1 : 0 < Rpower (z / 2) u) by apply exp_pos. rewrite (ln_mult _ _ P1 PB). unfold Rpower at 1. rewrite ln_exp. rewrite <- (exp_ln (sfac k * bS u (Q / 4))) by now apply Rmult_lt_0_compat. f_equal.
  rewrite (ln_mult (sfac k)) by assumption. unfold sfac. rewrite (ln_mult 2 (Rpower _ _)) by (try apply exp_pos; lra). unfold Rpower. rewrite ln_exp. pose proof PI_RGT_0 as PP. assert (EP : ln PI = 2 * ln (sqrt PI)).
  { rewrite <- (sqrt_sqrt PI) at 1 by lra. rewrite ln_mult by apply sqrtPI. ring. }
  unfold Rdiv at 2. rewrite (ln_mult z (/ 2)), ln_Rinv, (ln_mult 2 PI), EP, S_INR by lra. unfold u. field.
Qed.
Lemma vmf_lb n p : LB n (fun l => exp (lpR n p (vector_obs l) VM)).
Proof.
  apply LB_exp. eapply LB_ext; [intros; symmetry; apply vmf_lp|]. apply LB_plus; [|apply LB_const]. apply LB_sumR. intros i _. apply LB_mult; [apply LB_const|apply LB_nth].
Qed.
Lemma vmf_norm k p : nat_dom VM (S k) p -> int (sph k) (fun l => exp (lpR (S k) p (vector_obs l) VM)) 1.
Proof.
  intros H. split; [intros; left; apply exp_pos|]. split; [exists (fun l => exp (lpR (S k) p (vector_obs l) VM)); split; [apply vmf_lb|reflexivity]|].
  assert (K := sphere_exp (fun i => p false "mean_times_concentration" [i]) k [] 1). cbn [length] in K. rewrite !Nat.add_0_l in K. change (sumR 0 _) with 0 in K. rewrite exp_0, !Rmult_1_l in K.
  assert (N := vmf_ln k p H). rewrite (sumR_ext (S k) _ (fun i => p false "mean_times_concentration" [i] * p false "mean_times_concentration" [i])) in K by reflexivity. rewrite <- N in K.
  apply (sphere_scal k 1 [] _ _ (exp (- lnR (S k) p VM))) in K. rewrite <- exp_plus in K. replace (- lnR (S k) p VM + lnR (S k) p VM) with 0 in K by ring. rewrite exp_0 in K.
  eapply sphere_ext; [|exact K]. intros x _ _. cbv beta. rewrite <- exp_plus, vmf_lp. f_equal. ring.
Qed.
Theorem vmf_int n p : nat_dom VM n p -> norm_ok VM n p /\ mean_ok VM n p /\ cm_ok VM n p.
Proof.
  intros H. destruct n as [|k]; [destruct H as (j & J & _); lia|]. assert (N : integral_over VM (S k) (dens VM (S k) p) 1).
  { split; [lia|]. replace (S k - 1)%nat with k by lia. exact (proj2 (proj2 (vmf_norm k p H))). }
  split; [exact N|]. split.
  - intros v. split; [lia|]. replace (S k - 1)%nat with k by lia. apply sg_sphere.
    apply (gen_expect (sph k) vector_obs VM (S k) p v eq_refl (vmf_norm k) H). exists (fun t => exp (lpR (S k) p (vector_obs t) VM) * dotP (NP VM) (EP VM) (S k) v (ssR (S k) p (vector_obs t) VM)). split; [|reflexivity].
    apply LB_mult; [apply vmf_lb|]. eapply LB_ext; [intros; symmetry; apply vmf_dot|]. apply LB_sumR. intros i _. apply LB_mult; [apply LB_const|apply LB_nth].
  - destruct N as [N1 N2]. split; [exact N1|]. change (ecmR (S k) p VM) with 0. apply (sphere_scal _ _ _ _ _ 0) in N2. rewrite Rmult_0_l in N2. eapply sphere_ext; [|exact N2]. intros x _ _. cbv beta. change (cmR _ _ _ VM) with 0. ring.
Qed.
