(** Facts about category probabilities (C43). *)
From Coquelicot Require Import Coquelicot.
From Coq Require Import String List Bool Arith Reals Lia Lra.
From Verif Require Import Base XReal Tensor TensorFacts Support Dist DictFacts Iteration Structure Spec SumSpec DotSpec Tools Joint SpecFun GammaFn Expr Fam ExprFacts FamTy FamFacts SearchFacts DotFacts StructThms SumFacts MapFacts
  JointThms JointThms2 DotLaws BatchFacts PlaneFacts PointSpec PointFacts Val FamR FamVal ConvFacts LeafVal ConvThms DensSpec DensVal DensThms KlSpec IntSpec IntThms MethodSpec Category.
Import ListNotations.
Local Unset Asymmetric Patterns.
Local Open Scope string_scope.
Local Open Scope R_scope.

Definition catR (f : family) (m : nat) (p : point) (k : nat) : R :=
  match f with
  | Bernoulli => if Nat.eqb k 0 then expit (p false "log_odds" []) else 1 - expit (p false "log_odds" [])
  | _ => let z := 1 + sumR m (fun k => exp (p false "log_odds" [k])) in
      if Nat.ltb k m then exp (p false "log_odds" [k]) / z else 1 - sumR m (fun k => exp (p false "log_odds" [k]) / z)
  end.
Definition cat_e (f : family) : aexp KR := match probability_e f with Some e => e | None => self "x" end.
Lemma cat_val f m p : categorical f -> dims_ok (NP f) m = true -> (f = Bernoulli -> m = 1%nat) -> VR (ctx_of (NP f) m) p (cat_e f) (Ev [S m]) (fun j => catR f m p (hd 0%nat j)).
Proof.
  intros [-> | ->] D M; unfold cat_e; cbn [probability_e].
  - rewrite (M eq_refl). eapply VR_ext; [eapply VR_stack; [eapply VR_expit; vr|eapply VR_sub; [vr|eapply VR_expit; vr|alt_]]|]. intros j Hj. reflexivity.
  - cbn [dims_ok] in D. apply Nat.leb_le in D. replace (S m) with (m + 1)%nat by lia. pose proof (multinomial_exp m p D) as E.
    eapply VR_ext; [eapply VR_append; [exact E|eapply VR_sub; [vr|eapply VR_sum_keep; exact E|alt_]]|]. intros j Hj. destruct (inb1 _ _ Hj) as (k & -> & Hk). cbn [hd]. unfold catR. destruct (Nat.ltb k m); reflexivity.
Qed.
Lemma cat_last m (h : nat -> R) : 1 - sumR m (fun k => exp (h k) / (1 + sumR m (fun k => exp (h k)))) = / (1 + sumR m (fun k => exp (h k))).
Proof.
  assert (0 <= sumR m (fun k => exp (h k))) by (apply sumR_nonneg; intros; left; apply exp_pos). unfold Rdiv.
  rewrite (sumR_ext m _ (fun k => / (1 + sumR m (fun k => exp (h k))) * exp (h k))) by (intros; ring). rewrite sumR_scal. field. lra.
Qed.
Lemma cat_pos f m p k : categorical f -> 0 < catR f m p k.
Proof.
  intros [-> | ->]; cbn [catR].
  - pose proof (expit_range (p false "log_odds" [])). destruct (Nat.eqb k 0); lra.
  - assert (0 <= sumR m (fun k => exp (p false "log_odds" [k]))) by (apply sumR_nonneg; intros; left; apply exp_pos). cbv zeta. destruct (Nat.ltb k m).
    + apply Rdiv_lt_0_compat; [apply exp_pos|lra].
    + rewrite cat_last. apply Rinv_0_lt_compat. lra.
Qed.
Lemma cat_sum f m p : categorical f -> (f = Bernoulli -> m = 1%nat) -> sumR (S m) (catR f m p) = 1.
Proof.
  intros [-> | ->] M; cbn [catR].
  - rewrite (M eq_refl), !sumR_S, sumR_0. cbn. ring.
  - rewrite sumR_S. rewrite (sumR_ext m (catR Multinomial m p) (fun k => exp (p false "log_odds" [k]) / (1 + sumR m (fun k => exp (p false "log_odds" [k]))))).
    + unfold catR. cbv zeta. rewrite Nat.ltb_irrefl. ring.
    + intros k K. unfold catR. now rewrite (proj2 (Nat.ltb_lt k m) K).
Qed.
Lemma sumR_pick m k (h : nat -> R) : (k < m)%nat -> sumR m (fun j => h j * (if Nat.eqb j k then 1 else 0)) = h k.
Proof.
  induction m; [lia|]. intros K. rewrite sumR_S. destruct (Nat.eq_dec k m) as [->|N].
  - rewrite Nat.eqb_refl, sumR_zero; [ring|]. intros j J. rewrite (proj2 (Nat.eqb_neq j m)) by lia. ring.
  - rewrite IHm by lia. rewrite (proj2 (Nat.eqb_neq m k)) by lia. ring.
Qed.
Lemma cat_lp f m p k : categorical f -> (f = Bernoulli -> m = 1%nat) -> (k <= m)%nat -> lpR m p (category k) f = ln (catR f m p k).
Proof.
  intros [-> | ->] M K.
  - rewrite (M eq_refl) in *. lps. unfold category, catR. cbn [hd]. destruct k as [|[|k]]; [| |lia]; cbn [Nat.eqb].
    + unfold expit. rewrite exp_0. replace (ln (/ (1 + exp (- p false "log_odds" [])))) with (p false "log_odds" [] - ln (exp (p false "log_odds" []) + 1)); [ring|].
      rewrite ln_Rinv by (pose proof (exp_pos (- p false "log_odds" [])); lra).
      replace (exp (p false "log_odds" []) + 1) with (exp (p false "log_odds" []) * (1 + exp (- p false "log_odds" []))).
      * rewrite ln_mult, ln_exp; [ring|apply exp_pos|]. pose proof (exp_pos (- p false "log_odds" [])). lra.
      * rewrite Rmult_plus_distr_l, <- exp_plus. replace (p false "log_odds" [] + - p false "log_odds" []) with 0 by ring. rewrite exp_0. ring.
    + unfold expit. rewrite exp_0. assert (E : 1 - / (1 + exp (- p false "log_odds" [])) = / (exp (p false "log_odds" []) + 1)).
      { rewrite exp_Ropp. pose proof (exp_pos (p false "log_odds" [])). field. split; lra. }
      rewrite E, ln_Rinv by (pose proof (exp_pos (p false "log_odds" [])); lra). ring.
  - lps. unfold category, catR. cbn [hd].
    assert (0 <= sumR m (fun k => exp (p false "log_odds" [k]))) by (apply sumR_nonneg; intros; left; apply exp_pos). cbv zeta. destruct (Nat.ltb_spec k m) as [Q|Q].
    + unfold Rdiv. rewrite ln_mult, ln_exp, ln_Rinv; [|lra|apply exp_pos|apply Rinv_0_lt_compat; lra].
      match goal with |- ?a - _ + _ = _ => replace a with (p false "log_odds" [k]); [ring|symmetry] end. mk.
      rewrite (sumR_ext m _ (fun j => p false "log_odds" [j] * (if Nat.eqb j k then 1 else 0))) by (intros; ring). rewrite (sumR_pick m k (fun j => p false "log_odds" [j]) Q). ring.
    + rewrite cat_last, ln_Rinv by lra. match goal with |- ?a + _ - _ + _ = _ => replace a with 0; [ring|symmetry] end. apply sumR_zero. intros j J. rewrite (proj2 (Nat.eqb_neq j k)) by lia. ring.
Qed.
Lemma category_space f m k : categorical f -> (k <= m)%nat -> sample_space f m (category k).
Proof.
  intros [-> | ->] K; unfold sample_space, category; cbn [hd].
  - destruct (Nat.eqb 0 k); auto.
  - split; [intros j J; destruct (Nat.eqb j k); auto|]. destruct (Nat.eq_dec k m) as [->|N].
    + rewrite sumR_zero; [lra|]. intros j J. now rewrite (proj2 (Nat.eqb_neq j m)) by lia.
    + rewrite (sumR_ext m _ (fun j => 1 * (if Nat.eqb j k then 1 else 0))) by (intros; ring). rewrite (sumR_pick m k (fun _ => 1)) by lia. lra.
Qed.
Section T.
  Variable solve : minimizer -> dist -> nat -> xr.
  Notation L := (fam_methods solve).
  Lemma cat_setup b i f q m : categorical f -> proper b i f q -> dims_of q = Ok m -> (f = Bernoulli -> m = 1%nat) /\ dims_ok (NP f) m = true /\ at_pt b i q (NP f) m (point_of q i) /\ inb b i = true.
  Proof.
    intros Cf P D. destruct (proper_dims b i f q P) as (n' & D1 & D2 & D3 & K). assert (n' = m) by congruence. subst n'. pose proof P as (C & W & S & Hi & Dm).
    destruct (leaf_setup b q f _ W C eq_refl eq_refl S) as (n' & D' & K' & HE & D1'). assert (n' = m) by congruence. subst n'.
    split; [intros ->; now apply D1'|]. split; [exact K'|]. split; [|exact Hi]. now apply at_pt_self.
  Qed.
  Lemma t_category b i f q m : categorical f -> proper b i f q -> dims_of q = Ok m ->
    exists t P, nat_to_probability q = Ok t /\ shp t = (b ++ [m + 1]%nat)%list /\ (forall k, (k <= m)%nat -> tget t (i ++ [k])%list = Fin (P k) /\ 0 < P k) /\ sumR (m + 1) P = 1 /\
      forall k x, (k <= m)%nat -> observed b i q x (category k) -> density L b i q x (P k).
  Proof.
    intros Cf P D. destruct (cat_setup b i f q m Cf P D) as (M & K & [C W S' D' V] & Hi). pose proof (leaf_env _ _ _ S' D') as HE. rewrite C in HE. rewrite Nat.add_1_r.
    destruct (eval_at b _ _ i _ (cat_e f) [S m] _ HE Hi V (cat_val f m _ Cf K M)) as (t & T1 & T2 & T3). exists t, (catR f m (point_of q i)).
    split; [unfold nat_to_probability; rewrite C; unfold cat_e in T1; destruct Cf as [-> | ->]; exact T1|]. split; [exact T2|]. split; [|split; [now apply cat_sum|]].
    - intros k Hk. split; [exact (T3 [k] (inb1_intro (Datatypes.S m) k ltac:(lia)))|now apply cat_pos].
    - intros k x Hk O. pose proof (density_at solve b i f q m x _ P D O (category_space f m k Cf Hk)) as X. rewrite cat_lp in X by assumption. rewrite exp_ln in X by now apply cat_pos. exact X.
  Qed.
  Lemma t_surprisal b i f q m : categorical f -> proper b i f q -> dims_of q = Ok m ->
    exists t, nat_to_surprisal q = Ok t /\ shp t = (b ++ [m + 1]%nat)%list /\ forall k, (k <= m)%nat -> exists s, tget t (i ++ [k])%list = Fin s /\ 0 <= s /\
      forall x, observed b i q x (category k) -> log_density L b i q x (- s).
  Proof.
    intros Cf P D. destruct (cat_setup b i f q m Cf P D) as (M & K & [C W S' D' V] & Hi). pose proof (leaf_env _ _ _ S' D') as HE. rewrite C in HE. rewrite Nat.add_1_r.
    assert (X : VR (ctx_of (NP f) m) (point_of q i) (eneg (jlog (cat_e f))) (Ev [S m]) (fun j => - ln (catR f m (point_of q i) (hd 0%nat j)))).
    { eapply VR_neg. eapply VR_log; [now apply cat_val|]. intros j _. now apply cat_pos. }
    destruct (eval_at b _ _ i _ _ [S m] _ HE Hi V X) as (t & T1 & T2 & T3). exists t.
    split; [unfold nat_to_surprisal; rewrite C; unfold cat_e in T1; destruct Cf as [-> | ->]; exact T1|]. split; [exact T2|]. intros k Hk. eexists. split; [exact (T3 [k] (inb1_intro (Datatypes.S m) k ltac:(lia)))|]. cbn [hd]. split.
    - assert (catR f m (point_of q i) k <= 1).
      { rewrite <- (cat_sum f m (point_of q i) Cf M). apply (sumR_term (S m) (catR f m (point_of q i))); [intros; left; now apply cat_pos|lia]. }
      pose proof (cat_pos f m (point_of q i) k Cf). pose proof (ln_le (catR f m (point_of q i) k) 1 H0 H). rewrite ln_1 in H1. lra.
    - intros x O. rewrite Ropp_involutive, <- cat_lp by assumption. exact (log_density_at solve b i f q m x _ P D O (category_space f m k Cf Hk)).
  Qed.
  (** the entries before the last are the expectation parameters *)
  Lemma t_cat_exp b i f q m t : categorical f -> proper b i f q -> dims_of q = Ok m -> nat_to_probability q = Ok t ->
    exists e, to_exp L q = Ok e /\ forall k, (k < m)%nat -> tget t (i ++ [k])%list = Fin (par e i "probability" (match f with Bernoulli => [] | _ => [k] end)).
  Proof.
    intros Cf P D Et. destruct (cat_setup b i f q m Cf P D) as (M & K & A & Hi). pose proof A as [C W S' D' V]. pose proof (leaf_env _ _ _ S' D') as HE. rewrite C in HE.
    destruct (eval_at b _ _ i _ (cat_e f) [S m] _ HE Hi V (cat_val f m _ Cf K M)) as (t' & T1 & T2 & T3).
    assert (t' = t) by (unfold nat_to_probability in Et; rewrite C in Et; unfold cat_e in T1; destruct Cf as [-> | ->]; cbn [probability_e] in Et, T1; rewrite Et in T1; now injection T1). subst t'.
    assert (U : not_clipped q i) by (intros pl l I Cl; rewrite leaf_leaves in I by (now rewrite C); destruct I as [I|[]]; injection I as <- <-; rewrite C in Cl; destruct Cf; congruence).
    destruct (exp_form_at solve b i f q m P D U) as (e & E1 & E2 & _). exists e. split; [exact E1|]. intros k Hk. etransitivity; [exact (T3 [k] (inb1_intro (Datatypes.S m) k ltac:(lia)))|]. f_equal. cbn [hd].
    pose proof (at_pt_pt _ _ _ _ _ _ Hi E2) as E3. unfold par. destruct Cf as [-> | ->].
    - rewrite (M eq_refl) in *. destruct k; [|lia]. etransitivity; [|exact (pt_re _ _ _ _ _ [] E3 (or_introl eq_refl) eq_refl)]. reflexivity.
    - etransitivity; [|exact (pt_re _ _ _ _ _ [k] E3 (or_introl eq_refl) (inb1_intro _ _ Hk))]. unfold catR. cbv zeta. rewrite (proj2 (Nat.ltb_lt k m) Hk). reflexivity.
  Qed.
End T.
