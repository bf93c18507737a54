(** C19: the divergence of the log-normalizer of every family without matrices. *)
From Coquelicot Require Import Coquelicot.
From Coq Require Import String List Bool Arith Reals Lia Lra.
From Verif Require Import Base XReal Tensor TensorFacts Support Dist Iteration Spec SumSpec DotSpec SpecFun GammaFn BesselFn BesselFn2 TrigammaFn Expr Fam ExprFacts FamTy FamFacts PointSpec PointFacts Val FamR FamVal ConvFacts DerivFacts BregFacts.
Import ListNotations.
Local Unset Asymmetric Patterns.
Local Open Scope string_scope.
Local Open Scope R_scope.

Lemma sum_gap n (g h d e : nat -> R) c : (forall k, (k < n)%nat -> g k - h k - d k = e k) -> 0 < sumR n e -> 0 < sumR n g + c - (sumR n h + c) - sumR n d.
Proof. intros H P. rewrite (sumR_ext n e (fun k => (g k - h k) - d k)) in P by (intros; symmetry; auto). rewrite !sumR_minus in P. lra. Qed.
Lemma sum_gap0 n (g h d e : nat -> R) : (forall k, (k < n)%nat -> g k - h k - d k = e k) -> 0 < sumR n e -> 0 < sumR n g - sumR n h - sumR n d.
Proof. intros H P. pose proof (sum_gap n g h d e 0 H P). lra. Qed.
Lemma sum_some_pos n g : (forall k, (k < n)%nat -> 0 <= g k) -> (exists k, (k < n)%nat /\ 0 < g k) -> 0 < sumR n g.
Proof. intros H (k & K & P). pose proof (sumR_term n g k H K). lra. Qed.
(** ** every family *)
Definition fix_eq (c : cls) (n : nat) (p q : point) : Prop := Forall (fun f => fd_fixed f = true -> pt_field n p q f) (fields c).
Ltac brs := unfold brR; dots; mk; cbv beta iota zeta delta [lnR sumsq norm2 cpt csq_abs psub]; cbn [fst snd]; rewrite ?Rplus_0_r, ?Rmult_0_r, ?Rminus_0_r.
Ltac eqs := first [assumption | symmetry; assumption | solve [auto] | symmetry; solve [auto]].
Ltac same := left; cbv beta in *; apply pt_intro; cbn [fields]; ptf; (split; [eqs|let K := fresh in intros K; first [discriminate K | eqs]]).
Ltac posof T := right; brs; match type of T with 0 < ?a => match goal with |- 0 < ?b => replace b with a; [exact T|] end end.
Lemma dir_pos n p q : ((2 <= n)%nat /\ forall k, (k < n)%nat -> -1 < p false "alpha_minus_one" [k]) -> ((2 <= n)%nat /\ forall k, (k < n)%nat -> -1 < q false "alpha_minus_one" [k]) ->
  (exists k, (k < n)%nat /\ q false "alpha_minus_one" [k] <> p false "alpha_minus_one" [k]) -> 0 < brR Dirichlet n p q /\ 0 < brR Beta n p q.
Proof.
  intros [N P] [_ Q] (k & K & E). set (a k := p false "alpha_minus_one" [k]) in *. set (b k := q false "alpha_minus_one" [k]) in *.
  change (forall k, (k < n)%nat -> -1 < a k) in P. change (forall k, (k < n)%nat -> -1 < b k) in Q. change (b k <> a k) in E.
  pose proof (dir_conv n (fun k => a k + 1) (fun k => b k + 1) N ltac:(intros j J; specialize (P j J); lra) ltac:(intros j J; specialize (Q j J); lra) ltac:(exists k; split; [exact K|lra])) as T. cbv beta in T.
  rewrite !(sumR_plus n _ (fun _ => 1)), !sumR_const, Rmult_1_r in T.
  enough (B : 0 < brR Dirichlet n p q) by (split; [exact B|exact B]).
  brs. match type of T with 0 < ?u => match goal with |- 0 < ?w => replace w with u; [exact T|] end end. f_equal. apply sumR_ext. intros. unfold a, b. change (fun k => p false "alpha_minus_one" [k]) with a. ring.
Qed.
(** generalized Dirichlet: the sum of the divergences of beta distributions *)
Lemma gd_beta_sub n p q k : (k < n)%nat -> gdR_beta n q k - gdR_beta n p k = sumR (n - k) (fun m => q false "gamma" [n - 1 - m]%nat - p false "gamma" [n - 1 - m]%nat) + sumR (n - S k) (fun m => q false "alpha_minus_one" [n - 1 - m]%nat - p false "alpha_minus_one" [n - 1 - m]%nat).
Proof.
  intros K. unfold gdR_beta, gdR_alpha. replace (S (n - 1 - k)) with (n - k)%nat by lia. replace (n - 1 - k)%nat with (n - S k)%nat by lia. rewrite !sumR_minus, !sumR_plus. ring.
Qed.
Lemma gd_br n p q : brR GeneralizedDirichlet n p q = sumR n (fun k =>
  (lngamma (gdR_alpha q k) + lngamma (gdR_beta n q k) - lngamma (gdR_alpha q k + gdR_beta n q k)) - (lngamma (gdR_alpha p k) + lngamma (gdR_beta n p k) - lngamma (gdR_alpha p k + gdR_beta n p k))
  - ((gdR_alpha q k - gdR_alpha p k) * (digamma (gdR_alpha p k) - digamma (gdR_alpha p k + gdR_beta n p k)) + (gdR_beta n q k - gdR_beta n p k) * (digamma (gdR_beta n p k) - digamma (gdR_alpha p k + gdR_beta n p k)))).
Proof.
  rewrite 2 sumR_minus. unfold brR. f_equal. dots. mk. unfold psub. set (va k := q false "alpha_minus_one" [k] - p false "alpha_minus_one" [k]). set (vg k := q false "gamma" [k] - p false "gamma" [k]). set (w m := digamma (gdR_beta n p m) - digamma (gdR_alpha p m + gdR_beta n p m)).
  symmetry. rewrite (sumR_ext n _ (fun k => va k * (digamma (gdR_alpha p k) - digamma (gdR_alpha p k + gdR_beta n p k)) + (w k * sumR (n - k) (fun m => vg (n - 1 - m)%nat) + w k * sumR (n - S k) (fun m => va (n - 1 - m)%nat)))).
  2: { intros k K. rewrite (gd_beta_sub n p q k K). unfold w, va, vg, gdR_alpha. ring. }
  rewrite !sumR_plus, swap_le, swap_lt, !Rplus_0_r.
  rewrite (sumR_ext n (fun k => va k * (_ + _) - _) (fun k => va k * (digamma (gdR_alpha p k) - digamma (gdR_alpha p k + gdR_beta n p k)) + va k * sumR k w)) by (intros; unfold w; ring).
  rewrite (sumR_ext n (fun k => vg k * _ - _) (fun k => vg k * sumR (S k) w)) by (intros; unfold w; ring).
  rewrite sumR_plus. ring.
Qed.
Lemma gd_gamma n p q : (forall k, (k < n)%nat -> gdR_alpha q k = gdR_alpha p k) -> (forall k, (k < n)%nat -> gdR_beta n q k = gdR_beta n p k) -> forall k, (k < n)%nat -> q false "gamma" [k] = p false "gamma" [k].
Proof.
  intros A B. assert (Va : forall k, (k < n)%nat -> q false "alpha_minus_one" [k] - p false "alpha_minus_one" [k] = 0) by (intros k K; specialize (A k K); unfold gdR_alpha in A; lra).
  set (vg k := q false "gamma" [k] - p false "gamma" [k]).
  assert (S : forall k, (k < n)%nat -> sumR (n - k) (fun m => vg (n - 1 - m)%nat) = 0).
  { intros k K. pose proof (gd_beta_sub n p q k K) as E. rewrite (B k K), (sumR_zero (n - S k)) in E by (intros m Hm; apply Va; lia). unfold vg. lra. }
  intros k K. enough (vg k = 0) by (unfold vg in *; lra). pose proof (S k K) as E. replace (n - k)%nat with (Datatypes.S (n - Datatypes.S k)) in E by lia. rewrite sumR_S in E. replace (n - 1 - (n - Datatypes.S k))%nat with k in E by lia.
  destruct (Nat.eq_dec (Datatypes.S k) n) as [Ek|Nk]; [replace (n - Datatypes.S k)%nat with 0%nat in E by lia; rewrite sumR_0 in E; lra|]. pose proof (S (Datatypes.S k) ltac:(lia)). lra.
Qed.
Theorem br_pos0 f n p q : mat f = false -> nat_dom f n p -> nat_dom f n q -> fix_eq (NP f) n p q -> pt_eq (NP f) n p q \/ 0 < brR f n p q.
Proof.
  intros M P Q X. pose proof PI_RGT_0 as HPI. destruct f; try discriminate M; clear M; cbn [nat_dom] in P, Q.
  - (* Bernoulli *) destruct (Req_dec (p false "log_odds" []) (q false "log_odds" [])) as [E|E]; [same|].
    set (x := p false "log_odds" []) in *. set (y := q false "log_odds" []) in *.
    assert (T : 0 < ln ((1 + sumR 1 (fun k => exp x * exp (y - x))) / (1 + sumR 1 (fun k => exp x))) - sumR 1 (fun k => (y - x) * exp x) / (1 + sumR 1 (fun k => exp x))).
    { apply (lse_conv 1 1 (fun _ => exp x) (fun _ => y - x)); [lra|intros; apply exp_pos|exists 0%nat; split; [lia|lra]]. }
    unfold sumR in T. cbn [seq map fold_right] in T. rewrite !Rplus_0_r, <- exp_plus in T. replace (x + (y - x)) with y in T by ring.
    pose proof (exp_pos x) as Px. pose proof (exp_pos y) as Py. rewrite ln_div in T by lra.
    posof T. fold x y. unfold expit. rewrite exp_0, exp_Ropp. rewrite (Rplus_comm (exp y)), (Rplus_comm (exp x)). field. lra.
  - (* Beta *) destruct (vec_dec n (fun k => q false "alpha_minus_one" [k]) (fun k => p false "alpha_minus_one" [k])) as [E|E]; [same|]. right. now apply (dir_pos n p q P Q E).
  - (* Chi *) destruct (Req_dec (p false "k_over_two_minus_one" []) (q false "k_over_two_minus_one" [])) as [E|E]; [same|].
    pose proof (lngamma_conv (p false "k_over_two_minus_one" [] + 1) (q false "k_over_two_minus_one" [] + 1) ltac:(lra) ltac:(lra) ltac:(lra)) as T. posof T. ring.
  - (* ChiSquare *) destruct (Req_dec (p false "k_over_two_minus_one" []) (q false "k_over_two_minus_one" [])) as [E|E]; [same|].
    pose proof (lngamma_conv (p false "k_over_two_minus_one" [] + 1) (q false "k_over_two_minus_one" [] + 1) ltac:(lra) ltac:(lra) ltac:(lra)) as T. posof T. ring.
  - (* ComplexMultivariateUnitNormal *) set (x c k := p c "two_mean_conjugate" [k]). set (y c k := q c "two_mean_conjugate" [k]).
    assert (H : (exists k, (k < n)%nat /\ (y false k <> x false k \/ y true k <> x true k)) \/ ((forall k, (k < n)%nat -> y false k = x false k) /\ (forall k, (k < n)%nat -> y true k = x true k))).
    { destruct (vec_dec n (y false) (x false)) as [E|(k & K & E)]; [|left; eauto]. destruct (vec_dec n (y true) (x true)) as [E'|(k & K & E')]; [|left; eauto]. right. now split. }
    destruct H as [(k & K & H)|[E E']]; [right; brs|unfold x, y in E, E'; same].
    apply sum_gap with (e := fun k => 1 / 4 * ((y false k - x false k) * (y false k - x false k) + (y true k - x true k) * (y true k - x true k))); [intros; unfold x, y; field|].
    apply sum_some_pos; [intros j _; pose proof (Rle_0_sqr (y false j - x false j)) as S1; pose proof (Rle_0_sqr (y true j - x true j)) as S2; unfold Rsqr in *; lra|]. exists k. split; [exact K|].
    pose proof (Rle_0_sqr (y false k - x false k)) as S1; pose proof (Rle_0_sqr (y true k - x true k)) as S2. unfold Rsqr in *. destruct H as [H|H]; [pose proof (sq_pos (y false k - x false k) ltac:(lra))|pose proof (sq_pos (y true k - x true k) ltac:(lra))]; lra.
  - (* ComplexNormal *) set (a := p false "pseudo_precision" []) in *. set (b := p true "pseudo_precision" []) in *. set (c := p false "negative_precision" []) in *. set (mx := p false "mean_times_precision" []). set (my := p true "mean_times_precision" []).
    set (a' := q false "pseudo_precision" []) in *. set (b' := q true "pseudo_precision" []) in *. set (c' := q false "negative_precision" []) in *. set (mx' := q false "mean_times_precision" []). set (my' := q true "mean_times_precision" []).
    assert (H : (a' <> a \/ b' <> b \/ c' <> c \/ mx' <> mx \/ my' <> my) \/ (a' = a /\ b' = b /\ c' = c /\ mx' = mx /\ my' = my)).
    { destruct (Req_dec a' a); [|tauto]. destruct (Req_dec b' b); [|tauto]. destruct (Req_dec c' c); [|tauto]. destruct (Req_dec mx' mx); [|tauto]. destruct (Req_dec my' my); tauto. }
    destruct H as [H|(E1 & E2 & E3 & E4 & E5)]; [right|subst a b c mx my a' b' c' mx' my'; same].
    pose proof (cn_conv a b c mx my a' b' c' mx' my' (proj1 P) ltac:(lra) (proj1 Q) ltac:(lra) H) as T. unfold brR. rewrite (cn_ln n p P), (cn_ln n q Q).
    dots. mk. rewrite (cn_s_eq p (proj1 P)), (cn_mu_eq p (proj1 P)) by (unfold a, b, c in P; lra).
    unfold cnR_r, cnR_np, csq_abs, Cmult, Cplus, Cconj, Copp, cpt, psub. cbn [fst snd]. fold a b c mx my a' b' c' mx' my'. unfold cnL in T.
    match type of T with 0 < ?u => match goal with |- 0 < ?w => replace w with u; [exact T|] end end.
    set (dl := c * c - (a * a + b * b)) in *. field. split; [|split]; unfold dl; lra.
  - (* ComplexUnitNormal *) set (x := p false "two_mean_conjugate" []). set (y := q false "two_mean_conjugate" []). set (x' := p true "two_mean_conjugate" []). set (y' := q true "two_mean_conjugate" []).
    assert (H : (y <> x \/ y' <> x') \/ (y = x /\ y' = x')) by (destruct (Req_dec y x); [|auto]; destruct (Req_dec y' x'); auto).
    destruct H as [H|(E1 & E2)]; [|subst x y x' y'; same].
    assert (T : 0 < 1 / 4 * ((y - x) * (y - x) + (y' - x') * (y' - x'))).
    { pose proof (Rle_0_sqr (y - x)) as S1. pose proof (Rle_0_sqr (y' - x')) as S2. unfold Rsqr in *. destruct H as [H|H]; [pose proof (sq_pos (y - x) ltac:(lra))|pose proof (sq_pos (y' - x') ltac:(lra))]; lra. }
    posof T. fold x y x' y'. field.
  - (* Dirichlet *) destruct (vec_dec n (fun k => q false "alpha_minus_one" [k]) (fun k => p false "alpha_minus_one" [k])) as [E|E]; [same|]. right. now apply (dir_pos n p q P Q E).
  - (* Exponential *) destruct (Req_dec (p false "negative_rate" []) (q false "negative_rate" [])) as [E|E]; [same|].
    pose proof (nln_conv _ _ P Q E) as T. posof T. ring.
  - (* Gamma *) destruct (Req_dec (p false "negative_rate" []) (q false "negative_rate" [])) as [E|E]; [destruct (Req_dec (p false "shape_minus_one" []) (q false "shape_minus_one" [])) as [E'|E']; [same|]|].
    + pose proof (gamma_conv (p false "shape_minus_one" [] + 1) (- p false "negative_rate" []) (q false "shape_minus_one" [] + 1) (- q false "negative_rate" []) ltac:(lra) ltac:(lra) ltac:(lra) ltac:(lra) ltac:(left; lra)) as T.
      posof T; field; lra.
    + pose proof (gamma_conv (p false "shape_minus_one" [] + 1) (- p false "negative_rate" []) (q false "shape_minus_one" [] + 1) (- q false "negative_rate" []) ltac:(lra) ltac:(lra) ltac:(lra) ltac:(lra) ltac:(right; lra)) as T.
      posof T; field; lra.
  - (* GeneralizedDirichlet *)
    assert (H : (exists k, (k < n)%nat /\ (gdR_alpha q k <> gdR_alpha p k \/ gdR_beta n q k <> gdR_beta n p k)) \/ ((forall k, (k < n)%nat -> gdR_alpha q k = gdR_alpha p k) /\ (forall k, (k < n)%nat -> gdR_beta n q k = gdR_beta n p k))).
    { destruct (vec_dec n (gdR_alpha q) (gdR_alpha p)) as [E|(k & K & E)]; [|left; eauto]. destruct (vec_dec n (gdR_beta n q) (gdR_beta n p)) as [E'|(k & K & E')]; [|left; eauto]. right. now split. }
    destruct H as [(k & K & H)|[E E']].
    + right. rewrite gd_br. apply sum_some_pos.
      * intros j J. pose proof (gd_alpha_pos n p P j J). pose proof (gd_beta_pos n p P j J). pose proof (gd_alpha_pos n q Q j J). pose proof (gd_beta_pos n q Q j J).
        destruct (Req_dec (gdR_alpha q j) (gdR_alpha p j)) as [Ea|Ea]; [destruct (Req_dec (gdR_beta n q j) (gdR_beta n p j)) as [Eb|Eb]|]; [rewrite Ea, Eb; right; ring| |]; apply Rlt_le, beta_conv; auto.
      * exists k. split; [exact K|]. apply beta_conv; try exact H; [apply (gd_alpha_pos n p P)|apply (gd_beta_pos n p P)|apply (gd_alpha_pos n q Q)|apply (gd_beta_pos n q Q)]; exact K.
    + pose proof (gd_gamma n p q E E') as G. assert (Al : forall k, (k < n)%nat -> q false "alpha_minus_one" [k] = p false "alpha_minus_one" [k]) by (intros k K; specialize (E k K); unfold gdR_alpha in E; lra). clear E E'. same.
  - (* Geometric *) destruct (Req_dec (p false "log_not_p" []) (q false "log_not_p" [])) as [E|E]; [same|].
    pose proof (geo_conv _ _ P Q E) as T. posof T. ring.
  - (* Logarithmic *) destruct (Req_dec (p false "log_probability" []) (q false "log_probability" [])) as [E|E]; [same|].
    pose proof (log_conv _ _ P Q E) as T. posof T. ring.
  - (* Multinomial *) destruct (vec_dec n (fun k => q false "log_odds" [k]) (fun k => p false "log_odds" [k])) as [E|(k & K & E)]; [same|].
    pose proof (lse_conv n 1 (fun k => exp (p false "log_odds" [k])) (fun k => q false "log_odds" [k] - p false "log_odds" [k]) ltac:(lra) ltac:(intros; apply exp_pos) ltac:(exists k; split; [exact K|lra])) as T. cbv beta in T.
    assert (Sp : forall r : nat -> R, 0 < 1 + sumR n (fun k => exp (r k))). { intros r. assert (0 <= sumR n (fun k => exp (r k))); [apply sumR_nonneg; intros; apply Rlt_le, exp_pos|lra]. }
    rewrite (sumR_ext n (fun k => exp (p false "log_odds" [k]) * _) (fun k => exp (q false "log_odds" [k]))) in T by (intros; rewrite <- exp_plus; f_equal; ring).
    rewrite ln_div in T by apply Sp.
    posof T. f_equal. unfold Rdiv at 1. rewrite Rmult_comm, <- sumR_scal. apply sumR_ext. intros. specialize (Sp (fun k => p false "log_odds" [k])). cbv beta in Sp. field. lra.
  - (* MultivariateDiagonalNormal *) set (x k := p false "mean_times_precision" [k]). set (y k := q false "mean_times_precision" [k]). set (h k := p false "negative_half_precision" [k]) in *. set (h' k := q false "negative_half_precision" [k]) in *.
    assert (H : (exists k, (k < n)%nat /\ (y k <> x k \/ h' k <> h k)) \/ ((forall k, (k < n)%nat -> y k = x k) /\ (forall k, (k < n)%nat -> h' k = h k))).
    { destruct (vec_dec n y x) as [E|(k & K & E)]; [|left; eauto]. destruct (vec_dec n h' h) as [E'|(k & K & E')]; [|left; eauto]. right. now split. }
    destruct H as [(k & K & H)|[E E']]; [right; brs|unfold x, y, h, h' in E, E'; same].
    rewrite <- sumR_plus.
    eapply sum_gap0; [intros j J; reflexivity|]. cbv beta.
    apply sum_some_pos.
    + intros j J. destruct (normal_le (x j) (h j) (y j) (h' j) (P j J) (Q j J)) as [A _]. unfold x, y, h, h' in A. rewrite ?Rminus_0_r, ?Rmult_0_r in *. rewrite ?Rminus_0_r. exact A.
    + exists k. split; [exact K|]. destruct (normal_le (x k) (h k) (y k) (h' k) (P k K) (Q k K)) as [_ A]. specialize (A H). unfold x, y, h, h' in A. rewrite ?Rminus_0_r, ?Rmult_0_r in *. rewrite ?Rminus_0_r. exact A.
  - (* MultivariateFixedVarianceNormal *) assert (Ev : p false "variance" [] = q false "variance" []) by (apply Forall_cons_iff in X as [_ X]; apply Forall_cons_iff in X as [X _]; exact (proj1 (X eq_refl [] eq_refl))).
    destruct (vec_dec n (fun k => q false "mean_times_precision" [k]) (fun k => p false "mean_times_precision" [k])) as [E|E]; [same|].
    pose proof (quad_conv n _ _ E) as T. cbv beta in T. assert (T' : 0 < p false "variance" [] * (1 / 2) * (sumR n (fun k => q false "mean_times_precision" [k] * q false "mean_times_precision" [k]) - sumR n (fun k => p false "mean_times_precision" [k] * p false "mean_times_precision" [k]) -
      2 * sumR n (fun k => (q false "mean_times_precision" [k] - p false "mean_times_precision" [k]) * p false "mean_times_precision" [k]))) by (apply Rmult_lt_0_compat; lra).
    posof T'. rewrite <- Ev. rewrite (sumR_ext n (fun k => _ * (_ * p false "variance" []) - _) (fun k => p false "variance" [] * ((q false "mean_times_precision" [k] - p false "mean_times_precision" [k]) * p false "mean_times_precision" [k]))) by (intros; ring). rewrite sumR_scal. field.
  - (* IsotropicNormal *) set (x k := p false "mean_times_precision" [k]). set (y k := q false "mean_times_precision" [k]). set (h := p false "negative_half_precision" []) in *. set (h' := q false "negative_half_precision" []) in *.
    assert (H : ((exists k, (k < n)%nat /\ y k <> x k) \/ h' <> h) \/ ((forall k, (k < n)%nat -> y k = x k) /\ h' = h)).
    { destruct (vec_dec n y x) as [E|E]; [|left; now left]. destruct (Req_dec h' h); [right; now split|left; now right]. }
    destruct H as [H|[E E']]; [|unfold x, y in E; subst h h'; same].
    pose proof (iso_conv n x y h h' (proj1 P) (proj2 P) (proj2 Q) H) as T. posof T. fold h h'. unfold x, y. f_equal. f_equal. apply sumR_ext. intros. ring.
  - (* MultivariateUnitNormal *) destruct (vec_dec n (fun k => q false "mean" [k]) (fun k => p false "mean" [k])) as [E|E]; [same|].
    pose proof (quad_conv n _ _ E) as T. cbv beta in T. assert (T' : 0 < 1 / 2 * (sumR n (fun k => q false "mean" [k] * q false "mean" [k]) - sumR n (fun k => p false "mean" [k] * p false "mean" [k]) -
      2 * sumR n (fun k => (q false "mean" [k] - p false "mean" [k]) * p false "mean" [k]))) by lra.
    posof T'. rewrite (sumR_ext n (fun k => _ - _ * 0) (fun k => (q false "mean" [k] - p false "mean" [k]) * p false "mean" [k])) by (intros; ring). field.
  - (* NegativeBinomial *) destruct P as [P Pf], Q as [Q Qf]. assert (Ev : p false "failures" [] = q false "failures" []) by (apply Forall_cons_iff in X as [_ X]; apply Forall_cons_iff in X as [X _]; exact (proj1 (X eq_refl [] eq_refl))).
    destruct (Req_dec (p false "log_not_p" []) (q false "log_not_p" [])) as [E|E]; [same|].
    pose proof (geo_conv _ _ P Q E) as T. destruct Pf as [k Ek]. assert (0 < p false "failures" []) by (rewrite Ek; apply lt_0_INR; lia). apply (Rmult_lt_compat_l (p false "failures" [])) in T; [|assumption]. rewrite Rmult_0_r in T.
    posof T. rewrite <- Ev. unfold Rdiv. ring.
  - (* Normal *) set (x := p false "mean_times_precision" []). set (y := q false "mean_times_precision" []). set (h := p false "negative_half_precision" []) in *. set (h' := q false "negative_half_precision" []) in *.
    assert (H : (y <> x \/ h' <> h) \/ (y = x /\ h' = h)) by (destruct (Req_dec y x); [|tauto]; destruct (Req_dec h' h); tauto).
    destruct H as [H|[E E']]; [|subst x y h h'; same]. pose proof (proj2 (normal_le x h y h' P Q) H) as T. posof T. fold x y h h'. ring.
  - (* UnitNormal *) destruct (Req_dec (p false "mean" []) (q false "mean" [])) as [E|E]; [same|].
    pose proof (sq_pos (q false "mean" [] - p false "mean" []) ltac:(lra)) as T. assert (T' : 0 < 1 / 2 * ((q false "mean" [] - p false "mean" []) * (q false "mean" [] - p false "mean" []))) by lra. posof T'. field.
  - (* Poisson *) destruct (Req_dec (p false "log_mean" []) (q false "log_mean" [])) as [E|E]; [same|].
    pose proof (exp_conv (q false "log_mean" [] - p false "log_mean" []) ltac:(lra)) as T. apply (Rmult_lt_compat_l (exp (p false "log_mean" []))) in T; [|apply exp_pos]. rewrite Rmult_0_r in T.
    posof T. replace (exp (q false "log_mean" [])) with (exp (p false "log_mean" []) * exp (q false "log_mean" [] - p false "log_mean" [])) by (rewrite <- exp_plus; f_equal; ring). ring.
  - (* Rayleigh *) destruct (Req_dec (p false "eta" []) (q false "eta" [])) as [E|E]; [same|].
    pose proof (nln_conv _ _ P Q E) as T. posof T. ring.
  - (* VonMisesFisher *) destruct (vec_dec n (fun k => q false "mean_times_concentration" [k]) (fun k => p false "mean_times_concentration" [k])) as [E|E]; [same|].
    pose proof (sumsq_pos n (fun k => p false "mean_times_concentration" [k]) P) as Ap. pose proof (sumsq_pos n (fun k => q false "mean_times_concentration" [k]) Q) as Aq. cbv beta in Ap, Aq.
    pose proof (vmf_conv n _ _ (sqrt_lt_R0 _ Ap) (sqrt_lt_R0 _ Aq) E) as T. cbv beta zeta in T.
    posof T. replace (INR n * (1 / 2) - 1 + 1) with (INR n * (1 / 2)) by ring.
    rewrite (sumR_ext n (fun k => _ * _ - _ * 0) (fun k => (q false "mean_times_concentration" [k] - p false "mean_times_concentration" [k]) * (p false "mean_times_concentration" [k] *
     (bessel_i (INR n * (1 / 2)) (sqrt (sumR n (fun k0 => p false "mean_times_concentration" [k0] * p false "mean_times_concentration" [k0]))) /
      bessel_i (INR n * (1 / 2) - 1) (sqrt (sumR n (fun k0 => p false "mean_times_concentration" [k0] * p false "mean_times_concentration" [k0]))) / sqrt (sumR n (fun k0 => p false "mean_times_concentration" [k0] * p false "mean_times_concentration" [k0])))))) by (intros; ring). ring.
  - (* Weibull *) destruct P as [Pc P], Q as [Qc Q]. assert (Ev : p false "concentration" [] = q false "concentration" []) by (apply Forall_cons_iff in X as [X _]; exact (proj1 (X eq_refl [] eq_refl))).
    destruct (Req_dec (p false "eta" []) (q false "eta" [])) as [E|E]; [same|].
    pose proof (nln_conv _ _ P Q E) as T. posof T. rewrite <- Ev. ring.
Qed.
