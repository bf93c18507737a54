(** The density of a draw is, up to a factor, the density of the sample it gives (C49): Dirichlet and the multivariate normals. *)
From Coquelicot Require Import Coquelicot.
From Coq Require Import String List Bool Arith Reals Lia Lra.
From Verif Require Import Base XReal Tensor TensorFacts Support Dist Iteration Structure Spec SumSpec DotSpec Tools Joint SpecFun GammaFn Expr Fam DotFacts BatchFacts
  PointSpec PointFacts Val FamR FamVal ConvFacts LeafVal ConvThms MatFacts MatVal VarThms DerivFacts MatDeriv DensSpec DensVal DensThms IntSpec IntFacts GammaInt IntNorm IntGen IntMulti IntFam IntSimplex IntMat IntThms
  Var VarSpec Sample SampleSpec SampleFacts SampleShape SampleVal SampleThms LawSpec LawFacts Law GenFacts.
Import ListNotations.
Local Unset Asymmetric Patterns.
Local Open Scope string_scope.
Local Open Scope R_scope.

Lemma map_nth_self (l l' : list R) : map (fun k => nth k (l ++ l')%list 0) (seq 0 (length l)) = l.
Proof.
  apply nth_ext with (d := 0) (d' := 0); [now rewrite map_length, seq_length|]. intros k Hk. rewrite map_length, seq_length in Hk.
  rewrite (nth_indep _ 0 (nth 0 (l ++ l') 0)) by (now rewrite map_length, seq_length). rewrite (map_nth (fun k => nth k (l ++ l')%list 0)), seq_nth by exact Hk. now apply app_nth1.
Qed.
Lemma law_dirichlet n p : nat_dom Dirichlet n p -> law_core (NP Dirichlet) Dirichlet n n p Dirichlet_.
Proof.
  intros H. pose proof H as [Hn Ha]. cbv zeta in Ha. split; [split; [lia|]; intros m Hm; specialize (Ha m Hm); cbn; lra|].
  idQ (exp (lnR n p Dirichlet)); [apply exp_pos|]. intros g v. cbn [integral_over draw_space]. intros I. apply (iterated_scal _ _ _ (exp (lnR n p Dirichlet))) in I. revert I. apply simplex_ext. intros l L S V.
  replace (canon Dirichlet n (postR n p (NP Dirichlet) (fun e => nth (hd 0%nat e) (l ++ [1 - lsum l])%list 0))) with (vector_obs l).
  2:{ cbn [canon postR]. f_equal. unfold reo. cbn [hd]. rewrite <- L. symmetry. apply map_nth_self. }
  rewrite <- Rmult_assoc. f_equal. cbn [draw_kernel argR natpt hd]. rewrite prod_prodR. unfold Rpower. rewrite prodR_exp. unfold dens. rewrite <- exp_plus. f_equal. unfold lpR. rewrite (dir_dot n p H p l). change (cmR n p (vector_obs l) Dirichlet) with 0.
  rewrite (sumR_last n) by lia. rewrite app_nth2 by lia. replace (n - 1 - length l)%nat with 0%nat by lia. cbn [nth]. unfold sk. rewrite <- L, <- lsum_sumR.
  rewrite (sumR_ext (length l) (fun k => (1 + p false "alpha_minus_one" [k] - 1) * ln (nth k (l ++ [1 - lsum l])%list 0)) (fun k => p false "alpha_minus_one" [k] * ln (nth k l 0))); [ring|].
  intros k Hk. rewrite app_nth1 by exact Hk. ring.
Qed.
(** ** MultivariateNormal *)
Lemma sumR_dr n (z : nat -> R) a : (a < n)%nat -> sumR n (fun b => dr a b * z b) = z a.
Proof.
  induction n as [|n IH]; intros H; [lia|]. rewrite sumR_S. destruct (Nat.eq_dec a n) as [->|N].
  - rewrite sumR_zero; [unfold dr; rewrite Nat.eqb_refl; ring|]. intros k Hk. unfold dr. rewrite (proj2 (Nat.eqb_neq n k)) by lia. ring.
  - rewrite IH by lia. unfold dr. rewrite (proj2 (Nat.eqb_neq a n)) by lia. ring.
Qed.
Lemma mv_cancel n (V W : nat -> nat -> R) (x y : nat -> R) : (forall a b, (a < n)%nat -> (b < n)%nat -> sumR n (fun k => V a k * W k b) = dr a b) ->
  (forall k, (k < n)%nat -> sumR n (fun b => W k b * x b) = sumR n (fun b => W k b * y b)) -> forall a, (a < n)%nat -> x a = y a.
Proof.
  intros H E a Ha. assert (G : forall z, sumR n (fun k => V a k * sumR n (fun b => W k b * z b)) = z a).
  { intros z. rewrite (sumR_ext n _ (fun k => sumR n (fun b => V a k * W k b * z b))) by (intros; rewrite <- sumR_scal; apply sumR_ext; intros; ring). rewrite GenFacts.sumR_swap.
    rewrite (sumR_ext n _ (fun b => dr a b * z b)); [|intros b Hb; rewrite <- (H a b Ha Hb), Rmult_comm, <- sumR_scal; apply sumR_ext; intros; ring].
    exact (sumR_dr n z a Ha). }
  rewrite <- (G x), <- (G y). apply sumR_ext. intros k Hk. now rewrite E.
Qed.

(** a Gaussian density with precision 2 A and mean m, drawn with covariance V and mean mu *)
Lemma gaus_law N (A : nat -> nat -> R) (m : nat -> R) (pos : nat -> nat) (Q : nat -> nat -> R) (mu : nat -> R) (l : list R) :
  (forall f : nat -> R, sumR N (fun k => f (pos k)) = sumR N f) -> (forall a b, (a < N)%nat -> (b < N)%nat -> Q a b = 2 * A (pos a) (pos b)) -> (forall a, (a < N)%nat -> mu a = m (pos a)) ->
  exp (- sumR N (fun c => sumR N (fun d => Q c d * ((nth (pos c) l 0 - mu c) * (nth (pos d) l 0 - mu d)))) / 2) = exp (- (1 / 2 * lnpiv N A - 1 / 2 * INR N * ln PI)) * gaus N A m l.
Proof.
  intros HP HQ Hm. unfold gaus. rewrite <- exp_plus. f_equal. unfold qf.
  rewrite (sumR_ext N _ (fun c => 2 * sumR N (fun d => A (pos c) d * (off m l (pos c) * off m l d)))).
  - rewrite sumR_scal, (HP (fun c => sumR N (fun d => A c d * (off m l c * off m l d)))). field.
  - intros c Hc. rewrite <- sumR_scal, <- (HP (fun d => 2 * (A (pos c) d * (off m l (pos c) * off m l d)))). apply sumR_ext. intros d Hd. rewrite HQ, !Hm by assumption. unfold off. ring.
Qed.
Lemma law_mvn_vp n p : pre MultivariateNormalVP n p -> law_core MultivariateNormalVP MultivariateNormal n n p Multivariate_normal_.
Proof.
  cbn [pre]. intros H. set (V := fun a b => p false "variance" [a; b]) in *. set (q := natpt MultivariateNormalVP n p). set (W := rinv n V).
  assert (VW : forall a b, (a < n)%nat -> (b < n)%nat -> sumR n (fun k => V a k * W k b) = dr a b) by (intros; apply rinv_right; auto; now apply spd_ne).
  assert (WV : forall a b, (a < n)%nat -> (b < n)%nat -> sumR n (fun k => W a k * V k b) = dr a b) by (intros; apply rinv_left; auto; [exact (proj1 H)|now apply spd_ne]).
  assert (D : nat_dom MultivariateNormal n q). { cbn [nat_dom]. destruct (spd_inv n V H) as [S1 S2]. fold W in S1, S2. split.
    - intros a b Ha Hb. unfold q. cbn [natpt]. mkv. fold V. fold W. now rewrite (S1 a b Ha Hb).
    - intros z Hz. specialize (S2 z Hz). unfold q. cbn [natpt]. mkv. fold V. fold W. rewrite (sumR_ext n _ (fun a => 1 / 2 * sumR n (fun b => z a * W a b * z b))); [rewrite sumR_scal; lra|]. intros a Ha. rewrite <- sumR_scal. apply sumR_ext. intros b Hb. field. }
  split; [exact H|].
  set (A := fun a b => - hH q a b). set (m := fun a => -1 / 2 * hHe n q a). assert (EA : forall a b, A a b = 1 / 2 * W a b) by (intros; unfold A, hH, q; cbn [natpt]; mkv; fold V; fold W; field).
  assert (Em : forall a, (a < n)%nat -> m a = p false "mean" [a]).
  { apply (mv_cancel n V W); [exact VW|]. intros k Hk. pose proof (mvn_Am n q D k Hk) as E. change (sumR n (fun b => A k b * m b) = 1 / 2 * hE q k) in E.
    rewrite (sumR_ext n _ (fun b => 1 / 2 * (W k b * m b))) in E by (intros; rewrite EA; ring). rewrite sumR_scal in E. assert (E' : sumR n (fun b => W k b * m b) = hE q k) by lra. rewrite E'. unfold hE, q. cbn [natpt]. mkv. reflexivity. }
  exists (exp (- (1 / 2 * lnpiv n A - 1 / 2 * INR n * ln PI))), W, (fun a => a). split; [apply exp_pos|]. split; [intros _ a b Ha Hb; exact (WV a b Ha Hb)|]. split; [apply perm_id|].
  intros g v. unfold direct_ev. cbn [direct vp_sampler s_mean app direct_draw]. cbn [integral_over draw_space entries fold_right]. rewrite Nat.mul_1_r. intros I.
  apply (iterated_scal _ _ _ (exp (- (1 / 2 * lnpiv n A - 1 / 2 * INR n * ln PI)))) in I. revert I. apply iter_ext. intros l Hl.
  replace (canon MultivariateNormal n (postR n p MultivariateNormalVP (fun e => nth (hd 0%nat e) l 0))) with (vector_obs l).
  2:{ cbn [canon postR]. f_equal. unfold reo. cbn [hd]. rewrite <- Hl. symmetry. pose proof (map_nth_self l []) as E. now rewrite app_nil_r in E. }
  rewrite <- Rmult_assoc. f_equal. fold q. rewrite (mvn_dens n q D l). fold A m. cbn [draw_kernel argR hd]. symmetry. apply (gaus_law n A m (fun a => a) W (fun a => p false "mean" [a]) l).
  - reflexivity.
  - intros a b _ _. rewrite EA. field.
  - intros a Ha. now rewrite Em.
Qed.
(** ** ComplexNormal *)
Lemma cn_nat n p : exp_dom ComplexNormal n p -> let v := cnv p in let u := cnu p in let u' := cnu' p in let d := v * v - u * u - u' * u' in let x := p false "mean" [] in let y := p true "mean" [] in let q := natR n p ComplexNormal in
  0 < v /\ 0 < d /\ q false "negative_precision" [] = - v / d /\ q false "pseudo_precision" [] = u / d /\ q true "pseudo_precision" [] = - u' / d /\
  q false "mean_times_precision" [] = -2 * (- v / d * x + (u / d * x + u' / d * y)) /\ q true "mean_times_precision" [] = -2 * (v / d * y + (u / d * y - u' / d * x)).
Proof.
  intros H v u u' d x y q. cbn [exp_dom] in H. cbv zeta in H. destruct H as [H1 H2].
  assert (E1 : 0 < v) by (unfold v, cnv; lra). assert (E2 : u * u + u' * u' < v * v) by (unfold v, u, u', cnv, cnu, cnu'; replace (p false "mean" [] * p true "mean" [] + p true "mean" [] * p false "mean" []) with (2 * p false "mean" [] * p true "mean" []) by ring; exact H2).
  assert (Hd : 0 < d) by (unfold d; lra). split; [exact E1|]. split; [exact Hd|].
  assert (Pc : v - (u * u + u' * u') / v = d / v) by (unfold d; field; lra). assert (Pc0 : 0 < d / v) by (apply Rdiv_lt_0_compat; lra).
  set (pv := (u, u') : Complex.C).
  assert (EQ : q = let r : Complex.C := (u / v, - u' / v) in let pc : Complex.C := (d / v, 0) in let pic : Complex.C := (fst pc / csq_abs pc, - snd pc / csq_abs pc) in
    let precision := - fst pic in let pp := Cmult r pic in let z := Cplus (precision * x, precision * - y) (Cmult pp (x, y)) in
    mkpt [("mean_times_precision", cx (fun _ => (-2 * fst z, -2 * snd z))); ("negative_precision", re (fun _ => precision)); ("pseudo_precision", cx (fun _ => pp))]).
  { unfold q. cbn [natR]. cbv zeta. change (p false "second_moment" [] - csq_abs (cpt p "mean" [])) with v.
    replace (Cminus (cpt p "pseudo_second_moment" []) (Cmult (cpt p "mean" []) (cpt p "mean" []))) with pv by (unfold pv, u, u', cnu, cnu', Cminus, Cmult, Cplus, Copp, cpt; cbn [fst snd]; apply injective_projections; cbn [fst snd]; ring).
    replace (Cminus (RtoC v) (Cconj (Cmult (fst (Cconj pv) / v, snd (Cconj pv) / v) pv))) with ((d / v, 0) : Complex.C); [reflexivity|].
    unfold pv, Cconj, Cmult, Cminus, Cplus, Copp, RtoC. cbn [fst snd]. apply injective_projections; cbn [fst snd]; [rewrite <- Pc; field; lra|field; lra]. }
  rewrite EQ. cbv zeta. unfold csq_abs. cbn [fst snd]. mkv. unfold Cmult, Cplus. cbn [fst snd]. repeat split; field; lra.
Qed.
Lemma law_cn n p : exp_dom ComplexNormal n p -> law_core (EP ComplexNormal) ComplexNormal n 2 p Multivariate_normal_.
Proof.
  intros H. destruct (cn_nat n p H) as (V0 & D0 & Q1 & Q2 & Q3 & Q4 & Q5). pose proof (nat_ok ComplexNormal n p eq_refl H) as Dq. cbv zeta in *. set (v := cnv p) in *. set (u := cnu p) in *. set (u' := cnu' p) in *. set (d := v * v - u * u - u' * u') in *.
  split. { cbn [legal]. apply (spd2 v u u'); try reflexivity; [exact V0|unfold d in D0; lra]. }
  set (x := p false "mean" []) in *. set (y := p true "mean" []) in *.
  set (Q := fun a b : nat => 2 / d * (if (a =? 0)%nat then if (b =? 0)%nat then v - u else - u' else if (b =? 0)%nat then - u' else v + u)).
  set (K := (v - u) / d * (x * x) - 2 * u' / d * (x * y) + (v + u) / d * (y * y)).
  exists (exp (lnR n (natR n p ComplexNormal) ComplexNormal - K)), Q, (fun a => a). split; [apply exp_pos|]. split; [|split; [apply perm_id|]].
  - intros _ a b Ha Hb. rewrite !sumR_S, sumR_0. unfold Q. cbn [argR nth]. fold v u u'. destruct a as [|[|a]], b as [|[|b]]; try lia; cbn [Nat.eqb nth]; unfold d in *; field; lra.
  - intros g w. unfold direct_ev. cbn [direct ep_sampler s_mean app direct_draw]. cbn [integral_over draw_space entries fold_right]. rewrite Nat.mul_1_r. intros I. apply (iterated_scal _ _ _ (exp (lnR n (natR n p ComplexNormal) ComplexNormal - K))) in I. revert I. apply iter_ext. intros l Hl.
    change (canon ComplexNormal n (postR n p (EP ComplexNormal) (fun e => nth (hd 0%nat e) l 0))) with (complex_obs (nth 0 l 0, nth 1 l 0)). rewrite <- Rmult_assoc. f_equal. cbn [natpt]. rewrite (cn_dens n _ l Dq), Q1, Q2, Q3, Q4, Q5.
    rewrite <- exp_plus. cbn [draw_kernel]. f_equal. rewrite !sumR_S, !sumR_0. unfold Q, K. cbn [argR hd Nat.eqb]. fold x y. field. lra.
Qed.
(** ** ComplexCircularlySymmetricNormal: the draw holds the real parts, then the imaginary parts *)
Definition inter (n a : nat) : nat := if (a <? n)%nat then (2 * a)%nat else (2 * (a - n) + 1)%nat.
Lemma inter_lo n a : (a < n)%nat -> inter n a = (2 * a)%nat. Proof. intros H. unfold inter. now rewrite (proj2 (Nat.ltb_lt a n) H). Qed.
Lemma inter_hi n a : inter n (n + a) = (2 * a + 1)%nat. Proof. unfold inter. rewrite (proj2 (Nat.ltb_ge (n + a) n)) by lia. now replace (n + a - n)%nat with a by lia. Qed.
Lemma inter_sum n (f : nat -> R) : sumR (n + n) (fun k => f (inter n k)) = sumR (n + n) f.
Proof. rewrite sumR_split, (sumR_2n n f), sumR_plus. f_equal; apply sumR_ext; intros k Hk; [now rewrite inter_lo|now rewrite inter_hi]. Qed.
Lemma inter_lt n a : (a < n + n)%nat -> (inter n a < n + n)%nat. Proof. intros H. unfold inter. destruct (Nat.ltb_spec a n); lia. Qed.
Lemma inter_inj n a b : (a < n + n)%nat -> (b < n + n)%nat -> dr (inter n a) (inter n b) = dr a b.
Proof. intros Ha Hb. unfold dr, inter. destruct (Nat.ltb_spec a n), (Nat.ltb_spec b n), (Nat.eqb_spec a b); match goal with |- context [(?x =? ?y)%nat] => destruct (Nat.eqb_spec x y) end; try reflexivity; lia. Qed.
Lemma halves n a : (a < n + n)%nat -> exists k, (k < n)%nat /\ (a = k \/ a = n + k)%nat.
Proof. intros H. destruct (Nat.lt_ge_cases a n); [exists a; auto|]. exists (a - n)%nat. lia. Qed.
Lemma law_ccs n p : exp_dom ComplexCircularlySymmetricNormal n p -> law_core (EP ComplexCircularlySymmetricNormal) ComplexCircularlySymmetricNormal n (n + n) p Multivariate_normal_.
Proof.
  intros H. pose proof (nat_ok ComplexCircularlySymmetricNormal n p eq_refl H) as Dq. set (q := natR n p ComplexCircularlySymmetricNormal) in *. cbn [exp_dom] in H. pose proof (hpd_C _ _ _ H) as HC.
  split; [cbn [legal]; exact (spd_block n _ _ H)|]. set (V := fun a b => cpt p "variance" [a; b]). change (hpdC n V) in HC. set (W := fun a b => Cconj (V a b)). set (P := ccsP q).
  assert (EPv : forall a b, P a b = Cconj (cinv n V a b)). { intros a b. unfold P, ccsP, q. cbn [natR]. unfold V. mkv. unfold Cconj, Copp. cbn [fst snd]. apply injective_projections; cbn [fst snd]; ring. }
  assert (PW : forall a b, (a < n)%nat -> (b < n)%nat -> csum n (fun k => P a k * W k b)%C = MatFacts.dl a b).
  { intros a b Ha Hb. rewrite <- Cconj_dl, <- (cinv_left n V (proj1 HC) (hpd_det_ne n V HC) a b Ha Hb), Cconj_csum. apply csum_ext. intros k Hk. rewrite EPv. unfold W. now rewrite Cconj_mult. }
  assert (HW : forall a b, (a < n)%nat -> (b < n)%nat -> W a b = Cconj (W b a)). { intros a b Ha Hb. unfold W. rewrite Cconj_conj. rewrite (proj1 HC a b Ha Hb). apply Cconj_conj. }
  destruct (rm_half n P W HW PW) as [_ PI].
  assert (ES : forall a b, (a < n + n)%nat -> (b < n + n)%nat -> argR n p (EP ComplexCircularlySymmetricNormal) 1 [a; b] = 1 / 2 * rm W (inter n a) (inter n b)).
  { intros a b Ha Hb. cbn [argR nth]. destruct (halves n a Ha) as (j & Hj & [-> | ->]), (halves n b Hb) as (k & Hk & [-> | ->]); rewrite ?inter_hi, ?inter_lo by lia; rewrite ?rm00, ?rm01, ?rm10, ?rm11; unfold W, V; cbn [cpt Cconj fst snd];
      repeat match goal with |- context [(?x <? n)%nat] => first [rewrite (proj2 (Nat.ltb_lt x n) ltac:(lia)) | rewrite (proj2 (Nat.ltb_ge x n) ltac:(lia))] end; rewrite ?(Nat.add_comm n), ?Nat.add_sub; unfold cpt; cbn [fst snd]; ring. }
  set (z := exp (- (1 / 2 * lnpiv (n + n) (rm P) - 1 / 2 * INR (n + n) * ln Rtrigo1.PI))). exists z, (fun a b => 2 * rm P (inter n a) (inter n b)), (inter n). split; [apply exp_pos|]. split; [|split].
  - intros _ a b Ha Hb. change (sumR (n + n) (fun m => 2 * rm P (inter n a) (inter n m) * argR n p (EP ComplexCircularlySymmetricNormal) 1 [m; b]) = dr a b). rewrite <- (inter_inj n a b Ha Hb).
    specialize (PI (inter n a) (inter n b) (inter_lt n a Ha) (inter_lt n b Hb)). rewrite <- inter_sum in PI. rewrite (sumR_ext (n + n) _ (fun m => 2 * (rm P (inter n a) (inter n m) * (1 / 2 * rm W (inter n m) (inter n b))))) by (intros m Hm; rewrite (ES m b Hm Hb); ring). rewrite sumR_scal, PI. field.
  - unfold direct_ev. cbn [direct ep_sampler s_mean app direct_draw entries fold_right]. rewrite Nat.mul_1_r. intros m Hm. destruct (parts m n Hm) as (k & Hk & [-> | ->]); [exists k; rewrite inter_lo by lia; lia|exists (n + k)%nat; rewrite inter_hi; lia].
  - intros g w. unfold direct_ev. cbn [direct ep_sampler s_mean app direct_draw]. cbn [integral_over draw_space entries fold_right]. rewrite Nat.mul_1_r. intros I. apply (iterated_scal _ _ _ z) in I. revert I. apply iter_ext. intros l Hl.
    replace (canon ComplexCircularlySymmetricNormal n (postR n p (EP ComplexCircularlySymmetricNormal) (fun e => nth (inter n (hd 0%nat e)) l 0))) with (complex_vector_obs l).
    2:{ cbn [canon postR]. f_equal. pose proof (map_nth_self l []) as E. rewrite app_nil_r, Hl in E. rewrite <- E at 1. apply map_ext_in. intros k Hk. apply in_seq in Hk. destruct (parts k n ltac:(lia)) as (m & Hm & [-> | ->]).
        - destruct (half0 m) as [-> ->]. cbn [hd]. now rewrite inter_lo.
        - destruct (half1 m) as [-> ->]. cbn [hd]. now rewrite inter_hi. }
    rewrite <- Rmult_assoc. f_equal. cbn [natpt]. fold q. rewrite (ccs_dens n q Dq l). fold P. symmetry. cbn [draw_kernel hd]. apply (gaus_law (n + n) (rm P) (fun _ => 0) (inter n) (fun a b => 2 * rm P (inter n a) (inter n b)) _ l).
    + apply inter_sum.
    + reflexivity.
    + reflexivity.
Qed.
