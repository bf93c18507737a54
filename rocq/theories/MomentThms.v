(** variance() is the second central moment (C45). *)
From Coquelicot Require Import Coquelicot.
From Coq Require Import String List Bool Arith Reals Lia Lra.
From Verif Require Import Base XReal Tensor TensorFacts Support Dist DictFacts Iteration Structure Spec SumSpec DotSpec Tools Joint SpecFun GammaFn Expr Fam ExprFacts FamTy FamFacts SearchFacts DotFacts StructThms SumFacts MapFacts
  JointThms JointThms2 DotLaws BatchFacts PlaneFacts PointSpec PointFacts Val MatVal FamR FamVal ConvFacts LeafVal ConvThms DensSpec DensVal DensThms KlSpec IntSpec IntFam IntThms Var Moment.
Import ListNotations.
Local Unset Asymmetric Patterns.
Local Open Scope string_scope.
Local Open Scope R_scope.

Lemma var_val f n p : f = Normal \/ f = MultivariateDiagonalNormal -> VR (ctx_of (EP f) n) p variance_e (Ev (match f with Normal => [] | _ => [n] end)) (fun j => p false "second_moment" j - p false "mean" j * p false "mean" j).
Proof. intros [-> | ->]; unfold variance_e; (eapply VR_ext; [eapply VR_sub; [vr|eapply VR_square; vr|alt_]|]; intros j Hj; reflexivity). Qed.
Lemma mvn_var_val n p : VR (ctx_of (EP MultivariateNormal) n) p mvn_variance_e (Ev [n; n]) (fun j => p false "second_moment" j - p false "mean" [nth 0 j 0%nat] * p false "mean" [nth 1 j 0%nat]).
Proof. unfold mvn_variance_e. eapply VR_ext; [eapply VR_sub; [vr|eapply VR_outer; vr|alt_]|]. intros j Hj. destruct (inb2 _ _ _ Hj) as (a & b & -> & Ha & Hb). reflexivity. Qed.
Lemma iso_var_val n p : (1 <= n)%nat -> VR (ctx_of (EP IsotropicNormal) n) p isotropic_variance (Ev []) (fun _ => (p false "total_second_moment" [] - sumR n (fun k => p false "mean" [k] * p false "mean" [k])) / INR n).
Proof.
  intros N. assert (INR n <> 0) by (apply not_0_INR; lia). unfold isotropic_variance. eapply VR_ext; [eapply VR_div; [eapply VR_sub; [vr|eapply VR_sum; eapply VR_square; vr|alt_]|vr|alt_|]|]; [intros; assumption|]. intros j Hj. apply inb0 in Hj. subst j. reflexivity.
Qed.
Section M.
  Variable solve : minimizer -> dist -> nat -> xr.
  Notation L := (fam_methods solve).
  Lemma stat_entry b i f q n P g j : proper b i f q -> dims_of q = Ok n -> pdf_is L b i f n q P -> In g (fields (EP f)) -> inb (supp_shape (fd_support g) n) j = true ->
    expected f n P (fun x => ssR n (point_of q i) x f false (fd_name g) j) (expR n (point_of q i) f false (fd_name g) j).
  Proof.
    intros Pq D HP G J. destruct (proper_dims b i f q Pq) as (n' & D1 & _ & D3 & D4 & _). assert (n' = n) by congruence. subst n'. destruct (fam_norm_mean f n (point_of q i) D4 D3) as [N Mn].
    eapply integral_ext; [|apply (mean_entry f n (point_of q i) g false j); auto; now apply in_indices]. intros x X. cbv beta. now rewrite (pdf_val solve b i f q n P Pq D HP x X).
  Qed.
  Lemma one_entry b i f q n P : proper b i f q -> dims_of q = Ok n -> pdf_is L b i f n q P -> expected f n P (fun _ => 1) 1.
  Proof.
    intros Pq D HP. destruct (proper_dims b i f q Pq) as (n' & D1 & _ & D3 & D4 & _). assert (n' = n) by congruence. subst n'. destruct (fam_norm_mean f n (point_of q i) D4 D3) as [N Mn].
    eapply integral_ext; [|exact N]. intros x X. cbv beta. rewrite (pdf_val solve b i f q n P Pq D HP x X). ring.
  Qed.
  Lemma expected_central f n P (X Y XY : obs -> R) mx my s : expected f n P (fun _ => 1) 1 -> expected f n P X mx -> expected f n P Y my -> expected f n P XY s -> (forall x, XY x = X x * Y x) ->
    expected f n P (fun x => (X x - mx) * (Y x - my)) (s - mx * my).
  Proof.
    intros H1 HX HY HS E. unfold expected in *.
    pose proof (integral_plus _ _ _ _ _ _ HS (integral_plus _ _ _ _ _ _ (integral_scal _ _ _ _ (- my) HX) (integral_plus _ _ _ _ _ _ (integral_scal _ _ _ _ (- mx) HY) (integral_scal _ _ _ _ (mx * my) H1)))) as K.
    eapply integral_to; [|eapply integral_ext; [|exact K]]; [ring|]. intros x _. cbv beta. rewrite E. ring.
  Qed.
  Lemma unclipped_of b i f q : proper b i f q -> f <> Logarithmic -> not_clipped q i.
  Proof. intros (C & _) N pl l I Cl. rewrite leaf_leaves in I by (now rewrite C). destruct I as [I|[]]. injection I as <- <-. congruence. Qed.
  Lemma t_var_normal b i q n P : proper b i Normal q -> dims_of q = Ok n -> pdf_is L b i Normal n q P ->
    exists e t v, to_exp L q = Ok e /\ variance e = Ok t /\ shp t = b /\ tget t i = Fin v /\ expected Normal n P (fun x => x false []) (par e i "mean" []) /\
      expected Normal n P (fun x => (x false [] - par e i "mean" []) * (x false [] - par e i "mean" [])) v.
  Proof.
    intros Pq D HP. destruct (exp_form_at solve b i _ q n Pq D (unclipped_of b i _ q Pq ltac:(discriminate))) as (e & E1 & E2 & A & H). pose proof E2 as [C W S' D' V]. assert (Hi : inb b i = true) by apply Pq.
    pose proof (leaf_env _ _ _ S' D') as HE. rewrite C in HE. destruct (eval_at b _ _ i _ _ [] _ HE Hi V (var_val Normal n _ (or_introl eq_refl))) as (t & T1 & T2 & T3). rewrite app_nil_r in T2. specialize (T3 [] eq_refl). rewrite app_nil_r in T3.
    exists e, t. eexists. split; [exact E1|]. split; [unfold variance; rewrite C; exact T1|]. split; [exact T2|]. split; [exact T3|].
    pose proof (stat_entry b i _ q n P _ [] Pq D HP (or_introl eq_refl) eq_refl) as Mn. pose proof (stat_entry b i _ q n P _ [] Pq D HP (or_intror (or_introl eq_refl)) eq_refl) as Sn.
    assert (Em : par e i "mean" [] = expR n (point_of q i) Normal false "mean" []) by (symmetry; exact (pt_re _ _ _ _ _ [] (at_pt_pt _ _ _ _ _ _ Hi E2) (or_introl eq_refl) eq_refl)). rewrite Em. split; [exact Mn|].
    exact (expected_central _ _ _ _ _ _ _ _ _ (one_entry b i _ q n P Pq D HP) Mn Mn Sn (fun x => eq_refl)).
  Qed.
  Lemma t_var_diagonal b i q n P : proper b i MultivariateDiagonalNormal q -> dims_of q = Ok n -> pdf_is L b i MultivariateDiagonalNormal n q P ->
    exists e t, to_exp L q = Ok e /\ variance e = Ok t /\ shp t = (b ++ [n])%list /\ forall k, (k < n)%nat -> exists v, tget t (i ++ [k])%list = Fin v /\ expected MultivariateDiagonalNormal n P (fun x => x false [k]) (par e i "mean" [k]) /\
      expected MultivariateDiagonalNormal n P (fun x => (x false [k] - par e i "mean" [k]) * (x false [k] - par e i "mean" [k])) v.
  Proof.
    intros Pq D HP. destruct (exp_form_at solve b i _ q n Pq D (unclipped_of b i _ q Pq ltac:(discriminate))) as (e & E1 & E2 & A & H). pose proof E2 as [C W S' D' V]. assert (Hi : inb b i = true) by apply Pq.
    pose proof (leaf_env _ _ _ S' D') as HE. rewrite C in HE. destruct (eval_at b _ _ i _ _ [n] _ HE Hi V (var_val MultivariateDiagonalNormal n _ (or_intror eq_refl))) as (t & T1 & T2 & T3).
    exists e, t. split; [exact E1|]. split; [unfold variance; rewrite C; exact T1|]. split; [exact T2|]. intros k Hk. pose proof (inb1_intro n k Hk) as Hj. eexists. split; [exact (T3 [k] Hj)|].
    pose proof (stat_entry b i _ q n P _ [k] Pq D HP (or_introl eq_refl) Hj) as Mn. pose proof (stat_entry b i _ q n P _ [k] Pq D HP (or_intror (or_introl eq_refl)) Hj) as Sn.
    assert (Em : par e i "mean" [k] = expR n (point_of q i) MultivariateDiagonalNormal false "mean" [k]) by (symmetry; exact (pt_re _ _ _ _ _ [k] (at_pt_pt _ _ _ _ _ _ Hi E2) (or_introl eq_refl) Hj)). rewrite Em. split; [exact Mn|].
    exact (expected_central _ _ _ _ _ _ _ _ _ (one_entry b i _ q n P Pq D HP) Mn Mn Sn (fun x => eq_refl)).
  Qed.
  Lemma t_var_mvn b i q n P : proper b i MultivariateNormal q -> dims_of q = Ok n -> pdf_is L b i MultivariateNormal n q P ->
    exists e t, to_exp L q = Ok e /\ variance e = Ok t /\ shp t = (b ++ [n; n])%list /\ forall k l, (k < n)%nat -> (l < n)%nat -> exists v, tget t (i ++ [k; l])%list = Fin v /\ expected MultivariateNormal n P (fun x => x false [k]) (par e i "mean" [k]) /\
      expected MultivariateNormal n P (fun x => (x false [k] - par e i "mean" [k]) * (x false [l] - par e i "mean" [l])) v.
  Proof.
    intros Pq D HP. destruct (exp_form_at solve b i _ q n Pq D (unclipped_of b i _ q Pq ltac:(discriminate))) as (e & E1 & E2 & A & H). pose proof E2 as [C W S' D' V]. assert (Hi : inb b i = true) by apply Pq.
    pose proof (leaf_env _ _ _ S' D') as HE. rewrite C in HE. destruct (eval_at b _ _ i _ _ [n; n] _ HE Hi V (mvn_var_val n _)) as (t & T1 & T2 & T3).
    exists e, t. split; [exact E1|]. split; [unfold variance; rewrite C; exact T1|]. split; [exact T2|]. intros k l Hk Hl.
    assert (Hj : inb [n; n] [k; l] = true) by (cbn -[Nat.ltb]; apply andb_true_iff; split; [now apply Nat.ltb_lt|apply andb_true_iff; split; [now apply Nat.ltb_lt|reflexivity]]). eexists. split; [exact (T3 [k; l] Hj)|].
    pose proof (stat_entry b i _ q n P _ [k] Pq D HP (or_introl eq_refl) (inb1_intro n k Hk)) as Mk. pose proof (stat_entry b i _ q n P _ [l] Pq D HP (or_introl eq_refl) (inb1_intro n l Hl)) as Ml.
    pose proof (stat_entry b i _ q n P _ [k; l] Pq D HP (or_intror (or_introl eq_refl)) Hj) as Sn.
    assert (Em : forall k, (k < n)%nat -> par e i "mean" [k] = expR n (point_of q i) MultivariateNormal false "mean" [k]) by (intros k' Hk'; symmetry; exact (pt_re _ _ _ _ _ [k'] (at_pt_pt _ _ _ _ _ _ Hi E2) (or_introl eq_refl) (inb1_intro n k' Hk'))).
    rewrite (Em k Hk), (Em l Hl). split; [exact Mk|].
    exact (expected_central _ _ _ _ _ _ _ _ _ (one_entry b i _ q n P Pq D HP) Mk Ml Sn (fun x => eq_refl)).
  Qed.
  Lemma integral_sum f n (F : nat -> obs -> R) (v : nat -> R) m : integral_over f n (fun _ => 0) 0 -> (forall k, (k < m)%nat -> integral_over f n (F k) (v k)) -> integral_over f n (fun x => sumR m (fun k => F k x)) (sumR m v).
  Proof.
    intros Z. induction m as [|m IH]; intros H.
    - rewrite sumR_0. eapply integral_ext; [|exact Z]. intros x _. now rewrite sumR_0.
    - rewrite sumR_S. eapply integral_ext; [|exact (integral_plus _ _ _ _ _ _ (IH ltac:(intros; apply H; lia)) (H m ltac:(lia)))]. intros x _. cbv beta. now rewrite sumR_S.
  Qed.
  Lemma t_var_isotropic b i q n P : proper b i IsotropicNormal q -> dims_of q = Ok n -> pdf_is L b i IsotropicNormal n q P ->
    exists e t v, to_exp L q = Ok e /\ variance e = Ok t /\ shp t = b /\ tget t i = Fin v /\ (forall k, (k < n)%nat -> expected IsotropicNormal n P (fun x => x false [k]) (par e i "mean" [k])) /\
      expected IsotropicNormal n P (fun x => sumR n (fun k => (x false [k] - par e i "mean" [k]) * (x false [k] - par e i "mean" [k]))) (INR n * v).
  Proof.
    intros Pq D HP. destruct (exp_form_at solve b i _ q n Pq D (unclipped_of b i _ q Pq ltac:(discriminate))) as (e & E1 & E2 & A & H). pose proof E2 as [C W S' D' V]. assert (Hi : inb b i = true) by apply Pq.
    assert (Hn : (1 <= n)%nat) by (cbn [nat_dom] in H; apply H). assert (INR n <> 0) by (apply not_0_INR; lia).
    pose proof (leaf_env _ _ _ S' D') as HE. rewrite C in HE. destruct (eval_at b _ _ i _ _ [] _ HE Hi V (iso_var_val n _ Hn)) as (t & T1 & T2 & T3). rewrite app_nil_r in T2. specialize (T3 [] eq_refl). rewrite app_nil_r in T3.
    exists e, t. eexists. split; [exact E1|]. split; [unfold variance; rewrite C; exact T1|]. split; [exact T2|]. split; [exact T3|]. set (m := fun k => expR n (point_of q i) IsotropicNormal false "mean" [k]). set (s := expR n (point_of q i) IsotropicNormal false "total_second_moment" []).
    assert (Em : forall k, (k < n)%nat -> par e i "mean" [k] = m k) by (intros k' Hk'; symmetry; exact (pt_re _ _ _ _ _ [k'] (at_pt_pt _ _ _ _ _ _ Hi E2) (or_introl eq_refl) (inb1_intro n k' Hk'))).
    assert (Mk : forall k, (k < n)%nat -> expected IsotropicNormal n P (fun x => x false [k]) (m k)) by (intros k Hk; exact (stat_entry b i _ q n P _ [k] Pq D HP (or_introl eq_refl) (inb1_intro n k Hk))).
    pose proof (stat_entry b i _ q n P _ [] Pq D HP (or_intror (or_introl eq_refl)) eq_refl) as Sn. split; [intros k Hk; rewrite (Em k Hk); auto|].
    pose proof (one_entry b i _ q n P Pq D HP) as H1. unfold expected in *.
    assert (Z : integral_over IsotropicNormal n (fun _ => 0) 0) by (eapply integral_to; [|eapply integral_ext; [|exact (integral_scal _ _ _ _ 0 H1)]]; [ring|intros x _; cbv beta; ring]).
    pose proof (integral_sum IsotropicNormal n (fun k x => - 2 * m k * (P x * x false [k])) (fun k => - 2 * m k * m k) n Z (fun k Hk => integral_scal _ _ _ _ _ (Mk k Hk))) as K1.
    pose proof (integral_plus _ _ _ _ _ _ Sn (integral_plus _ _ _ _ _ _ K1 (integral_scal _ _ _ _ (sumR n (fun k => m k * m k)) H1))) as K.
    eapply integral_to; [|eapply integral_ext; [|exact K]].
    - fold s. change (s + (sumR n (fun k => -2 * m k * m k) + sumR n (fun k => m k * m k) * 1) = INR n * ((s - sumR n (fun k => m k * m k)) / INR n)). rewrite (sumR_ext n (fun k => -2 * m k * m k) (fun k => -2 * (m k * m k))) by (intros; ring). rewrite sumR_scal. field. assumption.
    - intros x _. cbv beta. change (ssR n (point_of q i) x IsotropicNormal false _ []) with (sumR n (fun k => x false [k] * x false [k])).
      rewrite (sumR_ext n (fun k => -2 * m k * (P x * x false [k])) (fun k => P x * (-2 * m k * x false [k]))) by (intros; ring). rewrite sumR_scal.
      rewrite (sumR_ext n (fun k => (x false [k] - par e i "mean" [k]) * _) (fun k => x false [k] * x false [k] + (-2 * m k * x false [k] + m k * m k))) by (intros k Hk; rewrite (Em k Hk); ring). rewrite !sumR_plus. ring.
  Qed.
End M.
