(** The scipy replacements built from the expectation parameters have the densities of the exponential families (C58). *)
From Coquelicot Require Import Coquelicot.
From Coq Require Import String List Bool Arith ZArith Reals Lra Lia.
From Verif Require Import Base XReal Tensor TensorFacts BroadcastFacts DictFacts Support Dist Iteration Structure Tools Joint Spec SumSpec DotSpec PointSpec PointFacts DensSpec SpecFun Expr FamTy Val Fam FamR FamVal DerivFacts DensVal DensThms ConvFacts LeafVal ConvThms IntSpec IntFacts IntFam
  DotFacts DotLaws MatFacts MatVal MatDeriv IntMat DetInv TextSpec TextFacts TextVec TextMat TextThms EntSpec IntThms SampleThms VarThms BlockDet Scipy ScipyShaped ScipyFacts ScipyThms.
Import ListNotations.
Local Unset Asymmetric Patterns.
Local Open Scope string_scope.
Local Open Scope R_scope.
Local Notation C := Complex.C (only parsing).
Local Existing Instance Scipy.Dflt_C.
Local Existing Instance Scipy.Dflt_R.

(** the complex parameter [nm] at batch index i, entry j *)
Definition cpar (q : dist) (i : list nat) (nm : string) (j : list nat) : C := (point_of q i false nm j, point_of q i true nm j).

Lemma cn_exp_values n p d : classical ComplexNormal n p d -> exists m w u, Cmod u < w /\ cnR_s p = w /\ Cconj (cnR_s p * fst (cnR_r p), cnR_s p * snd (cnR_r p)) = u /\ cnR_mu p = m /\ entropic ComplexNormal n p (1 / 2 * ln ((PI * exp 1) ^ 2 * (w * w - Cmod u * Cmod u))) /\ forall x, d x = complex_normal_pdf m w u (x false [], x true []).
Proof.
  cbn [classical]. intros (m & w & u & L & E1 & E2 & E3 & E4). exists m, w, u. split; [exact L|]. assert (En : entropic ComplexNormal n p (1 / 2 * ln ((PI * exp 1) ^ 2 * (w * w - Cmod u * Cmod u)))) by (cbn [entropic]; exists m, w, u; auto). pose proof (Cmod_ge_0 u) as U0. set (D := w * w - Cmod u * Cmod u) in *. assert (HD : 0 < D) by (unfold D; nra). assert (Hw : 0 < w) by lra.
  assert (Du : fst u * fst u + snd u * snd u = w * w - D). { unfold D. transitivity (Cmod u ^ 2); [now rewrite cmod_sq|ring]. } clearbody D.
  assert (P : p false "pseudo_precision" [] = fst u / D /\ p true "pseudo_precision" [] = - snd u / D).
  { pose proof (f_equal fst E2) as K1. pose proof (f_equal snd E2) as K2. unfold Cdiv in K1, K2. rewrite <- RtoC_inv in K1, K2 by lra. unfold Cmult, Cconj, RtoC in K1, K2. cbn [fst snd] in K1, K2. split; [rewrite K1|rewrite K2]; field; lra. }
  destruct P as [P1 P2].
  assert (R : cnR_r p = (fst u / w, - snd u / w)). { unfold cnR_r, cnR_np, cpt. rewrite E1, P1, P2. unfold Copp. cbn [fst snd]. apply f_equal2; field; lra. }
  assert (Rq : csq_abs (cnR_r p) - 1 = - D / (w * w)). { rewrite R. unfold csq_abs. cbn [fst snd]. transitivity ((fst u * fst u + snd u * snd u) / (w * w) - 1); [field; lra|]. rewrite Du. field. lra. }
  assert (S : cnR_s p = w). { unfold cnR_s. rewrite Rq. unfold cnR_np. rewrite E1. field. lra. }
  split; [exact S|]. split; [rewrite S, R; unfold Cconj; cbn [fst snd]; rewrite (surjective_pairing u) at 3; apply f_equal2; field; lra|]. split; [|split; [exact En|exact E4]].
  assert (K : cnR_k p = (- fst u / w, snd u / w)). { unfold cnR_k, cnR_np, cpt. rewrite E1, P1, P2. cbn [fst snd]. apply f_equal2; field; lra. }
  assert (Kq : (csq_abs (cnR_k p) - 1) * cnR_np p = / w). { rewrite K. unfold csq_abs, cnR_np. rewrite E1. cbn [fst snd]. transitivity (((fst u * fst u + snd u * snd u) / (w * w) - 1) * - (w / D)); [field; lra|]. rewrite Du. field. lra. }
  pose proof (f_equal fst E3) as T1. pose proof (f_equal snd E3) as T2. unfold Cmult, Cplus, Cconj, Copp, RtoC in T1, T2. cbn [fst snd] in T1, T2. rewrite E1, P1, P2 in T1, T2.
  unfold cnR_mu, cnR_l. cbn zeta. rewrite Kq, K. unfold cpt. cbn [fst snd]. rewrite T1, T2. set (a := fst u) in *. set (c := snd u) in *. set (x := fst m). set (y := snd m). unfold Cminus, Cplus, Copp, Cmult, Cconj. cbn [fst snd].
  transitivity (x, y); [|symmetry; apply surjective_pairing]. apply f_equal2.
  - transitivity (x * (w * w - (a * a + c * c)) / D); [field; lra|]. rewrite Du. field. lra.
  - transitivity (y * (w * w - (a * a + c * c)) / D); [field; lra|]. rewrite Du. field. lra.
Qed.
(** the observation at batch index i of an array of complex numbers *)
Definition obs_at (x : tensor C) (i : list nat) : obs := fun c j => if c then snd (tget x (i ++ j)%list) else fst (tget x (i ++ j)%list).

(** the expectation parameters of q at every batch index *)
Lemma exp_params solve b f q n e : unclipped f = (fun _ => True) -> (forall i, inb b i = true -> proper b i f q) -> dims_of q = Ok n -> to_exp (fam_methods solve) q = Ok e ->
  forall i, inb b i = true -> pt_eq (EP f) n (expR n (point_of q i) f) (point_of e i) /\ nat_dom f n (point_of q i) /\ dims_ok (NP f) n = true.
Proof.
  intros U H D E i Hi. pose proof (H i Hi) as Pq. destruct (proper_dims b i f q Pq) as (n' & D1 & D2 & D3 & D4 & _). assert (n' = n) by congruence. subst n'. destruct Pq as (C & W & Sh & _ & _).
  assert (A : at_pt b i q (NP f) n (point_of q i)) by now apply at_pt_self. rewrite (api_exp_leaf _ q f C) in E.
  destruct (exp_at solve b i q f n (point_of q i) Hi A D3) as (e' & E1 & E2); [now rewrite U|]. assert (e' = e) by congruence. subst e'. split; [now apply (at_pt_pt b)|now split].
Qed.
Lemma cpar_exp f n p e i g j : pt_eq (EP f) n p (point_of e i) -> In g (fields (EP f)) -> kind_of (fd_support g) = KC -> inb (supp_shape (fd_support g) n) j = true -> cpar e i (fd_name g) j = (p false (fd_name g) j, p true (fd_name g) j).
Proof. intros P I K Hj. unfold cpar. now rewrite (pt_re (EP f) n _ _ g j P I Hj), (pt_im (EP f) n _ _ g j P I K Hj). Qed.

Section Agree.
  Context {G : Type} (gen : @gen_mvn_t G) (solve : minimizer -> dist -> nat -> xr).
  Variables (b : list nat) (q e : dist) (n : nat).
  Hypotheses (D : dims_of q = Ok n) (E : to_exp (fam_methods solve) q = Ok e).

  Lemma cn_K (m v u : tensor C) : (forall i, inb b i = true -> proper b i ComplexNormal q) ->
    (forall i, inb b i = true -> tget m i = cpar e i "mean" [] /\ tget v i = RtoC (par e i "second_moment" [] - Cmod (tget m i) ^ 2) /\ tget u i = (cpar e i "pseudo_second_moment" [] - tget m i * tget m i)%C) ->
    forall i, inb b i = true -> exists d, entropic ComplexNormal n (point_of q i) (1 / 2 * ln ((PI * exp 1) ^ 2 * (fst (tget v i) * fst (tget v i) - Cmod (tget u i) * Cmod (tget u i)))) /\ classical ComplexNormal n (point_of q i) d /\ Cmod (tget u i) < fst (tget v i) /\ snd (tget v i) = 0 /\ forall y, d y = complex_normal_pdf (tget m i) (fst (tget v i)) (tget u i) (y false [], y true []).
  Proof.
    intros Pq H i Hi. destruct (exp_params solve b ComplexNormal q n e eq_refl Pq D E i Hi) as (P & Hd & Dk). destruct (total ComplexNormal n _ Dk Hd) as (d & Hc). exists d. destruct (cn_exp_values n _ d Hc) as (m' & w & u' & L & S1 & S2 & S3 & S5 & S4).
      destruct (H i Hi) as (H1 & H2 & H3).
      pose proof (cpar_exp ComplexNormal n _ e i (var "mean" (ScalarS complex_field)) [] P ltac:(cbn; tauto) eq_refl eq_refl) as M.
      pose proof (cpar_exp ComplexNormal n _ e i (var "pseudo_second_moment" (ScalarS complex_field)) [] P ltac:(cbn; tauto) eq_refl eq_refl) as Q.
      pose proof (pt_re (EP ComplexNormal) n _ _ (var "second_moment" (ScalarS positive_support)) [] P ltac:(cbn; tauto) eq_refl) as V.
      cbn [fd_name var] in M, Q, V. change (cpar e i "mean" [] = (fst (cnR_mu (point_of q i)), snd (cnR_mu (point_of q i)))) in M. rewrite <- surjective_pairing, S3 in M.
      change (cnR_s (point_of q i) + csq_abs (cnR_mu (point_of q i)) = par e i "second_moment" []) in V. rewrite S1, S3 in V.
      set (w1 := Cplus (Cconj (cnR_s (point_of q i) * fst (cnR_r (point_of q i)), cnR_s (point_of q i) * snd (cnR_r (point_of q i)))) (Cmult (cnR_mu (point_of q i)) (cnR_mu (point_of q i)))) in *. change (cpar e i "pseudo_second_moment" [] = (fst w1, snd w1)) in Q. rewrite <- surjective_pairing in Q. unfold w1 in Q. rewrite S2, S3 in Q.
      rewrite M in H1. rewrite H1, <- V in H2. rewrite H1, Q in H3. assert (Sq : csq_abs m' = Cmod m' ^ 2) by (rewrite cmod_sq; reflexivity).
      assert (Hv : tget v i = RtoC w) by (rewrite H2; f_equal; rewrite Sq; ring). assert (Hu : tget u i = u') by (rewrite H3; ring). rewrite Hv, Hu, H1. cbn [fst snd RtoC]. split; [exact S5|]. split; [exact Hc|]. split; [exact L|]. split; [reflexivity|exact S4].
  Qed.
  Theorem agree_cn (m v u : tensor C) x : (forall i, inb b i = true -> proper b i ComplexNormal q) -> shp m = b -> shp v = b -> shp u = b ->
    (forall i, inb b i = true -> tget m i = cpar e i "mean" [] /\ tget v i = RtoC (par e i "second_moment" [] - Cmod (tget m i) ^ 2) /\ tget u i = (cpar e i "pseudo_second_moment" [] - tget m i * tget m i)%C) -> shp x = b ->
    exists c r, cn_array (Some (NArr false m)) (Some (NArr true v)) (Some (NArr false u)) = Ok c /\ sd_pdf (cn_dist gen c) x = Ok r /\ shp r = b /\
      forall i xe, inb b i = true -> observed b i q xe (obs_at x i) -> density (fam_methods solve) b i q xe (tget r i).
  Proof.
    intros Pq Em Ev Eu H Ex.
    assert (K : forall i, inb b i = true -> exists d, classical ComplexNormal n (point_of q i) d /\ Cmod (tget u i) < fst (tget v i) /\ snd (tget v i) = 0 /\ forall y, d y = complex_normal_pdf (tget m i) (fst (tget v i)) (tget u i) (y false [], y true [])).
    { intros i Hi. destruct (cn_K m v u Pq H i Hi) as (d & _ & K). now exists d. }
    destruct (cn_array_ok b m v u false false Em Ev Eu) as (c & C1 & C2 & _ & C4).
    - intros i Hi. destruct (K i Hi) as (d & _ & _ & Z & _). exact Z.
    - intros i Hi. destruct (K i Hi) as (d & _ & L & _). lra.
    - destruct (cn_array_pdf gen c x (fun i => tget m i) (fun i => fst (tget v i)) (fun i => tget u i)) as (r & R1 & R2 & R3); [now rewrite C2|intros i Hi; rewrite C2 in Hi; destruct (K i Hi) as (d & _ & L & _); split; [now apply C4|exact L]|].
      rewrite C2 in R2, R3. exists c, r. split; [exact C1|]. split; [exact R1|]. split; [exact R2|]. intros i xe Hi O. destruct (K i Hi) as (d & Hc & _ & _ & Hd). rewrite (R3 i Hi).
      replace (complex_normal_pdf (tget m i) (fst (tget v i)) (tget u i) (tget x i)) with (d (obs_at x i)); [|rewrite Hd; unfold obs_at; rewrite app_nil_r; f_equal; symmetry; apply surjective_pairing].
      apply (textbook solve b i ComplexNormal q n xe (obs_at x i) d (Pq i Hi) D O Logic.I Hc).
  Qed.
End Agree.

(** ** the identity matrix *)
Lemma dl_form n z : csum n (fun a => csum n (fun b => Cconj (z a) * dl a b * z b)%C) = csum n (fun a => RtoC (Cmod (z a) ^ 2)).
Proof.
  apply csum_ext. intros a Ha. transitivity (csum n (fun b => dl a b * (Cconj (z a) * z b))%C); [apply csum_ext; intros; ring|]. rewrite csum_dl' by exact Ha. rewrite cmod_sq. unfold Cconj, Cmult, RtoC. cbn [fst snd]. apply f_equal2; ring.
Qed.
Lemma sum_sq_pos n (z : nat -> C) : (exists a, (a < n)%nat /\ z a <> RtoC 0) -> 0 < sumR n (fun a => Cmod (z a) ^ 2).
Proof.
  intros (a & Ha & Na). induction n as [|n IH]; [lia|]. rewrite sumR_S. assert (N : forall m, 0 <= sumR m (fun a => Cmod (z a) ^ 2)) by (intros; apply sumR_nonneg; intros; apply pow2_ge_0). specialize (N n).
  destruct (Nat.eq_dec a n) as [->|Ne].
  - assert (0 < Cmod (z n)) by now apply Cmod_gt_0. assert (0 < Cmod (z n) ^ 2) by now apply pow_lt. lra.
  - assert (0 < sumR n (fun a => Cmod (z a) ^ 2)) by (apply IH; lia). pose proof (pow2_ge_0 (Cmod (z n))). lra.
Qed.
Lemma dl_hpd n : hpdC n dl.
Proof.
  split; [intros a b _ _; rewrite Cconj_dl; apply dl_sym|]. intros z H. rewrite dl_form, fst_csum. cbn [fst RtoC]. now apply sum_sq_pos.
Qed.
Lemma cinv_dl n i k : (i < n)%nat -> (k < n)%nat -> cinv n dl i k = dl i k.
Proof. intros Hi Hk. symmetry. apply (cinv_unique n dl (proj1 (dl_hpd n)) (hpd_det_ne _ _ (dl_hpd n))); try assumption. intros a b Ha Hb. now apply (csum_dl' n a (fun j => dl j b)). Qed.
Lemma cdet_dl n : cdet n dl = RtoC 1.
Proof.
  induction n as [|n IH]; [reflexivity|]. assert (N : dl n n = RtoC 1) by (unfold dl; now rewrite Nat.eqb_refl). rewrite cdet_schur by (rewrite N; apply RtoC_neq; lra). rewrite N, (cdet_ext n (schur n dl) dl); [rewrite IH; ring|].
  intros a b Ha Hb. unfold schur. assert (Z : dl n b = RtoC 0) by (unfold dl; rewrite (proj2 (Nat.eqb_neq n b)); [reflexivity|lia]). rewrite Z. ring.
Qed.
Lemma ccs_ext n V V' z z' : (forall a b, (a < n)%nat -> (b < n)%nat -> V a b = V' a b) -> (forall a, (a < n)%nat -> z a = z' a) -> circularly_symmetric_pdf n V z = circularly_symmetric_pdf n V' z'.
Proof.
  intros HV Hz. unfold circularly_symmetric_pdf. rewrite (cdet_ext n V V' HV). f_equal. f_equal. f_equal. apply sumR_exti. intros a Ha. apply sumR_exti. intros b Hb. now rewrite (cinv_ext n V V' a b HV Ha Hb), !Hz.
Qed.
Lemma ccs_unit n m z : circularly_symmetric_pdf n dl (offset z m) = complex_unit_normal_pdf n m z.
Proof.
  pose proof PI_RGT_0 as Pi. unfold circularly_symmetric_pdf, complex_unit_normal_pdf. rewrite cdet_dl. cbn [fst RtoC]. rewrite Rmult_1_r.
  assert (S : sumR n (fun a => sumR n (fun b => fst (Cconj (offset z m a) * cinv n dl a b * offset z m b)%C)) = sumR n (fun a => Cmod (offset z m a) ^ 2)).
  { transitivity (fst (csum n (fun a => csum n (fun b => Cconj (offset z m a) * dl a b * offset z m b)%C))); [|rewrite dl_form, fst_csum; reflexivity]. rewrite fst_csum. apply sumR_exti. intros a Ha. rewrite fst_csum. apply sumR_exti. intros b Hb. now rewrite cinv_dl. }
  rewrite S. clear S. induction n as [|n IH].
  - unfold sumR, prodR. cbn. rewrite Ropp_0, exp_0. field.
  - rewrite sumR_S, prodR_S, <- IH. rewrite Ropp_plus_distr, exp_plus. cbn [pow]. unfold offset. assert (PI ^ n <> 0) by (apply pow_nonzero; lra). field. split; lra || assumption.
Qed.
Lemma cn_unit m z : complex_normal_pdf m 1 (RtoC 0) z = complex_unit_normal_pdf 1 (fun _ => m) (fun _ => z).
Proof.
  pose proof PI_RGT_0 as Pi. unfold complex_normal_pdf, multivariate_normal_pdf, complex_unit_normal_pdf. destruct (rinv2 (complex_normal_cov 1 (RtoC 0))) as (E & E1 & E2 & E3 & E4). unfold sumR, prodR. cbn [seq map fold_right]. rewrite E1, E2, E3, E4, E. cbn [complex_normal_cov fst snd RtoC pair_of].
  replace ((2 * PI) ^ 2 * ((1 + 0) / 2 * ((1 - 0) / 2) - 0 / 2 * (0 / 2))) with (PI * PI) by field. rewrite sqrt_square by lra. rewrite Rmult_1_r. f_equal. f_equal. rewrite cmod_sq. unfold Cminus, Cplus, Copp. cbn [fst snd]. field.
Qed.

Lemma tget_tfull (s : list nat) (a : C) i : inb s i = true -> tget (tfull s a) i = a.
Proof. intros H. unfold tfull. now rewrite tget_tbuild. Qed.
Lemma exp_pi x : exp x / PI = exp (x - ln PI).
Proof. unfold Rminus, Rdiv. rewrite exp_plus, (exp_Ropp (ln PI)), exp_ln by apply PI_RGT_0. reflexivity. Qed.
Lemma rl2 (b : list nat) (n k : nat) : removelast (removelast (b ++ [n; k])) = b.
Proof. change [n; k] with ([n] ++ [k])%list. now rewrite app_assoc, !removelast_snoc. Qed.
Lemma la2 (b : list nat) (n k d : nat) : last (b ++ [n; k]) d = k.
Proof. change [n; k] with ([n] ++ [k])%list. now rewrite app_assoc, last_snoc. Qed.
Section Agree2.
  Context {G : Type} (gen : @gen_mvn_t G) (solve : minimizer -> dist -> nat -> xr).
  Variables (b : list nat) (q e : dist) (n : nat).
  Hypotheses (D : dims_of q = Ok n) (E : to_exp (fam_methods solve) q = Ok e).

  Theorem agree_cu (m v u : tensor C) x : (forall i, inb b i = true -> proper b i ComplexUnitNormal q) -> shp m = b -> shp v = b -> shp u = b ->
    (forall i, inb b i = true -> tget m i = cpar e i "mean" [] /\ tget v i = RtoC 1 /\ tget u i = RtoC 0) -> shp x = b ->
    exists c r, cn_array (Some (NArr false m)) (Some (NArr true v)) (Some (NArr false u)) = Ok c /\ sd_pdf (cn_dist gen c) x = Ok r /\ shp r = b /\
      forall i xe, inb b i = true -> observed b i q xe (obs_at x i) -> density (fam_methods solve) b i q xe (tget r i).
  Proof.
    intros Pq Em Ev Eu H Ex. assert (C0 : Cmod (RtoC 0) = 0) by apply Cmod_0.
    assert (K : forall i, inb b i = true -> exists d, classical ComplexUnitNormal n (point_of q i) d /\ forall y, d y = complex_unit_normal_pdf 1 (fun _ => tget m i) (fun _ => (y false [], y true []))).
    { intros i Hi. destruct (exp_params solve b ComplexUnitNormal q n e eq_refl Pq D E i Hi) as (P & Hd & Dk). destruct (total ComplexUnitNormal n _ Dk Hd) as (d & Hc). exists d. split; [exact Hc|]. cbn [classical] in Hc. destruct Hc as (m' & M' & Hd'). destruct (H i Hi) as (H1 & _ & _).
      pose proof (cpar_exp ComplexUnitNormal n _ e i (var "mean" (ScalarS complex_field)) [] P ltac:(cbn; tauto) eq_refl eq_refl) as M. cbn [fd_name var] in M. set (p := point_of q i) in *.
      change (cpar e i "mean" [] = (1 / 2 * p false "two_mean_conjugate" [], 1 / 2 * - p true "two_mean_conjugate" [])) in M. assert (Em' : tget m i = m'). { rewrite H1, M. pose proof (f_equal fst M') as F1. pose proof (f_equal snd M') as F2. cbn [fst snd] in F1, F2. rewrite F1, F2. unfold Cmult, Cconj, RtoC. cbn [fst snd]. rewrite (surjective_pairing m'). cbn [fst snd]. apply f_equal2; field. }
      rewrite Em'. exact Hd'. }
    destruct (cn_array_ok b m v u false false Em Ev Eu) as (c & C1 & C2 & _ & C4).
    - intros i Hi. destruct (H i Hi) as (_ & -> & _). reflexivity.
    - intros i Hi. destruct (H i Hi) as (_ & -> & ->). rewrite C0. cbn. lra.
    - destruct (cn_array_pdf gen c x (fun i => tget m i) (fun i => fst (tget v i)) (fun i => tget u i)) as (r & R1 & R2 & R3); [now rewrite C2|intros i Hi; rewrite C2 in Hi; split; [now apply C4|]; destruct (H i Hi) as (_ & -> & ->); rewrite C0; cbn; lra|].
      rewrite C2 in R2, R3. exists c, r. split; [exact C1|]. split; [exact R1|]. split; [exact R2|]. intros i xe Hi O. destruct (K i Hi) as (d & Hc & Hd). rewrite (R3 i Hi). destruct (H i Hi) as (_ & -> & ->). cbn [fst RtoC]. change (0, 0) with (RtoC 0). rewrite cn_unit.
      replace (complex_unit_normal_pdf 1 (fun _ => tget m i) (fun _ => tget x i)) with (d (obs_at x i)); [|rewrite Hd; unfold obs_at; rewrite app_nil_r; f_equal; now rewrite <- surjective_pairing].
      apply (textbook solve b i ComplexUnitNormal q n xe (obs_at x i) d (Pq i Hi) D O Logic.I Hc).
  Qed.
  Lemma obs_vec x i : (fun k => (obs_at x i false [k], obs_at x i true [k])) = fun k => tget x (i ++ [k])%list.
  Proof. apply FunctionalExtensionality.functional_extensionality. intros k. unfold obs_at. symmetry. apply surjective_pairing. Qed.

  Theorem agree_cmu (m : tensor C) x : (forall i, inb b i = true -> proper b i ComplexMultivariateUnitNormal q) -> shp m = (b ++ [n])%list ->
    (forall i k, inb b i = true -> (k < n)%nat -> tget m (i ++ [k])%list = cpar e i "mean" [k]) -> shp x = (b ++ [n])%list ->
    exists c r, cm_array (Some (NArr false m)) None None = Ok c /\ sd_pdf (cm_dist gen c) x = Ok r /\ shp r = b /\
      forall i xe, inb b i = true -> observed b i q xe (obs_at x i) -> density (fam_methods solve) b i q xe (tget r i).
  Proof.
    intros Pq Em H Ex.
    assert (K : forall i, inb b i = true -> exists d, classical ComplexMultivariateUnitNormal n (point_of q i) d /\ forall y, d y = complex_unit_normal_pdf n (fun k => tget m (i ++ [k])%list) (fun k => (y false [k], y true [k]))).
    { intros i Hi. destruct (exp_params solve b ComplexMultivariateUnitNormal q n e eq_refl Pq D E i Hi) as (P & Hd & Dk). destruct (total ComplexMultivariateUnitNormal n _ Dk Hd) as (d & Hc). exists d. split; [exact Hc|]. cbn [classical] in Hc. destruct Hc as (m' & M' & Hd'). intros y. rewrite Hd'. unfold complex_unit_normal_pdf.
      rewrite (prodR_e n _ (fun k => - (Cmod ((y false [k], y true [k]) - m' k)%C ^ 2) - ln PI)), (prodR_e n (fun k => exp (- Cmod ((y false [k], y true [k]) - tget m (i ++ [k])%list)%C ^ 2) / PI) (fun k => - (Cmod ((y false [k], y true [k]) - tget m (i ++ [k])%list)%C ^ 2) - ln PI)).
      - f_equal. apply sumR_exti. intros k Hk. rewrite (H i k Hi Hk).
        assert (Hj : inb (supp_shape (VectorS complex_field) n) [k] = true) by now apply in1.
        pose proof (cpar_exp ComplexMultivariateUnitNormal n _ e i (var "mean" (VectorS complex_field)) [k] P ltac:(cbn; tauto) eq_refl Hj) as M. cbn [fd_name var] in M. set (p := point_of q i) in *.
        change (cpar e i "mean" [k] = (1 / 2 * p false "two_mean_conjugate" [k], 1 / 2 * - p true "two_mean_conjugate" [k])) in M. assert (Em' : cpar e i "mean" [k] = m' k). { rewrite M. pose proof (f_equal fst (M' k Hk)) as F1. pose proof (f_equal snd (M' k Hk)) as F2. cbn [fst snd] in F1, F2. rewrite F1, F2. unfold Cmult, Cconj, RtoC. cbn [fst snd]. rewrite (surjective_pairing (m' k)). cbn [fst snd]. apply f_equal2; field. }
        now rewrite Em'.
      - intros k _. apply exp_pi.
      - intros k _. apply exp_pi. }
    assert (Hv : forall i x y, inb b i = true -> (x < n)%nat -> (y < n)%nat -> tget (eye b n) (i ++ [x; y])%list = dl x y).
    { intros i a c Hi Ha Hc. unfold eye. rewrite tget_tbuild by (apply inb_app_intro; [exact Hi|now apply in2]). change [a; c] with ([a] ++ [c])%list. rewrite app_assoc, last_snoc, removelast_snoc, last_snoc. unfold dl. rewrite (Nat.eqb_sym c a). now destruct (Nat.eqb a c). }
    assert (Hu : forall i x y, inb b i = true -> (x < n)%nat -> (y < n)%nat -> tget (tfull (b ++ [n; n]) (RtoC 0)) (i ++ [x; y])%list = RtoC 0).
    { intros i a c Hi Ha Hc. apply tget_tfull. apply inb_app_intro; [exact Hi|now apply in2]. }
    assert (HV : forall i, inb b i = true -> hpdC n (fun x y => tget (eye b n) (i ++ [x; y])%list)). { intros i Hi. apply (hpd_ext n dl); [|apply dl_hpd]. intros. symmetry. now apply Hv. }
    destruct (cm_objects b n m (eye b n) (tfull (b ++ [n; n]) (RtoC 0)) Em eq_refl eq_refl HV Hu) as (os & O1 & O2).
    set (c := CMArr b n false os). specialize (O2 false c eq_refl).
    assert (C1 : cm_array (Some (NArr false m)) None None = Ok c). { unfold cm_array. cbn [na_val]. rewrite Em. rewrite app_length. rewrite (proj2 (Nat.eqb_neq _ 0)) by (cbn; lia). cbn [bind fst snd]. rewrite removelast_snoc, last_snoc. rewrite O1. reflexivity. }
    set (mf := fun i k => tget (tsub m i) [k]). set (Vf := fun i a c => tget (tsub (eye b n) i) [a; c]). set (Uf := fun i a c => tget (tsub (tfull (b ++ [n; n]) (RtoC 0)) i) [a; c]).
    destruct (cm_array_pdf gen c x mf Vf Uf) as (r & R1 & R2 & R3).
    - exact Ex.
    - intros i Hi. destruct (cm_entry b n m (eye b n) (tfull (b ++ [n; n]) (RtoC 0)) Em eq_refl eq_refl HV Hu i Hi) as (_ & V1 & U1 & _). split; [exact (O2 i Hi)|]. split; [exact V1|exact U1].
    - exists c, r. split; [exact C1|]. split; [exact R1|]. split; [exact R2|]. intros i xe Hi O. destruct (K i Hi) as (d & Hc & Hd). rewrite (R3 i Hi). destruct (cm_entry b n m (eye b n) (tfull (b ++ [n; n]) (RtoC 0)) Em eq_refl eq_refl HV Hu i Hi) as (_ & _ & _ & M1).
      replace (circularly_symmetric_pdf (cma_dims c) (Vf i) (offset (fun k => tget x (i ++ [k])%list) (mf i))) with (d (obs_at x i)); [exact (textbook solve b i ComplexMultivariateUnitNormal q n xe (obs_at x i) d (Pq i Hi) D O Logic.I Hc)|].
      rewrite Hd, obs_vec, <- ccs_unit. cbn [cma_dims c]. apply ccs_ext.
      + intros a a' Ha Ha'. unfold Vf. destruct (tindex_ok b [n; n] (eye b n) i eq_refl Hi) as (_ & _ & T). rewrite T by now apply in2. symmetry. now apply Hv.
      + intros a Ha. unfold offset. f_equal. f_equal. symmetry. exact (M1 a Ha).
  Qed.

  Lemma ccs_K (v : tensor C) : (forall i, inb b i = true -> proper b i ComplexCircularlySymmetricNormal q) ->
    (forall i a c, inb b i = true -> (a < n)%nat -> (c < n)%nat -> tget v (i ++ [a; c])%list = cpar e i "variance" [a; c]) ->
    forall i, inb b i = true -> exists d V, entropic ComplexCircularlySymmetricNormal n (point_of q i) (ln ((PI * exp 1) ^ n * fst (cdet n V))) /\ classical ComplexCircularlySymmetricNormal n (point_of q i) d /\ hpdC n V /\ (forall a c, (a < n)%nat -> (c < n)%nat -> tget v (i ++ [a; c])%list = V a c) /\ forall y, d y = circularly_symmetric_pdf n V (fun k => (y false [k], y true [k])).
  Proof.
    intros Pq H i Hi. destruct (exp_params solve b ComplexCircularlySymmetricNormal q n e eq_refl Pq D E i Hi) as (P & Hd & Dk). destruct (total ComplexCircularlySymmetricNormal n _ Dk Hd) as (d & Hc). exists d. pose proof Hc as Hc'. cbn [classical] in Hc'. destruct Hc' as (V & V1 & V2 & V3). exists V.
      assert (HV : hpdC n V). { apply (hpd_ext n (fun a b => (fst (V a b), snd (V a b)))); [intros; symmetry; apply surjective_pairing|now apply hpd_C]. }
      split; [cbn [entropic]; exists V; auto|]. split; [exact Hc|]. split; [exact HV|]. split; [|exact V3]. intros a c Ha Hc0. rewrite (H i a c Hi Ha Hc0).
      assert (Hj : inb (supp_shape (SymS complex_field true true false) n) [a; c] = true) by now apply in2.
      pose proof (cpar_exp ComplexCircularlySymmetricNormal n _ e i (var "variance" (SymS complex_field true true false)) [a; c] P ltac:(cbn; tauto) eq_refl Hj) as M. cbn [fd_name var] in M. set (p := point_of q i) in *.
      set (w := Cconj (cinv n (fun a b => Copp (cpt p "negative_precision" [a; b])) a c)). change (cpar e i "variance" [a; c] = (fst w, snd w)) in M. rewrite <- surjective_pairing in M. rewrite M. unfold w.
      rewrite (cinv_ext n (fun a b => Copp (cpt p "negative_precision" [a; b])) (fun a b => Cconj (cinv n V a b)) a c); [|intros a' c' Ha' Hc'; unfold cpt; rewrite (V2 a' c' Ha' Hc'); ring|exact Ha|exact Hc0].
      rewrite (cinv_conj n (cinv n V)) by (auto using hpd_inv). rewrite cinv_inv by assumption. apply Cconj_conj.
  Qed.
  Theorem agree_ccs (v : tensor C) x : (forall i, inb b i = true -> proper b i ComplexCircularlySymmetricNormal q) -> shp v = (b ++ [n; n])%list ->
    (forall i a c, inb b i = true -> (a < n)%nat -> (c < n)%nat -> tget v (i ++ [a; c])%list = cpar e i "variance" [a; c]) -> shp x = (b ++ [n])%list ->
    exists c r, cm_array None (Some (NArr false v)) None = Ok c /\ sd_pdf (cm_dist gen c) x = Ok r /\ shp r = b /\
      forall i xe, inb b i = true -> observed b i q xe (obs_at x i) -> density (fam_methods solve) b i q xe (tget r i).
  Proof.
    intros Pq Ev H Ex.
    assert (K : forall i, inb b i = true -> exists d V, classical ComplexCircularlySymmetricNormal n (point_of q i) d /\ hpdC n V /\ (forall a c, (a < n)%nat -> (c < n)%nat -> tget v (i ++ [a; c])%list = V a c) /\ forall y, d y = circularly_symmetric_pdf n V (fun k => (y false [k], y true [k]))).
    { intros i Hi. destruct (ccs_K v Pq H i Hi) as (d & V & _ & K). now exists d, V. }
    set (m := tfull (b ++ [n]) (RtoC 0)). set (u := tfull (b ++ [n; n]) (RtoC 0)).
    assert (Hm : forall i k, inb b i = true -> (k < n)%nat -> tget m (i ++ [k])%list = RtoC 0). { intros i a Hi Ha. apply tget_tfull. now apply inb_snoc_intro. }
    assert (Hu : forall i x y, inb b i = true -> (x < n)%nat -> (y < n)%nat -> tget u (i ++ [x; y])%list = RtoC 0).
    { intros i a c Hi Ha Hc. apply tget_tfull. apply inb_app_intro; [exact Hi|now apply in2]. }
    assert (HV : forall i, inb b i = true -> hpdC n (fun x y => tget v (i ++ [x; y])%list)). { intros i Hi. destruct (K i Hi) as (d & V & _ & V1 & V2 & _). apply (hpd_ext n V); [|exact V1]. intros. symmetry. now apply V2. }
    destruct (cm_objects b n m v u eq_refl Ev eq_refl HV Hu) as (os & O1 & O2).
    set (c := CMArr b n false os). specialize (O2 false c eq_refl).
    assert (C1 : cm_array None (Some (NArr false v)) None = Ok c). { unfold cm_array. cbn [na_val]. rewrite Ev. rewrite app_length. rewrite (proj2 (Nat.eqb_neq _ 0)) by (cbn; lia). cbn [bind fst snd]. rewrite rl2, la2. fold m u. rewrite O1. reflexivity. }
    set (mf := fun i k => tget (tsub m i) [k]). set (Vf := fun i a c => tget (tsub v i) [a; c]). set (Uf := fun i a c => tget (tsub u i) [a; c]).
    destruct (cm_array_pdf gen c x mf Vf Uf) as (r & R1 & R2 & R3).
    - exact Ex.
    - intros i Hi. destruct (cm_entry b n m v u eq_refl Ev eq_refl HV Hu i Hi) as (_ & V1 & U1 & _). split; [exact (O2 i Hi)|]. split; [exact V1|exact U1].
    - exists c, r. split; [exact C1|]. split; [exact R1|]. split; [exact R2|]. intros i xe Hi O. destruct (K i Hi) as (d & V & Hc & HV' & EV & Hd). rewrite (R3 i Hi). destruct (cm_entry b n m v u eq_refl Ev eq_refl HV Hu i Hi) as (_ & _ & _ & M1).
      replace (circularly_symmetric_pdf (cma_dims c) (Vf i) (offset (fun k => tget x (i ++ [k])%list) (mf i))) with (d (obs_at x i)); [exact (textbook solve b i ComplexCircularlySymmetricNormal q n xe (obs_at x i) d (Pq i Hi) D O Logic.I Hc)|].
      rewrite Hd, obs_vec. cbn [cma_dims c]. apply ccs_ext.
      + intros a a' Ha Ha'. unfold Vf. destruct (tindex_ok b [n; n] v i Ev Hi) as (_ & _ & T). rewrite T by now apply in2. symmetry. now apply EV.
      + intros a Ha. unfold offset. change (mf i a) with (tget (tsub m i) [a]). pose proof (M1 a Ha) as M2. cbn [cm_mean] in M2. rewrite M2, Hm by assumption. ring.
  Qed.
End Agree2.
