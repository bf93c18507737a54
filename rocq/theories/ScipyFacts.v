(** Facts about the scipy replacements of the complex normal distributions (C58, C60). *)
From Coquelicot Require Import Coquelicot.
From Coq Require Import String List Bool Arith ZArith Reals Lra Lia.
From Verif Require Import Base XReal Tensor TensorFacts BroadcastFacts DictFacts Support Dist Iteration Structure Tools Joint Spec SumSpec DotSpec PointSpec DensSpec SpecFun Val Fam FamR FamVal DerivFacts DensVal DensThms ConvFacts LeafVal ConvThms IntSpec IntFacts IntFam
  DotFacts DotLaws MatFacts MatVal MatDeriv IntMat DetInv TextSpec TextFacts TextVec TextMat TextThms IntThms SampleThms BlockDet Scipy ScipyShaped.
Import ListNotations.
Local Unset Asymmetric Patterns.
Local Open Scope string_scope.
Local Open Scope R_scope.
Local Notation C := Complex.C (only parsing).
Local Existing Instance Scipy.Dflt_C.
Local Existing Instance Scipy.Dflt_R.

(** ** the test for definiteness *)
Lemma spd_top n m : spd (S n) m -> spd n m. Proof. intros H. apply C_spd. apply hpd_top. now apply spd_C. Qed.
Lemma spd_le n m k : (k <= n)%nat -> spd n m -> spd k m.
Proof. intros H. induction H as [|n H IH]; [easy|]. intros P. apply IH. now apply spd_top. Qed.
Lemma pd_test_spd n m : spd n m -> pd_test n m = true.
Proof.
  intros H. apply forallb_forall. intros k Hk. apply in_seq in Hk. assert (P : 0 < rdet k m) by (apply spd_det; apply (spd_le n); [lia|exact H]). destruct (Rlt_dec 0 (rdet k m)); [reflexivity|contradiction].
Qed.
Lemma csum_ind n L (l : nat -> nat) (f g : nat -> C) : (forall a, (a < L)%nat -> (l a < n)%nat) ->
  csum n (fun j => csum L (fun a => if Nat.eqb j (l a) then f a else RtoC 0) * g j)%C = csum L (fun a => f a * g (l a))%C.
Proof.
  intros H. rewrite (csum_ext n _ (fun j => csum L (fun a => if Nat.eqb j (l a) then f a * g j else RtoC 0))%C).
  - rewrite csum_swap. apply csum_ext. intros a Ha. exact (csum_pick n (l a) (fun j => f a * g j)%C (H a Ha)).
  - intros j Hj. rewrite <- csum_scal_r. apply csum_ext. intros a Ha. destruct (Nat.eqb j (l a)); [reflexivity|apply Cmult_0_l].
Qed.
Lemma hpd_sub n V l : hpdC n V -> NoDup l -> (forall x, In x l -> (x < n)%nat) -> hpdC (length l) (fun a b => V (nth a l 0%nat) (nth b l 0%nat)).
Proof.
  intros [Hs Hp] Nd Hl. assert (Hn : forall a, (a < length l)%nat -> (nth a l 0 < n)%nat) by (intros a Ha; apply Hl; now apply nth_In). split; [intros a b Ha Hb; apply Hs; now apply Hn|].
  intros z (a0 & Ha0 & Nz). set (L := length l) in *. set (li := fun a => nth a l 0%nat). set (w := fun j => csum L (fun a => if Nat.eqb j (li a) then z a else RtoC 0)).
  assert (Wl : forall a, (a < L)%nat -> w (li a) = z a).
  { intros a Ha. unfold w. rewrite (csum_ext L _ (fun b => if Nat.eqb b a then z b else RtoC 0)); [now apply csum_pick|]. intros b Hb. destruct (Nat.eqb_spec (li a) (li b)) as [E|E], (Nat.eqb_spec b a) as [E'|E']; try reflexivity; [|subst; contradiction].
    exfalso. apply E'. symmetry. exact (proj1 (NoDup_nth l 0%nat) Nd a b Ha Hb E). }
  specialize (Hp w). fold (form n V w) in Hp. replace (csum L (fun a => csum L (fun b => Cconj (z a) * V (nth a l 0%nat) (nth b l 0%nat) * z b)))%C with (form n V w).
  - apply Hp. exists (li a0). split; [now apply Hn|]. now rewrite Wl.
  - unfold form. transitivity (csum n (fun a => csum L (fun c => if Nat.eqb a (li c) then Cconj (z c) else RtoC 0) * csum L (fun b => V a (li b) * z b)))%C.
    + apply csum_ext. intros a Ha. replace (csum L (fun c => if Nat.eqb a (li c) then Cconj (z c) else RtoC 0)) with (Cconj (w a)).
      2: { unfold w. rewrite Cconj_csum. apply csum_ext. intros c Hc. destruct (Nat.eqb a (li c)); [reflexivity|apply Cconj_R]. }
      transitivity (Cconj (w a) * csum n (fun b => csum L (fun c => if Nat.eqb b (li c) then z c else RtoC 0) * V a b))%C; [rewrite <- csum_scal; apply csum_ext; intros b Hb; fold (w b); ring|]. rewrite csum_ind by exact Hn.
      f_equal. apply csum_ext. intros b Hb. ring.
    + rewrite csum_ind by exact Hn. apply csum_ext. intros a Ha. rewrite <- csum_scal. apply csum_ext. intros b Hb. unfold li. ring.
Qed.
Lemma psd_test_hpd n V : hpdC n V -> psd_test n V = true.
Proof.
  intros H. apply forallb_forall. intros s _. cbv zeta. set (l := selected n s). destruct (hpd_det (length l) (fun a b => V (nth a l 0%nat) (nth b l 0%nat))) as (r & Hr & ->).
  - apply (hpd_sub n); [exact H|apply NoDup_filter, seq_NoDup|]. intros x Hx. apply filter_In in Hx as [Hx _]. apply in_seq in Hx. lia.
  - cbn [fst RtoC]. destruct (Rle_dec 0 r); [reflexivity|lra].
Qed.

Lemma mvn_pdf_ext n m m' S S' x x' : (forall a, (a < n)%nat -> m a = m' a) -> (forall a b, (a < n)%nat -> (b < n)%nat -> S a b = S' a b) -> (forall a, (a < n)%nat -> x a = x' a) ->
  multivariate_normal_pdf n m S x = multivariate_normal_pdf n m' S' x'.
Proof.
  intros Hm HS Hx. unfold multivariate_normal_pdf. rewrite (rdet_ext n S S' HS). f_equal. f_equal. f_equal. f_equal. apply sumR_exti. intros a Ha. apply sumR_exti. intros b Hb. rewrite (MatFacts.rinv_ext n S S' a b HS Ha Hb). now rewrite !Hm, !Hx.
Qed.
(** ** ScipyComplexNormal *)
Lemma cn_init_scalar m v u : cn_init (tscalar m) true (tscalar (RtoC v)) (tscalar u) = if Rlt_dec v (Cmod u) then Err ValueError else Ok (CNormal m v u).
Proof. unfold cn_init. cbn [negb]. rewrite tmap2_same by reflexivity. cbn. destruct (Rlt_dec v (Cmod u)); reflexivity. Qed.
Lemma cn_cov m v u a b : (a < 2)%nat -> (b < 2)%nat -> cn_mv_cov (CNormal m v u) a b = complex_normal_cov v u a b.
Proof. intros Ha Hb. destruct a as [|[|]]; [| |lia]; (destruct b as [|[|]]; [| |lia]); unfold cn_mv_cov, complex_normal_cov; cbn [nth cn_variance cn_pseudo]; field. Qed.
Lemma cn_cov_spd v u : Cmod u < v -> spd 2 (complex_normal_cov v u).
Proof.
  intros H. pose proof (Cmod_ge_0 u) as H0. assert (Q : fst u * fst u + snd u * snd u < v * v). { rewrite <- cmod_sq. replace (Cmod u ^ 2) with (Cmod u * Cmod u) by ring. apply Rmult_le_0_lt_compat; lra. }
  split.
  - intros a b Ha Hb. destruct a as [|[|]]; [| |lia]; (destruct b as [|[|]]; [| |lia]); reflexivity.
  - intros z (k & Hk & Nk). cbn. set (p := fst u) in *. set (q := snd u) in *. set (x := z 0%nat) in *. set (y := z 1%nat) in *. assert (Hp : 0 < v + p) by nra.
    apply (Rmult_lt_reg_l (v + p)); [exact Hp|]. rewrite Rmult_0_r. assert (N2 : 0 < (v * v - p * p - q * q) * (y * y) + ((v + p) * x + q * y) * ((v + p) * x + q * y)).
    { assert (K : 0 < v * v - p * p - q * q) by lra. destruct (Req_dec y 0) as [Y0|Ny].
      - assert (Nx : x <> 0) by (destruct k as [|[|]]; [exact Nk|exfalso; exact (Nk Y0)|lia]). rewrite Y0. assert (0 < ((v + p) * x) * ((v + p) * x)) by (assert ((v + p) * x <> 0) by (apply Rmult_integral_contrapositive_currified; lra); nra). nra.
      - assert (0 < y * y) by nra. assert (0 < (v * v - p * p - q * q) * (y * y)) by now apply Rmult_lt_0_compat. pose proof (Rle_0_sqr ((v + p) * x + q * y)) as K2. unfold Rsqr in K2. lra. }
    match goal with |- 0 < ?t => replace t with (1 / 2 * ((v * v - p * p - q * q) * (y * y) + ((v + p) * x + q * y) * ((v + p) * x + q * y))) by field end. lra.
Qed.
Section Gen.
  Context {G : Type} (gen : @gen_mvn_t G).
  Lemma col_tbuild s n (f : index -> C) i k : inb s i = true -> (k < n)%nat -> col (tbuild (s ++ [n]) f) i k = fst (f (i ++ [k])%list).
  Proof. intros Hi Hk. unfold col. rewrite tget_tbuild; [reflexivity|]. now apply inb_snoc_intro. Qed.
  Lemma cn_pdf_ok m v u z : Cmod u < v -> exists r, o_pdf (cn_obj gen (CNormal m v u)) z = Ok r /\ shp r = shp z /\ forall i, inb (shp z) i = true -> tget r i = complex_normal_pdf m v u (tget z i).
  Proof.
    intros H. cbn [cn_obj o_pdf cn_as_mvn mvn_obj]. unfold mvn_pdf.
    assert (Sp : spd 2 (cn_mv_cov (CNormal m v u))) by (apply (spd_ext 2 (complex_normal_cov v u)); [intros; symmetry; now apply cn_cov|now apply cn_cov_spd]).
    rewrite (pd_test_spd 2 _ Sp). cbn [negb]. rewrite shp_tbuild, last_snoc, removelast_snoc, Nat.eqb_refl. eexists. split; [reflexivity|]. split; [reflexivity|]. intros i Hi. rewrite tget_tbuild by exact Hi.
    unfold complex_normal_pdf. apply mvn_pdf_ext.
    - intros [|[|]] Ha; [reflexivity|reflexivity|lia].
    - intros; now apply cn_cov.
    - intros a Ha. rewrite col_tbuild by assumption. rewrite last_snoc, removelast_snoc. destruct a as [|[|]]; [reflexivity|reflexivity|lia].
  Qed.
  Lemma cn_pdf_degenerate m v u z : Cmod u = v -> o_pdf (cn_obj gen (CNormal m v u)) z = Err ValueError.
  Proof.
    intros H. cbn [cn_obj o_pdf cn_as_mvn mvn_obj]. unfold mvn_pdf. replace (pd_test 2 (cn_mv_cov (CNormal m v u))) with false; [reflexivity|]. symmetry. apply not_true_iff_false. intros T. unfold pd_test in T. rewrite forallb_forall in T. specialize (T 2%nat (or_intror (or_introl eq_refl))).
    destruct (Rlt_dec 0 (rdet 2 (cn_mv_cov (CNormal m v u)))) as [K|]; [|discriminate]. destruct (rinv2 (cn_mv_cov (CNormal m v u))) as [E _]. rewrite E in K. unfold cn_mv_cov in K. cbn [nth cn_variance cn_pseudo] in K. assert (Q : fst u * fst u + snd u * snd u = v * v) by (rewrite <- cmod_sq, H; ring). nra.
  Qed.
  (** ** ScipyComplexMultivariateNormal *)
  Lemma all2_true n p : (forall a b, (a < n)%nat -> (b < n)%nat -> p a b = true) -> all2 n p = true.
  Proof. intros H. apply forallb_forall. intros a Ha. apply forallb_forall. intros b Hb. apply in_seq in Ha, Hb. apply H; lia. Qed.
  Lemma all2_get n p a b : all2 n p = true -> (a < n)%nat -> (b < n)%nat -> p a b = true.
  Proof. intros H Ha Hb. unfold all2 in H. rewrite forallb_forall in H. specialize (H a ltac:(apply in_seq; lia)). rewrite forallb_forall in H. apply H. apply in_seq. lia. Qed.
  Lemma Ceqb_eq x y : Ceqb x y = true <-> x = y.
  Proof.
    unfold Ceqb. destruct x as [a b], y as [c d]. cbn [fst snd]. destruct (Req_EM_T a c) as [->|N]; [|split; [discriminate|intros E; injection E as -> _; contradiction]].
    destruct (Req_EM_T b d) as [->|N]; [now split|]. split; [discriminate|intros E; injection E as ->; contradiction].
  Qed.
  Definition mat (n : nat) (V : nat -> nat -> C) : tensor C := tbuild [n; n] (fun i => V (nth 0 i 0%nat) (nth 1 i 0%nat)).
  Definition vec' (n : nat) (m : nat -> C) : tensor C := tbuild [n] (fun i => m (nth 0 i 0%nat)).
  Lemma cm_init_ok n m v u : shp m = [n] -> shp v = [n; n] -> shp u = [n; n] -> hpdC n (fun a b => tget v [a; b]) -> (forall a b, (a < n)%nat -> (b < n)%nat -> tget u [a; b] = tget u [b; a]) ->
    cm_init m v u = Ok (CMNormal n (fun k => tget m [k]) (fun a b => tget v [a; b]) (fun a b => tget u [a; b])).
  Proof.
    intros E1 E2 E3 H U. unfold cm_init. rewrite E1, E2, E3. cbn [length Nat.eqb negb]. unfold square_shape. destruct (list_eq_dec Nat.eq_dec [n; n] [n; n]); [|contradiction]. cbn [negb].
    rewrite (psd_test_hpd n _ H). rewrite (all2_true n) by (intros a b Ha Hb; apply Ceqb_eq; now apply H). cbn [andb negb]. rewrite (all2_true n) by (intros a b Ha Hb; apply Ceqb_eq; now apply U). reflexivity.
  Qed.
  (** what an accepted variance and pseudo-variance satisfy *)
  Lemma cm_init_inv m v u o : cm_init m v u = Ok o -> exists n, shp m = [n] /\ shp v = [n; n] /\ shp u = [n; n] /\ o = CMNormal n (fun k => tget m [k]) (fun a b => tget v [a; b]) (fun a b => tget u [a; b]) /\
    forall a b, (a < n)%nat -> (b < n)%nat -> cm_variance o a b = Cconj (cm_variance o b a) /\ cm_pseudo o a b = cm_pseudo o b a.
  Proof.
    unfold cm_init. destruct (shp m) as [|n r] eqn:Em; [discriminate|]. destruct r as [|]; [|discriminate]. cbn [length Nat.eqb negb]. unfold square_shape. destruct (list_eq_dec Nat.eq_dec (shp v) [n; n]) as [Ev|]; [|discriminate]. destruct (list_eq_dec Nat.eq_dec (shp u) [n; n]) as [Eu|]; [|discriminate]. cbn [negb].
    destruct (psd_test n _ && _) eqn:P; [|discriminate]. cbn [negb]. destruct (all2 n (fun a b => Ceqb (tget u [a; b]) _)) eqn:Q; [|discriminate]. cbn [negb]. intros E. injection E as <-. exists n. repeat (split; [assumption || reflexivity|]). cbn [cm_variance cm_pseudo].
    intros a b Ha Hb. apply andb_prop in P as [_ P]. split; apply Ceqb_eq; [exact (all2_get _ _ _ _ P Ha Hb)|exact (all2_get _ _ _ _ Q Ha Hb)].
  Qed.
  Lemma cm_cov n m V U a b : (forall a b, (a < n)%nat -> (b < n)%nat -> U a b = RtoC 0) -> (a < n + n)%nat -> (b < n + n)%nat -> cm_mv_cov (CMNormal n m V U) a b = 1 / 2 * blk n V a b.
  Proof.
    intros Z Ha Hb. unfold cm_mv_cov, blk. cbn [cm_size cm_variance cm_pseudo]. destruct (Nat.ltb_spec a n), (Nat.ltb_spec b n); rewrite Z by lia; cbn; lra.
  Qed.
  Lemma mvn_pdf_ok n m S x : spd n S -> last (shp x) 0%nat = n -> exists r, o_pdf (mvn_obj gen n m S) x = Ok r /\ shp r = removelast (shp x) /\ forall i, inb (removelast (shp x)) i = true -> tget r i = multivariate_normal_pdf n m S (col x i).
  Proof.
    intros H E. cbn [mvn_obj o_pdf]. unfold mvn_pdf. rewrite (pd_test_spd n S H). cbn [negb]. rewrite E, Nat.eqb_refl. eexists. split; [reflexivity|]. split; [reflexivity|]. intros i Hi. now rewrite tget_tbuild.
  Qed.
  Definition offset (z m : nat -> C) (k : nat) : C := (z k - m k)%C.
  Lemma cm_value n m V U z : hpdC n V -> (forall a b, (a < n)%nat -> (b < n)%nat -> U a b = RtoC 0) ->
    multivariate_normal_pdf (n + n) (cm_mv_mean (CMNormal n m V U)) (cm_mv_cov (CMNormal n m V U)) (fun k => if Nat.ltb k n then fst (z k) else snd (z (k - n)%nat)) = circularly_symmetric_pdf n V (offset z m).
  Proof.
    intros H Z. pose proof (blk_spd n V H) as Hb. destruct (hpd_det n V H) as (r & Hr & Er). set (x := fun k => if Nat.ltb k n then fst (offset z m k) else snd (offset z m (k - n)%nat)).
    transitivity (multivariate_normal_pdf (n + n) (fun _ => 0) (fun a b => 1 / 2 * blk n V a b) x).
    { unfold multivariate_normal_pdf. rewrite (rdet_ext (n + n) (cm_mv_cov _) (fun a b => 1 / 2 * blk n V a b)) by (intros; now apply cm_cov). f_equal. f_equal. f_equal. f_equal. apply sumR_exti. intros a Ha. apply sumR_exti. intros b Hb'.
      rewrite (MatFacts.rinv_ext (n + n) (cm_mv_cov _) (fun a b => 1 / 2 * blk n V a b) a b) by (try assumption; intros; now apply cm_cov).
      assert (X : forall k, (if Nat.ltb k n then fst (z k) else snd (z (k - n)%nat)) - cm_mv_mean (CMNormal n m V U) k = x k - 0). { intros k. unfold x, cm_mv_mean, offset, Cminus, Cplus, Copp. cbn [cm_size cm_mean fst snd]. destruct (Nat.ltb k n); ring. }
      now rewrite !X. }
    unfold multivariate_normal_pdf, circularly_symmetric_pdf. rewrite rdet_scal by (lra || exact Hb). rewrite (blk_det n V H), Er. cbn [fst RtoC]. f_equal.
    - f_equal. f_equal. transitivity (sumR (n + n) (fun a => sumR (n + n) (fun b => x a * blk n (cinv n V) a b * x b))).
      + rewrite <- sumR_mul. apply sumR_exti. intros a Ha. rewrite <- sumR_mul. apply sumR_exti. intros b Hb'. rewrite rinv_scal by (lra || assumption). rewrite blk_inv by assumption. field.
      + rewrite blk_form. unfold form. rewrite fst_csum. apply sumR_exti. intros a Ha. rewrite fst_csum. apply sumR_exti. intros b Hb'.
        assert (X : forall k, (k < n)%nat -> (x k, x (n + k)%nat) = offset z m k). { intros k Hk. unfold x. rewrite (proj2 (Nat.ltb_lt k n) Hk), (proj2 (Nat.ltb_ge (n + k) n)) by lia. replace (n + k - n)%nat with k by lia. now destruct (offset z m k). }
        rewrite !X by assumption. reflexivity.
    - replace ((2 * PI) ^ (n + n) * ((1 / 2) ^ (n + n) * (r * r))) with ((PI ^ n * r) * (PI ^ n * r)).
      + apply sqrt_square. apply Rmult_le_pos; [apply pow_le; left; apply PI_RGT_0|lra].
      + symmetry. transitivity (((2 * PI) ^ (n + n) * (1 / 2) ^ (n + n)) * (r * r)); [ring|]. rewrite <- Rpow_mult_distr. replace (2 * PI * (1 / 2)) with PI by field. rewrite pow_add. ring.
  Qed.
  Lemma cm_pdf_ok n m V U z : hpdC n V -> (forall a b, (a < n)%nat -> (b < n)%nat -> U a b = RtoC 0) -> shp z <> [] -> last (shp z) 0%nat = n ->
    exists r, o_pdf (cm_obj gen (CMNormal n m V U)) z = Ok r /\ shp r = removelast (shp z) /\ forall i, inb (removelast (shp z)) i = true -> tget r i = circularly_symmetric_pdf n V (offset (fun k => tget z (i ++ [k])%list) m).
  Proof.
    intros H Z Ne E. cbn [cm_obj o_pdf cm_size]. unfold cm_as_mvn. cbn [cm_size]. rewrite E. replace (2 * n)%nat with (n + n)%nat by lia.
    assert (Sp : spd (n + n) (cm_mv_cov (CMNormal n m V U))). { apply (spd_ext (n + n) (fun a b => 1 / 2 * blk n V a b)); [intros; symmetry; now apply cm_cov|]. apply spd_scal; [lra|now apply blk_spd]. }
    edestruct (mvn_pdf_ok (n + n) (cm_mv_mean (CMNormal n m V U)) (cm_mv_cov (CMNormal n m V U))) as (r & R1 & R2 & R3); [exact Sp| |exists r; split; [exact R1|]].
    - rewrite shp_tbuild. apply last_snoc.
    - rewrite shp_tbuild, removelast_snoc in R2, R3. split; [exact R2|]. intros i Hi. rewrite (R3 i Hi). rewrite <- (cm_value n m V U _ H Z). apply mvn_pdf_ext; [reflexivity|reflexivity|]. intros a Ha. rewrite col_tbuild by assumption. rewrite last_snoc, removelast_snoc. destruct (Nat.ltb a n); reflexivity.
  Qed.
End Gen.
