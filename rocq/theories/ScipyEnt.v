(** The entropy of the scipy replacements is the entropy of the natural parametrization (C62). *)
From Coquelicot Require Import Coquelicot.
From Coq Require Import String List Bool Arith ZArith Reals Lra Lia.
From Verif Require Import Base XReal Tensor TensorFacts BroadcastFacts DictFacts Support Dist Iteration Structure Tools Joint Spec SumSpec DotSpec PointSpec PointFacts DensSpec SpecFun Expr FamTy Val Fam FamR FamVal DerivFacts DensVal DensThms ConvFacts LeafVal ConvThms IntSpec IntFacts IntFam
  DotFacts DotLaws MatFacts MatVal MatDeriv IntMat DetInv TextSpec TextFacts TextVec TextMat TextThms EntSpec EntFacts EntThms IntThms SampleThms VarThms BlockDet Scipy ScipyShaped ScipyFacts ScipyThms ScipyAgree ScipyMv ScipyMvFacts.
Import ListNotations.
Local Unset Asymmetric Patterns.
Local Open Scope string_scope.
Local Open Scope R_scope.
Local Notation C := Complex.C (only parsing).
Local Existing Instance Scipy.Dflt_C.
Local Existing Instance Scipy.Dflt_R.

(** ** the height of a normal density determines the determinant of the covariance *)
Lemma form_ge0 n A z : spd n A -> 0 <= sumR n (fun a => sumR n (fun b => z a * A a b * z b)).
Proof.
  intros [_ H]. destruct (Exists_dec (fun a => z a <> 0) (seq 0 n)) as [K|K]; [intros a; destruct (Req_EM_T (z a) 0); [right; tauto|now left]| |].
  - apply Exists_exists in K. destruct K as (a & Ha & N). apply in_seq in Ha. left. apply H. exists a. split; [lia|exact N].
  - right. symmetry. rewrite (sumR_ext n _ (fun _ => 0)); [rewrite sumR_const; ring|]. intros a Ha. rewrite (sumR_ext n _ (fun _ => 0)); [rewrite sumR_const; ring|]. intros b Hb.
    destruct (Req_EM_T (z a) 0) as [->|N]; [ring|]. exfalso. apply K. apply Exists_exists. exists a. split; [apply in_seq; lia|exact N].
Qed.
Lemma peak_at n m S : multivariate_normal_pdf n m S m = / sqrt ((2 * PI) ^ n * rdet n S).
Proof.
  unfold multivariate_normal_pdf. rewrite (sumR_ext n _ (fun _ => 0)); [rewrite sumR_const; replace (- (1 / 2 * (INR n * 0))) with 0 by ring; rewrite exp_0; unfold Rdiv; ring|]. intros a Ha. rewrite (sumR_ext n _ (fun _ => 0)); [rewrite sumR_const; ring|]. intros; ring.
Qed.
Lemma height n S : spd n S -> 0 < (2 * PI) ^ n * rdet n S.
Proof. intros H. pose proof PI_RGT_0. apply Rmult_lt_0_compat; [apply pow_lt; lra|now apply spd_det]. Qed.
Lemma peak_le n m S x : spd n S -> multivariate_normal_pdf n m S x <= / sqrt ((2 * PI) ^ n * rdet n S).
Proof.
  intros H. unfold multivariate_normal_pdf. pose proof (form_ge0 n (rinv n S) (fun a => x a - m a) (spd_inv n S H)) as Q. match goal with |- exp (- (1 / 2 * ?A')) / _ <= _ => change (0 <= A') in Q; generalize dependent A'; intros A Q end.
  assert (exp (- (1 / 2 * A)) <= 1). { apply Rle_trans with (exp 0); [|rewrite exp_0; lra]. destruct Q as [Q|<-]; [left; apply exp_increasing; lra|right; f_equal; ring]. }
  pose proof (sqrt_lt_R0 _ (height n S H)) as K. apply Rinv_0_lt_compat in K. unfold Rdiv. rewrite <- (Rmult_1_l (/ sqrt _)) at 2. apply Rmult_le_compat_r; lra.
Qed.
Lemma peak_det n m S m' S' : spd n S -> spd n S' -> (forall x, multivariate_normal_pdf n m S x = multivariate_normal_pdf n m' S' x) -> rdet n S = rdet n S'.
Proof.
  intros H H' E. assert (K : / sqrt ((2 * PI) ^ n * rdet n S) = / sqrt ((2 * PI) ^ n * rdet n S')).
  { apply Rle_antisym; [rewrite <- (peak_at n m S), E|rewrite <- (peak_at n m' S'), <- E]; now apply peak_le. }
  pose proof (height n S H) as P. pose proof (height n S' H') as P'. pose proof (sqrt_lt_R0 _ P) as Q. pose proof (sqrt_lt_R0 _ P') as Q'. apply (f_equal Rinv) in K. rewrite !Rinv_inv in K.
  apply sqrt_inj in K; [|lra|lra]. pose proof PI_RGT_0. assert (0 < (2 * PI) ^ n) by (apply pow_lt; lra). apply Rmult_eq_reg_l in K; [exact K|lra].
Qed.
Lemma obs_vector (x : nat -> R) : exists o : obs, forall k, o false [k] = x k.
Proof. exists (fun _ j => x (hd 0%nat j)). reflexivity. Qed.
Lemma peak_obs n m S m' S' (d : obs -> R) : spd n S -> spd n S' -> (forall x : obs, d x = multivariate_normal_pdf n m S (fun k => x false [k])) -> (forall x : obs, d x = multivariate_normal_pdf n m' S' (fun k => x false [k])) -> rdet n S = rdet n S'.
Proof.
  intros H H' E E'. apply (peak_det n m S m' S' H H'). intros x. set (o := (fun _ j => x (hd 0%nat j)) : obs). exact (eq_trans (eq_sym (E o)) (E' o)).
Qed.
(** ** real normals *)
Lemma ln_diag n w : (forall k, (k < n)%nat -> 0 < w k) -> 1 / 2 * ln ((2 * PI * exp 1) ^ n * rdet n (diag w)) = sumR n (fun k => 1 / 2 * ln (2 * PI * exp 1 * w k)).
Proof.
  intros H. rewrite (diag_det n w H). rewrite sumR_scal. f_equal. pose proof PI_RGT_0 as P. pose proof (exp_pos 1) as Pe. assert (K : 0 < 2 * PI * exp 1). { apply Rmult_lt_0_compat; lra. } induction n as [|n IH].
  - unfold prodR, sumR. cbn. rewrite Rmult_1_l. apply ln_1.
  - rewrite sumR_S, prodR_S, <- IH by (intros; apply H; lia). rewrite <- ln_mult.
    + f_equal. cbn [pow]. ring.
    + apply Rmult_lt_0_compat; [now apply pow_lt|]. apply prodR_pos. intros. apply H. lia.
    + apply Rmult_lt_0_compat; [exact K|]. apply H. lia.
Qed.
Lemma normal_entropic f n q i m Sg : real_normal f -> nat_dom f n (point_of q i) -> is_normal f n q i m Sg -> entropic f n (point_of q i) (1 / 2 * ln ((2 * PI * exp 1) ^ n * rdet n Sg)).
Proof.
  intros F Hd (HS & d & K & E). cbn in F. destruct F as [<-|[<-|[<-|[<-|[<-|[]]]]]]; cbn [classical] in K; cbn [entropic]; cbn [nat_dom] in Hd; cbn zeta in *.
  - destruct K as (m0 & S0 & H0 & K1 & K2 & K3). exists m0, S0. rewrite (peak_obs n m Sg m0 S0 d HS H0 E K3). auto.
  - destruct K as (m0 & w & K1 & K2). exists m0, w. split; [exact K1|]. assert (W : forall k, (k < n)%nat -> 0 < w k) by (intros k Hk; now destruct (K1 k Hk)).
    rewrite (peak_obs n m Sg m0 (diag w) d HS (diag_spd n w W) E); [now apply ln_diag|]. intros x. rewrite K2, diag_pdf by exact W. reflexivity.
  - destruct K as (m0 & K1 & K2). set (w := point_of q i false "variance" []) in *. rewrite (peak_obs n m Sg m0 (diag (fun _ => w)) d HS (diag_spd n _ (fun _ _ => Hd)) E); [rewrite ln_diag, sumR_const by (intros; exact Hd); field|]. intros x. rewrite K2, diag_pdf by (intros; exact Hd). reflexivity.
  - destruct K as (m0 & w & W & K1 & K2 & K3). exists w. split; [exact W|]. split; [exact K2|]. rewrite (peak_obs n m Sg m0 (diag (fun _ => w)) d HS (diag_spd n _ (fun _ _ => W)) E); [rewrite ln_diag, sumR_const by (intros; exact W); field|]. intros x. rewrite K3, diag_pdf by (intros; exact W). reflexivity.
  - assert (W : 0 < 1) by lra. rewrite (peak_obs n m Sg (fun k => point_of q i false "mean" [k]) (diag (fun _ => 1)) d HS (diag_spd n _ (fun _ _ => W)) E); [rewrite ln_diag, sumR_const by (intros; exact W); rewrite Rmult_1_r; field|]. intros x. rewrite K, diag_pdf by (intros; exact W). reflexivity.
Qed.
(** ** entropies of the scipy objects *)
Section Ent.
  Context {G : Type} (gen : @gen_mvn_t G).
  Lemma mvn_ent n m S : spd n S -> o_entropy (mvn_obj gen n m S) = Ok (tscalar (1 / 2 * ln ((2 * PI * exp 1) ^ n * rdet n S))).
  Proof.
    intros H. cbn [mvn_obj o_entropy]. unfold mvn_entropy. rewrite (pd_test_spd n S H). cbn [negb]. do 2 f_equal. pose proof PI_RGT_0 as P. pose proof (exp_pos 1) as Pe. assert (K : 0 < 2 * PI * exp 1). { apply Rmult_lt_0_compat; lra. }
    rewrite rdet_scal by (lra || exact H). reflexivity.
  Qed.
  Lemma cn_ent m v u : Cmod u < v -> o_entropy (cn_obj gen (CNormal m v u)) = Ok (tscalar (1 / 2 * ln ((PI * exp 1) ^ 2 * (v * v - Cmod u * Cmod u)))).
  Proof.
    intros L. cbn [cn_obj o_entropy]. unfold cn_as_mvn. rewrite mvn_ent by (apply (MatFacts.spd_ext 2 (complex_normal_cov v u)); [intros; symmetry; now apply cn_cov|now apply cn_cov_spd]). do 3 f_equal. f_equal.
    rewrite (proj1 (rinv2 _)). rewrite !cn_cov by lia. cbn [complex_normal_cov]. replace (Cmod u * Cmod u) with (fst u * fst u + snd u * snd u) by (rewrite <- cmod_sq; ring). field.
  Qed.
  Lemma cm_ent n m V U : hpdC n V -> (forall a b, (a < n)%nat -> (b < n)%nat -> U a b = RtoC 0) -> o_entropy (cm_obj gen (CMNormal n m V U)) = Ok (tscalar (ln ((PI * exp 1) ^ n * fst (cdet n V)))).
  Proof.
    intros H Z. cbn [cm_obj o_entropy]. unfold cm_as_mvn. cbn [cm_size]. replace (2 * n)%nat with (n + n)%nat by lia.
    assert (Sp : spd (n + n) (cm_mv_cov (CMNormal n m V U))). { apply (MatFacts.spd_ext (n + n) (fun a b => 1 / 2 * blk n V a b)); [intros; symmetry; now apply cm_cov|]. apply spd_scal; [lra|now apply blk_spd]. }
    rewrite mvn_ent by exact Sp. do 2 f_equal. rewrite (rdet_ext (n + n) (cm_mv_cov _) (fun a b => 1 / 2 * blk n V a b)) by (intros; now apply cm_cov). rewrite rdet_scal by (lra || now apply blk_spd). rewrite (blk_det n V H). destruct (hpd_det n V H) as (r & Hr & ->). cbn [fst RtoC].
    pose proof PI_RGT_0 as P. pose proof (exp_pos 1) as Pe. assert (K : 0 < PI * exp 1) by now apply Rmult_lt_0_compat. assert (Kn : 0 < (PI * exp 1) ^ n) by now apply pow_lt. assert (Kr : 0 < (PI * exp 1) ^ n * r) by now apply Rmult_lt_0_compat.
    replace ((2 * PI * exp 1) ^ (n + n) * ((1 / 2) ^ (n + n) * (r * r))) with ((PI * exp 1) ^ n * r * ((PI * exp 1) ^ n * r)).
    - rewrite ln_mult by assumption. field.
    - symmetry. transitivity (((2 * PI * exp 1) ^ (n + n) * (1 / 2) ^ (n + n)) * (r * r)); [ring|]. rewrite <- Rpow_mult_distr. replace (2 * PI * exp 1 * (1 / 2)) with (PI * exp 1) by field. rewrite pow_add. ring.
  Qed.
  Lemma ent_values (d : sdist G) h : (forall i, inb (sd_shape d) i = true -> o_entropy (sd_objects d i) = Ok (tscalar (h i))) -> exists r, sd_entropy d = Ok r /\ shp r = sd_shape d /\ forall i, inb (sd_shape d) i = true -> tget r i = h i.
  Proof.
    intros H. destruct (entropy_spec d) as (r & R1 & R2 & R3); [intros i Hi; rewrite (H i Hi); eauto|]. exists r. split; [exact R1|]. split; [exact R2|]. intros i Hi. specialize (R3 i Hi). rewrite (H i Hi) in R3. injection R3 as E. symmetry. exact E.
  Qed.
  (** ** agreement *)
  Context (solve : minimizer -> dist -> nat -> xr) (b : list nat) (q e : dist) (n : nat).
  Hypotheses (D : dims_of q = Ok n) (E : to_exp (fam_methods solve) q = Ok e).
  Definition entropy_agrees (r : tensor R) : Prop := shp r = b /\ forall i, inb b i = true -> exists t, entropy_nat (fam_methods solve) q = Ok t /\ shp t = b /\ tget t i = Fin (tget r i).
  Lemma agrees_intro f r h : (forall i, inb b i = true -> proper b i f q) -> has_entropy_ep (EP f) = true -> carrier_by_search f = false -> shp r = b -> (forall i, inb b i = true -> tget r i = h i /\ entropic f n (point_of q i) (h i)) -> entropy_agrees r.
  Proof. intros Pq He Cs S H. split; [exact S|]. intros i Hi. destruct (H i Hi) as [-> K]. apply (entropy_nat_textbook solve b i f q n); auto. congruence. Qed.

  Theorem ent_cn (m v u : tensor C) : (forall i, inb b i = true -> proper b i ComplexNormal q) -> shp m = b -> shp v = b -> shp u = b ->
    (forall i, inb b i = true -> tget m i = cpar e i "mean" [] /\ tget v i = RtoC (par e i "second_moment" [] - Cmod (tget m i) ^ 2) /\ tget u i = (cpar e i "pseudo_second_moment" [] - tget m i * tget m i)%C) ->
    exists c r, cn_array (Some (NArr false m)) (Some (NArr true v)) (Some (NArr false u)) = Ok c /\ sd_entropy (cn_dist gen c) = Ok r /\ entropy_agrees r.
  Proof.
    intros Pq Em Ev Eu H. pose proof (cn_K solve b q e n D E m v u Pq H) as K. destruct (cn_array_ok b m v u false false Em Ev Eu) as (c & C1 & C2 & _ & C4).
    - intros i Hi. destruct (K i Hi) as (d & _ & _ & _ & Z & _). exact Z.
    - intros i Hi. destruct (K i Hi) as (d & _ & _ & L & _). lra.
    - destruct (ent_values (cn_dist gen c) (fun i => 1 / 2 * ln ((PI * exp 1) ^ 2 * (fst (tget v i) * fst (tget v i) - Cmod (tget u i) * Cmod (tget u i))))) as (r & R1 & R2 & R3).
      { cbn [cn_dist sd_shape sd_objects]. rewrite C2. intros i Hi. rewrite (C4 i Hi). destruct (K i Hi) as (d & _ & _ & L & _). now apply cn_ent. }
      cbn [cn_dist sd_shape] in R2, R3. rewrite C2 in R2, R3. exists c, r. split; [exact C1|]. split; [exact R1|]. eapply (agrees_intro ComplexNormal); [exact Pq|reflexivity|reflexivity|exact R2|]. intros i Hi. split; [exact (R3 i Hi)|]. destruct (K i Hi) as (d & En & _). exact En.
  Qed.
  Theorem ent_cu (m v u : tensor C) : (forall i, inb b i = true -> proper b i ComplexUnitNormal q) -> shp m = b -> shp v = b -> shp u = b ->
    (forall i, inb b i = true -> tget m i = cpar e i "mean" [] /\ tget v i = RtoC 1 /\ tget u i = RtoC 0) ->
    exists c r, cn_array (Some (NArr false m)) (Some (NArr true v)) (Some (NArr false u)) = Ok c /\ sd_entropy (cn_dist gen c) = Ok r /\ entropy_agrees r.
  Proof.
    intros Pq Em Ev Eu H. assert (C0 : Cmod (RtoC 0) = 0) by apply Cmod_0. destruct (cn_array_ok b m v u false false Em Ev Eu) as (c & C1 & C2 & _ & C4).
    - intros i Hi. destruct (H i Hi) as (_ & -> & _). reflexivity.
    - intros i Hi. destruct (H i Hi) as (_ & -> & ->). rewrite C0. cbn. lra.
    - destruct (ent_values (cn_dist gen c) (fun _ => ln (PI * exp 1))) as (r & R1 & R2 & R3).
      { cbn [cn_dist sd_shape sd_objects]. rewrite C2. intros i Hi. rewrite (C4 i Hi). destruct (H i Hi) as (_ & -> & ->). rewrite cn_ent by (rewrite C0; cbn; lra). rewrite C0. cbn [fst RtoC]. do 2 f_equal. pose proof PI_RGT_0 as P. pose proof (exp_pos 1) as Pe. assert (K : 0 < PI * exp 1) by now apply Rmult_lt_0_compat.
        replace ((PI * exp 1) ^ 2 * (1 * 1 - 0 * 0)) with (PI * exp 1 * (PI * exp 1)) by ring. rewrite ln_mult by assumption. field. }
      cbn [cn_dist sd_shape] in R2, R3. rewrite C2 in R2, R3. exists c, r. split; [exact C1|]. split; [exact R1|]. eapply (agrees_intro ComplexUnitNormal); [exact Pq|reflexivity|reflexivity|exact R2|]. intros i Hi. split; [exact (R3 i Hi)|]. reflexivity.
  Qed.
  Theorem ent_normal f (m c : tensor R) : real_normal f -> (forall i, inb b i = true -> proper b i f q) -> shp m = (b ++ [n])%list -> shp c = (b ++ [n; n])%list ->
    (forall i k l, inb b i = true -> (k < n)%nat -> (l < n)%nat -> tget c (i ++ [k; l])%list = normal_cov f n e i k l) ->
    exists d r, mc_dist gen (Some m) (Some c) = Ok d /\ sd_entropy d = Ok r /\ entropy_agrees r.
  Proof.
    intros Hf Pq Em Ec Hc. pose proof (fun i Hi => n_all solve b q e n D E f i Hf Hi Pq) as N.
    assert (H : forall i, inb b i = true -> spd n (fun k l => tget c (i ++ [k; l])%list)). { intros i Hi. destruct (N i Hi) as [Sp _]. apply (MatFacts.spd_ext n (normal_cov f n e i)); [intros; symmetry; now apply Hc|exact Sp]. }
    unfold mc_dist. rewrite Em, app_length. rewrite (proj2 (Nat.eqb_neq _ 0)) by (cbn; lia). rewrite last_snoc, removelast_snoc.
    assert (Cv : forall i, inb b i = true -> (let* ci := tindex c i in cov_of n ci) = Ok (fun k l => tget (tsub c i) [k; l])).
    { intros i Hi. destruct (tindex_ok b [n; n] c i Ec Hi) as (T1 & T2 & _). rewrite T1. cbn [bind]. unfold cov_of. rewrite T2. now rewrite Nat.eqb_refl. }
    assert (Tc : forall i, inb b i = true -> forall k l, (k < n)%nat -> (l < n)%nat -> tget (tsub c i) [k; l] = normal_cov f n e i k l).
    { intros i Hi k l Hk Hl. destruct (tindex_ok b [n; n] c i Ec Hi) as (_ & _ & T3). rewrite T3 by now apply in2. now apply Hc. }
    assert (Sp : forall i, inb b i = true -> spd n (fun k l => tget (tsub c i) [k; l])).
    { intros i Hi. destruct (N i Hi) as [Sp _]. apply (MatFacts.spd_ext n (normal_cov f n e i)); [intros; symmetry; now apply Tc|exact Sp]. }
    assert (M : forall i, inb b i = true -> (let* Sg := (let* ci := tindex c i in cov_of n ci) in if pd_test n Sg then Ok tt else Err ValueError) = Ok tt).
    { intros i Hi. rewrite Cv by exact Hi. cbn [bind]. now rewrite (pd_test_spd n _ (Sp i Hi)). }
    rewrite (mapM_ok (fun i => let* Sg := (let* ci := tindex c i in cov_of n ci) in if pd_test n Sg then Ok tt else Err ValueError) (fun _ => tt)) by (intros i Hi; apply M; now apply in_indices). cbn [bind].
    match goal with |- exists d r, Ok ?w = Ok d /\ _ => set (DD := w); exists DD end.
    destruct (ent_values DD (fun i => 1 / 2 * ln ((2 * PI * exp 1) ^ n * rdet n (normal_cov f n e i)))) as (r & R1 & R2 & R3).
    { intros i Hi. cbn [DD sd_objects sd_shape] in *. rewrite (Cv i Hi), mvn_ent by now apply Sp. do 3 f_equal. f_equal. f_equal. apply rdet_ext. intros. now apply Tc. }
    exists r. split; [reflexivity|]. split; [exact R1|]. apply (agrees_intro f r (fun i => 1 / 2 * ln ((2 * PI * exp 1) ^ n * rdet n (normal_cov f n e i)))); [exact Pq| | |exact R2|].
    - cbn in Hf. destruct Hf as [<-|[<-|[<-|[<-|[<-|[]]]]]]; reflexivity.
    - cbn in Hf. destruct Hf as [<-|[<-|[<-|[<-|[<-|[]]]]]]; reflexivity.
    - intros i Hi. split; [exact (R3 i Hi)|]. apply (normal_entropic f n q i (fun k => par e i "mean" [k])); [exact Hf| |exact (N i Hi)]. assert (Uc : unclipped f = (fun _ => True)) by (cbn in Hf; destruct Hf as [<-|[<-|[<-|[<-|[<-|[]]]]]]; reflexivity). destruct (exp_params solve b f q n e Uc Pq D E i Hi) as (_ & Hd & _). exact Hd.
  Qed.
  Lemma cm_dist_ent c (m : list nat -> nat -> C) (V U : list nat -> nat -> nat -> C) : let n := cma_dims c in
    (forall i, inb (cma_shape c) i = true -> cma_at c i = CMNormal n (m i) (V i) (U i) /\ hpdC n (V i) /\ forall a b, (a < n)%nat -> (b < n)%nat -> U i a b = RtoC 0) ->
    exists r, sd_entropy (cm_dist gen c) = Ok r /\ shp r = cma_shape c /\ forall i, inb (cma_shape c) i = true -> tget r i = ln ((PI * exp 1) ^ n * fst (cdet n (V i))).
  Proof. intros k H. apply (ent_values (cm_dist gen c)). cbn [cm_dist sd_shape sd_objects]. intros i Hi. destruct (H i Hi) as (-> & HV & HU). now apply cm_ent. Qed.
  Theorem ent_ccs (v : tensor C) : (forall i, inb b i = true -> proper b i ComplexCircularlySymmetricNormal q) -> shp v = (b ++ [n; n])%list ->
    (forall i a c, inb b i = true -> (a < n)%nat -> (c < n)%nat -> tget v (i ++ [a; c])%list = cpar e i "variance" [a; c]) ->
    exists c r, cm_array None (Some (NArr false v)) None = Ok c /\ sd_entropy (cm_dist gen c) = Ok r /\ entropy_agrees r.
  Proof.
    intros Pq Ev H. pose proof (ccs_K solve b q e n D E v Pq H) as K. set (m := tfull (b ++ [n]) (RtoC 0)). set (u := tfull (b ++ [n; n]) (RtoC 0)).
    assert (Hu : forall i x y, inb b i = true -> (x < n)%nat -> (y < n)%nat -> tget u (i ++ [x; y])%list = RtoC 0).
    { intros i a c Hi Ha Hc. apply tget_tfull. apply inb_app_intro; [exact Hi|now apply in2]. }
    assert (HV : forall i, inb b i = true -> hpdC n (fun x y => tget v (i ++ [x; y])%list)). { intros i Hi. destruct (K i Hi) as (d & V & _ & _ & V1 & V2 & _). apply (hpd_ext n V); [|exact V1]. intros. symmetry. now apply V2. }
    destruct (cm_objects b n m v u eq_refl Ev eq_refl HV Hu) as (os & O1 & O2).
    set (c := CMArr b n false os). specialize (O2 false c eq_refl).
    assert (C1 : cm_array None (Some (NArr false v)) None = Ok c). { unfold cm_array. cbn [na_val]. rewrite Ev. rewrite app_length. rewrite (proj2 (Nat.eqb_neq _ 0)) by (cbn; lia). cbn [bind fst snd]. rewrite rl2, la2. fold m u. rewrite O1. reflexivity. }
    set (mf := fun i k => tget (tsub m i) [k]). set (Vf := fun i a c => tget (tsub v i) [a; c]). set (Uf := fun i a c => tget (tsub u i) [a; c]).
    destruct (cm_dist_ent c mf Vf Uf) as (r & R1 & R2 & R3).
    - intros i Hi. destruct (cm_entry b n m v u eq_refl Ev eq_refl HV Hu i Hi) as (_ & V1 & U1 & _). split; [exact (O2 i Hi)|]. split; [exact V1|exact U1].
    - exists c, r. split; [exact C1|]. split; [exact R1|]. eapply (agrees_intro ComplexCircularlySymmetricNormal); [exact Pq|reflexivity|reflexivity|exact R2|]. intros i Hi. split; [exact (R3 i Hi)|]. destruct (K i Hi) as (d & V & En & _ & _ & EV & _).
      cbn [c cma_dims]. rewrite (cdet_ext n (Vf i) V); [exact En|]. intros a a' Ha Ha'. unfold Vf. destruct (tindex_ok b [n; n] v i Ev Hi) as (_ & _ & T). rewrite T by now apply in2. now apply EV.
  Qed.
  Theorem ent_cmu (m : tensor C) : (forall i, inb b i = true -> proper b i ComplexMultivariateUnitNormal q) -> shp m = (b ++ [n])%list ->
    exists c r, cm_array (Some (NArr false m)) None None = Ok c /\ sd_entropy (cm_dist gen c) = Ok r /\ entropy_agrees r.
  Proof.
    intros Pq Em.
    assert (Hv : forall i x y, inb b i = true -> (x < n)%nat -> (y < n)%nat -> tget (eye b n) (i ++ [x; y])%list = dl x y).
    { intros i a c Hi Ha Hc. unfold eye. rewrite tget_tbuild by (apply inb_app_intro; [exact Hi|now apply in2]). change [a; c] with ([a] ++ [c])%list. rewrite app_assoc, last_snoc, removelast_snoc, last_snoc. unfold dl. rewrite (Nat.eqb_sym c a). now destruct (Nat.eqb a c). }
    assert (Hu : forall i x y, inb b i = true -> (x < n)%nat -> (y < n)%nat -> tget (tfull (b ++ [n; n]) (RtoC 0)) (i ++ [x; y])%list = RtoC 0).
    { intros i a c Hi Ha Hc. apply tget_tfull. apply inb_app_intro; [exact Hi|now apply in2]. }
    assert (HV : forall i, inb b i = true -> hpdC n (fun x y => tget (eye b n) (i ++ [x; y])%list)). { intros i Hi. apply (hpd_ext n dl); [|apply dl_hpd]. intros. symmetry. now apply Hv. }
    destruct (cm_objects b n m (eye b n) (tfull (b ++ [n; n]) (RtoC 0)) Em eq_refl eq_refl HV Hu) as (os & O1 & O2).
    set (c := CMArr b n false os). specialize (O2 false c eq_refl).
    assert (C1 : cm_array (Some (NArr false m)) None None = Ok c). { unfold cm_array. cbn [na_val]. rewrite Em. rewrite app_length. rewrite (proj2 (Nat.eqb_neq _ 0)) by (cbn; lia). cbn [bind fst snd]. rewrite removelast_snoc, last_snoc. rewrite O1. reflexivity. }
    set (mf := fun i k => tget (tsub m i) [k]). set (Vf := fun i a c => tget (tsub (eye b n) i) [a; c]). set (Uf := fun i a c => tget (tsub (tfull (b ++ [n; n]) (RtoC 0)) i) [a; c]).
    destruct (cm_dist_ent c mf Vf Uf) as (r & R1 & R2 & R3).
    - intros i Hi. destruct (cm_entry b n m (eye b n) (tfull (b ++ [n; n]) (RtoC 0)) Em eq_refl eq_refl HV Hu i Hi) as (_ & V1 & U1 & _). split; [exact (O2 i Hi)|]. split; [exact V1|exact U1].
    - exists c, r. split; [exact C1|]. split; [exact R1|]. eapply (agrees_intro ComplexMultivariateUnitNormal r (fun _ => INR n * ln (PI * exp 1))); [exact Pq|reflexivity|reflexivity|exact R2|]. intros i Hi. split; [|reflexivity]. rewrite (R3 i Hi).
      cbn [c cma_dims]. rewrite (cdet_ext n (Vf i) dl).
      + rewrite cdet_dl. cbn [fst RtoC]. rewrite Rmult_1_r. pose proof PI_RGT_0 as P. pose proof (exp_pos 1) as Pe. assert (K : 0 < PI * exp 1) by now apply Rmult_lt_0_compat. rewrite pow_e by exact K. apply ln_exp.
      + intros a a' Ha Ha'. unfold Vf. destruct (tindex_ok b [n; n] (eye b n) i eq_refl Hi) as (_ & _ & T). rewrite T by now apply in2. now apply Hv.
  Qed.
End Ent.
Theorem ent_normal_cov {G} (gen : @gen_mvn_t G) solve b q e n f (m c : tensor R) : real_normal f ->
  dims_of q = Ok n -> to_exp (fam_methods solve) q = Ok e -> (forall i, inb b i = true -> proper b i f q) -> shp m = (b ++ [n])%list -> shp c = (b ++ [n; n])%list ->
  (forall i k l, inb b i = true -> (k < n)%nat -> (l < n)%nat -> tget c (i ++ [k; l])%list =
     match f with
     | MultivariateNormal => par e i "second_moment" [k; l] - par e i "mean" [k] * par e i "mean" [l]
     | MultivariateDiagonalNormal => if Nat.eqb k l then par e i "second_moment" [k] - par e i "mean" [k] * par e i "mean" [k] else 0
     | MultivariateFixedVarianceNormal => if Nat.eqb k l then par e i "variance" [] else 0
     | IsotropicNormal => if Nat.eqb k l then (par e i "total_second_moment" [] - sumR n (fun k => par e i "mean" [k] * par e i "mean" [k])) / INR n else 0
     | _ => if Nat.eqb k l then 1 else 0
     end) -> exists d r, mc_dist gen (Some m) (Some c) = Ok d /\ sd_entropy d = Ok r /\ entropy_agrees solve b q r.
Proof.
  intros F D E Pq Em Ec Hc. apply (ent_normal gen solve b q e n D E f m c F Pq Em Ec). intros i k l Hi Hk Hl. rewrite (Hc i k l Hi Hk Hl). cbn in F. destruct F as [<-|[<-|[<-|[<-|[<-|[]]]]]]; reflexivity.
Qed.
