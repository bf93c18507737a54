(** Covariances, Dirichlet densities and what goes wrong in the scipy replacements (C58, C59, C60). *)
From Coquelicot Require Import Coquelicot.
From Coq Require Import String List Bool Arith ZArith Reals Lra Lia.
From Verif Require Import Base XReal Tensor TensorFacts BroadcastFacts DictFacts Support Dist Iteration Structure Tools Joint Spec SumSpec DotSpec PointSpec PointFacts DensSpec SpecFun Expr FamTy Val Fam FamR FamVal DerivFacts DensVal DensThms ConvFacts LeafVal ConvThms IntSpec IntFacts IntFam
  DotFacts DotLaws MatFacts MatVal MatDeriv IntMat DetInv TextSpec TextFacts TextVec TextMat TextThms IntThms SampleThms VarThms BlockDet Scipy ScipyShaped ScipyFacts ScipyThms ScipyAgree.
Import ListNotations.
Local Unset Asymmetric Patterns.
Local Open Scope string_scope.
Local Open Scope R_scope.
Local Notation C := Complex.C (only parsing).
Local Existing Instance Scipy.Dflt_C.
Local Existing Instance Scipy.Dflt_R.

(** ** storing fails *)
Lemma brev_le : forall a b, brev a b = Some b -> forall k, (k < length a)%nat -> (k < length b)%nat /\ (nth k a 0%nat = 1%nat \/ nth k a 0%nat = nth k b 0%nat).
Proof.
  induction a as [|x a IH]; intros b H k Hk; [cbn in Hk; lia|]. destruct b as [|y b]; [cbn in H; discriminate|]. cbn [brev] in H.
  destruct (brev a b) as [r|] eqn:R; [|discriminate].
  assert (Z : r = b /\ (x = 1%nat \/ x = y)). { destruct (Nat.eqb_spec x y); [injection H as ->; auto|]. destruct (Nat.eqb_spec x 1); [injection H as ->; auto|]. destruct (Nat.eqb_spec y 1); [injection H; congruence|discriminate]. }
  destruct Z as [-> Z]. destruct k as [|k]; [cbn; split; [lia|exact Z]|]. cbn in Hk. destruct (IH b R k) as [K1 K2]; [lia|]. cbn. split; [lia|exact K2].
Qed.
Lemma store_ok {A} (D : Dflt A) (s : list nat) (t r : tensor A) : tstore s t = Ok r -> let k := (length (shp t) - length s)%nat in forallb (Nat.eqb 1) (firstn k (shp t)) = true /\ brev (rev (skipn k (shp t))) (rev s) = Some (rev s).
Proof.
  intros H k. unfold tstore in H. fold k in H. destruct (forallb (Nat.eqb 1) (firstn k (shp t))); [|discriminate]. split; [reflexivity|]. unfold tbroadcast_to in H. rewrite shp_tbuild in H. unfold bshape in H.
  destruct (brev (rev (skipn k (shp t))) (rev s)) as [w|]; [|discriminate]. cbn in H. destruct (list_eq_dec Nat.eq_dec (rev w) s) as [E|]; [|discriminate]. now rewrite <- E, rev_involutive.
Qed.
Lemma store_err {A} (D : Dflt A) (s : list nat) (t : tensor A) : tstore s t = Err ValueError \/ exists r, tstore s t = Ok r.
Proof. unfold tstore. destruct (forallb _ _); [|now left]. destruct (tbroadcast_to s _); [right; eauto|now left]. Qed.
Lemma two_shift r : brev (2%nat :: r) (r ++ [1%nat]) <> Some (r ++ [1%nat])%list.
Proof.
  intros H. pose proof (brev_le _ _ H) as L. assert (P : forall k, (k <= length r)%nat -> nth k (2%nat :: r) 0%nat = 2%nat).
  { induction k as [|k IH]; intros Hk; [reflexivity|]. destruct (L k) as [_ [E|E]]; [cbn; lia|rewrite IH in E by lia; discriminate|]. rewrite IH in E by lia. rewrite app_nth1 in E by lia. cbn. now symmetry. }
  destruct (L (length r)) as [_ [E|E]]; [cbn; lia|rewrite P in E by lia; discriminate|]. rewrite P, nth_middle in E by lia. discriminate.
Qed.
Lemma store_pair (s : list nat) (t : tensor C) : shp t = (s ++ [2])%list%nat -> tstore s t = Err ValueError.
Proof.
  intros E. destruct (store_err Scipy.Dflt_C s t) as [H|[r H]]; [exact H|]. apply store_ok in H. cbn zeta in H. rewrite E, app_length in H. cbn [length] in H. replace (length s + 1 - length s)%nat with 1%nat in H by lia. destruct H as [H1 H2].
  destruct s as [|a s]; [discriminate|]. cbn [app firstn forallb skipn] in H1, H2. rewrite andb_true_r in H1. apply Nat.eqb_eq in H1. subst a. cbn [rev] in H2. rewrite rev_unit in H2. now apply two_shift in H2.
Qed.
Lemma store_double (s : list nat) n (t : tensor C) : (0 < n)%nat -> shp t = (s ++ [2 * n])%list%nat -> tstore (s ++ [n]) t = Err ValueError.
Proof.
  intros Hn E. destruct (store_err Scipy.Dflt_C (s ++ [n])%list t) as [H|[r H]]; [exact H|]. apply store_ok in H. cbn zeta in H. rewrite E, !app_length in H. cbn [length] in H. rewrite Nat.sub_diag in H. destruct H as [_ H2]. cbn [skipn] in H2. rewrite !rev_unit in H2.
  destruct (brev_le _ _ H2 0%nat) as [_ [K|K]]; [cbn; lia| |]; cbn in K; lia.
Qed.

Lemma tbuild_all {A} (D : Dflt A) (P : A -> Prop) s f i : P dflt -> (forall j, P (f j)) -> P (tget (tbuild s f) i).
Proof. intros H0 H. unfold tget. cbn [dat tbuild]. destruct (nth_in_or_default (ravel (shp (tbuild s f)) i) (map f (indices s)) dflt) as [I|E]; [|rewrite E; exact H0]. apply in_map_iff in I as (j & <- & _). apply H. Qed.

Section Fail.
  Context {G : Type} (gen : @gen_mvn_t G).
  (** Generator.multivariate_normal returns an array of shape size + (n,) *)
  Definition gen_shaped : Prop := forall n m S size g, shp (fst (gen n m S size g)) = (size ++ [n])%list.
  Hypothesis Hg : gen_shaped.
  Lemma mvn_rvs n m S size g : exists t, o_rvs (mvn_obj gen n m S) size g = Ok (t, snd (gen n m S size g)) /\ shp t = (size ++ [n])%list.
  Proof.
    cbn [mvn_obj o_rvs]. pose proof (Hg n m S size g) as E. set (t0 := tmap RtoC (fst (gen n m S size g))). assert (E0 : shp t0 = (size ++ [n])%list) by exact E.
    unfold treshape. destruct (Bool.bool_dec (length (dat t0) =? prods (size ++ [n]))%nat true) as [e|N]; [cbn [bind]; eexists; split; reflexivity|]. exfalso. apply N. rewrite <- E0. apply (twf t0).
  Qed.
  Lemma rvs_first (d : sdist G) a g i l : indices (sd_shape d) = i :: l -> (exists t g', o_rvs (sd_objects d i) (size_of a) g = Ok (t, g') /\ tstore (size_of a ++ sd_rvs_shape d) (tmap (cast (sd_real d)) t) = Err ValueError) -> sd_rvs d a g = Err ValueError.
  Proof. intros E (t & g' & R & F). unfold sd_rvs. rewrite E. cbn [rvs_loop]. rewrite R. cbn [bind fst]. rewrite F. reflexivity. Qed.
  Lemma has_first s : prods s <> 0%nat -> exists i l, indices s = i :: l.
  Proof. intros H. pose proof (f_equal (@length nat) (ravel_indices s)) as L. rewrite map_length, seq_length in L. destruct (indices s) as [|i l]; [cbn in L; congruence|]. eauto. Qed.
  Theorem cn_mvn_rvs_fails (c : carr) a g : prods (ca_shape c) <> 0%nat -> sd_rvs (cn_dist_mvn gen c) a g = Err ValueError.
  Proof.
    intros H. destruct (has_first _ H) as (i & l & E). apply (rvs_first (cn_dist_mvn gen c) a g i l E). cbn [cn_dist_mvn sd_objects sd_rvs_shape cn_as_mvn]. destruct (mvn_rvs 2 (cn_mv_mean (ca_at c i)) (cn_mv_cov (ca_at c i)) (size_of a) g) as (t & R & S).
    exists t. eexists. split; [exact R|]. rewrite app_nil_r. apply store_pair. exact S.
  Qed.
  Theorem cm_mvn_rvs_fails (c : cmarr) a g : prods (cma_shape c) <> 0%nat -> (0 < cma_dims c)%nat -> (forall i, inb (cma_shape c) i = true -> cm_size (cma_at c i) = cma_dims c) -> sd_rvs (cm_dist_mvn gen c) a g = Err ValueError.
  Proof.
    intros H N Sz. destruct (has_first _ H) as (i & l & E). apply (rvs_first (cm_dist_mvn gen c) a g i l E). cbn [cm_dist_mvn sd_objects sd_rvs_shape]. unfold cm_as_mvn. assert (Hi : inb (cma_shape c) i = true) by (apply in_indices; rewrite E; now left).
    destruct (mvn_rvs (2 * cm_size (cma_at c i)) (cm_mv_mean (cma_at c i)) (cm_mv_cov (cma_at c i)) (size_of a) g) as (t & R & S).
    exists t. eexists. split; [exact R|]. apply store_double; [exact N|]. rewrite <- (Sz i Hi). exact S.
  Qed.
  (** a distribution of real dtype draws real numbers *)
  Lemma loop_real (d : sdist G) size l : sd_real d = true -> forall g vs g', rvs_loop d size l g = Ok (vs, g') -> forall k j, inb (size ++ sd_rvs_shape d)%list j = true -> snd (tget (nth k vs (tfull (size ++ sd_rvs_shape d) dflt)) j) = 0.
  Proof.
    intros Hr. induction l as [|i l IH]; intros g vs g' H k j Hj.
    - injection H as <- _. replace (nth k [] _) with (tfull (size ++ sd_rvs_shape d) (dflt : C)) by now destruct k. rewrite tget_tfull by exact Hj. reflexivity.
    - cbn [rvs_loop] in H. destruct (o_rvs (sd_objects d i) size g) as [[t h]|]; [|discriminate]. cbn [bind fst snd] in H. destruct (tstore (size ++ sd_rvs_shape d) (tmap (cast (sd_real d)) t)) as [w|] eqn:W; [|discriminate]. cbn [bind] in H.
      destruct (rvs_loop d size l h) as [[vs' h']|] eqn:L; [|discriminate]. cbn [bind fst snd] in H. injection H as <- _. destruct k as [|k]; [|exact (IH h vs' h' L k j Hj)]. cbn [nth]. clear - W Hj Hr.
      unfold tstore in W. destruct (forallb _ _); [|discriminate]. unfold tbroadcast_to in W. destruct (bshape _ _) as [s'|]; [|discriminate]. destruct (list_eq_dec Nat.eq_dec s' _); [|discriminate]. injection W as <-. apply (tbuild_all _ (fun z : C => snd z = 0)); [reflexivity|]. intros i2. apply (tbuild_all _ (fun z : C => snd z = 0)); [reflexivity|]. intros i0. unfold tmap. apply (tbuild_all _ (fun z : C => snd z = 0)); [reflexivity|]. intros i1. now rewrite Hr.
  Qed.
  Theorem rvs_real (d : sdist G) a g t g' i j : sd_real d = true -> sd_rvs d a g = Ok (t, g') -> inb (sd_shape d) i = true -> inb (size_of a ++ sd_rvs_shape d)%list j = true -> snd (tget t (i ++ j)%list) = 0.
  Proof.
    intros Hr H Hi Hj. unfold sd_rvs in H. destruct (rvs_loop d (size_of a) (indices (sd_shape d)) g) as [[vs h]|] eqn:L; [|discriminate]. cbn [bind fst snd] in H. injection H as <- _. rewrite tget_gather by assumption. exact (loop_real d (size_of a) _ Hr g vs h L _ j Hj).
  Qed.
End Fail.

(** ** the covariance matrix of real and imaginary part *)
Lemma cn_covariance m v u : let S := cn_mv_cov (CNormal m v u) in
  S 0%nat 0%nat + S 1%nat 1%nat = v /\ (S 0%nat 0%nat - S 1%nat 1%nat, 2 * S 0%nat 1%nat) = u /\ S 0%nat 1%nat = S 1%nat 0%nat.
Proof. unfold cn_mv_cov. cbn [nth cn_variance cn_pseudo]. split; [field|]. split; [|reflexivity]. rewrite (surjective_pairing u) at 4. apply f_equal2; field. Qed.
Lemma cn_psd m v u : Cmod u <= v -> let S := cn_mv_cov (CNormal m v u) in forall x : nat -> R, 0 <= sumR 2 (fun a => sumR 2 (fun b => x a * S a b * x b)).
Proof.
  intros H S x. pose proof (Cmod_ge_0 u) as H0. assert (Q : fst u * fst u + snd u * snd u <= v * v). { rewrite <- cmod_sq. replace (Cmod u ^ 2) with (Cmod u * Cmod u) by ring. apply Rmult_le_compat; lra. }
  unfold S, cn_mv_cov, sumR. cbn [seq map fold_right nth cn_variance cn_pseudo]. set (p := fst u) in *. set (q := snd u) in *. set (a := x 0%nat). set (b := x 1%nat). clearbody p q a b. clear - H0 Q H. set (w := Cmod u) in *. clearbody w.
  assert (Hp : 0 <= v + p) by nra. destruct (Req_dec (v + p) 0) as [Z|N].
  - assert (q = 0) by (assert (q * q <= 0) by nra; nra). subst q. nra.
  - apply (Rmult_le_reg_l (v + p)); [lra|]. rewrite Rmult_0_r. pose proof (Rle_0_sqr ((v + p) * a + q * b)) as K. unfold Rsqr in K. assert (K2 : 0 <= (v * v - p * p - q * q) * (b * b)) by (apply Rmult_le_pos; nra).
    match goal with |- 0 <= ?t => replace t with (1 / 2 * ((v * v - p * p - q * q) * (b * b) + ((v + p) * a + q * b) * ((v + p) * a + q * b))) by field end. lra.
Qed.
Lemma cm_covariance m v u o : cm_init m v u = Ok o -> let n := cm_size o in let S := cm_mv_cov o in
  (forall a b, (a < n)%nat -> (b < n)%nat -> (S a b + S (n + a)%nat (n + b)%nat, S (n + a)%nat b - S a (n + b)%nat) = cm_variance o a b /\
     (S a b - S (n + a)%nat (n + b)%nat, S (n + a)%nat b + S a (n + b)%nat) = cm_pseudo o a b) /\
  forall a b, (a < n + n)%nat -> (b < n + n)%nat -> S a b = S b a.
Proof.
  intros H n S. destruct (cm_init_inv m v u o H) as (k & _ & _ & _ & -> & K). cbn [cm_size] in n. subst n. set (o := CMNormal k _ _ _) in *.
  assert (T : forall a, (a < k)%nat -> (a <? k)%nat = true) by (intros; now apply Nat.ltb_lt). assert (F : forall a, (k + a <? k)%nat = false) by (intros; apply Nat.ltb_ge; lia). assert (M : forall a, (k + a - k)%nat = a) by (intros; lia).
  assert (B : forall a b, (a < k)%nat -> (b < k)%nat -> S a b = / 2 * fst (cm_variance o a b + cm_pseudo o a b)%C /\ S a (k + b)%nat = / 2 * - snd (cm_variance o a b - cm_pseudo o a b)%C /\
     S (k + a)%nat b = / 2 * snd (cm_variance o a b + cm_pseudo o a b)%C /\ S (k + a)%nat (k + b)%nat = / 2 * fst (cm_variance o a b - cm_pseudo o a b)%C).
  { intros a b Ha Hb. unfold S, cm_mv_cov. cbn [o cm_size]. fold o. rewrite (T a Ha), (T b Hb), !F, !M. auto. }
  split.
  - intros a b Ha Hb. destruct (B a b Ha Hb) as (-> & -> & -> & ->). generalize (cm_variance o a b), (cm_pseudo o a b). intros [x1 x2] [y1 y2]. unfold Cminus, Cplus, Copp. cbn [fst snd]. split; (apply f_equal2; field).
  - assert (Sy : forall a b, (a < k)%nat -> (b < k)%nat -> fst (cm_variance o a b) = fst (cm_variance o b a) /\ snd (cm_variance o a b) = - snd (cm_variance o b a) /\ cm_pseudo o a b = cm_pseudo o b a).
    { intros a b Ha Hb. destruct (K a b Ha Hb) as [K1 K2]. rewrite K1. split; [reflexivity|]. split; [reflexivity|exact K2]. }
    assert (W : forall a b, (a < k)%nat -> (b < k)%nat -> S a b = S b a /\ S a (k + b)%nat = S (k + b)%nat a /\ S (k + a)%nat (k + b)%nat = S (k + b)%nat (k + a)%nat).
    { intros a b Ha Hb. destruct (B a b Ha Hb) as (-> & -> & _ & ->). destruct (B b a Hb Ha) as (-> & _ & -> & ->). destruct (Sy a b Ha Hb) as (E1 & E2 & E3). unfold Cminus, Cplus, Copp. cbn [fst snd]. rewrite E1, E2, E3. split; [reflexivity|]. split; [ring|reflexivity]. }
    intros a b Ha Hb. destruct (Nat.lt_ge_cases a k), (Nat.lt_ge_cases b k).
    + now apply W.
    + replace b with (k + (b - k))%nat by lia. apply W; lia.
    + replace a with (k + (a - k))%nat by lia. symmetry. apply W; lia.
    + replace b with (k + (b - k))%nat by lia. replace a with (k + (a - k))%nat by lia. apply W; lia.
Qed.
(** init_using_angle *)
Lemma angle_accept v angle pol : 0 < v -> (Cmod (angle_pseudo v angle pol) <= v <-> Cmod pol <= 1).
Proof.
  intros Hv. unfold angle_pseudo. rewrite !Cmod_mult, Cmod_R, (Rabs_pos_eq v) by lra. set (t := 2 * PI * angle * 2).
  assert (E : Cmod (cos t, sin t) = 1). { unfold Cmod. cbn [fst snd]. replace (cos t ^ 2 + sin t ^ 2) with 1; [apply sqrt_1|]. pose proof (sin2_cos2 t) as S. unfold Rsqr in S. lra. }
  rewrite E, Rmult_1_r. split; intros H; nra.
Qed.

(** ** the constructor accepts a pseudo-variance no distribution has *)
Lemma incompatible {G} (gen : @gen_mvn_t G) : exists m v u o, cm_init m v u = Ok o /\ cm_variance o 0%nat 0%nat = RtoC 1 /\ cm_pseudo o 0%nat 0%nat = RtoC 2 /\
  cm_mv_cov o 1%nat 1%nat < 0 /\ forall z, o_pdf (cm_obj gen o) z = Err ValueError.
Proof.
  exists (tbuild [1%nat] (fun _ => RtoC 0)), (tbuild [1; 1]%nat (fun _ => RtoC 1)), (tbuild [1; 1]%nat (fun _ => RtoC 2)). eexists. split.
  - apply cm_init_ok; [reflexivity|reflexivity|reflexivity| |].
    + apply (hpd_ext 1 dl); [|apply dl_hpd]. intros a b Ha Hb. replace a with 0%nat by lia. replace b with 0%nat by lia. reflexivity.
    + intros a b Ha Hb. replace a with 0%nat by lia. replace b with 0%nat by lia. reflexivity.
  - split; [reflexivity|]. split; [reflexivity|].
    assert (C11 : forall o, cm_size o = 1%nat -> cm_variance o 0%nat 0%nat = RtoC 1 -> cm_pseudo o 0%nat 0%nat = RtoC 2 -> cm_mv_cov o 0%nat 0%nat = 3 / 2 /\ cm_mv_cov o 0%nat 1%nat = 0 /\ cm_mv_cov o 1%nat 0%nat = 0 /\ cm_mv_cov o 1%nat 1%nat = - (1 / 2)).
    { intros o E V U. unfold cm_mv_cov. rewrite E. cbn [Nat.ltb Nat.leb Nat.sub]. rewrite V, U. unfold Cminus, Cplus, Copp, RtoC. cbn [fst snd]. repeat split; field. }
    match goal with |- cm_mv_cov ?o _ _ < 0 /\ _ => set (o1 := o) end. destruct (C11 o1 eq_refl eq_refl eq_refl) as (S00 & S01 & S10 & S11). split; [rewrite S11; lra|]. intros z.
    cbn [cm_obj o_pdf]. unfold cm_as_mvn. cbn [mvn_obj o_pdf]. unfold mvn_pdf. change (2 * cm_size o1)%nat with 2%nat.
    replace (pd_test 2 (cm_mv_cov o1)) with false; [reflexivity|]. symmetry. apply not_true_iff_false. intros T. unfold pd_test in T. rewrite forallb_forall in T. specialize (T 2%nat (or_intror (or_introl eq_refl))).
    destruct (Rlt_dec 0 (rdet 2 (cm_mv_cov o1))) as [K|]; [|discriminate]. destruct (rinv2 (cm_mv_cov o1)) as [E _]. rewrite E, S00, S01, S10, S11 in K. lra.
Qed.

(** ** generalized Dirichlet *)
Lemma gd_pdf_text n a c x : gd_pdf n a c x = generalized_dirichlet_pdf n a c x.
Proof.
  unfold gd_pdf, generalized_dirichlet_pdf, prodR. f_equal. apply map_ext_in. intros k Hk. apply in_seq in Hk. change (fold_right Rplus 0 (map x (seq 0 (S k)))) with (sumR (S k) x). f_equal. f_equal. f_equal. destruct (Nat.eqb_spec (S k) n) as [E|N]; [ring|]. rewrite Nat.mod_small by lia. ring.
Qed.
Lemma sumR_head n g : sumR (S n) g = g 0%nat + sumR n (fun k => g (S k)).
Proof. unfold sumR. cbn [seq map fold_right]. f_equal. rewrite <- seq_shift, map_map. reflexivity. Qed.
Theorem agree_gd solve b i q n x xe a c : proper b i GeneralizedDirichlet q -> dims_of q = Ok n ->
  (forall k, (k < n)%nat -> a k = par q i "alpha_minus_one" [k] + 1 /\ c k = 1 + sumR (n - k) (fun j => par q i "gamma" [(k + j)%nat]) + sumR (n - 1 - k) (fun j => a (k + 1 + j)%nat)) ->
  observed b i q xe (fun im j => if im then 0 else x (nth 0 j 0%nat)) -> (forall k, (k < n)%nat -> 0 < x k) -> sumR n x < 1 ->
  density (fam_methods solve) b i q xe (gd_pdf n a c x).
Proof.
  intros Pq D H O X1 X2. rewrite gd_pdf_text. destruct (proper_dims b i _ q Pq) as (n' & D1 & D2 & D3 & D4 & _). assert (n' = n) by congruence. subst n'. cbn [nat_dom] in D3. cbn zeta in D3.
  assert (P : forall k, (k < n)%nat -> 0 < a k). { intros k Hk. destruct (H k Hk) as [-> _]. destruct (D3 k Hk). unfold par. lra. }
  assert (Q : forall k, (k < n)%nat -> 0 < c k). { intros k Hk. destruct (H k Hk) as [_ ->]. assert (0 <= sumR (n - k) (fun j => par q i "gamma" [(k + j)%nat])) by (apply sumR_nonneg; intros j Hj; left; unfold par; apply D3; lia). assert (0 <= sumR (n - 1 - k) (fun j => a (k + 1 + j)%nat)) by (apply sumR_nonneg; intros j Hj; left; apply P; lia). lra. }
  apply (textbook solve b i GeneralizedDirichlet q n xe (fun im j => if im then 0 else x (nth 0 j 0%nat)) (fun o => generalized_dirichlet_pdf n a c (fun k => o false [k])) Pq D O).
  - cbn [sample_space]. split; [exact X1|exact X2].
  - cbn [classical]. exists a, c. split; [|reflexivity]. intros k Hk. destruct (H k Hk) as [Ha Hc]. split; [now apply P|]. split; [now apply Q|]. change (point_of q i false "alpha_minus_one" [k]) with (par q i "alpha_minus_one" [k]). change (point_of q i false "gamma" [k]) with (par q i "gamma" [k]). split; [rewrite Ha; ring|].
    destruct (Nat.eqb_spec (S k) n) as [E|N].
    + rewrite Hc. replace (n - k)%nat with 1%nat by lia. replace (n - 1 - k)%nat with 0%nat by lia. rewrite sumR_head, !sumR_0, Nat.add_0_r. ring.
    + destruct (H (S k)) as [_ Hc']; [lia|]. rewrite Hc, Hc'. replace (n - k)%nat with (S (n - S k)) by lia. replace (n - 1 - k)%nat with (S (n - 1 - S k)) by lia. rewrite (sumR_head (n - S k)), (sumR_head (n - 1 - S k)), !Nat.add_0_r. replace (k + 1)%nat with (S k) by lia.
      rewrite (sumR_ext (n - S k) (fun j => par q i "gamma" [(k + S j)%nat]) (fun j => par q i "gamma" [(S k + j)%nat])) by (intros j _; do 2 f_equal; lia).
      rewrite (sumR_ext (n - 1 - S k) (fun j => a (S k + S j)%nat) (fun j => a (S k + 1 + j)%nat)) by (intros j _; f_equal; lia). ring.
Qed.
(** the sticks broken from what is left *)
Lemma sticks_spec : forall l q, (forall s, In s l -> 0 < s < 1) -> q < 1 -> length (gd_sticks l q) = length l /\ (forall y, In y (gd_sticks l q) -> 0 < y) /\ q + fold_right Rplus 0 (gd_sticks l q) < 1 /\
  forall k, (k < length l)%nat -> nth k (gd_sticks l q) 0 = nth k l 0 * (1 - (q + fold_right Rplus 0 (firstn k (gd_sticks l q)))).
Proof.
  induction l as [|s l IH]; intros q H Q; cbn [gd_sticks].
  - split; [reflexivity|]. split; [intros y []|]. split; [cbn; lra|]. intros k Hk. cbn in Hk. lia.
  - assert (S : 0 < s < 1) by (apply H; now left). assert (Q' : q + s * (1 - q) < 1) by nra. destruct (IH (q + s * (1 - q))) as (L & P & T & N); [intros; apply H; now right|exact Q'|]. split; [cbn [length]; now rewrite L|].
    split; [intros y [<-|Hy]; [nra|now apply P]|]. split; [cbn [fold_right]; lra|]. intros [|k] Hk; [cbn; ring|]. cbn [nth firstn fold_right]. cbn [length] in Hk. rewrite N by lia. ring.
Qed.

(** ** Dirichlet *)
Lemma scipy_row n alpha (x : tensor C) s : (0 < n)%nat -> shp x = (n :: s) -> (forall i, inb s i = true -> (forall k, (k < n)%nat -> 0 < fst (tget x (k :: i)) <= 1) /\ sumR n (fun k => fst (tget x (k :: i))) = 1) ->
  exists r, dirichlet_scipy n alpha x = Ok r /\ shp r = s /\ forall i, inb s i = true -> tget r i = dirichlet_pdf n alpha (fun k => fst (tget x (k :: i))).
Proof.
  intros Hn E H. unfold dirichlet_scipy. rewrite E. rewrite Nat.eqb_refl. cbn [orb negb]. set (cm := fun i j => if (j <? n)%nat then fst (tget x (j :: i)) else 1 - fold_right Rplus 0 (map (fun j => fst (tget x (j :: i))) (seq 0 n))).
  assert (Cm : forall i j, (j < n)%nat -> cm i j = fst (tget x (j :: i))) by (intros i j Hj; unfold cm; now rewrite (proj2 (Nat.ltb_lt _ _) Hj)).
  match goal with |- context [if ?t then _ else _] => replace t with true end.
  - eexists. split; [reflexivity|]. split; [reflexivity|]. intros i Hi. rewrite tget_tbuild by exact Hi. unfold dirichlet_pdf. f_equal. f_equal. unfold prodR. f_equal. apply map_ext_in. intros k Hk. apply in_seq in Hk. f_equal. apply Cm. lia.
  - symmetry. apply forallb_forall. intros i Hi. apply in_indices in Hi. destruct (H i Hi) as [P1 P2]. apply andb_true_intro. split.
    + apply forallb_forall. intros j Hj. apply in_seq in Hj. fold (cm i j). rewrite Cm by lia. destruct (P1 j) as [Q1 Q2]; [lia|]. destruct (Rlt_dec 0 (fst (tget x (j :: i)))); [|contradiction]. destruct (Rle_dec (fst (tget x (j :: i))) 1); [reflexivity|contradiction].
    + fold (cm i). replace (fold_right Rplus 0 (map (cm i) (seq 0 n))) with 1.
      * replace (1 - 1) with 0 by ring. rewrite Rabs_R0. destruct (Rle_dec 0 (1 / 1000000000)); [reflexivity|lra].
      * rewrite <- P2. unfold sumR. f_equal. apply map_ext_in. intros k Hk. apply in_seq in Hk. symmetry. apply Cm. lia.
Qed.
