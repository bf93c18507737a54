(** The samplers that miss part of the sample space do not follow the distribution (C49). *)
From Coquelicot Require Import Coquelicot.
From Coq Require Import String List Bool Arith Reals Lia Lra.
From Verif Require Import Base XReal Tensor TensorFacts TensorFacts2 BroadcastFacts Support Dist DictFacts Iteration Structure Spec StructFacts AssembleFacts SumSpec DotSpec Tools ToolThms Joint StructThms MapFacts
  LogPdfThms ExprFacts FamTy FamFacts SearchFacts DotLaws SpecFun GammaFn Expr Fam DotFacts BatchFacts
  PointSpec PointFacts Val FamR FamVal ConvFacts LeafVal ConvThms MatVal VarThms DerivFacts DerivThms DensSpec DensVal DensThms IntSpec IntFacts GammaInt IntNorm IntGen IntMulti IntFam IntOne IntThms
  Var VarSpec Sample SampleSpec SampleFacts SampleShape SampleVal SampleThms SampleTop KlPos InjThms ConjThms LawSpec LawFacts Law Law2 LawThms Law3 DomConv DomConv2.
Import ListNotations.
Local Unset Asymmetric Patterns.
Local Open Scope string_scope.
Local Open Scope R_scope.

Lemma is_series_fun_R (F : nat -> R) v w : is_series F v -> is_series F w -> v = w.
Proof. intros H G. rewrite <- (is_series_unique _ _ H). now apply is_series_unique. Qed.
(** the expected value over draws is unique *)
Lemma draw_space_fun k n s pos pos' F v w : k <> Multivariate_normal_ -> draw_space k n s pos F v -> draw_space k n s pos' F w -> v = w.
Proof.
  intros N. destruct k; try contradiction; cbn [draw_space]; intros H K'.
  all: try (now rewrite H, K').
  all: try (exact (is_series_fun_R _ _ _ H K')).
  all: try (exact (improper_fun _ _ _ _ _ _ Law.in01 H K')).
  all: try (exact (improper_fun _ _ _ _ _ _ in0p1 H K')).
  all: try (exact (iterated_fun _ _ box_simplex _ [] _ _ _ Logic.I H K')).
  all: exact (iterated_fun _ _ box_line _ [] _ _ _ Logic.I H K').
Qed.
Lemma draw_kernel_Q k n s A Q Q' u : k <> Multivariate_normal_ -> draw_kernel k n s A Q u = draw_kernel k n s A Q' u.
Proof. intros N. destruct k; try contradiction; reflexivity. Qed.
Lemma draw_mean_fun k n s A g v w : k <> Multivariate_normal_ -> draw_mean k n s A g v -> draw_mean k n s A g w -> v = w.
Proof.
  intros N (_ & z & Q & pos & Z & _ & _ & H1 & H2) (_ & z' & Q' & pos' & Z' & _ & _ & H1' & H2').
  assert (E : z = z'). { apply (draw_space_fun k n s pos pos' _ _ _ N H1). eapply draw_space_ext; [|exact H1']. intros u. now apply draw_kernel_Q. }
  subst z'. apply (Rmult_eq_reg_l z); [|lra]. apply (draw_space_fun k n s pos pos' _ _ _ N H2). eapply draw_space_ext; [|exact H2']. intros u. cbv beta. f_equal. now apply draw_kernel_Q.
Qed.
(** *** Multinomial *)
Section Mult.
  Variables (n : nat) (p : point).
  Let o := fun k => p false "log_odds" [k].
  Let Z := 1 + sumR n (fun k => exp (o k)).
  Lemma multi_Z : 1 <= Z. Proof. unfold Z. pose proof (sumR_nonneg n (fun k => exp (o k))) as H. specialize (H ltac:(intros; left; apply exp_pos)). lra. Qed.
  Lemma multi_dens x : dens Multinomial n p x = exp (sumR n (fun k => o k * x false [k])) / Z.
  Proof.
    pose proof multi_Z. unfold dens, lpR. replace (lnR n p Multinomial) with (ln Z) by reflexivity. change (cmR n p x Multinomial) with 0.
    replace (dotP (NP Multinomial) (EP Multinomial) n p (ssR n p x Multinomial)) with (sumR n (fun k => o k * x false [k])). { unfold Rminus. rewrite Rplus_0_r, exp_plus, exp_Ropp, exp_ln by lra. reflexivity. }
    dots. rewrite Rplus_0_r. apply sumR_ext. intros k _. unfold o. cbn [ssR]. mkv. ring.
  Qed.
  Lemma multi_zero : dens Multinomial n p (vector_obs []) = 1 / Z.
  Proof. rewrite multi_dens. rewrite sumR_zero by (intros k _; unfold vector_obs; destruct (hd 0%nat [k]); cbn [nth]; ring). now rewrite exp_0. Qed.
  Lemma multi_hot k : (k < n)%nat -> dens Multinomial n p (vector_obs (repeat 0 k ++ [1])%list) = exp (o k) / Z.
  Proof.
    intros Hk. rewrite multi_dens. do 2 f_equal. rewrite (sumR_ext n _ (fun j => if (j =? k)%nat then o j else 0)); [now apply sumR_pick|]. intros j _. unfold vector_obs. cbn [hd]. rewrite onehot_nth. destruct (j =? k)%nat; ring.
  Qed.
End Mult.
Lemma canon_hot n p m : (m < n)%nat -> canon Multinomial n (postR n p (NP Multinomial) (fun _ => INR m)) = vector_obs (repeat 0 m ++ [1])%list.
Proof.
  intros Hm. apply FunctionalExtensionality.functional_extensionality. intros c. apply FunctionalExtensionality.functional_extensionality. intros e. cbn [canon]. unfold vector_obs. destruct c; [reflexivity|]. rewrite onehot_nth. set (j := hd 0%nat e).
  destruct (Nat.lt_ge_cases j n) as [Hj|Hj].
  - rewrite map_seq_nth by exact Hj. unfold postR, reo. cbn [last]. destruct (Req_EM_T (INR m) (INR j)) as [E|E], (Nat.eqb_spec j m) as [E'|E']; try reflexivity; [apply INR_eq in E; congruence|subst; contradiction].
  - rewrite nth_overflow by (rewrite map_length, seq_length; exact Hj). destruct (Nat.eqb_spec j m); [lia|reflexivity].
Qed.
Lemma hot_sum n m : (m < n)%nat -> sumR n (fun k => vector_obs (repeat 0 m ++ [1])%list false [k]) = 1.
Proof. intros Hm. rewrite (sumR_ext n _ (fun k => if (k =? m)%nat then 1 else 0)); [exact (sumR_pick n m (fun _ => 1) Hm)|]. intros k _. unfold vector_obs. cbn [hd]. apply onehot_nth. Qed.
Lemma nil_sum n : sumR n (fun k => vector_obs [] false [k]) = 0.
Proof. apply sumR_zero. intros k _. unfold vector_obs. cbn [hd]. now destruct k. Qed.
Lemma one_hot_ok n k : (k < n)%nat -> point_ok Multinomial n (vector_obs (repeat 0 k ++ [1])%list).
Proof.
  intros Hk. split; [|apply real_vector]. cbn [sample_space]. split; [|rewrite hot_sum by exact Hk; lra]. intros j _. unfold vector_obs. cbn [hd]. rewrite onehot_nth. destruct (j =? k)%nat; auto.
Qed.
Lemma nil_ok n : point_ok Multinomial n (vector_obs []).
Proof. split; [|apply real_vector]. cbn [sample_space]. split; [|rewrite nil_sum; lra]. intros j _. unfold vector_obs. cbn [hd]. destruct j; auto. Qed.
Section Miss.
  Context {K : Type}.
  Variable split2 : K -> K * K.
  Variable solve : minimizer -> dist -> nat -> xr.
  Notation L := (fam_methods solve).
  Lemma not_two b i f q : samplable_at L b i f q -> f <> NegativeBinomial -> two_stage (dcls q) = false.
  Proof. intros (F & _) N. destruct (dcls q) as [g|g| | | | | | |]; try reflexivity; injection F as ->; destruct f; try reflexivity; contradiction. Qed.
  Lemma cat_mean n A (g : (list nat -> R) -> R) v : (1 <= n)%nat -> sumR n (fun m => exp (A 0%nat [m]) * g (fun _ => INR m)) = sumR n (fun m => exp (A 0%nat [m])) * v -> draw_mean Categorical_ n [] A g v.
  Proof.
    intros Hn H. split; [exact Hn|]. exists (sumR n (fun m => exp (A 0%nat [m]))), (fun _ _ => 0), (fun a => a). split.
    { destruct n as [|n]; [lia|]. rewrite sumR_S. pose proof (exp_pos (A 0%nat [n])). pose proof (sumR_nonneg n (fun m => exp (A 0%nat [m]))) as X. specialize (X ltac:(intros; left; apply exp_pos)). lra. }
    split; [apply noQ; discriminate|]. split; [apply perm_id|]. cbn [draw_space draw_kernel]. cbv beta. split.
    - apply sumR_ext. intros m _. now rewrite whole_INR.
    - rewrite <- H. apply sumR_ext. intros m _. now rewrite whole_INR.
  Qed.
  Lemma multi_setup b i q m n P : samplable_at L b i Multinomial q -> natural_of L q m -> dims_of q = Ok n -> pdf_is L b i Multinomial n m P -> exists p r, (1 <= n)%nat /\
    P (vector_obs []) = 1 / (1 + sumR n (fun k => exp (p false "log_odds" [k]))) /\ (forall k, (k < n)%nat -> P (vector_obs (repeat 0 k ++ [1])%list) = exp (p false "log_odds" [k]) / (1 + sumR n (fun k => exp (p false "log_odds" [k])))) /\
    r_kind r = Categorical_ /\ draw_event r = [] /\ row_size r = n /\ samples_by split2 L b i q r [] (fun _ => p false "log_odds") (fun u => canon Multinomial n (postR n p (NP Multinomial) u)).
  Proof.
    intros Sa Nm Dn Pd. destruct (setup split2 solve b i _ q m n P Sa ltac:(eapply not_two; [exact Sa|discriminate]) Nm Dn Pd) as (c & p & sp & r & E & Fa & Dk & Dm & Pr & Nd & PE & R1 & R2 & R3 & R4).
    assert (c = NP Multinomial) by (destruct c as [g|g| | | | | | |]; try discriminate Fa; try discriminate E; injection Fa as ->; [reflexivity|discriminate E]). subst c. injection E as <-.
    exists p, r. split; [now apply Nat.leb_le|]. split; [rewrite (PE _ (nil_ok n)); apply multi_zero|]. split; [intros k Hk; rewrite (PE _ (one_hot_ok n k Hk)); now apply multi_hot|]. split; [exact R1|]. split; [exact R2|]. split; [exact (R3 n [] eq_refl)|exact R4].
  Qed.
  Theorem multi_follows b i q m n P : samplable_at L b i Multinomial q -> natural_of L q m -> dims_of q = Ok n -> pdf_is L b i Multinomial n m P -> follows split2 L b i Multinomial n q (not_last n P).
  Proof.
    intros Sa Nm Dn Pd. destruct (multi_setup b i q m n P Sa Nm Dn Pd) as (p & r & Hn & P0 & P1 & R1 & R2 & R3 & R4). exists r, [], (fun _ => p false "log_odds"), (fun u => canon Multinomial n (postR n p (NP Multinomial) u)). split; [exact R4|].
    intros g v Ex. rewrite R1, R2, R3. apply (cat_mean n _ _ v Hn). unfold expected in Ex. cbn [integral_over] in Ex. unfold not_last in Ex. rewrite nil_sum in Ex. destruct (Req_EM_T 0 0); [|contradiction]. rewrite Rmult_0_l, Rplus_0_l in Ex.
    set (S := sumR n (fun k => exp (p false "log_odds" [k]))) in *. assert (HS : 0 < S).
    { unfold S. destruct n as [|n']; [lia|]. rewrite sumR_S. pose proof (exp_pos (p false "log_odds" [n'])). pose proof (sumR_nonneg n' (fun m => exp (p false "log_odds" [m]))) as X. specialize (X ltac:(intros; left; apply exp_pos)). lra. }
    rewrite Ex, <- sumR_scal. apply sumR_ext. intros k Hk. rewrite canon_hot by exact Hk. rewrite hot_sum by exact Hk. destruct (Req_EM_T 1 0); [lra|]. rewrite (P1 k Hk), P0. field. lra.
  Qed.
  Theorem multi_departs b i q m n P : samplable_at L b i Multinomial q -> natural_of L q m -> dims_of q = Ok n -> pdf_is L b i Multinomial n m P -> departs split2 L b i Multinomial n q P.
  Proof.
    intros Sa Nm Dn Pd. destruct (multi_setup b i q m n P Sa Nm Dn Pd) as (p & r & Hn & P0 & P1 & R1 & R2 & R3 & R4). exists r, [], (fun _ => p false "log_odds"), (fun u => canon Multinomial n (postR n p (NP Multinomial) u)). split; [exact R4|].
    exists (fun x => if Req_EM_T (sumR n (fun k => x false [k])) 0 then 1 else 0), (P (vector_obs [])). split.
    - unfold expected. cbn [integral_over]. rewrite nil_sum. destruct (Req_EM_T 0 0); [|contradiction]. rewrite sumR_zero; [ring|]. intros k Hk. rewrite hot_sum by exact Hk. destruct (Req_EM_T 1 0); [lra|ring].
    - rewrite R1, R2, R3. intros H. assert (Q : P (vector_obs []) = 0).
      { eapply draw_mean_fun; [|exact H|]; [discriminate|]. apply (cat_mean n _ _ 0 Hn). rewrite Rmult_0_r. apply sumR_zero. intros k Hk. rewrite canon_hot, hot_sum by exact Hk. destruct (Req_EM_T 1 0); [lra|ring]. }
      rewrite P0 in Q. pose proof (multi_Z n p). assert (0 < 1 / (1 + sumR n (fun k => exp (p false "log_odds" [k])))) by (apply Rdiv_lt_0_compat; lra). lra.
  Qed.
  (** *** Geometric: the draws start at 1 *)
  Theorem geometric_departs b i q m n P : samplable_at L b i Geometric q -> natural_of L q m -> dims_of q = Ok n -> pdf_is L b i Geometric n m P -> departs split2 L b i Geometric n q P.
  Proof.
    intros Sa Nm Dn Pd. destruct (setup split2 solve b i _ q m n P Sa ltac:(eapply not_two; [exact Sa|discriminate]) Nm Dn Pd) as (c & p & sp & r & E & Fa & Dk & Dm & Pr & Nd & PE & R1 & R2 & R3 & R4).
    assert (c = EP Geometric) by (destruct c as [g|g| | | | | | |]; try discriminate Fa; try discriminate E; injection Fa as ->; [discriminate E|reflexivity]). subst c. injection E as <-. cbn [pre exp_dom] in Pr.
    exists r, [], (argR n p (EP Geometric)), (fun u => canon Geometric n (postR n p (EP Geometric) u)). split; [exact R4|]. exists (fun x => if Req_EM_T (x false []) 0 then 1 else 0), (P (scalar_obs 0)). split.
    - unfold expected. cbn [integral_over]. apply (series_at _ 0%nat).
      + intros k Hk. unfold scalar_obs at 2. destruct (Req_EM_T (INR k) 0) as [Z|Z]; [|ring]. exfalso. apply Hk. apply INR_eq. exact Z.
      + cbn [INR]. unfold scalar_obs at 2. destruct (Req_EM_T 0 0); [ring|contradiction].
    - rewrite R1, R2. cbn [s_kind direct_draw app]. intros H. assert (Q : P (scalar_obs 0) = 0).
      { destruct H as (Lg & z & Q & pos & Z & _ & _ & _ & H). cbn [draw_space] in H. apply (Rmult_eq_reg_l z); [|lra]. rewrite Rmult_0_r. eapply is_series_fun_R; [exact H|]. apply (series_at _ 0%nat); cbn [canon postR]; unfold reo, scalar_obs; cbv beta iota.
        - intros k _. destruct (Req_EM_T (INR (S k)) 0) as [Y|Y]; [|ring]. pose proof (pos_INR k). rewrite S_INR in Y. lra.
        - destruct (Req_EM_T (INR 1) 0) as [Y|Y]; [cbn in Y; lra|ring]. }
      rewrite PE in Q by (split; [exists 0%nat; reflexivity|apply real_scalar]). unfold dens in Q. pose proof (exp_pos (lpR n (natpt (EP Geometric) n p) (scalar_obs 0) Geometric)). lra.
  Qed.
  Lemma geo_zero n p : 0 < p false "mean" [] -> dens Geometric n (natpt (EP Geometric) n p) (scalar_obs 0) = 1 / (1 + p false "mean" []).
  Proof.
    intros Pr. set (mu := p false "mean" []) in *. unfold dens. lpe. cbn [natpt natR]. mkv. fold mu. rewrite exp_Ropp, exp_ln by (assert (0 < 1 / mu) by (apply Rdiv_lt_0_compat; lra); lra).
    replace (1 + - / (1 + 1 / mu)) with (1 / (1 + mu)) by (field; lra). replace (0 + 1 - 1 + 1) with 1 by ring. replace (0 + 1 - 1 - 0 + 1) with 1 by ring. replace (0 + 1) with 1 by ring. rewrite lngamma_1.
    match goal with |- exp ?w = _ => replace w with (ln (1 / (1 + mu))) by ring end. apply exp_ln. apply Rdiv_lt_0_compat; lra.
  Qed.
  (** with P(0) <= 1/2 (mean at least 1) they follow the geometric distribution on 1, 2, ... *)
  Theorem geometric_follows b i q m n P : samplable_at L b i Geometric q -> natural_of L q m -> dims_of q = Ok n -> pdf_is L b i Geometric n m P -> P (scalar_obs 0) <= 1 / 2 ->
    follows split2 L b i Geometric n q (from_one P).
  Proof.
    intros Sa Nm Dn Pd Hp. destruct (setup split2 solve b i _ q m n P Sa ltac:(eapply not_two; [exact Sa|discriminate]) Nm Dn Pd) as (c & p & sp & r & E & Fa & Dk & Dm & Pr & Nd & PE & R1 & R2 & R3 & R4).
    assert (c = EP Geometric) by (destruct c as [g|g| | | | | | |]; try discriminate Fa; try discriminate E; injection Fa as ->; [discriminate E|reflexivity]). subst c. injection E as <-. cbn [pre exp_dom] in Pr.
    exists r, [], (argR n p (EP Geometric)), (fun u => canon Geometric n (postR n p (EP Geometric) u)). split; [exact R4|]. intros g v Ex. rewrite R1, R2. cbn [s_kind direct_draw app].
    set (a := argR n p (EP Geometric) 0%nat []). assert (Ea : a = 1 / p false "mean" []) by reflexivity. set (mu := p false "mean" []) in *.
    assert (P0 : P (scalar_obs 0) = 1 / (1 + mu)).
    { rewrite PE by (split; [exists 0%nat; reflexivity|apply real_scalar]). now apply geo_zero. }
    assert (Hm : 1 <= mu). { rewrite P0 in Hp. apply (Rmult_le_compat_r (1 + mu)) in Hp; [|lra]. replace (1 / (1 + mu) * (1 + mu)) with 1 in Hp by (field; lra). lra. }
    assert (Ha : 0 < a <= 1). { rewrite Ea. split; [apply Rdiv_lt_0_compat; lra|]. apply (Rmult_le_reg_r mu); [lra|]. replace (1 / mu * mu) with 1 by (field; lra). lra. }
    assert (Fo : forall k, from_one P (scalar_obs (INR (S k))) = a * (1 - a) ^ k).
    { intros k. unfold from_one. change (scalar_obs (INR (Datatypes.S k)) false []) with (INR (Datatypes.S k)). destruct (Req_EM_T (INR (S k)) 0) as [Y|Y]; [pose proof (pos_INR k); rewrite S_INR in Y; lra|]. rewrite whole_INR, P0. replace (1 / (1 + mu) / (1 - 1 / (1 + mu))) with a by (rewrite Ea; field; lra). f_equal. f_equal. lia. }
    assert (F0 : from_one P (scalar_obs (INR 0)) = 0). { unfold from_one. change (scalar_obs (INR 0) false []) with 0. destruct (Req_EM_T 0 0); [reflexivity|contradiction]. }
    split; [exact Ha|]. exists (1 / a), (fun _ _ => 0), (fun j => j). split; [apply Rdiv_lt_0_compat; lra|]. split; [apply noQ; discriminate|]. split; [intros k Hk; exists k; auto|]. split; cbn [draw_space draw_kernel]; fold a.
    - apply is_series_ext_R with (a := fun k => (1 - a) ^ k). { intros k. rewrite whole_INR. f_equal. lia. } replace (1 / a) with (/ (1 - (1 - a))) by (field; lra). apply is_series_geom. apply Rabs_def1; lra.
    - unfold expected in Ex. cbn [integral_over] in Ex. apply is_series_ext_R with (a := fun k => 1 / a * (from_one P (scalar_obs (INR (S k))) * g (scalar_obs (INR (S k))))).
      { intros k. rewrite Fo, whole_INR. replace (S k - 1)%nat with k by lia. change (canon Geometric n (postR n p (EP Geometric) (fun _ => INR (Datatypes.S k)))) with (scalar_obs (INR (Datatypes.S k))). field. lra. }
      assert (T : is_series (fun k => from_one P (scalar_obs (INR (Datatypes.S k))) * g (scalar_obs (INR (Datatypes.S k)))) v).
      { refine (is_series_incr_1 (V := R_NormedModule) (fun k => from_one P (scalar_obs (INR k)) * g (scalar_obs (INR k))) v _). cbv beta. rewrite F0. match goal with |- is_series _ ?w => replace w with v; [exact Ex|] end. change (v = v + 0 * g (scalar_obs (INR 0))). ring. }
      exact (is_series_scal (V := R_NormedModule) (1 / a) _ _ T).
  Qed.
  (** *** complex unit normals: one key for the real and the imaginary part *)
  Lemma mgf f n p v : dims_ok (NP f) n = true -> nat_dom f n (padd (NP f) p v 1) ->
    integral_over f n (fun x => dens f n p x * exp (dotP (NP f) (EP f) n v (ssR n p x f))) (exp (lnR n (padd (NP f) p v 1) f - lnR n p f)).
  Proof.
    intros D N. eapply integral_ext; [|eapply integral_to; [|exact (integral_scal f n _ _ (exp (lnR n (padd (NP f) p v 1) f - lnR n p f)) (proj1 (fam_norm_mean f n _ D N)))]; ring].
    intros x _. cbv beta. unfold dens. rewrite <- !exp_plus. f_equal. rewrite (lp_line f n p v 1 x). ring.
  Qed.
  Lemma normal_const n s (c : cls) A (w : R) : (c = NP UnitNormal /\ s = [] \/ c = NP MultivariateUnitNormal /\ s = [n]%nat) -> forall n', draw_mean Normal_ n' s A (fun _ => w) w.
  Proof.
    intros Hc n'. set (p := fun (_ : bool) (_ : string) (_ : list nat) => 0).
    assert (Q : exists z Q pos, 0 < z /\ permutes (entries s) pos /\ draw_space Normal_ n' s pos (fun u => draw_kernel Normal_ n' s A Q u * 1) (z * 1)).
    { destruct Hc as [[-> ->]|[-> ->]].
      - destruct (law_unit_normal 1 n' p) as (_ & z & Q & pos & Z & _ & PP & H). exists z, Q, pos. split; [exact Z|]. split; [exact PP|]. refine (H (fun _ => 1) 1 _).
        eapply integral_ext; [|exact (proj1 (fam_norm_mean UnitNormal 1 p eq_refl Logic.I))]. intros x _. cbv beta. rewrite Rmult_1_r; reflexivity.
      - destruct (law_mun n n' p) as (_ & z & Q & pos & Z & _ & PP & H). exists z, Q, pos. split; [exact Z|]. split; [exact PP|]. refine (H (fun _ => 1) 1 _).
        eapply integral_ext; [|exact (proj1 (fam_norm_mean MultivariateUnitNormal n p eq_refl Logic.I))]. intros x _. cbv beta. rewrite Rmult_1_r; reflexivity. }
    destruct Q as (z & Q & pos & Z & PP & H). split; [exact Logic.I|]. exists z, Q, pos. split; [exact Z|]. split; [apply noQ; discriminate|]. split; [exact PP|]. split.
    - rewrite Rmult_1_r in H. eapply draw_space_ext; [|exact H]. intros u. cbv beta. ring.
    - cbn [draw_space] in *. rewrite Rmult_1_r in H. rewrite Rmult_comm. eapply iter_ext; [|exact (iterated_scal _ _ _ w _ _ _ H)]. intros l _. cbv beta. ring.
  Qed.
  Lemma cun_v n p x (j0 : list nat) f : f = ComplexUnitNormal /\ j0 = [] \/ f = ComplexMultivariateUnitNormal /\ j0 = [0%nat] /\ (1 <= n)%nat ->
    dotP (NP f) (EP f) n (fun _ _ j => if list_eq_dec Nat.eq_dec j j0 then 1 else 0) (ssR n p x f) = x false j0 - x true j0.
  Proof.
    intros [[-> ->]|[-> [-> Hn]]].
    - dots. cbn [ssR]. mkv. destruct (list_eq_dec Nat.eq_dec [] []); [|contradiction]. cbn [fst snd]. ring.
    - dots. rewrite Rplus_0_r. rewrite (sumR_ext n _ (fun k => if (k =? 0)%nat then x false [k] - x true [k] else 0)); [apply sumR_pick; lia|].
      intros k _. cbn [ssR]. mkv. cbn [fst snd]. destruct (list_eq_dec Nat.eq_dec [k] [0%nat]) as [E|E], (Nat.eqb_spec k 0) as [E'|E']; try congruence; ring.
  Qed.
  Theorem complex_departs b i f q m n P : f = ComplexUnitNormal \/ f = ComplexMultivariateUnitNormal /\ (1 <= n)%nat -> samplable_at L b i f q -> natural_of L q m -> dims_of q = Ok n -> pdf_is L b i f n m P -> departs split2 L b i f n q P.
  Proof.
    intros Hf Sa Nm Dn Pd. destruct (setup split2 solve b i _ q m n P Sa ltac:(eapply not_two; [exact Sa|destruct Hf as [->|[-> _]]; discriminate]) Nm Dn Pd) as (c & p & sp & r & E & Fa & Dk & Dm & Pr & Nd & PE & R1 & R2 & R3 & R4).
    assert (c = EP f) by (destruct Hf as [->|[-> _]]; destruct c as [g|g| | | | | | |]; try discriminate Fa; try discriminate E; injection Fa as ->; [discriminate E|reflexivity|discriminate E|reflexivity]). subst c.
    set (j0 := match f with ComplexUnitNormal => [] | _ => [0%nat] end). assert (Hj : f = ComplexUnitNormal /\ j0 = [] \/ f = ComplexMultivariateUnitNormal /\ j0 = [0%nat] /\ (1 <= n)%nat) by (destruct Hf as [->|[-> Hn]]; [left|right]; auto).
    set (v := fun (_ : bool) (_ : string) (j : list nat) => if list_eq_dec Nat.eq_dec j j0 then 1 else 0). set (p' := natpt (EP f) n p) in *.
    eexists r, _, _, _. split; [exact R4|]. exists (fun x => exp (x false j0 - x true j0)). eexists. split.
    - unfold expected. eapply integral_ext; [|apply (mgf f n p' v Dm); destruct Hf as [->|[-> _]]; exact Logic.I]. intros x X. cbv beta. unfold v; rewrite (PE x X), (cun_v n p' x j0 f Hj). reflexivity.
    - rewrite R1, R2. intros H. assert (Q : exp (lnR n (padd (NP f) p' v 1) f - lnR n p' f) = exp (p false "mean" j0 - p true "mean" j0)).
      { eapply draw_mean_fun; [|exact H|].
        - destruct Hf as [->|[-> _]]; injection E as <-; discriminate.
        - assert (G : forall u, canon f n (postR n p (EP f) u) false j0 - canon f n (postR n p (EP f) u) true j0 = p false "mean" j0 - p true "mean" j0).
          { intros u. assert (Ev : inb (event (EP f) n) j0 = true) by (destruct Hj as [[-> ->]|[-> [-> Hn]]]; [reflexivity|unfold event; cbn [domain_support supp_shape inb]; rewrite (proj2 (Nat.ltb_lt 0 n)) by lia; reflexivity]).
            rewrite !(canon_ok (EP f) sp n p f u _ j0 E Fa Ev). destruct Hf as [->|[-> _]]; cbn [postR]; ring. }
          assert (S0 : draw_mean (s_kind sp) (row_size r) (direct_ev (EP f) n ++ direct_draw (EP f) n) (argR n p (EP f)) (fun _ => exp (p false "mean" j0 - p true "mean" j0)) (exp (p false "mean" j0 - p true "mean" j0))).
          { destruct Hf as [->|[-> _]]; injection E as <-; [apply (normal_const n _ (NP UnitNormal)); left; split; reflexivity|apply (normal_const n _ (NP MultivariateUnitNormal)); right; split; reflexivity]. }
          match type of S0 with draw_mean _ _ _ _ ?g0 _ => match goal with |- draw_mean _ _ _ _ ?g1 _ => replace g1 with g0; [exact S0|] end end. apply FunctionalExtensionality.functional_extensionality. intros u. now rewrite G. }
      apply exp_inv in Q. revert Q. unfold p', v. destruct Hj as [[-> ->]|[-> [-> Hn]]]; cbn [lnR natpt natR]; unfold padd; cbn [fields existsb fd_fixed fd_name var andb orb]; mkv; unfold csq_abs; cbn [fst snd].
      + destruct (list_eq_dec Nat.eq_dec [] []); [|contradiction]. intros Q. lra.
      + intros Q. destruct n as [|n]; [lia|].
        assert (X : forall h : nat -> R, sumR (S n) h = h 0%nat + sumR n (fun k => h (S k))). { clear. intros h. induction n as [|n IH]; [rewrite sumR_S, !sumR_0; ring|]. rewrite sumR_S, IH, sumR_S. ring. }
        rewrite !X in Q. destruct (list_eq_dec Nat.eq_dec [0%nat] [0%nat]); [|contradiction].
        match type of Q with (_ + ?a + _) - (_ + ?b + _) = _ => assert (Y : a = b) end.
        { apply sumR_ext. intros k _. destruct (list_eq_dec Nat.eq_dec [S k] [0%nat]); [discriminate|]. ring. }
        rewrite Y in Q. lra.
  Qed.
End Miss.

(** the natural parameters and the density in C49 exist *)
Section Exist.
  Context {K : Type}.
  Variable split2 : K -> K * K.
  Variable solve : minimizer -> dist -> nat -> xr.
  Notation L := (fam_methods solve).
  Lemma natural_exists b i f q : samplable_at L b i f q -> exists m, natural_of L q m.
  Proof.
    intros (F & Sa & W & S & Hi & D & Se). unfold natural_of.
    assert (EPC : forall g, dcls q = EP g -> exists n, at_pt b i q (EP g) n (point_of q i) /\ exp_dom g n (point_of q i)) by (intros g C; apply exp_dom_at; auto; now rewrite C in D).
    assert (VPC : vp_domain q i -> exists n, at_pt b i q (dcls q) n (point_of q i) /\ vp_domain q i) by (intros V; now apply vp_dom_at).
    destruct (dcls q) as [g|g| | | | | | |] eqn:C; try discriminate Sa.
    - exists q. reflexivity.
    - destruct (EPC g eq_refl) as (n & A & P). destruct (closed_nat g) eqn:Cl; [destruct (nat_at solve b i q g n _ Hi A P Cl) as (e & E1 & E2); now exists e|].
      destruct g; try discriminate Sa; try discriminate Cl;
        match goal with A : at_pt _ _ _ (EP ?g) _ _ |- _ => destruct (nat_builds solve b q g n C W S (ap_dims _ _ _ _ _ _ A)) as (ps & E1 & _); eexists; exact E1 end.
    - destruct (VPC D) as (n & A & P). destruct P as (n' & N1 & _ & P). rewrite C in P. assert (n' = n) by (pose proof (ap_dims _ _ _ _ _ _ A); congruence). subst n'. destruct P as [P1 P2].
      destruct (gamma_vp_nat_at b i Hi q n _ A P2) as (e & E1 & E2). now exists e.
    - destruct (VPC D) as (n & A & P). destruct P as (n' & N1 & _ & P). rewrite C in P. assert (n' = n) by (pose proof (ap_dims _ _ _ _ _ _ A); congruence). subst n'.
      destruct (normal_vp_nat_at b i Hi q n _ A P) as (e & E1 & E2). now exists e.
    - destruct (VPC D) as (n & A & P). destruct P as (n' & N1 & _ & P). rewrite C in P. assert (n' = n) by (pose proof (ap_dims _ _ _ _ _ _ A); congruence). subst n'.
      destruct (diag_vp_nat_at b i Hi q n _ A P) as (e & E1 & E2). now exists e.
    - destruct (VPC D) as (n & A & P). destruct P as (n' & N1 & _ & P). rewrite C in P. assert (n' = n) by (pose proof (ap_dims _ _ _ _ _ _ A); congruence). subst n'.
      destruct (mvn_vp_exp_at b i Hi q n _ A) as (e' & E1 & E2).
      assert (PE : exp_dom MultivariateNormal n (mveR (point_of q i))) by (cbn [exp_dom]; eapply spd_ext; [|exact P]; intros a c Ha Hc; mkv; ring).
      destruct (nat_at solve b i e' MultivariateNormal n _ Hi E2 PE eq_refl) as (r & R1 & R2). exists r, e'. auto.
  Qed.
  Theorem density_exists b i f q : samplable_at L b i f q -> exists m n P, natural_of L q m /\ dims_of q = Ok n /\ pdf_is L b i f n m P.
  Proof.
    intros Sa. destruct (natural_exists b i f q Sa) as [m Nm]. assert (Hi : inb b i = true) by apply Sa.
    assert (Q : exists n p, dims_of q = Ok n /\ at_pt b i m (NP f) n p /\ nat_dom f n p).
    { destruct (two_stage (dcls q)) eqn:Ts.
      - pose proof Sa as (F & Sb & W & S & _ & D & _). unfold natural_of in Nm. destruct (dcls q) as [g|g| | | | | | |] eqn:C; try discriminate Ts; injection F as <-.
        + subst m. destruct (nat_dom_at b i q g Hi C W S D) as (n & A & P). exists n, (point_of q i). split; [exact (ap_dims _ _ _ _ _ _ A)|auto].
        + destruct (exp_dom_at b i q g Hi C W S D) as (n & A & P). assert (Cl : closed_nat g = true) by (destruct g; try discriminate Ts; reflexivity). destruct (nat_at solve b i q g n _ Hi A P Cl) as (e & E1 & E2).
          rewrite E1 in Nm. injection Nm as <-. exists n. eexists. split; [exact (ap_dims _ _ _ _ _ _ A)|]. split; [exact E2|]. now apply nat_ok.
      - destruct (reduces_law split2 solve b i f q Sa Ts) as (n & D & q' & c & p & sp & E & Fa & Ds & A & Pr & RI & Sm & Nt). exists n, (natpt c n p). split; [exact D|]. split; [exact (Nt m Nm)|].
        exact (natpt_dom c sp n p f E Fa (at_pt_dok _ _ _ _ _ _ A) Pr). }
    destruct Q as (n & p & Dn & A & N). exists m, n. eexists. split; [exact Nm|]. split; [exact Dn|]. apply pdf_dens; [exact (at_pt_proper b i m f n _ Hi A N)|exact (ap_dims _ _ _ _ _ _ A)].
  Qed.
  Lemma geo_density b i q : samplable_at L b i Geometric q -> dcls q = EP Geometric -> exists m n P, natural_of L q m /\ dims_of q = Ok n /\ pdf_is L b i Geometric n m P /\ P (scalar_obs 0) = 1 / (1 + point_of q i false "mean" []).
  Proof.
    intros (F & Sb & W & S & Hi & D & _) C. rewrite C in D. destruct (exp_dom_at b i q Geometric Hi C W S D) as (n & A & P). destruct (nat_at solve b i q Geometric n _ Hi A P eq_refl) as (e & E1 & E2).
    pose proof (nat_ok Geometric n _ eq_refl P) as Nd. exists e, n, (dens Geometric n (point_of e i)). split; [unfold natural_of; rewrite C; exact E1|]. split; [exact (ap_dims _ _ _ _ _ _ A)|].
    split; [apply pdf_dens; [exact (at_pt_proper b i e Geometric n _ Hi E2 Nd)|exact (ap_dims _ _ _ _ _ _ E2)]|].
    rewrite (dens_pt_eq solve b i e Geometric n _ (scalar_obs 0) Hi E2 Nd (natR_im Geometric n _ eq_refl)) by (split; [exists 0%nat; reflexivity|apply real_scalar]). now apply geo_zero.
  Qed.
End Exist.
