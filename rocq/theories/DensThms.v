(** Densities at one batch element: change of variables (C37) and special cases (C38). *)
From Coquelicot Require Import Coquelicot.
From Coq Require Import String List Bool Arith Reals Lia Lra.
From Verif Require Import Base XReal Tensor TensorFacts Support Dist Iteration Structure Spec SumSpec DotSpec Tools Joint SpecFun GammaFn Expr Fam DotFacts BatchFacts
  PointSpec PointFacts Val FamR FamVal ConvFacts LeafVal DerivFacts DensSpec DensVal.
Import ListNotations.
Local Unset Asymmetric Patterns.
Local Open Scope string_scope.
Local Open Scope R_scope.

Ltac lps := unfold lpR; dots; cbv beta iota zeta delta [ssR cmR lnR mkpt re cx nbcmR sumsq slook]; cbn [String.eqb Ascii.eqb Bool.eqb find fst snd dget hd].
Section D.
  Variable solve : minimizer -> dist -> nat -> xr.
  Let L := fam_methods solve.
  Lemma proper_dims b i f q : proper b i f q -> exists n, dims_of q = Ok n /\ finite_at q n i /\ nat_dom f n (point_of q i) /\ dims_ok (NP f) n = true /\ (dimensions_field (NP f) = None -> n = 1%nat).
  Proof.
    intros (C & W & S & Hi & D). destruct (in_dom_nat q i f C D) as (n & D1 & D2 & D3). exists n. do 3 (split; [assumption|]).
    destruct (pt_dims b i q f n (point_of q i)) as (K & _ & K'); [|split; assumption]. now apply at_pt_self.
  Qed.
  Lemma log_density_at b i f q n x xv : proper b i f q -> dims_of q = Ok n -> observed b i q x xv -> sample_space f n xv ->
    log_density L b i q x (lpR n (point_of q i) xv f).
  Proof.
    intros P Dn O X. pose proof P as (C & W & S & Hi & D). destruct (proper_dims b i f q P) as (n' & D1 & D2 & D3 & _). assert (n' = n) by congruence. subst n'. now apply log_pdf_at.
  Qed.
  Lemma density_at b i f q n x xv : proper b i f q -> dims_of q = Ok n -> observed b i q x xv -> sample_space f n xv ->
    density L b i q x (exp (lpR n (point_of q i) xv f)).
  Proof.
    intros P Dn O X. pose proof P as (C & W & S & Hi & D). destruct (proper_dims b i f q P) as (n' & D1 & D2 & D3 & _). assert (n' = n) by congruence. subst n'. now apply pdf_at.
  Qed.
End D.

(** C37 *)
Lemma exp_lp a c d : 0 < d -> a = c + ln d -> exp a = exp c * d.
Proof. intros H ->. now rewrite exp_plus, exp_ln. Qed.
Lemma Rpower_deriv k z : 0 < z -> is_derive (fun z => Rpower z k) z (k * Rpower z (k - 1)).
Proof.
  intros H. replace (Rpower z (k - 1)) with (Rpower z k * / z) by (unfold Rminus; rewrite Rpower_plus, Rpower_Ropp, Rpower_1 by exact H; reflexivity). unfold Rpower. auto_derive; [exact H|]. field. lra.
Qed.
Section C37.
  Variable solve : minimizer -> dist -> nat -> xr.
  Let L := fam_methods solve.
  Lemma transformed_density b i f f0 q q0 g x y xv yv g' : proper b i f q -> proper b i f0 q0 -> transformed i f f0 q q0 g -> observed b i q x xv -> observed b i q0 y yv ->
    0 < xv false [] -> yv false [] = g (xv false []) -> is_derive g (xv false []) g' ->
    exists d d0, density L b i q x d /\ density L b i q0 y d0 /\ d = d0 * Rabs g'.
  Proof.
    intros P P0 T O O0 X Y G. destruct (proper_dims b i f q P) as (n & D & _ & H & _ & N1). destruct (proper_dims b i f0 q0 P0) as (n0 & D0 & _ & H0 & _ & N0).
    destruct f; try contradiction; destruct f0; try contradiction; cbn [transformed] in T; rewrite (N1 eq_refl), (N0 eq_refl) in *; cbn [nat_dom] in H, H0; unfold par in T.
    - destruct T as [T ->]. assert (Yp : 0 < yv false []) by (rewrite Y; now apply Rmult_lt_0_compat).
      do 2 eexists. split; [eapply density_at; eauto; cbn; auto|]. split; [eapply density_at; eauto; cbn; auto|]. 
      assert (E : g' = 2 * xv false []). { rewrite <- (is_derive_unique _ _ _ G). apply is_derive_unique. auto_derive; auto. ring. }
      rewrite E, Rabs_pos_eq by lra. apply exp_lp; [lra|]. lps. rewrite T, Y. set (xx := xv false []) in *. lra.
    - destruct T as (T1 & T2 & ->). do 2 eexists. split; [eapply density_at; eauto; cbn; auto|]. split; [eapply density_at; eauto; cbn; auto; now rewrite Y|].
      assert (E : g' = 1). { rewrite <- (is_derive_unique _ _ _ G). apply is_derive_unique. auto_derive; auto. }
      rewrite E, Rabs_R1. apply exp_lp; [lra|]. lps. rewrite T1, T2, Y, ln_1. replace (- - (1 / 2)) with (1 / 2) by lra. lra.
    - destruct T as [T ->]. assert (Yp : 0 < yv false []) by (rewrite Y; now apply Rmult_lt_0_compat).
      do 2 eexists. split; [eapply density_at; eauto; cbn; auto|]. split; [eapply density_at; eauto; cbn; auto|]. 
      assert (E : g' = 2 * xv false []). { rewrite <- (is_derive_unique _ _ _ G). apply is_derive_unique. auto_derive; auto. ring. }
      rewrite E, Rabs_pos_eq by lra. apply exp_lp; [lra|]. lps. rewrite T, Y. rewrite ln_mult by lra. lra.
    - destruct T as [T ->]. assert (Yp : 0 < yv false []) by (rewrite Y; apply exp_pos).
      do 2 eexists. split; [eapply density_at; eauto; cbn; auto|]. split; [eapply density_at; eauto; cbn; auto|]. 
      set (k := point_of q i false "concentration" []) in *. assert (K : 0 < k) by tauto.
      assert (E : g' = k * Rpower (xv false []) (k - 1)). { rewrite <- (is_derive_unique _ _ _ G). apply is_derive_unique. now apply Rpower_deriv. }
      assert (Z : 0 < k * Rpower (xv false []) (k - 1)) by (apply Rmult_lt_0_compat; [exact K|apply exp_pos]).
      rewrite E, Rabs_pos_eq by lra. apply exp_lp; [lra|]. rewrite ln_mult; [|lra|apply exp_pos]. assert (LR : ln (Rpower (xv false []) (k - 1)) = (k - 1) * ln (xv false [])) by apply ln_exp. rewrite LR. lps. rewrite T, Y. fold k. lra.
  Qed.
End C37.

(** C38 *)
Section C38.
  Variable solve : minimizer -> dist -> nat -> xr.
  Let L := fam_methods solve.
  Lemma special_lp b i f f0 q q0 n n0 xv yv : proper b i f q -> proper b i f0 q0 -> dims_of q = Ok n -> dims_of q0 = Ok n0 -> special_case n i f f0 q q0 -> same_observation f f0 xv yv ->
    sample_space f n xv -> mat f = false /\ mat f0 = false /\ sample_space f0 n0 yv /\ lpR n (point_of q i) xv f = lpR n0 (point_of q0 i) yv f0.
  Proof.
    intros P P0 D D0 S X Sx. destruct (proper_dims b i f q P) as (n' & D' & _ & H & K & N1). destruct (proper_dims b i f0 q0 P0) as (n0' & D0' & _ & H0 & K0 & N0).
    assert (n' = n) by congruence. assert (n0' = n0) by congruence. subst n' n0'. unfold par in S.
    destruct f; try contradiction; destruct f0; try contradiction; cbn [special_case same_observation sample_space nat_dom dims_ok] in *; split; try reflexivity; split; try reflexivity; unfold par in S.
    - (* Bernoulli *) destruct S as [S1 S2]. rewrite D0 in S1. injection S1 as ->. rewrite (N1 eq_refl). assert (E1 : forall c, sumR 1 (fun k => yv c [k]) = xv c []) by (intros c; unfold sumR; cbn [seq map fold_right]; rewrite X; ring). split.
      + split; [|rewrite E1; lra]. intros k Hk. replace k with 0%nat by lia. now rewrite X.
      + lps. unfold sumR. cbn [seq map fold_right]. rewrite !X, S2, exp_0. rewrite !Rplus_0_r. rewrite (Rplus_comm (exp _) 1). ring.
    - (* Beta *) apply Nat.eqb_eq in K. subst n. destruct S as [S1 S2]. rewrite D0 in S1. injection S1 as ->. split.
      + cbn [Nat.sub]. split; [intros k Hk; replace k with 0%nat by lia; now rewrite X|]. unfold sumR. cbn [seq map fold_right]. rewrite X. lra.
      + lps. unfold sumR. cbn [seq map fold_right Nat.sub]. cbn [hd Nat.eqb Nat.ltb Nat.leb]. rewrite !S2 by lia. rewrite !X. rewrite !Rplus_0_r. replace (1 - xv false []) with (1 + - xv false []) by ring. ring.
    - (* ComplexUnitNormal *) destruct S as [S1 S2]. rewrite D0 in S1. injection S1 as ->. split; [exact Logic.I|]. lps. unfold sumR. cbn [seq map fold_right]. rewrite !S2, !X. cbn [INR]. ring.
    - (* Exponential, Gamma *) destruct S as [S1 S2]. split; [now rewrite X|]. lps. rewrite S1, S2, X. rewrite Rplus_0_l, lngamma_1. ring.
    - (* Exponential, Weibull *) destruct S as [S1 S2]. split; [now rewrite X|]. lps. rewrite S1, S2, X, Rpower_1 by exact Sx. rewrite ln_1. ring.
    - (* Geometric *) destruct S as [S1 S2]. split; [now rewrite X|]. lps. rewrite S1, S2, X. ring.
    - (* FixedVariance *) destruct S as [S1 S2]. rewrite D0 in S1. injection S1 as ->. split; [exact Logic.I|]. lps.
      set (v := point_of q i false "variance" []) in *. set (m k := point_of q i false "mean_times_precision" [k]).
      rewrite (sumR_ext n (fun k => point_of q i false "mean_times_precision" [k] * xv false [k] - point_of q i true "mean_times_precision" [k] * 0) (fun k => m k * xv false [k])) by (intros; unfold m; ring).
      rewrite (sumR_ext n (fun k => point_of q0 i false "mean_times_precision" [k] * yv false [k] - point_of q0 i true "mean_times_precision" [k] * 0) (fun k => m k * xv false [k])) by (intros k Hk; unfold m; rewrite (proj1 (S2 k Hk)), X; ring).
      rewrite (sumR_ext n (fun k => point_of q0 i false "negative_half_precision" [k] * (yv false [k] * yv false [k]) - point_of q0 i true "negative_half_precision" [k] * 0) (fun k => (- (1 / (2 * v))) * (xv false [k] * xv false [k]))) by (intros k Hk; rewrite (proj2 (S2 k Hk)), X; ring).
      rewrite (sumR_ext n (fun k => - (point_of q0 i false "mean_times_precision" [k] * point_of q0 i false "mean_times_precision" [k]) / (4 * point_of q0 i false "negative_half_precision" [k]) + 1 / 2 * ln (- PI / point_of q0 i false "negative_half_precision" [k]))
        (fun k => v / 2 * (m k * m k) + 1 / 2 * ln (PI * 2 * v))).
      2: { intros k Hk. destruct (S2 k Hk) as [-> ->]. fold v (m k). replace (- PI / - (1 / (2 * v))) with (PI * 2 * v) by (field; lra). field. lra. }
      rewrite sumR_plus, sumR_const, !sumR_scal. unfold m. field. lra.
    - (* Isotropic *) destruct S as [S1 S2]. rewrite D0 in S1. injection S1 as ->. split; [exact Logic.I|]. lps. destruct H as [_ H].
      set (v := point_of q i false "negative_half_precision" []) in *. set (m k := point_of q i false "mean_times_precision" [k]).
      rewrite (sumR_ext n (fun k => point_of q i false "mean_times_precision" [k] * xv false [k] - point_of q i true "mean_times_precision" [k] * 0) (fun k => m k * xv false [k])) by (intros; unfold m; ring).
      rewrite (sumR_ext n (fun k => point_of q0 i false "mean_times_precision" [k] * yv false [k] - point_of q0 i true "mean_times_precision" [k] * 0) (fun k => m k * xv false [k])) by (intros k Hk; unfold m; rewrite (proj1 (S2 k Hk)), X; ring).
      rewrite (sumR_ext n (fun k => point_of q0 i false "negative_half_precision" [k] * (yv false [k] * yv false [k]) - point_of q0 i true "negative_half_precision" [k] * 0) (fun k => v * (xv false [k] * xv false [k]))) by (intros k Hk; rewrite (proj2 (S2 k Hk)), X; fold v; ring).
      rewrite (sumR_ext n (fun k => - (point_of q0 i false "mean_times_precision" [k] * point_of q0 i false "mean_times_precision" [k]) / (4 * point_of q0 i false "negative_half_precision" [k]) + 1 / 2 * ln (- PI / point_of q0 i false "negative_half_precision" [k]))
        (fun k => - / (4 * v) * (m k * m k) + 1 / 2 * ln (PI / - v))).
      2: { intros k Hk. destruct (S2 k Hk) as [-> ->]. fold v (m k). replace (- PI / v) with (PI / - v) by (field; lra). field. lra. }
      rewrite sumR_plus, sumR_const, !sumR_scal. unfold m. field. lra.
    - (* Unit *) destruct S as [S1 S2]. rewrite D0 in S1. injection S1 as ->. split; [exact Logic.I|]. lps. 
      set (m k := point_of q i false "mean" [k]).
      rewrite (sumR_ext n (fun k => point_of q i false "mean" [k] * xv false [k] - point_of q i true "mean" [k] * 0) (fun k => m k * xv false [k])) by (intros; unfold m; ring).
      rewrite (sumR_ext n (fun k => point_of q0 i false "mean_times_precision" [k] * yv false [k] - point_of q0 i true "mean_times_precision" [k] * 0) (fun k => m k * xv false [k])) by (intros k Hk; unfold m; rewrite (proj1 (S2 k Hk)), X; ring).
      rewrite (sumR_ext n (fun k => point_of q0 i false "negative_half_precision" [k] * (yv false [k] * yv false [k]) - point_of q0 i true "negative_half_precision" [k] * 0) (fun k => (- (1 / 2)) * (xv false [k] * xv false [k]))) by (intros k Hk; rewrite (proj2 (S2 k Hk)), X; ring).
      rewrite (sumR_ext n (fun k => - (point_of q0 i false "mean_times_precision" [k] * point_of q0 i false "mean_times_precision" [k]) / (4 * point_of q0 i false "negative_half_precision" [k]) + 1 / 2 * ln (- PI / point_of q0 i false "negative_half_precision" [k]))
        (fun k => 1 / 2 * (m k * m k) + 1 / 2 * ln (PI * 2))).
      2: { intros k Hk. destruct (S2 k Hk) as [-> ->]. fold (m k). replace (- PI / - (1 / 2)) with (PI * 2) by (field; lra). field. }
      rewrite sumR_plus, sumR_const, !sumR_scal. unfold m. field.
    - (* Normal, Diagonal *) destruct S as (S1 & S2 & S3). rewrite D0 in S1. injection S1 as ->. split; [exact Logic.I|]. lps. unfold sumR. cbn [seq map fold_right]. rewrite S2, S3, X. ring.
    - (* UnitNormal *) destruct S as [S1 S2]. split; [exact Logic.I|]. lps. rewrite S1, S2, X. replace (- PI / - (1 / 2)) with (PI * 2) by (field; lra). field.
  Qed.
  Lemma special_density b i f f0 q q0 n x y xv yv : proper b i f q -> proper b i f0 q0 -> dims_of q = Ok n -> special_case n i f f0 q q0 -> observed b i q x xv -> observed b i q0 y yv ->
    same_observation f f0 xv yv -> sample_space f n xv -> exists l, log_density L b i q x l /\ log_density L b i q0 y l.
  Proof.
    intros P P0 D S O O0 X Sx. destruct (proper_dims b i f0 q0 P0) as (n0 & D0 & _). destruct (special_lp b i f f0 q q0 n n0 xv yv P P0 D D0 S X Sx) as (M & M0 & S0 & E).
    exists (lpR n (point_of q i) xv f). split; [now apply log_density_at|]. rewrite E. now apply log_density_at.
  Qed.
End C38.
