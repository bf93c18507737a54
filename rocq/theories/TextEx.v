(** Concrete distributions for C56: Beta(2, 3), and an isotropic normal with mean (1/6, 1/3) and variance 1/6. *)
From Coquelicot Require Import Coquelicot.
From Coq Require Import String List Bool Arith Reals Lra Lia.
From Verif Require Import Base XReal Tensor Support Dist Iteration Structure Spec Joint SpecFun Fam SumSpec DotSpec PointSpec ConvEx Examples KlThms StructThms DensSpec DensEx MatEx TextSpec TextThms.
Import ListNotations.
Local Unset Asymmetric Patterns.
Local Open Scope string_scope.
Local Open Scope R_scope.

Lemma ex_beta_text : classical Beta 2 (point_of ex_beta []) (fun x => beta_pdf 2 3 (x false [])).
Proof. exists 2, 3. split; [lra|]. split; [lra|]. split; [cbn; lra|]. split; [cbn; lra|]. reflexivity. Qed.
Definition iso_mean (k : nat) : R := match k with 0%nat => 1 / 6 | _ => 1 / 3 end.
Lemma ex_iso_text : classical IsotropicNormal 2 (point_of ex_iso [0]%nat) (fun x => prodR 2 (fun k => normal_pdf (iso_mean k) (1 / 6) (x false [k]))).
Proof. exists iso_mean, (1 / 6). split; [lra|]. split; [intros [|[|k]] K; [cbn; lra|cbn; lra|lia]|]. split; [cbn; lra|]. reflexivity. Qed.
(** ** docstrings that say something else *)
Definition dx_geo : dist := Dist (NP Geometric) DefaultMinimizer [("log_not_p", vec [ln (3 / 4)]%R [] eq_refl)] [].
Lemma dx_geo_proper : proper [] [] Geometric dx_geo.
Proof. proper_ 1%nat. rewrite <- ln_1. apply ln_increasing; lra. Qed.
Lemma dx_geo_obs : observed [] [] dx_geo (vec [0]%R [] eq_refl) (scalar 0).
Proof. observed_. destruct j; [reflexivity|discriminate]. Qed.
Lemma dx_geo_text : classical Geometric 1 (point_of dx_geo []) (fun x => geometric_pmf (1 / 4) (knat (x false []))).
Proof. exists (1 / 4). split; [lra|]. split; [cbn; f_equal; lra|]. intros x k E. now rewrite E, knat_INR. Qed.
Lemma dx_geo_value solve : density (fam_methods solve) [] [] dx_geo (vec [0]%R [] eq_refl) (1 / 4).
Proof.
  pose proof (textbook solve [] [] Geometric dx_geo 1 _ (scalar 0) _ dx_geo_proper eq_refl dx_geo_obs (ex_intro _ 0%nat eq_refl) dx_geo_text) as K. cbv beta in K.
  replace (scalar 0 false []) with (INR 0) in K by reflexivity. rewrite knat_INR in K. unfold geometric_pmf in K. cbn [pow] in K. rewrite Rmult_1_l in K. exact K.
Qed.
Definition dx_cn : dist := Dist (NP ComplexNormal) DefaultMinimizer [("mean_times_precision", cvec [(0, 0)]%R [] eq_refl); ("negative_precision", vec [-2]%R [] eq_refl); ("pseudo_precision", cvec [(1, 0)]%R [] eq_refl)] [].
Lemma dx_cn_proper : proper [] [] ComplexNormal dx_cn.
Proof. do 4 (split; [reflexivity|]). exists 1%nat. split; [reflexivity|]. split; [finc_|]. cbn. lra. Qed.
Lemma dx_cn_text : exists u, Cmod u < 2 / 3 /\ classical ComplexNormal 1 (point_of dx_cn []) (fun x => complex_normal_pdf (RtoC 0) (2 / 3) u (x false [], x true [])).
Proof.
  exists (RtoC (1 / 3)). assert (K : Cmod (RtoC (1 / 3)) = 1 / 3) by (rewrite Cmod_R; apply Rabs_pos_eq; lra). split; [rewrite K; lra|]. exists (RtoC 0), (2 / 3), (RtoC (1 / 3)). rewrite K. split; [lra|]. split; [cbn; lra|]. split; [|split; [|reflexivity]].
  - replace (2 / 3 * (2 / 3) - 1 / 3 * (1 / 3)) with (1 / 3) by lra. unfold Cdiv. rewrite <- RtoC_inv by lra. cbn. unfold Cconj, Cmult, RtoC. cbn [fst snd]. apply f_equal2; lra.
  - cbn. unfold Cconj, Cmult, RtoC, Cplus, Copp. cbn [fst snd]. apply f_equal2; lra.
Qed.
