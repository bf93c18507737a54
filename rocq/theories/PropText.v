(** Theorems for C56: pdf is the density of the named distribution.  [classical f n P d] (TextSpec.v): the natural parameters P (of family f, n
    dimensions) are, by the class docstrings, those of a distribution whose textbook density is d. *)
From Coq Require Import String List Bool Arith Reals Lra.
From Verif Require Import Base XReal Tensor Support Dist Iteration Structure Spec Tools Joint Fam SumSpec DotSpec PointSpec ConvEx Examples DensSpec DensEx TextSpec TextThms TextEx.
Import ListNotations.
Local Open Scope string_scope.
Local Open Scope R_scope.

(** [q.pdf(x)] is the textbook density at x *)
Theorem C56_textbook solve b i f q n x xv d : proper b i f q -> dims_of q = Ok n -> observed b i q x xv -> sample_space f n xv -> classical f n (point_of q i) d ->
  density (fam_methods solve) b i q x (d xv).
Proof. exact (textbook solve b i f q n x xv d). Qed.

(** and there is one for every natural parameter in the domain *)
Theorem C56_total b i f q n : proper b i f q -> dims_of q = Ok n -> exists d, classical f n (point_of q i) d.
Proof. exact (textbook_total b i f q n). Qed.

Example C56_example solve : density (fam_methods solve) [] [] ex_beta (vec [1 / 3]%R [] eq_refl) (beta_pdf 2 3 (1 / 3)) /\
  density (fam_methods solve) [1]%nat [0]%nat ex_iso ex_ix (prodR 2 (fun k => normal_pdf (iso_mean k) (1 / 6) (vec2 5 6 false [k]))).
Proof.
  split.
  - apply (C56_textbook solve [] [] _ ex_beta 2 _ (scalar (1 / 3)) (fun x => beta_pdf 2 3 (x false [])) ex_beta_proper eq_refl ex_beta_obs); [cbn; lra|exact ex_beta_text].
  - apply (C56_textbook solve [1]%nat [0]%nat _ ex_iso 2 _ (vec2 5 6) (fun x => prodR 2 (fun k => normal_pdf (iso_mean k) (1 / 6) (x false [k]))) ex_iso_proper eq_refl ex_iso_obs); [exact I|exact ex_iso_text].
Qed.

(** GeometricNP is documented as "the number of Bernoulli trials having probability p until one failure": the probability of no trial before
    the failure would be 1 - p, but the pdf gives p, p and 1 - p being exchanged *)
Theorem C56_geometric_docstring_refuted solve : exists q p x, proper [] [] Geometric q /\ par q [] "log_not_p" [] = ln (1 - p) /\ observed [] [] q x (scalar 0) /\
  exists d, density (fam_methods solve) [] [] q x d /\ d <> 1 - p.
Proof. exists dx_geo, (1 / 4), (vec [0]%R [] eq_refl). split; [exact dx_geo_proper|]. split; [cbn; f_equal; lra|]. split; [exact dx_geo_obs|]. exists (1 / 4). split; [exact (dx_geo_value solve)|lra]. Qed.

(** ComplexNormalNP is documented with negative_precision = -1 / Var(x); here the variance w is 2/3 and negative_precision is -2 *)
Theorem C56_complex_normal_docstring_refuted : exists q m w u, proper [] [] ComplexNormal q /\ Coquelicot.Complex.Cmod u < w /\
  classical ComplexNormal 1 (point_of q []) (fun x => complex_normal_pdf m w u (x false [], x true [])) /\ par q [] "negative_precision" [] <> - 1 / w.
Proof. destruct dx_cn_text as (u & U & K). exists dx_cn, (Coquelicot.Complex.RtoC 0), (2 / 3), u. split; [exact dx_cn_proper|]. split; [exact U|]. split; [exact K|]. cbn. lra. Qed.
