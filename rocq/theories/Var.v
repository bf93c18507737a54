(** The variance parametrizations: NormalVP, GammaVP, MultivariateDiagonalNormalVP, MultivariateNormalVP, and the conversions to them. *)
From Coq Require Import String List Bool Arith Reals.
From Verif Require Import Base XReal Tensor Support Dist Iteration Structure Tools Joint SpecFun Expr Fam.
Import ListNotations.
Local Open Scope string_scope.
Local Open Scope nat_scope.
Local Open Scope ae_scope.

(** normal/normal.py:167-171, multivariate_normal/diagonal.py:170-174: the local [precision] is inlined *)
Definition normal_vp_nat : list arg :=
  let precision := #1 / self "variance" in
  [ra "mean_times_precision" (self "mean" * precision); ra "negative_half_precision" (#(-1/2) * precision)].
(** gamma.py:166-171 *)
Definition gamma_vp_nat : list arg :=
  let rate := self "mean" / self "variance" in
  let shape := self "mean" * rate in
  [ra "negative_rate" (- rate); ra "shape_minus_one" (shape - #1)].
(** to_nat() of the variance parametrizations; MultivariateNormalVP has no such method *)
Definition vp_to_nat (d : dist) : result dist :=
  match dcls d with
  | NormalVP => make (NP Normal) (dparams d) normal_vp_nat
  | MultivariateDiagonalNormalVP => make (NP MultivariateDiagonalNormal) (dparams d) normal_vp_nat
  | GammaVP => make (NP Gamma) (dparams d) gamma_vp_nat
  | _ => Err AttributeErr
  end.
(** normal/normal.py:163-165, multivariate_normal/diagonal.py:166-168 *)
Definition normal_vp_exp : list arg :=
  [ra "mean" (self "mean"); ra "second_moment" (self "variance" + jsquare (self "mean"))].
(** multivariate_normal/arbitrary.py:156-158 *)
Definition mvn_vp_exp : list arg :=
  [ra "mean" (self "mean"); ra "second_moment" (self "variance" + outer (self "mean") (self "mean"))].
(** to_exp() of the variance parametrizations; GammaVP: gamma.py:173-174 *)
Definition vp_to_exp (d : dist) : result dist :=
  match dcls d with
  | NormalVP => make (EP Normal) (dparams d) normal_vp_exp
  | MultivariateDiagonalNormalVP => make (EP MultivariateDiagonalNormal) (dparams d) normal_vp_exp
  | MultivariateNormalVP => make (EP MultivariateNormal) (dparams d) mvn_vp_exp
  | GammaVP => let* q := vp_to_nat d in fam_to_exp q
  | _ => Err AttributeErr
  end.
(** variance() of NormalEP (normal/normal.py:120-121) and MultivariateDiagonalNormalEP (diagonal.py:122-123) *)
Definition variance_e : aexp KR := self "second_moment" - jsquare (self "mean").
(** MultivariateNormalEP.variance() (arbitrary.py:116-117) *)
Definition mvn_variance_e : aexp KR := self "second_moment" - outer (self "mean") (self "mean").
(** GammaNP.to_var (gamma.py:75-80) *)
Definition gamma_to_var : list arg :=
  let rate := - self "negative_rate" in
  let shape := self "shape_minus_one" + #1 in
  let mean := shape / rate in
  [ra "mean" mean; ra "variance" (mean / rate)].
(** the conversions of the expectation parametrizations: NormalEP.to_var (normal/normal.py:123-124) and
    to_variance_parametrization (diagonal.py:125-126, arbitrary.py:119-120) *)
Definition ep_to_var (d : dist) : result dist :=
  match dcls d with
  | EP Normal => make NormalVP (dparams d) [ra "mean" (self "mean"); ra "variance" variance_e]
  | EP MultivariateDiagonalNormal =>
      make MultivariateDiagonalNormalVP (dparams d) [ra "mean" (self "mean"); ra "variance" variance_e]
  | EP MultivariateNormal => make MultivariateNormalVP (dparams d) [ra "mean" (self "mean"); ra "variance" mvn_variance_e]
  | _ => Err AttributeErr
  end.
(** to_var of the natural parametrizations: normal/normal.py:66-67, gamma.py:75-80 *)
Definition np_to_var (d : dist) : result dist :=
  match dcls d with
  | NP Normal => let* e := fam_to_exp d in ep_to_var e
  | NP Gamma => make GammaVP (dparams d) gamma_to_var
  | _ => Err AttributeErr
  end.
(** NormalVP.log_pdf and pdf (normal/normal.py:157-161), MultivariateDiagonalNormalVP.pdf (diagonal.py:163-164) *)
Definition vp_log_pdf (L : leaf_methods) (d : dist) (x : nested arr) : result (tensor xr) :=
  match dcls d with NormalVP => let* q := vp_to_nat d in log_pdf L q x | _ => Err AttributeErr end.
Definition vp_pdf (L : leaf_methods) (d : dist) (x : nested arr) : result (tensor xr) :=
  match dcls d with NormalVP | MultivariateDiagonalNormalVP => let* q := vp_to_nat d in pdf L q x | _ => Err AttributeErr end.
