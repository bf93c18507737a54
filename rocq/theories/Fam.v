(** The methods of the distribution classes (efax/_src/distributions), transcribed into [aexp]. *)
From Coq Require Import String List Bool Arith Reals.
From Verif Require Import Base XReal Tensor Support Dist Iteration Structure Tools Joint SpecFun Expr.
Import ListNotations.
Local Open Scope string_scope.
Local Open Scope nat_scope.
Set Implicit Arguments.
Local Unset Asymmetric Patterns.

(** ** Notation for expressions *)
Declare Scope ae_scope.
Delimit Scope ae_scope with ae.
Bind Scope ae_scope with aexp.
Notation r2 f := (@EMap2 KR KR KR f).
Notation r1 f := (@EMap KR KR f).
Definition eadd : aexp KR -> aexp KR -> aexp KR := r2 xadd.
Definition esub : aexp KR -> aexp KR -> aexp KR := r2 xsub.
Definition emul : aexp KR -> aexp KR -> aexp KR := r2 xmul.
Definition ediv : aexp KR -> aexp KR -> aexp KR := r2 xdiv.
Definition eneg : aexp KR -> aexp KR := r1 xneg.
Notation "a + b" := (eadd a b) : ae_scope.
Notation "a - b" := (esub a b) : ae_scope.
Notation "a * b" := (emul a b) : ae_scope.
Notation "a / b" := (ediv a b) : ae_scope.
Notation "- a" := (eneg a) : ae_scope.
Notation "# r" := (ENum r%R) (at level 1, r at level 0) : ae_scope.
Definition self (n : string) : aexp KR := EVar KR n.
Definition selfc (n : string) : aexp KC := EVar KC n.
Definition X : aexp KR := EVar KR "x".
Definition XX : aexp KC := EVar KC "x".
Definition jexp := r1 xexp.
Definition jlog := r1 xlog.
Definition jlog1p := r1 xlog1p.
Definition jexpm1 := r1 xexpm1.
Definition jsquare := r1 xsquare.
Definition jsqrt := r1 xsqrt.
Definition gammaln := r1 xgammaln.
Definition jdigamma := r1 xdigamma.
Definition softplus := r1 xsoftplus.
Definition logaddexp := r2 xlogaddexp.
Definition jpow := r2 xpow.
(** reductions over the last axis *)
Definition g_red {k1 k2} (f : list (elt k1) -> elt k2) : gufunc k1 k2 :=
  @Gufunc k1 k2 1 (fun _ => true) (fun _ => []) (fun _ l _ => f l).
Definition jsum (e : aexp KR) : aexp KR := EGu (g_red (k1 := KR) (k2 := KR) xsum) e.
Definition jsum_keep (e : aexp KR) : aexp KR := @EKeep KR xsum e.
(** jnp.amax raises on an empty axis *)
Definition jamax (e : aexp KR) : aexp KR :=
  EGu (@Gufunc KR KR 1 (fun s => 1 <=? hd 0 s) (fun _ => []) (fun _ l _ => xamax l)) e.
Definition jlogsumexp (e : aexp KR) : aexp KR := EGu (g_red (k1 := KR) (k2 := KR) xlogsumexp) e.
Definition jnorm (e : aexp KR) : aexp KR := EGu (g_red (k1 := KR) (k2 := KR) xnorm) e.
Definition jnorm_keep (e : aexp KR) : aexp KR := @EKeep KR xnorm e.
(** functions from rows to rows *)
Definition g_row (f : list xr -> list xr) (len : nat -> nat) : gufunc KR KR :=
  @Gufunc KR KR 1 (fun _ => true) (fun s => [len (hd 0 s)])
         (fun _ l j => nth (hd 0 j) (f l) NaN).
Definition jcumsum (e : aexp KR) : aexp KR := EGu (g_row xcumsum (fun n => n)) e.
Definition jcumsum0 (e : aexp KR) : aexp KR := EGu (g_row xcumsum0 S) e.  (* include_initial=True *)
Definition jrev (e : aexp KR) : aexp KR := EGu (g_row (@rev xr) (fun n => n)) e.           (* e[..., ::-1] *)
Definition jinit (e : aexp KR) : aexp KR := EGu (g_row (@removelast xr) pred) e.            (* e[..., :-1] *)
Definition jtail (e : aexp KR) : aexp KR := EGu (g_row (@tl xr) pred) e.                    (* e[..., 1:] *)
Definition jat (k : nat) (e : aexp KR) : aexp KR :=                                         (* e[..., k] *)
  EGu (@Gufunc KR KR 1 (fun s => k <? hd 0 s) (fun _ => []) (fun _ l _ => nth k l NaN)) e.
(** jnp.append(a, b, axis=-1); jnp.stack([a, b], axis=-1); a[..., :n], a[..., n:] with n the length of b *)
Definition jappend (a b : aexp KR) : aexp KR :=
  EGu2 (@Gufunc2 KR KR KR 1 1 (fun _ _ => true) (fun s s' => [(hd 0 s + hd 0 s')%nat])
                (fun _ _ l l' j => nth (hd 0 j) (l ++ l')%list NaN)) a b.
Definition jstack (a b : aexp KR) : aexp KR :=
  EGu2 (@Gufunc2 KR KR KR 0 0 (fun _ _ => true) (fun _ _ => [2])
                (fun _ _ l l' j => if hd 0 j =? 0 then hd NaN l else hd NaN l')) a b.
Definition jtake (a b : aexp KR) : aexp KR :=
  EGu2 (@Gufunc2 KR KR KR 1 1 (fun _ _ => true) (fun s s' => [Nat.min (hd 0 s') (hd 0 s)])
                (fun _ _ l l' j => nth (hd 0 j) (firstn (length l') l) NaN)) a b.
Definition jdrop (a b : aexp KR) : aexp KR :=
  EGu2 (@Gufunc2 KR KR KR 1 1 (fun _ _ => true) (fun s s' => [(hd 0 s - hd 0 s')%nat])
                (fun _ _ l l' j => nth (hd 0 j) (skipn (length l') l) NaN)) a b.
(** jnp.where *)
Definition ewhere : aexp KR -> aexp KR -> aexp KR -> aexp KR :=
  @EMap3 KR (fun c a b => if xeqb c (Fin 0) then b else a).
Definition efalse_true (b : bool) : xr := if b then Fin 1 else Fin 0.
(** matrices: jnp.linalg.inv, slogdet()[1], det, tjax.outer_product, matrix_vector_mul, matrix_dot_product *)
Definition square2 (s : list nat) : bool := match s with [a; b] => a =? b | _ => false end.
Definition ix (j : list nat) (p : nat) : nat := nth p j 0.
Definition jinv (e : aexp KR) : aexp KR :=
  EGu (@Gufunc KR KR 2 square2 (fun s => s) (fun s l j => xinv (hd 0 s) l (ix j 0) (ix j 1))) e.
Definition jslogdet (e : aexp KR) : aexp KR :=
  EGu (@Gufunc KR KR 2 square2 (fun _ => []) (fun s l _ => xslogdet (hd 0 s) l)) e.
Definition jcinv (e : aexp KC) : aexp KC :=
  EGu (@Gufunc KC KC 2 square2 (fun s => s) (fun s l j => xcinv (hd 0 s) l (ix j 0) (ix j 1))) e.
Definition jcdet (e : aexp KC) : aexp KC :=
  EGu (@Gufunc KC KC 2 square2 (fun _ => []) (fun s l _ => xcdet (hd 0 s) l)) e.
Definition outer (a b : aexp KR) : aexp KR :=
  EGu2 (@Gufunc2 KR KR KR 1 1 (fun _ _ => true) (fun s s' => [hd 0 s; hd 0 s'])
                (fun _ _ l l' j => xmul (nth (ix j 0) l NaN) (nth (ix j 1) l' NaN))) a b.
Definition couter (a b : aexp KC) : aexp KC :=
  EGu2 (@Gufunc2 KC KC KC 1 1 (fun _ _ => true) (fun s s' => [hd 0 s; hd 0 s'])
                (fun _ _ l l' j => cmul (nth (ix j 0) l (XC NaN NaN)) (cconj (nth (ix j 1) l' (XC NaN NaN))))) a b.
Definition mat_vec (a b : aexp KR) : aexp KR :=
  EGu2 (@Gufunc2 KR KR KR 2 1 (fun s s' => ix s 1 =? hd 0 s') (fun s _ => [hd 0 s])
                (fun s _ l l' j => xsum (map (fun c => xmul (nth (ix j 0 * ix s 1 + c) l NaN) (nth c l' NaN)) (seq 0 (ix s 1))))) a b.
Definition mat_dot (a b : aexp KR) : aexp KR :=
  EGu2 (@Gufunc2 KR KR KR 2 2 (fun s s' => (ix s 0 =? ix s' 0) && (ix s 1 =? ix s' 1)) (fun _ _ => [])
                (fun _ _ l l' _ => xsum (map (fun p => xmul (fst p) (snd p)) (combine l l')))) a b.
(** complex elementwise operations *)
Definition real_ : aexp KC -> aexp KR := @EMap KC KR xre.
Definition conj_ : aexp KC -> aexp KC := @EMap KC KC cconj.
Definition abs_sq : aexp KC -> aexp KR := @EMap KC KR cabs_square.
Definition csq : aexp KC -> aexp KC := @EMap KC KC csquare.
Definition cneg_ : aexp KC -> aexp KC := @EMap KC KC cneg.
Definition crecip_ : aexp KC -> aexp KC := @EMap KC KC crecip.
Definition cadd_ : aexp KC -> aexp KC -> aexp KC := @EMap2 KC KC KC cadd.
Definition csub_ : aexp KC -> aexp KC -> aexp KC := @EMap2 KC KC KC csub.
Definition cmul_ : aexp KC -> aexp KC -> aexp KC := @EMap2 KC KC KC cmul.
Definition cdivr_ : aexp KC -> aexp KR -> aexp KC := @EMap2 KC KR KC cdivr.      (* complex / real *)
Definition rscale : aexp KR -> aexp KC -> aexp KC := @EMap2 KR KC KC cscale.     (* real * complex *)
Definition rsubc : aexp KR -> aexp KC -> aexp KC := @EMap2 KR KC KC (fun r z => csub (cofr r) z).

Definition ra (n : string) (e : aexp KR) : arg := (n, existT aexp KR e).
Definition ca (n : string) (e : aexp KC) : arg := (n, existT aexp KC e).

Local Open Scope ae_scope.

(** ** log_normalizer *)
Definition exponential_ln (nr : aexp KR) : aexp KR := - jlog (- nr).            (* exponential.py:42-43 *)
Definition gamma_ln (nr s1 : aexp KR) : aexp KR :=                                (* gamma.py:49-51 *)
  let shape := s1 + #1 in gammaln shape - shape * jlog (- nr).
Definition chi_square_ln (k1 : aexp KR) : aexp KR :=                              (* chi_square.py:46-48 *)
  let k_over_two := k1 + #1 in gammaln k_over_two - k_over_two * jlog #(1/2).
Definition dirichlet_ln : aexp KR :=                                              (* dirichlet_common.py:37-40 *)
  let q := self "alpha_minus_one" in
  jsum (gammaln (q + #1)) - gammaln (jsum q + EDim "alpha_minus_one").
Definition nb_ln (failures : aexp KR) : aexp KR :=                                (* negative_binomial_common.py:36-37 *)
  (- failures) * jlog1p (- jexp (self "log_not_p")).
(** multinomial.py:48-51, 55-58 *)
Definition max_q : aexp KR := r2 xmax #0 (jamax (self "log_odds")).
Definition q_minus_max_q : aexp KR := self "log_odds" - ENewaxis max_q.
Definition log_scaled_a : aexp KR := logaddexp (- max_q) (jlogsumexp q_minus_max_q).
Definition normal_ln (mtp nhp : aexp KR) : aexp KR :=                             (* normal/normal.py:46-48, multivariate_normal/diagonal.py:48-49 *)
  (- jsquare mtp) / (#4 * nhp) + #(1/2) * jlog (#(-PI) / nhp).
(** gen_dirichlet.py:83-90 alpha_beta *)
Definition gd_alpha : aexp KR := self "alpha_minus_one" + #1.
Definition gd_beta : aexp KR :=
  let cs_alpha := jinit (jcumsum0 (jrev gd_alpha)) in
  let cs_gamma := jcumsum (jrev (self "gamma")) in
  jrev (cs_gamma + cs_alpha + #1).
(** complex_normal/complex_normal.py:81-89 _r_s_mu *)
Definition cn_pp := selfc "pseudo_precision".
Definition cn_np := self "negative_precision".
Definition cn_r : aexp KC := cdivr_ (cneg_ cn_pp) cn_np.
Definition cn_s : aexp KR := #1 / ((abs_sq cn_r - #1) * cn_np).
Definition cn_mu : aexp KC :=
  let k := cdivr_ cn_pp cn_np in
  let l_eta := cdivr_ (rscale #(1/2) (selfc "mean_times_precision")) ((abs_sq k - #1) * cn_np) in
  csub_ (conj_ l_eta) (cmul_ (conj_ (cdivr_ cn_pp cn_np)) l_eta).

Definition ln_e (f : family) : aexp KR :=
  match f with
  | Bernoulli => logaddexp (self "log_odds") #0                                     (* bernoulli.py:46-47 *)
  | Beta | Dirichlet => dirichlet_ln                                                (* dirichlet_common.py:37-40 *)
  | Chi => chi_square_ln (self "k_over_two_minus_one")                              (* transformed_parametrization.py:46-48, chi.py:47-48 *)
  | ChiSquare => chi_square_ln (self "k_over_two_minus_one")                        (* chi_square.py:46-48 *)
  | ComplexCircularlySymmetricNormal =>                                             (* cmvn/circularly_symmetric.py:54-56 *)
      (- jlog (real_ (jcdet (cneg_ (selfc "negative_precision"))))) + EDim "negative_precision" * #(ln PI)
  | ComplexMultivariateUnitNormal =>                                                (* cmvn/unit.py:52-54 *)
      jsum (abs_sq (rscale #(1/2) (selfc "two_mean_conjugate"))) + EDim "two_mean_conjugate" * #(ln PI)
  | ComplexNormal =>                                                                (* complex_normal/complex_normal.py:55-63 *)
      (- abs_sq cn_mu) * cn_np - real_ (cmul_ (csq cn_mu) cn_pp)
      + #(1/2) * jlog cn_s - #(1/2) * jlog (- cn_np) + #(ln PI)
  | ComplexUnitNormal => abs_sq (rscale #(1/2) (selfc "two_mean_conjugate")) + #(ln PI) (* complex_normal/unit.py:48-50 *)
  | Exponential => exponential_ln (self "negative_rate")                            (* exponential.py:42-43 *)
  | Gamma => gamma_ln (self "negative_rate") (self "shape_minus_one")               (* gamma.py:49-51 *)
  | GeneralizedDirichlet => jsum (r2 xbetaln gd_alpha gd_beta)                      (* gen_dirichlet.py:47-49 *)
  | Geometric => nb_ln #1                                                           (* negative_binomial_common.py:36-37, geometric.py:47-48 *)
  | Logarithmic => jlog (- jlog1p (- jexp (self "log_probability")))                (* logarithmic.py:42-43 *)
  | Multinomial => max_q + log_scaled_a                                             (* multinomial.py:47-51 *)
  | MultivariateNormal =>                                                           (* multivariate_normal/arbitrary.py:45-50 *)
      let eta := self "mean_times_precision" in
      let h_inv := jinv (self "negative_half_precision") in
      let a := mat_dot h_inv (outer eta eta) in
      let ld := jslogdet (- self "negative_half_precision") in
      #(-1/4) * a - #(1/2) * ld + #(1/2) * EDim "mean_times_precision" * jlog #PI
  | MultivariateDiagonalNormal =>                                                   (* multivariate_normal/diagonal.py:47-50 *)
      jsum (normal_ln (self "mean_times_precision") (self "negative_half_precision"))
  | MultivariateFixedVarianceNormal =>                                              (* multivariate_normal/fixed_variance.py:52-55 *)
      #(1/2) * (jsum (jsquare (self "mean_times_precision")) * self "variance"
                + EDim "mean_times_precision" * jlog (#(PI * 2) * self "variance"))
  | IsotropicNormal =>                                                              (* multivariate_normal/isotropic.py:46-49 *)
      #(1/2) * (#(-1/2) * jsum (jsquare (self "mean_times_precision")) / self "negative_half_precision"
                + EDim "mean_times_precision" * jlog (#PI / (- self "negative_half_precision")))
  | MultivariateUnitNormal =>                                                       (* multivariate_normal/unit.py:48-50 *)
      #(1/2) * (jsum (jsquare (self "mean")) + EDim "mean" * #(ln (PI * 2)))
  | NegativeBinomial => nb_ln (self "failures")                                     (* negative_binomial_common.py:36-37, negative_binomial.py:52-53 *)
  | Normal => normal_ln (self "mean_times_precision") (self "negative_half_precision") (* normal/normal.py:46-48 *)
  | UnitNormal => #(1/2) * (jsquare (self "mean") + #(ln (PI * 2)))                 (* normal/unit.py:45-46 *)
  | Poisson => jexp (self "log_mean")                                               (* poisson.py:43-44 *)
  | Rayleigh => exponential_ln (self "eta")                                         (* transformed_parametrization.py:46-48, rayleigh.py:47-48 *)
  | VonMisesFisher =>                                                               (* von_mises.py:43-49 *)
      let half_k := EDim "mean_times_concentration" * #(1/2) in
      let kappa := jnorm (self "mean_times_concentration") in
      kappa - (half_k - #1) * jlog kappa + half_k * jlog #(2 * PI) + r2 xlog_ive (half_k - #1) kappa
  | Weibull => (- jlog (- self "eta")) - jlog (self "concentration")                (* weibull.py:45-46 *)
  end.

(** ** to_exp: the constructor arguments of the expectation class *)
Definition exponential_mean (nr : aexp KR) : aexp KR := #(-1) / nr.               (* exponential.py:46-47 *)
Definition chi_square_mean_log (k1 : aexp KR) : aexp KR :=                        (* chi_square.py:51-53 *)
  jdigamma (k1 + #1) - jlog #(1/2).
Definition dirichlet_exp : aexp KR :=                                             (* dirichlet_common.py:52-54 *)
  let q := self "alpha_minus_one" in
  jdigamma (q + #1) - jdigamma (jsum_keep q + EDim "alpha_minus_one").
Definition nb_mean (failures : aexp KR) : aexp KR :=                              (* negative_binomial_common.py:45-46 *)
  failures / jexpm1 (- self "log_not_p").
Definition normal_mean : aexp KR :=                                               (* normal/normal.py:52, multivariate_normal/diagonal.py:54 *)
  (- self "mean_times_precision") / (#2 * self "negative_half_precision").
Definition normal_second_moment : aexp KR :=                                      (* normal/normal.py:53, multivariate_normal/diagonal.py:55 *)
  jsquare normal_mean - #(1/2) / self "negative_half_precision".
(** logarithmic.py:18-19 *)
Definition log_probability_floor : R := -50.
Definition log_probability_ceiling : R := - / 10000000.

Definition exp_args (f : family) : list arg :=
  match f with
  | Bernoulli => [ra "probability" (r1 xexpit (self "log_odds"))]                   (* bernoulli.py:50-51 *)
  | Beta | Dirichlet => [ra "mean_log_probability" dirichlet_exp]                   (* beta.py:36-37, dirichlet.py:30-31 *)
  | Chi => [ra "mean_log" (chi_square_mean_log (self "k_over_two_minus_one"))]      (* transformed_parametrization.py:51-53, chi.py:52-53 *)
  | ChiSquare => [ra "mean_log" (chi_square_mean_log (self "k_over_two_minus_one"))] (* chi_square.py:51-53 *)
  | ComplexCircularlySymmetricNormal =>                                             (* cmvn/circularly_symmetric.py:59-61 *)
      [ca "variance" (conj_ (jcinv (cneg_ (selfc "negative_precision"))))]
  | ComplexMultivariateUnitNormal =>                                                (* cmvn/unit.py:57-58 *)
      [ca "mean" (rscale #(1/2) (conj_ (selfc "two_mean_conjugate")))]
  | ComplexNormal =>                                                                (* complex_normal/complex_normal.py:66-69 *)
      [ca "mean" cn_mu; ra "second_moment" (cn_s + abs_sq cn_mu);
       ca "pseudo_second_moment" (cadd_ (conj_ (rscale cn_s cn_r)) (csq cn_mu))]
  | ComplexUnitNormal => [ca "mean" (rscale #(1/2) (conj_ (selfc "two_mean_conjugate")))] (* complex_normal/unit.py:53-54 *)
  | Exponential => [ra "mean" (exponential_mean (self "negative_rate"))]            (* exponential.py:46-47 *)
  | Gamma =>                                                                        (* gamma.py:54-57 *)
      let shape := self "shape_minus_one" + #1 in
      [ra "mean" ((- shape) / self "negative_rate");
       ra "mean_log" (jdigamma shape - jlog (- self "negative_rate"))]
  | GeneralizedDirichlet =>                                                         (* gen_dirichlet.py:52-65 *)
      let digamma_sum := jdigamma (gd_alpha + gd_beta) in
      let cs_beta_bar := jcumsum0 (jdigamma gd_beta - digamma_sum) in
      [ra "mean_log_probability" ((jdigamma gd_alpha - digamma_sum) + jinit cs_beta_bar);
       ra "mean_log_cumulative_probability" (jtail cs_beta_bar)]
  | Geometric => [ra "mean" (nb_mean #1)]                                           (* geometric.py:37-38 *)
  | Logarithmic =>                                                                  (* logarithmic.py:46-52 *)
      let lp := self "log_probability" in
      let probability := jexp lp in
      [ra "chi" (ewhere (r1 (fun v => efalse_true (xltb v (Fin log_probability_floor))) lp) #1
                  (ewhere (r1 (fun v => efalse_true (xltb (Fin log_probability_ceiling) v)) lp)
                          (r1 (fun _ => PInf) lp)
                          (probability / (jexpm1 lp * jlog1p (- probability)))))]
  | Multinomial => [ra "probability" (jexp (q_minus_max_q - ENewaxis log_scaled_a))] (* multinomial.py:54-58 *)
  | MultivariateNormal =>                                                           (* multivariate_normal/arbitrary.py:53-58 *)
      let h_inv := jinv (self "negative_half_precision") in
      let h_inv_times_eta := mat_vec h_inv (self "mean_times_precision") in
      [ra "mean" (#(-1/2) * h_inv_times_eta);
       ra "second_moment" (#(1/4) * outer h_inv_times_eta h_inv_times_eta - #(1/2) * h_inv)]
  | MultivariateDiagonalNormal | Normal =>                                          (* multivariate_normal/diagonal.py:53-56, normal/normal.py:51-54 *)
      [ra "mean" normal_mean; ra "second_moment" normal_second_moment]
  | MultivariateFixedVarianceNormal =>                                              (* multivariate_normal/fixed_variance.py:58-61 *)
      [ra "mean" (self "mean_times_precision" * ENewaxis (self "variance")); ra "variance" (self "variance")]
  | IsotropicNormal =>                                                              (* multivariate_normal/isotropic.py:52-57 *)
      let precision := #(-2) * self "negative_half_precision" in
      let mean := self "mean_times_precision" / ENewaxis precision in
      let total_variance := EDim "mean_times_precision" / precision in
      [ra "mean" mean; ra "total_second_moment" (jsum (jsquare mean) + total_variance)]
  | MultivariateUnitNormal | UnitNormal => [ra "mean" (self "mean")]                (* multivariate_normal/unit.py:53-54, normal/unit.py:49-50 *)
  | NegativeBinomial => [ra "mean" (nb_mean (self "failures")); ra "failures" (self "failures")] (* negative_binomial.py:38-39 *)
  | Poisson => [ra "mean" (jexp (self "log_mean"))]                                 (* poisson.py:47-48 *)
  | Rayleigh => [ra "chi" (exponential_mean (self "eta"))]                          (* transformed_parametrization.py:51-53, rayleigh.py:52-53 *)
  | VonMisesFisher =>                                                               (* von_mises.py:52-58, 147-148 *)
      let q := self "mean_times_concentration" in
      let kappa := jnorm_keep q in
      let a_k := r2 xiv_ratio (EDim "mean_times_concentration" * #(1/2)) kappa in
      [ra "mean" (ewhere (r1 (fun v => efalse_true (xeqb v (Fin 0))) kappa) q (q * (a_k / kappa)))]
  | Weibull => [ra "concentration" (self "concentration"); ra "chi" (#(-1) / self "eta")] (* weibull.py:49-50 *)
  end.

(** ** to_nat of the classes with a closed form *)
Definition exponential_negative_rate (mean : aexp KR) : aexp KR := #(-1) / mean.  (* exponential.py:96-97 *)
Definition nb_log_not_p (failures : aexp KR) : aexp KR := - jlog1p (failures / self "mean"). (* negative_binomial_common.py:74-75 *)
Definition normal_variance : aexp KR := self "second_moment" - jsquare (self "mean"). (* normal/normal.py:120-121, multivariate_normal/diagonal.py:122-123 *)
Definition isotropic_variance : aexp KR :=                                          (* multivariate_normal/isotropic.py:131-133 *)
  (self "total_second_moment" - jsum (jsquare (self "mean"))) / EDim "mean".
Definition p_k : aexp KR := #1 - jsum_keep (self "probability").                    (* multinomial.py:125 *)

Definition nat_args (f : family) : option (list arg) :=
  match f with
  | Bernoulli => Some [ra "log_odds" (r1 xlogit (self "probability"))]              (* bernoulli.py:106-107 *)
  | ComplexCircularlySymmetricNormal =>                                             (* cmvn/circularly_symmetric.py:114-116 *)
      Some [ca "negative_precision" (cneg_ (conj_ (jcinv (selfc "variance"))))]
  | ComplexMultivariateUnitNormal | ComplexUnitNormal =>                            (* cmvn/unit.py:109-110, complex_normal/unit.py:100-101 *)
      Some [ca "two_mean_conjugate" (rscale #2 (conj_ (selfc "mean")))]
  | ComplexNormal =>                                                                (* complex_normal/complex_normal.py:136-147 *)
      let mean := selfc "mean" in
      let variance := self "second_moment" - abs_sq mean in
      let pseudo_variance := csub_ (selfc "pseudo_second_moment") (csq mean) in
      let r := cdivr_ (conj_ pseudo_variance) variance in
      let p_c := rsubc variance (conj_ (cmul_ r pseudo_variance)) in
      let p_inv_c := crecip_ p_c in
      let precision := - real_ p_inv_c in
      let pseudo_precision := cmul_ r p_inv_c in
      Some [ca "mean_times_precision"
              (rscale #(-2) (cadd_ (rscale precision (conj_ mean)) (cmul_ pseudo_precision mean)));
            ra "negative_precision" precision; ca "pseudo_precision" pseudo_precision]
  | Exponential => Some [ra "negative_rate" (exponential_negative_rate (self "mean"))] (* exponential.py:96-97 *)
  | Geometric => Some [ra "log_not_p" (nb_log_not_p #1)]                            (* geometric.py:77-78 *)
  | Multinomial => Some [ra "log_odds" (jlog (self "probability" / p_k))]           (* multinomial.py:124-126 *)
  | MultivariateNormal =>                                                           (* multivariate_normal/arbitrary.py:99-102, 116-117 *)
      let precision := jinv (self "second_moment" - outer (self "mean") (self "mean")) in
      Some [ra "mean_times_precision" (mat_vec precision (self "mean"));
            ra "negative_half_precision" (#(-1/2) * precision)]
  | MultivariateDiagonalNormal | Normal =>                                          (* multivariate_normal/diagonal.py:107-108, normal/normal.py:104-105 *)
      Some [ra "mean_times_precision" (self "mean" / normal_variance);
            ra "negative_half_precision" (#(-1/2) / normal_variance)]
  | MultivariateFixedVarianceNormal =>                                              (* multivariate_normal/fixed_variance.py:117-119 *)
      Some [ra "mean_times_precision" (self "mean" / ENewaxis (self "variance")); ra "variance" (self "variance")]
  | IsotropicNormal =>                                                              (* multivariate_normal/isotropic.py:108-112 *)
      Some [ra "mean_times_precision" (self "mean" / ENewaxis isotropic_variance);
            ra "negative_half_precision" (#(-1/2) / isotropic_variance)]
  | MultivariateUnitNormal | UnitNormal => Some [ra "mean" (self "mean")]           (* multivariate_normal/unit.py:112-113, normal/unit.py:103-104 *)
  | NegativeBinomial => Some [ra "log_not_p" (nb_log_not_p (self "failures")); ra "failures" (self "failures")] (* negative_binomial.py:78-79 *)
  | Poisson => Some [ra "log_mean" (jlog (self "mean"))]                            (* poisson.py:93-94 *)
  | Rayleigh => Some [ra "eta" (exponential_negative_rate (self "chi"))]            (* transformed_parametrization.py:86-88, rayleigh.py:100-105 *)
  | Weibull => Some [ra "concentration" (self "concentration"); ra "eta" (#(-1) / self "chi")] (* weibull.py:101-102 *)
  | Beta | Chi | ChiSquare | Dirichlet | Gamma | GeneralizedDirichlet | Logarithmic | VonMisesFisher => None
  end.

(** ** carrier_measure (self and x) *)
Definition nb_cm (failures : aexp KR) : aexp KR :=                                (* negative_binomial_common.py:40-43 *)
  let a := X + failures - #1 in
  gammaln (a + #1) - gammaln (X + #1) - gammaln (a - X + #1).
Definition cm_e (f : family) : aexp KR :=
  match f with
  | Bernoulli | Beta | Exponential | Gamma | Normal => EZeros 0 X                   (* bernoulli.py:54-55, beta.py:46-47, exponential.py:50-51, gamma.py:60-61, normal/normal.py:57-58 *)
  | ComplexNormal => EZeros 0 XX                                                    (* complex_normal/complex_normal.py:72-73 *)
  | Dirichlet | GeneralizedDirichlet | Multinomial | MultivariateNormal
  | MultivariateDiagonalNormal | IsotropicNormal => EZeros 1 X                      (* dirichlet.py:41-42, gen_dirichlet.py:76-77, multinomial.py:61-62, multivariate_normal/arbitrary.py:61-62, diagonal.py:59-60, isotropic.py:60-61 *)
  | ComplexCircularlySymmetricNormal => EZeros 1 XX                                 (* cmvn/circularly_symmetric.py:64-65 *)
  | VonMisesFisher => EZeros 1 (self "mean_times_concentration")                    (* von_mises.py:61-62: zeros(self.shape) *)
  | Chi => jlog (#2 * X) - jsquare X * #(1/2)                                       (* chi.py:61-62 *)
  | ChiSquare => (- X) * #(1/2)                                                     (* chi_square.py:56-57 *)
  | ComplexMultivariateUnitNormal => - jsum (abs_sq XX)                             (* cmvn/unit.py:61-62 *)
  | ComplexUnitNormal => - abs_sq XX                                                (* complex_normal/unit.py:57-58 *)
  | Geometric => nb_cm #1                                                           (* negative_binomial_common.py:40-43 *)
  | NegativeBinomial => nb_cm (self "failures")
  | Logarithmic => - jlog X                                                         (* logarithmic.py:55-56 *)
  | MultivariateFixedVarianceNormal => #(-1/2) * jsum (jsquare X) / self "variance" (* multivariate_normal/fixed_variance.py:64-65 *)
  | MultivariateUnitNormal => #(-1/2) * jsum (jsquare X)                            (* multivariate_normal/unit.py:57-59 *)
  | UnitNormal => #(-1/2) * jsquare X                                               (* normal/unit.py:53-55 *)
  | Poisson => - gammaln (X + #1)                                                   (* poisson.py:51-52 *)
  | Rayleigh => jlog X + jlog #2                                                    (* rayleigh.py:62-63 *)
  | Weibull => (self "concentration" - #1) * jlog X                                 (* weibull.py:53-54 *)
  end.

(** ** sufficient_statistics (x and the fixed parameters) *)
Definition ss_args (f : family) : list arg :=
  match f with
  | Bernoulli => [ra "probability" X]                                               (* bernoulli.py:59-61 *)
  | Beta => [ra "mean_log_probability" (jstack (jlog X) (jlog1p (- X)))]            (* beta.py:41-43 *)
  | Chi => [ra "mean_log" (jlog (jsquare X))]                                       (* transformed_parametrization.py:57-60, chi.py:57-58 *)
  | ChiSquare => [ra "mean_log" (jlog X)]                                           (* chi_square.py:61-63 *)
  | ComplexCircularlySymmetricNormal => [ca "variance" (couter XX XX)]              (* cmvn/circularly_symmetric.py:69-71 *)
  | ComplexMultivariateUnitNormal | ComplexUnitNormal => [ca "mean" XX]             (* cmvn/unit.py:66-68, complex_normal/unit.py:62-64 *)
  | ComplexNormal => [ca "mean" XX; ra "second_moment" (abs_sq XX); ca "pseudo_second_moment" (csq XX)] (* complex_normal/complex_normal.py:77-79 *)
  | Dirichlet => [ra "mean_log_probability" (jappend (jlog X) (jlog (#1 - jsum_keep X)))] (* dirichlet.py:35-38 *)
  | Exponential => [ra "mean" X]                                                    (* exponential.py:55-57 *)
  | Gamma => [ra "mean" X; ra "mean_log" (jlog X)]                                  (* gamma.py:65-67 *)
  | GeneralizedDirichlet => [ra "mean_log_probability" (jlog X);                    (* gen_dirichlet.py:69-73 *)
                             ra "mean_log_cumulative_probability" (jlog1p (- jcumsum X))]
  | Geometric => [ra "mean" X]                                                      (* geometric.py:42-44 *)
  | Logarithmic => [ra "chi" X]                                                     (* logarithmic.py:60-62 *)
  | Multinomial => [ra "probability" X]                                             (* multinomial.py:66-68 *)
  | MultivariateNormal => [ra "mean" X; ra "second_moment" (outer X X)]             (* multivariate_normal/arbitrary.py:66-68 *)
  | MultivariateDiagonalNormal | Normal => [ra "mean" X; ra "second_moment" (jsquare X)] (* multivariate_normal/diagonal.py:64-66, normal/normal.py:62-64 *)
  | MultivariateFixedVarianceNormal => [ra "mean" X; ra "variance" (self "variance")] (* multivariate_normal/fixed_variance.py:69-71 *)
  | IsotropicNormal => [ra "mean" X; ra "total_second_moment" (jsum (jsquare X))]   (* multivariate_normal/isotropic.py:65-67 *)
  | MultivariateUnitNormal | UnitNormal => [ra "mean" X]                            (* multivariate_normal/unit.py:63-65, normal/unit.py:59-62 *)
  | NegativeBinomial => [ra "mean" X; ra "failures" (EBroadcast (self "failures") X)] (* negative_binomial.py:43-45 *)
  | Poisson => [ra "mean" X]                                                        (* poisson.py:56-58 *)
  | Rayleigh => [ra "chi" (jsquare X)]                                              (* transformed_parametrization.py:57-60, rayleigh.py:57-59 *)
  | VonMisesFisher => [ra "mean" X]                                                 (* von_mises.py:66-68 *)
  | Weibull => [ra "concentration" (EBroadcast (self "concentration") X); ra "chi" (jpow X (self "concentration"))] (* weibull.py:58-63 *)
  end.

(** ** expected_carrier_measure (self; ChiSquare and Chi use self.to_nat()) *)
Definition ecm_e (f : family) : aexp KR :=
  match f with
  | Bernoulli => EZeros 0 (self "probability")                                      (* bernoulli.py:110-111 *)
  | Beta | Dirichlet => EZeros 1 (self "mean_log_probability")                      (* dirichlet_common.py:74-75 *)
  | Chi =>                                                                          (* chi.py:100-103 *)
      let k_over_two := self "k_over_two_minus_one" + #1 in
      #(-1) * k_over_two + #(1/2) * jdigamma k_over_two + #(3/2) * jlog #2
  | ChiSquare => - (self "k_over_two_minus_one" + #1)                               (* chi_square.py:105-108 *)
  | ComplexCircularlySymmetricNormal => EZeros 2 (selfc "variance")                 (* cmvn/circularly_symmetric.py:119-120 *)
  | ComplexMultivariateUnitNormal => - (jsum (abs_sq (selfc "mean")) + EDim "mean") (* cmvn/unit.py:113-115 *)
  | ComplexNormal => EZeros 0 (selfc "mean")                                        (* complex_normal/complex_normal.py:150-151 *)
  | ComplexUnitNormal => - (abs_sq (selfc "mean") + #1)                             (* complex_normal/unit.py:104-106 *)
  | Exponential | Gamma | Geometric => EZeros 0 (self "mean")                       (* exponential.py:100-101, gamma.py:114-115, geometric.py:81-82 *)
  | GeneralizedDirichlet => EZeros 1 (self "mean_log_probability")                  (* gen_dirichlet.py:129-130 *)
  | Multinomial => EZeros 1 (self "probability")                                    (* multinomial.py:129-130 *)
  | MultivariateNormal | MultivariateDiagonalNormal | IsotropicNormal => EZeros 1 (self "mean") (* multivariate_normal/arbitrary.py:105-106, diagonal.py:111-112, isotropic.py:115-116 *)
  | MultivariateFixedVarianceNormal =>                                              (* multivariate_normal/fixed_variance.py:122-123 *)
      #(-1/2) * (jsum (jsquare (self "mean")) / self "variance" + EDim "mean")
  | MultivariateUnitNormal => #(-1/2) * (jsum (jsquare (self "mean")) + EDim "mean") (* multivariate_normal/unit.py:116-118 *)
  | Normal => EZeros 0 (self "mean")                                                (* normal/normal.py:108-109 *)
  | UnitNormal => #(-1/2) * (jsquare (self "mean") + #1)                            (* normal/unit.py:107-109 *)
  | Rayleigh =>                                                                     (* rayleigh.py:108-109 *)
      #(1/2) * jlog (self "chi" * #(1/2)) + (#(3/2) * jlog #2 - #(1/2) * #euler_gamma)
  | VonMisesFisher => EZeros 1 (self "mean")                                        (* von_mises.py:116-117 *)
  | Weibull =>                                                                      (* weibull.py:105-108 *)
      let one_minus_one_over_k := #1 - #1 / self "concentration" in
      one_minus_one_over_k * jlog (self "chi") - #euler_gamma * one_minus_one_over_k
  | Logarithmic | NegativeBinomial | Poisson => #0  (* not HasEntropyEP: no such method (never evaluated) *)
  end.

(** ** ExpToNat (mixins/exp_to_nat/exp_to_nat.py) *)
(** search_to_natural overrides, from self and search_parameters ("search") *)
Definition search_args (f : family) : option (list arg) :=
  match f with
  | Gamma =>                                                                        (* gamma.py:122-125 *)
      let shape := softplus (jat 0 (self "search")) in
      Some [ra "negative_rate" (- (shape / self "mean")); ra "shape_minus_one" (shape - #1)]
  | GeneralizedDirichlet =>                                                         (* gen_dirichlet.py:121-126 *)
      let positive := softplus (self "search") in
      Some [ra "alpha_minus_one" (jtake positive (self "mean_log_probability") - #1);
            ra "gamma" (jdrop positive (self "mean_log_probability"))]
  | VonMisesFisher =>                                                               (* von_mises.py:129-133 *)
      Some [ra "mean_times_concentration"
              (self "mean" * (softplus (self "search") / jnorm_keep (self "mean")))]
  | _ => None
  end.
(** search_gradient overrides *)
Definition search_gradient_e (f : family) : option (aexp KR) :=
  match f with
  | Gamma =>                                                                        (* gamma.py:128-131 *)
      let shape := softplus (jat 0 (self "search")) in
      let log_mean_minus_mean_log := jlog (self "mean") - self "mean_log" in
      Some (ENewaxis (log_mean_minus_mean_log - jlog shape + jdigamma shape))
  | VonMisesFisher =>                                                               (* von_mises.py:136-139 *)
      let kappa := softplus (self "search") in
      Some (r2 xiv_ratio (EDim "mean" * #(1/2)) kappa - jnorm (self "mean"))
  | _ => None
  end.

(** an object of class c from evaluated constructor arguments *)
Definition make (c : cls) (env : dict string arr) (l : list arg) : result dist :=
  let* kw := evals env l in construct c kw None.

Section Methods.
  (** minimizer.solve(x): the k-th search parameter found for the unbatched distribution x.  The numerical
      root finders (exp_to_nat/optimistix.py, optimistix) are not modelled: any function of this type.
      Its result has the shape of initial_search_parameters. *)
  Variable solve : minimizer -> dist -> nat -> xr.

  Definition fam_log_normalizer (d : dist) : result (tensor xr) :=
    match dcls d with NP f => eval (dparams d) (ln_e f) | _ => Err AttributeErr end.
  Definition fam_to_exp (d : dist) : result dist :=
    match dcls d with NP f => make (EP f) (dparams d) (exp_args f) | _ => Err AttributeErr end.
  Definition fam_carrier_measure (d : dist) (x : arr) : result (tensor xr) :=
    match dcls d with NP f => eval (("x", x) :: dparams d) (cm_e f) | _ => Err AttributeErr end.
  Definition fam_sufficient_statistics (f : family) (x : arr) (fixed : dict string arr) : result dist :=
    make (EP f) (("x", x) :: fixed) (ss_args f).

  (** the last axis of initial_search_parameters (exp_to_nat.py:67-73, gamma.py:136-142, von_mises.py:120-126) *)
  Definition search_size (f : family) (flattened : tensor xr) : nat :=
    match f with Gamma | VonMisesFisher => 1 | _ => last (shp flattened) 0 end.
  (** exp_to_nat.py:55-65: the solutions for all batch elements, vmap over the batch axes *)
  Definition search_parameters (d : dist) (f : family) : result (tensor xr) :=
    let* (fl, flattened) := flatten d true in
    let b := removelast (shp flattened) in
    let* xs := mapM (fun i => unflatten fl (tsub flattened i)) (indices b) in
    Ok (tbuild (b ++ [search_size f flattened])
          (fun i => solve (dmin d) (nth (ravel b (removelast i)) xs d) (last i 0))).
  (** search_to_natural: exp_to_nat.py:75-86 and the overrides *)
  Definition search_to_natural (d : dist) (f : family) (sp : tensor xr) : result dist :=
    match search_args f with
    | Some l => make (NP f) (("search", RA sp) :: dparams d) l
    | None => let* fl := create_flattener d (NP f) true in unflatten fl sp
    end.
  (** exp_to_nat.py:53-65 *)
  Definition exp_to_nat (d : dist) (f : family) : result dist :=
    let* sp := search_parameters d f in search_to_natural d f sp.
  (** search_gradient: exp_to_nat.py:88-101 and the overrides *)
  Definition search_gradient (d : dist) (f : family) (sp : tensor xr) : result (tensor xr) :=
    match search_gradient_e f with
    | Some e => eval (("search", RA sp) :: dparams d) e
    | None =>
        let* search_np := search_to_natural d f sp in
        let* search_ep := fam_to_exp search_np in
        let* (_, self_flat) := flatten d false in
        let* (_, search_flat) := flatten search_ep false in
        tmap2 xsub search_flat self_flat
    end.

  Definition fam_to_nat (d : dist) : result dist :=
    match dcls d with
    | EP f =>
      match nat_args f with
      | Some l => make (NP f) (dparams d) l
      | None =>
        match f with
        | Chi =>                                            (* transformed_parametrization.py:86-88, chi.py:92-97 *)
            let* m := attr d "mean_log" in
            let* z := exp_to_nat (Dist (EP ChiSquare) DefaultMinimizer [("mean_log", m)] []) ChiSquare in
            let* k := attr z "k_over_two_minus_one" in
            construct (NP Chi) [("k_over_two_minus_one", k)] None
        | Logarithmic =>                                    (* logarithmic.py:94-100 *)
            let* z := exp_to_nat d f in
            let* lp := attr z "log_probability" in
            make (NP f) (("z", lp) :: dparams d)
              [ra "log_probability"
                 (ewhere (r1 (fun v => efalse_true (xltb v (Fin 1))) (self "chi")) (r1 (fun _ => NaN) (self "chi"))
                    (ewhere (r1 (fun v => efalse_true (xeqb v (Fin 1))) (self "chi")) (r1 (fun _ => PInf) (self "chi")) (self "z")))]
        | _ => exp_to_nat d f
        end
      end
    | _ => Err AttributeErr
    end.
  Definition fam_expected_carrier_measure (d : dist) : result (tensor xr) :=
    match dcls d with
    | EP f =>
        match f with
        | Chi | ChiSquare => let* q := fam_to_nat d in eval (dparams q) (ecm_e f)
        | _ => eval (dparams d) (ecm_e f)
        end
    | _ => Err AttributeErr
    end.

  Definition fam_methods : leaf_methods := {|
    l_log_normalizer := fam_log_normalizer;
    l_to_exp := fam_to_exp;
    l_to_nat := fam_to_nat;
    l_carrier_measure := fam_carrier_measure;
    l_sufficient_statistics := fam_sufficient_statistics;
    l_expected_carrier_measure := fam_expected_carrier_measure |}.
End Methods.
