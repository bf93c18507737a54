(** Distribution objects and the class table.

    A distribution object is its class, the minimizer of an [ExpToNat] object
    (mixins/exp_to_nat/exp_to_nat.py:33), its parameter fields in declaration order, and
    its named sub-distributions (joint distributions only, transform/joint.py:19-24). *)
From Coq Require Import String List Bool Arith Reals.
From Verif Require Import Base XReal Tensor Support.
Import ListNotations.
Local Open Scope string_scope.
Set Implicit Arguments.

(** The exponential families exported by efax/__init__.py. *)
Inductive family :=
  | Bernoulli | Beta | Chi | ChiSquare
  | ComplexCircularlySymmetricNormal | ComplexMultivariateUnitNormal
  | ComplexNormal | ComplexUnitNormal
  | Dirichlet | Exponential | Gamma | GeneralizedDirichlet | Geometric | Logarithmic
  | Multinomial | MultivariateNormal | MultivariateDiagonalNormal
  | MultivariateFixedVarianceNormal | IsotropicNormal | MultivariateUnitNormal
  | NegativeBinomial | Normal | UnitNormal | Poisson | Rayleigh | VonMisesFisher | Weibull.

(** NP: natural parametrization classes; EP: expectation parametrization classes; the four
    variance parametrizations; the joint classes of transform/joint.py. *)
Inductive cls :=
  | NP (f : family) | EP (f : family)
  | GammaVP | NormalVP | MultivariateDiagonalNormalVP | MultivariateNormalVP
  | JointDistribution | JointDistributionE | JointDistributionN.

Record field_desc := FD { fd_name : string; fd_support : support; fd_fixed : bool }.

Definition var (n : string) (s : support) : field_desc := FD n s false.
Definition fixd (n : string) (s : support) : field_desc := FD n s true.
Definition minus_one_support (scale : R) : ring := mk_real_field (Some (-1)%R) None scale true true.
Definition unit_interval : ring := mk_real_field (Some 0%R) (Some 1%R) 1 true true.

(** The parameter fields (metadata parameter=True) of each class in declaration order:
    the [distribution_parameter] lines of efax/_src/distributions (file:lines at each case). *)
Definition fields (c : cls) : list field_desc :=
  match c with
  | NP Bernoulli => [var "log_odds" (ScalarS real_field)]                    (* bernoulli.py:33 *)
  | EP Bernoulli => [var "probability" (ScalarS unit_interval)]              (* bernoulli.py:87-88 *)
  | NP Beta | NP Dirichlet =>
      [var "alpha_minus_one" (VectorS (minus_one_support 3))]                (* dirichlet_common.py:28-29 *)
  | EP Beta | EP Dirichlet =>
      [var "mean_log_probability" (VectorS negative_support)]                (* dirichlet_common.py:65-66 *)
  | NP Chi => [var "k_over_two_minus_one" (ScalarS (minus_one_support 1))]   (* chi.py:28-29 *)
  | EP Chi => [var "mean_log" (ScalarS real_field)]                          (* chi.py:74 *)
  | NP ChiSquare => [var "k_over_two_minus_one" (ScalarS (minus_one_support 1))] (* chi_square.py:32-33 *)
  | EP ChiSquare => [var "mean_log" (ScalarS real_field)]                    (* chi_square.py:87 *)
  | NP ComplexCircularlySymmetricNormal =>
      [var "negative_precision" (SymS complex_field true false true)]        (* cmvn/circularly_symmetric.py:34-35 *)
  | EP ComplexCircularlySymmetricNormal =>
      [var "variance" (SymS complex_field true true false)]                  (* cmvn/circularly_symmetric.py:95-96 *)
  | NP ComplexMultivariateUnitNormal =>
      [var "two_mean_conjugate" (VectorS complex_field)]                     (* cmvn/unit.py:33 *)
  | EP ComplexMultivariateUnitNormal => [var "mean" (VectorS complex_field)] (* cmvn/unit.py:91 *)
  | NP ComplexNormal =>                                                      (* complex_normal/complex_normal.py:38-42 *)
      [var "mean_times_precision" (ScalarS complex_field);
       var "negative_precision" (ScalarS negative_support);
       var "pseudo_precision" (ScalarS complex_field)]
  | EP ComplexNormal =>                                                      (* complex_normal/complex_normal.py:115-118 *)
      [var "mean" (ScalarS complex_field);
       var "second_moment" (ScalarS positive_support);
       var "pseudo_second_moment" (ScalarS complex_field)]
  | NP ComplexUnitNormal => [var "two_mean_conjugate" (ScalarS complex_field)] (* complex_normal/unit.py:29 *)
  | EP ComplexUnitNormal => [var "mean" (ScalarS complex_field)]             (* complex_normal/unit.py:82 *)
  | NP Exponential => [var "negative_rate" (ScalarS negative_support)]       (* exponential.py:29 *)
  | EP Exponential => [var "mean" (ScalarS positive_support)]                (* exponential.py:78 *)
  | NP Gamma => [var "negative_rate" (ScalarS negative_support);             (* gamma.py:34-36 *)
                 var "shape_minus_one" (ScalarS (minus_one_support 1))]
  | EP Gamma => [var "mean" (ScalarS positive_support);                      (* gamma.py:95-96 *)
                 var "mean_log" (ScalarS real_field)]
  | GammaVP => [var "mean" (ScalarS positive_support);                       (* gamma.py:153-154 *)
                var "variance" (ScalarS positive_support)]
  | NP GeneralizedDirichlet =>                                               (* gen_dirichlet.py:31-34 *)
      [var "alpha_minus_one" (VectorS (minus_one_support 3));
       var "gamma" (VectorS (mk_real_field (Some 0%R) None 3 true true))]
  | EP GeneralizedDirichlet =>                                               (* gen_dirichlet.py:99-103 *)
      [var "mean_log_probability" (VectorS negative_support);
       var "mean_log_cumulative_probability" (VectorS negative_support)]
  | NP Geometric => [var "log_not_p" (ScalarS negative_support)]             (* geometric.py:34 *)
  | EP Geometric => [var "mean" (ScalarS positive_support)]                  (* geometric.py:69 *)
  | NP Logarithmic => [var "log_probability" (ScalarS negative_support)]     (* logarithmic.py:29 *)
  | EP Logarithmic => [var "chi" (ScalarS (mk_real_field (Some 1%R) None 1 true true))] (* logarithmic.py:74 *)
  | NP Multinomial => [var "log_odds" (VectorS real_field)]                  (* multinomial.py:34 *)
  | EP Multinomial => [var "probability" (VectorS unit_interval)]            (* multinomial.py:105-106 *)
  | NP MultivariateNormal =>                                                 (* multivariate_normal/arbitrary.py:30-32 *)
      [var "mean_times_precision" (VectorS real_field);
       var "negative_half_precision" (SymS real_field false false true)]
  | EP MultivariateNormal =>                                                 (* multivariate_normal/arbitrary.py:79-81 *)
      [var "mean" (VectorS real_field);
       var "second_moment" (SymS real_field false true false)]
  | MultivariateNormalVP =>                                                  (* multivariate_normal/arbitrary.py:131-132 *)
      [var "mean" (VectorS real_field);
       var "variance" (SymS real_field false false false)]
  | NP MultivariateDiagonalNormal =>                                         (* multivariate_normal/diagonal.py:32-34 *)
      [var "mean_times_precision" (VectorS real_field);
       var "negative_half_precision" (VectorS negative_support)]
  | EP MultivariateDiagonalNormal =>                                         (* multivariate_normal/diagonal.py:88-89 *)
      [var "mean" (VectorS real_field);
       var "second_moment" (VectorS positive_support)]
  | MultivariateDiagonalNormalVP =>                                          (* multivariate_normal/diagonal.py:137-138 *)
      [var "mean" (VectorS real_field);
       var "variance" (VectorS real_field)]
  | NP MultivariateFixedVarianceNormal =>                                    (* multivariate_normal/fixed_variance.py:37-39 *)
      [var "mean_times_precision" (VectorS real_field);
       fixd "variance" (ScalarS positive_support)]
  | EP MultivariateFixedVarianceNormal =>                                    (* multivariate_normal/fixed_variance.py:97-99 *)
      [var "mean" (VectorS real_field);
       fixd "variance" (ScalarS positive_support)]
  | NP IsotropicNormal =>                                                    (* multivariate_normal/isotropic.py:31-33 *)
      [var "mean_times_precision" (VectorS real_field);
       var "negative_half_precision" (ScalarS negative_support)]
  | EP IsotropicNormal =>                                                    (* multivariate_normal/isotropic.py:89-90 *)
      [var "mean" (VectorS real_field);
       var "total_second_moment" (ScalarS positive_support)]
  | NP MultivariateUnitNormal => [var "mean" (VectorS real_field)]           (* multivariate_normal/unit.py:35 *)
  | EP MultivariateUnitNormal => [var "mean" (VectorS real_field)]           (* multivariate_normal/unit.py:94 *)
  | NP NegativeBinomial =>                                                   (* negative_binomial.py:33-35 *)
      [var "log_not_p" (ScalarS negative_support);
       fixd "failures" (ScalarS (IntR (Some 1%Z) None))]
  | EP NegativeBinomial =>                                                   (* negative_binomial.py:68-70 *)
      [var "mean" (ScalarS positive_support);
       fixd "failures" (ScalarS (IntR (Some 1%Z) None))]
  | NP Normal => [var "mean_times_precision" (ScalarS real_field);           (* normal/normal.py:31-33 *)
                  var "negative_half_precision" (ScalarS negative_support)]
  | EP Normal => [var "mean" (ScalarS real_field);                           (* normal/normal.py:85-86 *)
                  var "second_moment" (ScalarS positive_support)]
  | NormalVP => [var "mean" (ScalarS real_field);                            (* normal/normal.py:135-136 *)
                 var "variance" (ScalarS positive_support)]
  | NP UnitNormal => [var "mean" (ScalarS real_field)]                       (* normal/unit.py:32 *)
  | EP UnitNormal => [var "mean" (ScalarS real_field)]                       (* normal/unit.py:85 *)
  | NP Poisson => [var "log_mean" (ScalarS real_field)]                      (* poisson.py:30 *)
  | EP Poisson => [var "mean" (ScalarS positive_support)]                    (* poisson.py:75 *)
  | NP Rayleigh => [var "eta" (ScalarS negative_support)]                    (* rayleigh.py:29 *)
  | EP Rayleigh => [var "chi" (ScalarS positive_support)]                    (* rayleigh.py:82 *)
  | NP VonMisesFisher => [var "mean_times_concentration" (VectorS real_field)] (* von_mises.py:30 *)
  | EP VonMisesFisher => [var "mean" (CircS 1)]                              (* von_mises.py:98 *)
  | NP Weibull => [fixd "concentration" (ScalarS positive_support);          (* weibull.py:30-32 *)
                   var "eta" (ScalarS negative_support)]
  | EP Weibull => [fixd "concentration" (ScalarS positive_support);          (* weibull.py:81-83 *)
                   var "chi" (ScalarS positive_support)]
  | JointDistribution | JointDistributionE | JointDistributionN => []        (* transform/joint.py:19-20, 71-74, 100-103 *)
  end.

(** isinstance(q, Multidimensional), with the parameter whose last axis [dimensions()] reads
    (the [def dimensions] methods; interfaces/multidimensional.py:8-11) *)
Definition dimensions_field (c : cls) : option string :=
  match c with
  | NP Beta | NP Dirichlet => Some "alpha_minus_one"                         (* dirichlet_common.py:49-50 *)
  | EP Beta | EP Dirichlet => Some "mean_log_probability"                    (* dirichlet_common.py:78-79 *)
  | NP ComplexCircularlySymmetricNormal => Some "negative_precision"         (* cmvn/circularly_symmetric.py:78-79 *)
  | EP ComplexCircularlySymmetricNormal => Some "variance"                   (* cmvn/circularly_symmetric.py:136-137 *)
  | NP ComplexMultivariateUnitNormal => Some "two_mean_conjugate"            (* cmvn/unit.py:75-76 *)
  | EP ComplexMultivariateUnitNormal => Some "mean"                          (* cmvn/unit.py:135-136 *)
  | NP GeneralizedDirichlet => Some "alpha_minus_one"                        (* gen_dirichlet.py:80-81 *)
  | EP GeneralizedDirichlet => Some "mean_log_probability"                   (* gen_dirichlet.py:133-134 *)
  | NP Multinomial => Some "log_odds"                                        (* multinomial.py:78-79 *)
  | EP Multinomial => Some "probability"                                     (* multinomial.py:153-154 *)
  | NP MultivariateNormal | NP MultivariateDiagonalNormal | NP MultivariateFixedVarianceNormal
  | NP IsotropicNormal => Some "mean_times_precision"                        (* multivariate_normal/arbitrary.py:71-72, diagonal.py:73-74, fixed_variance.py:78-79, isotropic.py:70-71 *)
  | NP MultivariateUnitNormal | EP MultivariateUnitNormal
  | EP MultivariateNormal | EP MultivariateDiagonalNormal | EP MultivariateFixedVarianceNormal
  | EP IsotropicNormal | MultivariateNormalVP | MultivariateDiagonalNormalVP => Some "mean"
                                                                             (* the def dimensions of the same files *)
  | NP VonMisesFisher => Some "mean_times_concentration"                     (* von_mises.py:71-72 *)
  | EP VonMisesFisher => Some "mean"                                         (* von_mises.py:142-143 *)
  | _ => None
  end.

(** The shape property: the parameter it reads and how many trailing axes it drops
    (the [def shape] methods; the transformed families Chi, Rayleigh delegate to the base
    distribution built from the listed parameter, mixins/transformed_parametrization.py:40-43). *)
Definition shape_field (c : cls) : option (string * nat) :=
  match c with
  | NP Bernoulli => Some ("log_odds", 0)
  | EP Bernoulli => Some ("probability", 0)
  | NP Beta | NP Dirichlet => Some ("alpha_minus_one", 1)
  | EP Beta | EP Dirichlet => Some ("mean_log_probability", 1)
  | NP Chi | NP ChiSquare => Some ("k_over_two_minus_one", 0)
  | EP Chi | EP ChiSquare => Some ("mean_log", 0)
  | NP ComplexCircularlySymmetricNormal => Some ("negative_precision", 2)
  | EP ComplexCircularlySymmetricNormal => Some ("variance", 2)
  | NP ComplexMultivariateUnitNormal => Some ("two_mean_conjugate", 1)
  | EP ComplexMultivariateUnitNormal => Some ("mean", 1)
  | NP ComplexNormal => Some ("mean_times_precision", 0)
  | EP ComplexNormal => Some ("mean", 0)
  | NP ComplexUnitNormal => Some ("two_mean_conjugate", 0)
  | EP ComplexUnitNormal => Some ("mean", 0)
  | NP Exponential => Some ("negative_rate", 0)
  | EP Exponential => Some ("mean", 0)
  | NP Gamma => Some ("negative_rate", 0)
  | EP Gamma => Some ("mean", 0)
  | GammaVP => Some ("mean", 1)                                              (* gamma.py:159: mean.shape[:-1] *)
  | NP GeneralizedDirichlet => Some ("alpha_minus_one", 1)
  | EP GeneralizedDirichlet => Some ("mean_log_probability", 1)
  | NP Geometric => Some ("log_not_p", 0)
  | EP Geometric => Some ("mean", 0)
  | NP Logarithmic => Some ("log_probability", 0)
  | EP Logarithmic => Some ("chi", 0)
  | NP Multinomial => Some ("log_odds", 1)
  | EP Multinomial => Some ("probability", 1)
  | NP MultivariateNormal | NP MultivariateDiagonalNormal | NP MultivariateFixedVarianceNormal
      => Some ("mean_times_precision", 1)
  | NP IsotropicNormal => Some ("negative_half_precision", 0)                (* multivariate_normal/isotropic.py:38 *)
  | EP MultivariateNormal | EP MultivariateDiagonalNormal | EP MultivariateFixedVarianceNormal
  | EP IsotropicNormal | MultivariateNormalVP | MultivariateDiagonalNormalVP => Some ("mean", 1)
  | NP MultivariateUnitNormal | EP MultivariateUnitNormal => Some ("mean", 1)
  | NP NegativeBinomial => Some ("log_not_p", 0)
  | EP NegativeBinomial => Some ("mean", 0)
  | NP Normal => Some ("mean_times_precision", 0)
  | EP Normal | NormalVP => Some ("mean", 0)
  | NP UnitNormal | EP UnitNormal => Some ("mean", 0)
  | NP Poisson => Some ("log_mean", 0)
  | EP Poisson => Some ("mean", 0)
  | NP Rayleigh => Some ("eta", 0)
  | EP Rayleigh => Some ("chi", 0)
  | NP VonMisesFisher => Some ("mean_times_concentration", 1)
  | EP VonMisesFisher => Some ("mean", 1)
  | NP Weibull => Some ("eta", 0)
  | EP Weibull => Some ("chi", 0)
  | JointDistribution | JointDistributionE | JointDistributionN => None
  end.

Definition is_joint (c : cls) : bool :=
  match c with JointDistribution | JointDistributionE | JointDistributionN => true | _ => false end.
(** issubclass(c, ExpectationParametrization) / issubclass(c, NaturalParametrization) *)
Definition is_exp (c : cls) : bool :=
  match c with EP _ | JointDistributionE => true | _ => false end.
Definition is_nat (c : cls) : bool :=
  match c with NP _ | JointDistributionN => true | _ => false end.

(** natural_parametrization_cls / expectation_parametrization_cls (each class's method;
    transform/joint.py:82-83, natural_parametrization.py:85-87) *)
Definition nat_cls (c : cls) : cls :=
  match c with EP f => NP f | JointDistributionE => JointDistributionN | _ => c end.
Definition exp_cls (c : cls) : cls :=
  match c with NP f => EP f | JointDistributionN => JointDistributionE | _ => c end.

(** The minimizer of an ExpToNat object: the default chosen by __post_init__
    (mixins/exp_to_nat/exp_to_nat.py:35-46) or one supplied by the user. *)
Inductive minimizer := DefaultMinimizer | CustomMinimizer (n : nat).

Inductive dist := Dist (c : cls) (m : minimizer) (ps : dict string arr) (subs : list (string * dist)).

Definition dcls (d : dist) : cls := let '(Dist c _ _ _) := d in c.
Definition dmin (d : dist) : minimizer := let '(Dist _ m _ _) := d in m.
Definition dparams (d : dist) : dict string arr := let '(Dist _ _ ps _) := d in ps.
(** sub_distributions(): transform/joint.py:23-24; {} for SimpleDistribution (parametrization.py:47-48) *)
Definition sub_distributions (d : dist) : dict string dist := let '(Dist _ _ _ s) := d in s.

Definition cls_eq_dec (a b : cls) : {a = b} + {a <> b}.
Proof. decide equality; decide equality. Defined.

(** getattr(q, name) for a parameter field *)
Definition attr (d : dist) (n : string) : result arr := opt_err AttributeErr (dget (dparams d) n).

(** support(cls, fixed=...): iteration.py:151-183 *)
Definition class_support (c : cls) (fixed : option bool) : dict string support :=
  map (fun f => (fd_name f, fd_support f))
      (filter (fun f => match fixed with None => true | Some b => Bool.eqb (fd_fixed f) b end)
              (fields c)).

(** adjust_support: parametrization.py:37-39, overridden in complex_normal/complex_normal.py:92-96
    (ComplexNormalNP).  ComplexNormalEP overrides it too (:155-159) but tests for the name
    'pseudo_precision', which it does not have, so there it never applies. *)
Definition adjust_support (c : cls) (name : string) (kwargs : dict string arr) : result support :=
  let default := opt_err KeyError (dget (class_support c None) name) in
  match c with
  | NP ComplexNormal | EP ComplexNormal =>
      if string_dec name "pseudo_precision" then
        let* np := dindex kwargs "negative_precision" in
        let* np := as_real np in
        Ok (ScalarS (ComplexF (BFloat 0) (Some (BArr (tmap (fun v => xabs (xneg v)) np)))))
      else default
  | _ => default
  end.

(** The constructor info.type_ applied to kwargs (dataclass __init__): every parameter field must be given
    and nothing else; a joint class needs _sub_distributions, a simple class rejects it;
    the minimizer is the default (exp_to_nat.py:33, 35-46). *)
Definition construct (c : cls) (kwargs : dict string arr) (subs : option (dict string dist)) : result dist :=
  let names := map fd_name (fields c) in
  if negb (forallb (fun k => if in_dec string_dec k names then true else false) (keys kwargs))
  then Err TypeError else
  let* ps := mapM (fun n => let* v := opt_err TypeError (dget kwargs n) in Ok (n, v)) names in
  match is_joint c, subs with
  | true, Some s => Ok (Dist c DefaultMinimizer ps s)
  | false, None => Ok (Dist c DefaultMinimizer ps [])
  | _, _ => Err TypeError
  end.

(** q.dimensions() if isinstance(q, Multidimensional) else 1 (structure.py:131-135) *)
Definition dims_of (d : dist) : result nat :=
  match dimensions_field (dcls d) with
  | None => Ok 1
  | Some n => let* a := attr d n in opt_err IndexErr (last_dim (ashape a))
  end.

(** the shape property; JointDistribution.shape: transform/joint.py:62-67 (first sub-distribution) *)
Fixpoint dshape (d : dist) : result shape :=
  let '(Dist c _ ps subs) := d in
  match shape_field c with
  | Some (n, k) =>
      let* a := opt_err AttributeErr (dget ps n) in
      Ok (firstn (length (ashape a) - k) (ashape a))
  | None => match subs with
            | [] => Err ValueError
            | (_, s) :: _ => dshape s
            end
  end.

(** domain_support() of each simple class (the [def domain_support] methods); None for the joint
    classes, which are not SimpleDistributions *)
Definition domain_support (c : cls) : option support :=
  match c with
  | NP Bernoulli | EP Bernoulli => Some (ScalarS boolean_ring)               (* bernoulli.py:43, 98 *)
  | NP Beta | EP Beta => Some (ScalarS unit_interval)                        (* beta.py:33, 72 *)
  | NP Chi | EP Chi => Some (ScalarS positive_support)                       (* chi.py:34, 79 *)
  | NP ComplexCircularlySymmetricNormal | EP ComplexCircularlySymmetricNormal
  | NP ComplexMultivariateUnitNormal | EP ComplexMultivariateUnitNormal =>
      Some (VectorS complex_field)                                           (* cmvn/circularly_symmetric.py:51, 106; cmvn/unit.py:49, 101 *)
  | NP ComplexNormal | EP ComplexNormal | NP ComplexUnitNormal | EP ComplexUnitNormal =>
      Some (ScalarS complex_field)                                           (* complex_normal/complex_normal.py:52, 128; unit.py:45, 92 *)
  | NP Dirichlet | EP Dirichlet => Some (SimplexS real_field)                (* dirichlet.py:27, 56 *)
  | NP Logarithmic | EP Logarithmic => Some (ScalarS (IntR (Some 1%Z) None)) (* logarithmic.py:39, 84 *)
  | NP Poisson | EP Poisson | NP Geometric | EP Geometric
  | NP NegativeBinomial | EP NegativeBinomial => Some (ScalarS integral_ring) (* poisson.py:40, 85; negative_binomial_common.py:33, 69 *)
  | NP VonMisesFisher | EP VonMisesFisher | NP Multinomial | EP Multinomial
  | NP MultivariateNormal | EP MultivariateNormal | MultivariateNormalVP
  | NP MultivariateUnitNormal | EP MultivariateUnitNormal
  | NP IsotropicNormal | EP IsotropicNormal
  | NP MultivariateFixedVarianceNormal | EP MultivariateFixedVarianceNormal
  | NP MultivariateDiagonalNormal | EP MultivariateDiagonalNormal | MultivariateDiagonalNormalVP
  | NP GeneralizedDirichlet | EP GeneralizedDirichlet => Some (VectorS real_field)
                         (* von_mises.py:40, 108; multinomial.py:44, 116; multivariate_normal/*; gen_dirichlet.py:44, 113 *)
  | NP Exponential | EP Exponential | NP Rayleigh | EP Rayleigh | NP Weibull | EP Weibull
  | NP Gamma | EP Gamma | GammaVP | NP ChiSquare | EP ChiSquare
  | NP Normal | EP Normal | NormalVP | NP UnitNormal | EP UnitNormal => Some (ScalarS real_field)
                         (* exponential.py:39, 88; rayleigh.py:34, 87; weibull.py:42, 93; gamma.py:46, 106, 164;
                            chi_square.py:43, 102; normal/normal.py:43, 96, 146; normal/unit.py:42, 95 *)
  | JointDistribution | JointDistributionE | JointDistributionN => None
  end.
