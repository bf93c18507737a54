(** Conjugate priors: interfaces/conjugate_prior.py and its implementations. *)
From Coq Require Import String List Bool Arith Reals.
From Verif Require Import Base XReal Tensor Support Dist Iteration Structure Tools Joint SpecFun Expr Fam.
Import ListNotations.
Local Open Scope string_scope.
Local Open Scope nat_scope.
Local Open Scope ae_scope.

(** the argument n: the number of pseudo-observations *)
Definition NN : aexp KR := EVar KR "n".
(** conjugate_prior_distribution(n): the class of the prior and its constructor arguments *)
Definition prior_args (f : family) : option (family * list arg) :=
  match f with
  | Bernoulli =>                                                                    (* bernoulli.py:120-122 *)
      Some (Beta, [ra "alpha_minus_one" (ENewaxis NN * jstack (self "probability") (#1 - self "probability"))])
  | Exponential => Some (Gamma, [ra "negative_rate" ((- NN) / self "mean"); ra "shape_minus_one" NN]) (* exponential.py:112-113 *)
  | Poisson => Some (Gamma, [ra "negative_rate" (- NN); ra "shape_minus_one" (NN * self "mean")]) (* poisson.py:108-109 *)
  | Multinomial =>                                                                  (* multinomial.py:133-136 *)
      let final_p := #1 - jsum_keep (self "probability") in
      Some (Dirichlet, [ra "alpha_minus_one" (ENewaxis NN * jappend (self "probability") final_p)])
  | UnitNormal =>                                                                   (* normal/unit.py:116-118 *)
      Some (Normal, [ra "mean_times_precision" (NN * self "mean"); ra "negative_half_precision" (#(-1/2) * NN)])
  | MultivariateUnitNormal =>                                                       (* multivariate_normal/unit.py:125-127; jnp.ones(self.shape) is 1 + zeros(self.shape) *)
      Some (IsotropicNormal, [ra "mean_times_precision" (ENewaxis NN * self "mean");
                              ra "negative_half_precision" (#(-1/2) * NN * (#1 + EZeros 1 (self "mean")))])
  | MultivariateFixedVarianceNormal =>                                              (* multivariate_normal/fixed_variance.py:136-140 *)
      let n_over_variance := NN / self "variance" in
      Some (IsotropicNormal, [ra "mean_times_precision" (ENewaxis n_over_variance * self "mean");
                              ra "negative_half_precision" (#(-1/2) * n_over_variance)])
  | _ => None
  end.
(** generalized_conjugate_prior_distribution(n): n has an entry for every dimension.
    jnp.roll(a, -1, axis=-1).at[..., -1].set(0.0) and jnp.diff(a, append=1.0) *)
Definition jroll0 (e : aexp KR) : aexp KR := EGu (g_row (fun l => tl l ++ [Fin 0])%list (fun n => n)) e.
Definition jdiff1 (e : aexp KR) : aexp KR :=
  EGu (g_row (fun l => map (fun ab : xr * xr => xsub (fst ab) (snd ab)) (combine (tl l ++ [Fin 1]) l))%list (fun n => n)) e.
Definition gen_prior_args (f : family) : option (family * list arg) :=
  match f with
  | Multinomial =>                                                                  (* multinomial.py:139-146 *)
      let final_p := #1 - jsum_keep (self "probability") in
      let all_p := jappend (self "probability") final_p in
      let alpha := NN * all_p in
      let beta := NN * (#1 - all_p) in
      let gamma := (- jdiff1 beta) - jroll0 alpha in
      Some (GeneralizedDirichlet, [ra "alpha_minus_one" (alpha - #1); ra "gamma" gamma])
  | MultivariateUnitNormal =>                                                       (* multivariate_normal/unit.py:130-133 *)
      Some (MultivariateDiagonalNormal, [ra "mean_times_precision" (NN * self "mean"); ra "negative_half_precision" (#(-1/2) * NN)])
  | MultivariateFixedVarianceNormal =>                                              (* multivariate_normal/fixed_variance.py:143-147 *)
      let n_over_variance := NN / ENewaxis (self "variance") in
      Some (MultivariateDiagonalNormal, [ra "mean_times_precision" (n_over_variance * self "mean");
                                         ra "negative_half_precision" (#(-1/2) * n_over_variance)])
  | _ => None
  end.
Definition prior_of (l : family -> option (family * list arg)) (d : dist) (n : arr) : result dist :=
  match dcls d with
  | EP f => match l f with Some (g, args) => make (NP g) (("n", n) :: dparams d) args | None => Err AttributeErr end
  | _ => Err AttributeErr
  end.
Definition conjugate_prior_distribution : dist -> arr -> result dist := prior_of prior_args.
Definition generalized_conjugate_prior_distribution : dist -> arr -> result dist := prior_of gen_prior_args.
(** conjugate_prior_observation(): bernoulli.py:125-126, exponential.py:116-117, poisson.py:112-113, multinomial.py:149-150, normal/unit.py:121-122,
    multivariate_normal/unit.py:136-137, fixed_variance.py:150-151 *)
Definition conjugate_prior_observation (d : dist) : result arr :=
  match dcls d with
  | EP Bernoulli | EP Multinomial => opt_err AttributeErr (dget (dparams d) "probability")
  | EP Exponential | EP Poisson | EP UnitNormal | EP MultivariateUnitNormal | EP MultivariateFixedVarianceNormal => opt_err AttributeErr (dget (dparams d) "mean")
  | _ => Err AttributeErr
  end.
(** gen_dirichlet.py:83-90 alpha_beta: the parameters of the beta distributions of the sticks *)
Definition alpha_beta (d : dist) : result (tensor xr * tensor xr) :=
  let* alpha := eval (dparams d) gd_alpha in
  let* beta := eval (dparams d) gd_beta in
  Ok (alpha, beta).
