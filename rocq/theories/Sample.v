(** The [sample] methods (efax/_src/distributions).  jax.random is an oracle: a request (the function called and its array arguments)
    with a key gives whatever values the oracle holds for them; the shapes are those jax documents. *)
From Coq Require Import String List Bool Arith Reals.
From Verif Require Import Base XReal Tensor Support Dist Iteration Structure Tools Joint SpecFun Expr Fam Var.
Import ListNotations.
Local Open Scope string_scope.
Local Open Scope nat_scope.
Local Open Scope ae_scope.
Set Implicit Arguments.

(** the jax.random functions used *)
Inductive rkind := Bernoulli_ | Beta_ | Dirichlet_ | Chisquare_ | Exponential_ | Gamma_ | Geometric_ | Categorical_ | Poisson_ | Rayleigh_
  | Weibull_min_ | Multivariate_normal_ | Normal_.
Record request := Req { r_kind : rkind; r_args : list (tensor xr) }.
(** the number of trailing axes of argument k that belong to one draw *)
Definition arg_event (k : rkind) (m : nat) : nat :=
  match k, m with Dirichlet_, _ => 1 | Categorical_, _ => 1 | Multivariate_normal_, 0 => 1 | Multivariate_normal_, _ => 2 | _, _ => 0 end.
Definition batch_of (drop : nat) (s : shape) : shape := firstn (length s - drop) s.
(** the shape used when [shape] is None: the broadcast batch shapes of the arguments *)
Fixpoint args_shape (k : rkind) (m : nat) (l : list (tensor xr)) : result shape :=
  match l with
  | [] => Ok []
  | t :: l' =>
      if arg_event k m <=? rank t then
        let* s := args_shape k (S m) l' in
        opt_err ValueError (bshape (batch_of (arg_event k m) (shp t)) s)
      else Err ValueError
  end.
(** the trailing shape of one draw: the last axis of the first argument for dirichlet and multivariate_normal *)
Definition draw_event (r : request) : shape :=
  match r_kind r, r_args r with
  | Dirichlet_, t :: _ | Multivariate_normal_, t :: _ => [last (shp t) 0]
  | _, _ => []
  end.

(** what the method does with the draw *)
Inductive post :=
  | PId
  | PInit                                   (* draw[..., :-1] *)
  | POneHot                                 (* one_hot(draw, self.dimensions()) *)
  | PNegDiv (e : aexp KR)                   (* -draw / e *)
  | PMul (e : aexp KR)                      (* draw * e *)
  | PScale (dev mean : aexp KR)             (* draw * dev + mean *)
  | PShift (mean : aexp KR)                 (* draw + mean *)
  | PComplex (mean : aexp KC)               (* a + 1j * b + mean, where b is drawn with the same key as a *)
  | PPair                                   (* draw[..., 0] + 1j * draw[..., 1] *)
  | PHalves.                                (* draw[..., :n] + 1j * draw[..., n:] *)
(** [s_mean]: the requested shape is shape + self.mean.shape instead of shape + self.shape;
    [s_none]: a shape of None is handed on to jax instead of being replaced by self.shape (self.mean.shape) *)
Record sampler := Sampler { s_kind : rkind; s_mean : bool; s_none : bool; s_args : list (aexp KR); s_post : post }.

(** jnp.stack([a, b], axis=-2) of two vectors; jnp.block([[a, -b], [b, a]]) of two square matrices; v.imag *)
Definition jstack_rows (a b : aexp KR) : aexp KR :=
  EGu2 (@Gufunc2 KR KR KR 1 1 (fun _ _ => true) (fun s _ => [2; hd 0 s])
                (fun _ _ l l' j => nth (ix j 1) (if ix j 0 =? 0 then l else l') NaN)) a b.
Definition jblock (a b : aexp KR) : aexp KR :=
  EGu2 (@Gufunc2 KR KR KR 2 2 (fun s s' => square2 s && square2 s' && (hd 0 s =? hd 0 s')) (fun s _ => [hd 0 s + hd 0 s; hd 0 s + hd 0 s])%nat
                (fun s _ l l' j => let n := hd 0 s in let r := ix j 0 in let c := ix j 1 in
                   let get (m : list xr) r c := nth (r * n + c)%nat m NaN in
                   if r <? n then if c <? n then get l r c else xneg (get l' r (c - n)%nat)
                   else if c <? n then get l' (r - n)%nat c else get l (r - n)%nat (c - n)%nat)) a b.
Definition imag_ : aexp KC -> aexp KR := @EMap KC KR xim.

(** the NP classes that draw themselves *)
Definition np_sampler (f : family) : option sampler :=
  match f with
  | Beta =>                                                                          (* beta.py:50-54 *)
      let alpha := #1 + self "alpha_minus_one" in
      Some (Sampler Beta_ false true [jat 0 alpha; jat 1 alpha] PId)
  | Dirichlet => Some (Sampler Dirichlet_ false true [#1 + self "alpha_minus_one"] PInit)   (* dirichlet_common.py:43-46 *)
  | ChiSquare => Some (Sampler Chisquare_ false true [(self "k_over_two_minus_one" + #1) * #2] PId)   (* chi_square.py:66-70 *)
  | Exponential => Some (Sampler Exponential_ false false [] (PNegDiv (self "negative_rate")))        (* exponential.py:60-65 *)
  | Gamma => Some (Sampler Gamma_ false true [self "shape_minus_one" + #1] (PNegDiv (self "negative_rate")))  (* gamma.py:70-73 *)
  | Multinomial => Some (Sampler Categorical_ false true [self "log_odds"] POneHot)  (* multinomial.py:71-75 *)
  | Rayleigh => Some (Sampler Rayleigh_ false true [jsqrt (#(-1/2) / self "eta")] PId)   (* rayleigh.py:66-70 *)
  | MultivariateUnitNormal | UnitNormal => Some (Sampler Normal_ true false [] (PShift (self "mean")))
                                                                                     (* multivariate_normal/unit.py:68-73, normal/unit.py:65-70 *)
  | _ => None
  end.
(** the covariance of the real and imaginary parts: complex_normal/complex_normal.py:161-169 *)
Definition cn_cov : aexp KR :=
  let variance := self "second_moment" - abs_sq (selfc "mean") in
  let pseudo_variance := csub_ (selfc "pseudo_second_moment") (csq (selfc "mean")) in
  let xx := variance + real_ pseudo_variance in
  let xy := imag_ pseudo_variance in
  let yy := variance - real_ pseudo_variance in
  #(1/2) * jstack_rows (jstack xx xy) (jstack xy yy).
(** cmvn/circularly_symmetric.py:139-148; the mean, zeros of shape self.shape + (2n,), is written as a row of zeros as long as a row of the covariance *)
Definition ccsn_cov : aexp KR :=
  jblock (#(1/2) * real_ (selfc "variance")) (#(1/2) * imag_ (selfc "variance")).
Definition first_row_zeros (e : aexp KR) : aexp KR :=
  EGu (@Gufunc KR KR 2 (fun _ => true) (fun s => tl s) (fun _ _ _ => Fin 0)) e.
(** the EP classes that draw themselves, except NegativeBinomial *)
Definition ep_sampler (f : family) : option sampler :=
  match f with
  | Bernoulli => Some (Sampler Bernoulli_ false true [self "probability"] PId)       (* bernoulli.py:114-117 *)
  | Exponential => Some (Sampler Exponential_ false false [] (PMul (self "mean")))   (* exponential.py:104-109 *)
  | Geometric => Some (Sampler Geometric_ false true [#1 / self "mean"] PId)         (* geometric.py:85-89 *)
  | Poisson => Some (Sampler Poisson_ false false [self "mean"] PId)                 (* poisson.py:100-105 *)
  | Rayleigh => Some (Sampler Rayleigh_ false true [jsqrt (#(1/2) * self "chi")] PId)   (* rayleigh.py:112-116 *)
  | Weibull =>                                                                       (* weibull.py:111-117 *)
      Some (Sampler Weibull_min_ false false [jpow (self "chi") (#1 / self "concentration"); self "concentration"] PId)
  | ComplexCircularlySymmetricNormal =>                                              (* cmvn/circularly_symmetric.py:123-133 *)
      Some (Sampler Multivariate_normal_ false false [first_row_zeros ccsn_cov; ccsn_cov] PHalves)
  | ComplexMultivariateUnitNormal | ComplexUnitNormal =>                             (* cmvn/unit.py:118-125, complex_normal/unit.py:109-116 *)
      Some (Sampler Normal_ true false [] (PComplex (selfc "mean")))
  | ComplexNormal =>                                                                 (* complex_normal/complex_normal.py:172-180 *)
      Some (Sampler Multivariate_normal_ false false [jstack (real_ (selfc "mean")) (imag_ (selfc "mean")); cn_cov] PPair)
  | Normal => Some (Sampler Normal_ false false [] (PScale (jsqrt variance_e) (self "mean")))   (* normal/normal.py:112-118 *)
  | MultivariateFixedVarianceNormal =>                                               (* multivariate_normal/fixed_variance.py:126-133 *)
      Some (Sampler Normal_ true false [] (PScale (jsqrt (ENewaxis (self "variance"))) (self "mean")))
  | IsotropicNormal =>                                                               (* multivariate_normal/isotropic.py:119-125 *)
      Some (Sampler Normal_ true false [] (PScale (ENewaxis (jsqrt isotropic_variance)) (self "mean")))
  | _ => None
  end.
(** the VP classes that draw themselves *)
Definition vp_sampler (c : cls) : option sampler :=
  match c with
  | NormalVP | MultivariateDiagonalNormalVP =>                                       (* normal/normal.py:149-155, multivariate_normal/diagonal.py:151-157 *)
      Some (Sampler Normal_ true false [] (PScale (jsqrt (self "variance")) (self "mean")))
  | MultivariateNormalVP => Some (Sampler Multivariate_normal_ false false [self "mean"; self "variance"] PId)
                                                                                     (* multivariate_normal/arbitrary.py:145-150 *)
  | _ => None
  end.

Section Sampling.
  Context {K : Type}.
  Variable split2 : K -> K * K.
  (** draw key request batch-shape index *)
  Variable draw : K -> request -> shape -> index -> xr.
  Variable L : leaf_methods.

  (** jax.random.f(key, *args, shape) *)
  Definition jrandom (key : K) (r : request) (sh : option shape) : result (tensor xr) :=
    let* a := args_shape (r_kind r) 0 (r_args r) in
    let* s := match sh with
              | None => Ok a
              | Some s => match bshape a s with
                          | Some s' => if list_eq_dec Nat.eq_dec s' s then Ok s else Err ValueError
                          | None => Err ValueError
                          end
              end in
    Ok (tbuild (s ++ draw_event r) (draw key r s)).
  (** jax.nn.one_hot: row k of the identity matrix, zero when k is out of range *)
  Definition one_hot (t : tensor xr) (n : nat) : tensor xr :=
    tbuild (shp t ++ [n]) (fun i => if xeqb (tget t (removelast i)) (Fin (INR (last i 0%nat))) then Fin 1 else Fin 0).
  Definition apply_post (q : dist) (key : K) (r : request) (sh : option shape) (p : post) (t : tensor xr) : result arr :=
    let env := dparams q in
    match p with
    | PId => Ok (RA t)
    | PInit => Ok (RA (tslice 0 (last (shp t) 0 - 1) t))
    | POneHot => let* n := dims_of q in Ok (RA (one_hot t n))
    | PNegDiv e => let* v := eval env e in let* x := tmap2 xdiv (tmap xneg t) v in Ok (RA x)
    | PMul e => let* v := eval env e in let* x := tmap2 xmul t v in Ok (RA x)
    | PScale dev mean =>
        let* d := eval env dev in let* m := eval env mean in
        let* y := tmap2 xmul t d in let* x := tmap2 xadd y m in Ok (RA x)
    | PShift mean => let* m := eval env mean in let* x := tmap2 xadd t m in Ok (RA x)
    | PComplex mean =>
        let* u := jrandom key r sh in
        let* m := eval env mean in let* z := tmap2 XC t u in let* x := tmap2 cadd z m in Ok (CA x)
    | PPair => let* z := tmap2 XC (tlast 0 t) (tlast 1 t) in Ok (CA z)
    | PHalves =>
        let* n := dims_of q in
        let* z := tmap2 XC (tslice 0 n t) (tslice n (last (shp t) 0) t) in Ok (CA z)
    end.
  Definition run (sp : sampler) (q : dist) (key : K) (sh : option shape) : result arr :=
    let* base := if s_mean sp then let* m := attr q "mean" in Ok (ashape m) else dshape q in
    let sh' := match sh with
               | Some s => Some (s ++ base)%list
               | None => if s_none sp then None else Some base
               end in
    let* args := mapM (eval (dparams q)) (s_args sp) in
    let r := Req (s_kind sp) args in
    let* t := jrandom key r sh' in
    apply_post q key r sh' (s_post sp) t.
  Definition opt_run (o : option sampler) (q : dist) (key : K) (sh : option shape) : result arr :=
    match o with Some sp => run sp q key sh | None => Err AttributeErr end.

  (** NegativeBinomialEP.sample: negative_binomial.py:86-94 *)
  Definition nb_sample (q : dist) (key : K) (sh : option shape) : result arr :=
    let '(gamma_key, poisson_key) := split2 key in
    let r := self "failures" in
    let* g := make (NP Gamma) (dparams q) [ra "negative_rate" (- r / self "mean"); ra "shape_minus_one" (r - #1)] in
    let* lambda_ := opt_run (np_sampler Gamma) g gamma_key sh in
    let* p := construct (EP Poisson) [("mean", lambda_)] None in
    opt_run (ep_sampler Poisson) p poisson_key None.
  Definition ep_draw (f : family) (e : dist) (key : K) (sh : option shape) : result arr :=
    match f with NegativeBinomial => nb_sample e key sh | _ => opt_run (ep_sampler f) e key sh end.

  (** sample(key, shape) of a simple distribution *)
  Definition sample (q : dist) (key : K) (sh : option shape) : result arr :=
    match dcls q with
    | NP f =>
        match f with
        (* the NP classes that draw themselves *)
        | Beta | Dirichlet | ChiSquare | Exponential | Gamma | Multinomial | Rayleigh | MultivariateUnitNormal | UnitNormal =>
            opt_run (np_sampler f) q key sh
        | Normal => let* v := np_to_var q in opt_run (vp_sampler (dcls v)) v key sh           (* normal/normal.py:70-71 *)
        (* self.to_exp().sample(key, shape): bernoulli.py:73-74, geometric.py:51-52, negative_binomial.py:48-49, poisson.py:61-62,
           weibull.py:66-67, cmvn/circularly_symmetric.py:74-75, cmvn/unit.py:71-72, complex_normal/unit.py:67-68,
           complex_normal/complex_normal.py:99-100, multivariate_normal/fixed_variance.py:74-75, isotropic.py:74-75 *)
        | Bernoulli | Geometric | NegativeBinomial | Poisson | Weibull | ComplexCircularlySymmetricNormal | ComplexMultivariateUnitNormal
        | ComplexUnitNormal | ComplexNormal | MultivariateFixedVarianceNormal | IsotropicNormal =>
            let* e := l_to_exp L q in ep_draw f e key sh
        | MultivariateDiagonalNormal =>                                              (* multivariate_normal/diagonal.py:69-70, 115-116 *)
            let* e := l_to_exp L q in let* v := ep_to_var e in opt_run (vp_sampler (dcls v)) v key sh
        | _ => Err AttributeErr
        end
    | EP f =>
        match f with
        (* self.to_nat().sample(key, shape): dirichlet_common.py:82-83, chi_square.py:111-112, gamma.py:118-119, multinomial.py:157-158,
           multivariate_normal/unit.py:121-122, normal/unit.py:112-113 *)
        | Beta | Dirichlet | ChiSquare | Gamma | Multinomial | MultivariateUnitNormal | UnitNormal =>
            let* n := l_to_nat L q in opt_run (np_sampler f) n key sh
        | MultivariateDiagonalNormal | MultivariateNormal =>                         (* multivariate_normal/diagonal.py:115-116, arbitrary.py:109-110 *)
            let* v := ep_to_var q in opt_run (vp_sampler (dcls v)) v key sh
        | _ => ep_draw f q key sh
        end
    | GammaVP => let* n := vp_to_nat q in opt_run (np_sampler Gamma) n key sh       (* gamma.py:177-178 *)
    | c => opt_run (vp_sampler c) q key sh
    end.
End Sampling.
