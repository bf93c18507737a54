(** Specification vocabulary for sampling (C32): what jax.random documents about one draw. *)
From Coq Require Import String List Bool Arith Reals.
From Verif Require Import Base XReal Tensor Support Dist Iteration Spec SumSpec DotSpec PointSpec DensSpec VarSpec Joint Sample.
Import ListNotations.
Local Open Scope R_scope.

(** the part of argument m of a request that belongs to the draw at batch index i: entry e *)
Definition row_arg (r : request) (m : nat) (i e : list nat) : xr :=
  match nth_error (r_args r) m with
  | Some t => tget t (bidx (batch_of (arg_event (r_kind r) m) (shp t)) i ++ e)%list
  | None => NaN
  end.
Definition row_shape (r : request) (m : nat) : shape :=
  match nth_error (r_args r) m with Some t => skipn (length (shp t) - arg_event (r_kind r) m) (shp t) | None => [] end.
(** the arguments of the draw at batch index i are the finite numbers A *)
Definition asks (r : request) (i : list nat) (A : nat -> list nat -> R) : Prop := forall m e,
  (m < length (r_args r))%nat -> inb (row_shape r m) e = true -> row_arg r m i e = Fin (A m e).
(** the values v one draw of the function k can take, for the arguments A and n entries per draw (or categories): the support of the
    distribution jax.random documents, up to events of probability zero (an exponential variable is not exactly 0, ...) *)
Definition allowed (k : rkind) (n : nat) (A : nat -> list nat -> R) (v : list nat -> xr) : Prop :=
  let a := A 0%nat [] in let a' := A 1%nat [] in
  match k with
  | Bernoulli_ => (v [] = Fin 0 /\ a < 1) \/ (v [] = Fin 1 /\ 0 < a)                 (* uniform() < p *)
  | Beta_ => 0 < a -> 0 < a' -> exists x, v [] = Fin x /\ 0 < x < 1
  | Dirichlet_ => (forall m, (m < n)%nat -> 0 < A 0%nat [m]) ->
      exists x : nat -> R, (forall m, (m < n)%nat -> v [m] = Fin (x m) /\ 0 < x m) /\ ((0 < n)%nat -> sumR n x = 1)
  | Chisquare_ | Gamma_ | Rayleigh_ => 0 < a -> exists x, v [] = Fin x /\ 0 < x
  | Exponential_ => exists x, v [] = Fin x /\ 0 < x
  | Geometric_ =>                       (* floor(log u / log1p(-p)) + 1: log1p of a number below -1 is NaN *)
      (0 < a <= 1 -> exists m, v [] = Fin (INR (S m)) /\ (a = 1 -> m = 0%nat)) /\ (1 < a -> v [] = NaN)
  | Categorical_ => (1 <= n)%nat -> exists m, (m < n)%nat /\ v [] = Fin (INR m)
  | Poisson_ => 0 < a -> exists m, v [] = Fin (INR m)
  | Weibull_min_ => 0 < a -> 0 < a' -> exists x, v [] = Fin x /\ 0 < x
  | Multivariate_normal_ => spd n (fun c d => A 1%nat [c; d]) -> forall m, (m < n)%nat -> exists x, v [m] = Fin x
  | Normal_ => exists x, v [] = Fin x
  end.
Definition row_size (r : request) : nat := match r_args r with t :: _ => last (shp t) 0%nat | [] => 0%nat end.
(** the number of array arguments of each function *)
Definition arity (k : rkind) : nat :=
  match k with Exponential_ | Normal_ => 0 | Beta_ | Weibull_min_ | Multivariate_normal_ => 2 | _ => 1 end.
(** every draw of the generator is one that jax.random documents *)
Definition lawful {K} (draw : K -> request -> shape -> list nat -> xr) : Prop := forall key r s i A,
  length (r_args r) = arity (r_kind r) -> inb s i = true -> asks r i A -> allowed (r_kind r) (row_size r) A (fun e => draw key r s (i ++ e)%list).

(** one sample of q is the entry block of x at index j of the requested shape and batch index i *)
Definition sampled_row (q : dist) (j i : list nat) (x : arr) (xv : obs) : Prop := forall n s e,
  dims_of q = Ok n -> domain_support (dcls q) = Some s -> inb (supp_shape s n) e = true ->
  entry_c x (j ++ i ++ e)%list = XC (Fin (xv false e)) (Fin (xv true e)).
Definition requested (sh : option shape) : shape := match sh with Some s => s | None => [] end.
(** the family whose distribution q describes *)
Definition sampled_family (c : cls) : option family :=
  match c with
  | NP f | EP f => Some f
  | GammaVP => Some Gamma | NormalVP => Some Normal | MultivariateDiagonalNormalVP => Some MultivariateDiagonalNormal
  | MultivariateNormalVP => Some MultivariateNormal | _ => None
  end.
(** q is a well-formed simple distribution that can be sampled, of batch shape b, whose parameters at batch index i are in the domain of their class; where
    sampling goes through the numerical search for the natural parameters, the search has found natural parameters in their domain *)
Definition samplable_at (L : leaf_methods) (b i : list nat) (f : family) (q : dist) : Prop :=
  sampled_family (dcls q) = Some f /\ is_samplable (dcls q) = true /\ well_formed q = true /\ leaf_shaped b q = true /\ inb b i = true /\
  match dcls q with NP _ | EP _ => in_domain q i | _ => vp_domain q i end /\
  (forall e, dcls q = EP f -> closed_form f = false -> l_to_nat L q = Ok e -> in_domain e i).
(** the values the generator of a class can produce *)
Definition can_sample {K} (split2 : K -> K * K) (L : leaf_methods) (q : dist) (key : K) (sh : option shape) (j i : list nat) (xv : obs) : Prop :=
  exists draw x, lawful draw /\ sample split2 draw L q key sh = Ok x /\ sampled_row q j i x xv.
(** e is the distribution q in expectation parameters *)
Definition exp_form (L : leaf_methods) (q e : dist) : Prop := match dcls q with EP _ => e = q | _ => l_to_exp L q = Ok e end.
(** the four families whose samplers miss part of the sample space *)
Definition sampler_misses (f : family) : bool := match f with Geometric | Multinomial | ComplexUnitNormal | ComplexMultivariateUnitNormal => true | _ => false end.
(** an observation of a family with real observations has no imaginary part *)
Definition real_obs (c : cls) (n : nat) (x : obs) : Prop :=
  forall s, domain_support c = Some s -> (forall b g, supp_ring s <> ComplexF b g) -> forall e, inb (supp_shape s n) e = true -> x true e = 0.
