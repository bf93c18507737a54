(** Specification vocabulary for C49: the distribution jax.random documents for one draw, as a density up to a constant factor. *)
From Coquelicot Require Import Coquelicot.
From Coq Require Import String List Bool Arith Reals.
From Verif Require Import Base XReal Tensor Support Dist Iteration Structure Tools Joint Spec SumSpec DotSpec PointSpec DensSpec IntSpec VarSpec Sample SampleSpec Var.
Import ListNotations.
Local Open Scope string_scope.
Local Open Scope R_scope.

(** the number of values in a block of shape s; the index of value m in a block with at most one axis *)
Definition entries (s : shape) : nat := fold_right Nat.mul 1%nat s.
Definition cell (s : shape) (m : nat) : list nat := match s with [] => [] | _ => [m] end.
Fixpoint product (n : nat) (g : nat -> R) : R := match n with O => 1 | S m => product m g * g m end.

(** the natural number t *)
Definition whole (t : R) : nat := Z.to_nat (up t - 1).

(** the arguments A for which jax.random documents a distribution (n: the length of the vector arguments) *)
Definition legal (k : rkind) (n : nat) (A : nat -> list nat -> R) : Prop :=
  let a := A 0%nat [] in let a' := A 1%nat [] in
  match k with
  | Bernoulli_ => 0 <= a <= 1
  | Beta_ | Weibull_min_ => 0 < a /\ 0 < a'
  | Chisquare_ | Gamma_ | Poisson_ | Rayleigh_ => 0 < a
  | Geometric_ => 0 < a <= 1
  | Dirichlet_ => (1 <= n)%nat /\ forall m, (m < n)%nat -> 0 < A 0%nat [m]
  | Categorical_ => (1 <= n)%nat
  | Multivariate_normal_ => spd n (fun c d => A 1%nat [c; d])
  | Exponential_ | Normal_ => True
  end.
(** the sum or integral of F over all draws u: u e is the value at entry e of the draw.  n: the length of the vector arguments; s: the shape of the block of
    values drawn; pos: the order in which the coordinates of a normal vector are integrated (coordinate a is the pos a-th) *)
Definition draw_space (k : rkind) (n : nat) (s : shape) (pos : nat -> nat) (F : (list nat -> R) -> R) (v : R) : Prop :=
  let one (t : R) : list nat -> R := fun _ => t in
  let vec (l : list R) : list nat -> R := fun e => nth (hd 0%nat e) l 0 in
  let whole_line k := iterated k (fun _ => m_infty) (fun _ => p_infty) [] in
  match k with
  | Bernoulli_ => v = F (one 0) + F (one 1)
  | Geometric_ => is_series (fun m => F (one (INR (S m)))) v
  | Categorical_ => v = sumR n (fun m => F (one (INR m)))
  | Poisson_ => is_series (fun m => F (one (INR m))) v
  | Beta_ => improper 0 1 (fun t => F (one t)) v
  | Chisquare_ | Exponential_ | Gamma_ | Rayleigh_ | Weibull_min_ => improper 0 p_infty (fun t => F (one t)) v
  | Dirichlet_ => iterated (n - 1) (fun _ => Finite 0) (fun l => Finite (1 - lsum l)) [] (fun l => F (vec (l ++ [1 - lsum l])%list)) v
  | Normal_ => whole_line (entries s) (fun l => F (vec l)) v
  | Multivariate_normal_ => whole_line (entries s) (fun l => F (fun e => nth (pos (hd 0%nat e)) l 0)) v
  end.
(** the density of a draw u, up to a factor that does not depend on u; Q: the inverse of the covariance of a multivariate normal draw *)
Definition draw_kernel (k : rkind) (n : nat) (s : shape) (A : nat -> list nat -> R) (Q : nat -> nat -> R) (u : list nat -> R) : R :=
  let a := A 0%nat [] in let a' := A 1%nat [] in let t := u [] in
  match k with
  | Bernoulli_ => if Req_EM_T t 1 then a else 1 - a
  | Geometric_ => (1 - a) ^ (whole t - 1)
  | Categorical_ => exp (A 0%nat [whole t])
  | Poisson_ => Rpower a t / INR (fact (whole t))
  | Beta_ => Rpower t (a - 1) * Rpower (1 - t) (a' - 1)
  | Dirichlet_ => product n (fun m => Rpower (u [m]) (A 0%nat [m] - 1))
  | Chisquare_ => Rpower t (a / 2 - 1) * exp (- t / 2)
  | Exponential_ => exp (- t)
  | Gamma_ => Rpower t (a - 1) * exp (- t)
  | Rayleigh_ => t * exp (- (t * t) / (2 * (a * a)))
  | Weibull_min_ => Rpower t (a' - 1) * exp (- Rpower (t / a) a')
  | Normal_ => exp (- sumR (entries s) (fun m => u (cell s m) * u (cell s m)) / 2)
  | Multivariate_normal_ => exp (- sumR n (fun c => sumR n (fun d => Q c d * ((u [c] - A 0%nat [c]) * (u [d] - A 0%nat [d])))) / 2)
  end.
(** Q is the inverse of the covariance argument; pos is a permutation *)
Definition precision_of (k : rkind) (n : nat) (A : nat -> list nat -> R) (Q : nat -> nat -> R) : Prop :=
  k = Multivariate_normal_ -> forall a b, (a < n)%nat -> (b < n)%nat -> sumR n (fun m => Q a m * A 1%nat [m; b]) = if (a =? b)%nat then 1 else 0.
Definition permutes (n : nat) (pos : nat -> nat) : Prop := forall m, (m < n)%nat -> exists a, (a < n)%nat /\ pos a = m.
(** the expected value of g over the draws that jax.random documents for the function k with arguments A is v *)
Definition draw_mean (k : rkind) (n : nat) (s : shape) (A : nat -> list nat -> R) (g : (list nat -> R) -> R) (v : R) : Prop :=
  legal k n A /\ exists z Q pos, 0 < z /\ precision_of k n A Q /\ permutes (entries s) pos /\
    draw_space k n s pos (draw_kernel k n s A Q) z /\ draw_space k n s pos (fun u => draw_kernel k n s A Q u * g u) (z * v).

(** m is the distribution q in natural parameters, as the library converts it *)
Definition natural_of (L : leaf_methods) (q m : dist) : Prop :=
  match dcls q with
  | NP _ => m = q
  | EP _ => l_to_nat L q = Ok m
  | MultivariateNormalVP => exists e, vp_to_exp q = Ok e /\ l_to_nat L e = Ok m
  | _ => vp_to_nat q = Ok m
  end.
(** sample(key, shape) of q computes Phi of one draw of a request r whose arguments are A for every sample: the draw of the request for index j of the
    requested shape and batch index i is u, and the sample there is Phi u *)
Definition samples_by {K} (split2 : K -> K * K) (L : leaf_methods) (b i : list nat) (q : dist) (r : request) (ev : shape) (A : nat -> list nat -> R)
    (Phi : (list nat -> R) -> obs) : Prop :=
  length (r_args r) = arity (r_kind r) /\
  (forall sh j e, inb (requested sh) j = true -> inb ev e = true -> asks r (j ++ i ++ e)%list A) /\
  (forall draw key sh j u, inb (requested sh) j = true ->
     (forall e, inb (ev ++ draw_event r)%list e = true -> draw key r (requested sh ++ b ++ ev)%list (j ++ i ++ e)%list = Fin (u e)) ->
     exists x, sample split2 draw L q key sh = Ok x /\ sampled_row q j i x (Phi u)).
(** ... and so the expected value of every function g of a sample is its expected value under the density P *)
Definition follows {K} (split2 : K -> K * K) (L : leaf_methods) (b i : list nat) (f : family) (n : nat) (q : dist) (P : obs -> R) : Prop :=
  exists r ev A Phi, samples_by split2 L b i q r ev A Phi /\
    forall g v, expected f n P g v -> draw_mean (r_kind r) (row_size r) (ev ++ draw_event r)%list A (fun u => g (Phi u)) v.
(** samples of q do not follow P: the expected value v of some function g of a sample under P is not its expected value under the distribution of the draws *)
Definition departs {K} (split2 : K -> K * K) (L : leaf_methods) (b i : list nat) (f : family) (n : nat) (q : dist) (P : obs -> R) : Prop :=
  exists r ev A Phi, samples_by split2 L b i q r ev A Phi /\
    exists g v, expected f n P g v /\ ~ draw_mean (r_kind r) (row_size r) (ev ++ draw_event r)%list A (fun u => g (Phi u)) v.
(** samples of q in two stages: sample(key, shape) splits the key, draws a number u with the first key, and then a number t with the second key by a request
    for the function k2 whose arguments A2 u depend on u; the sample is t.  Each number k is drawn with probability P(k): w u is the probability of drawing k
    when the first draw is u, and P(k) is its expected value over the first draw *)
Definition follows_two {K} (split2 : K -> K * K) (L : leaf_methods) (b i : list nat) (q : dist) (P : obs -> R) : Prop :=
  exists r A k2 A2, length (r_args r) = arity (r_kind r) /\ (forall sh j, inb (requested sh) j = true -> asks r (j ++ i)%list A) /\
    (forall draw key sh j u, inb (requested sh) j = true -> draw (fst (split2 key)) r (requested sh ++ b)%list (j ++ i)%list = Fin u -> 0 < u ->
       exists r2, r_kind r2 = k2 /\ length (r_args r2) = arity k2 /\ asks r2 (j ++ i)%list (A2 u) /\
         forall t, draw (snd (split2 key)) r2 (requested sh ++ b)%list (j ++ i)%list = Fin t ->
           exists x, sample split2 draw L q key sh = Ok x /\ sampled_row q j i x (scalar_obs t)) /\
    forall k : nat, exists w : R -> R,
      (forall u, 0 < u -> draw_mean k2 0 [] (A2 u) (fun t => if Req_EM_T (t []) (INR k) then 1 else 0) (w u)) /\
      draw_mean (r_kind r) 0 [] A (fun u => w (u [])) (P (scalar_obs (INR k))).
(** the density P of a Multinomial, given that the observation is not the zero vector *)
Definition not_last (n : nat) (P : obs -> R) : obs -> R := fun x => if Req_EM_T (sumR n (fun k => x false [k])) 0 then 0 else P x / (1 - P (vector_obs [])).
(** the geometric distribution on 1, 2, ... with the mean of the geometric distribution P on 0, 1, ...: success probability a = 1 / mean = P(0) / (1 - P(0)) *)
Definition from_one (P : obs -> R) : obs -> R := fun x =>
  let a := P (scalar_obs 0) / (1 - P (scalar_obs 0)) in if Req_EM_T (x false []) 0 then 0 else a * (1 - a) ^ (whole (x false []) - 1).
