(** Specification vocabulary for random generation (C35). *)
From Coq Require Import String List Bool Arith Reals ZArith.
From Verif Require Import Base XReal Tensor Support SupportSpec Dist Iteration Spec DotSpec PointSpec Generate.
Import ListNotations.
Local Open Scope R_scope.

(** What numpy's Generator documents: the requested shape; exponential >= 0, uniform in [0, 1), normal finite, binomial(1) 0 or 1. *)
Definition all_entries (P : R -> Prop) (s : shape) (t : tensor xr) : Prop :=
  shp t = s /\ forall i, inb s i = true -> exists v, tget t i = Fin v /\ P v.
Record rng_ok (g : rng) : Prop := {
  ok_exponential : forall k s, all_entries (fun v => 0 <= v) s (r_exponential g k s);
  ok_uniform : forall k s, all_entries (fun v => 0 <= v < 1) s (r_uniform g k s);
  ok_normal : forall k s, all_entries (fun _ => True) s (r_normal g k s);
  ok_binomial : forall k s, all_entries (fun v => v = 0 \/ v = 1) s (r_binomial g k s) }.
(** no normal draw is exactly zero (an event of probability one) *)
Definition normal_nonzero (g : rng) : Prop := forall k s, all_entries (fun v => v <> 0) s (r_normal g k s).

(** a Hermitian positive semidefinite matrix re + i im; a real symmetric one when im = 0 *)
Definition hsd (n : nat) (re im : nat -> nat -> R) : Prop :=
  (forall a b, (a < n)%nat -> (b < n)%nat -> re a b = re b a /\ im a b = - im b a) /\
  forall x y : nat -> R,
    0 <= sumR n (fun a => sumR n (fun b => re a b * (x a * x b + y a * y b) - im a b * (x a * y b - y a * x b))).

(** between the bounds that are present *)
Definition within (mn mx : option R) (v : R) : Prop :=
  (match mn with Some m => m <= v | None => True end) /\ (match mx with Some M => v <= M | None => True end).
Definition zwithin (mn mx : option Z) (v : Z) : Prop :=
  (match mn with Some m => (m <= v)%Z | None => True end) /\ (match mx with Some M => (v <= M)%Z | None => True end).
(** the array x holds values of the ring, within its bounds *)
Definition ring_member (r : ring) (b : shape) (x : arr) : Prop :=
  match r, x with
  | RealF mn mx _, RA t => forall i, inb (shp t) i = true -> exists v, tget t i = Fin v /\ within mn mx v
  | ComplexF _ _, CA _ => ring_vals r true b x
  | BoolR, RA t => forall i, inb (shp t) i = true -> tget t i = Fin 0 \/ tget t i = Fin 1
  | IntR mn mx, RA t => forall i, inb (shp t) i = true -> exists z, tget t i = Fin (IZR z) /\ zwithin mn mx z
  | _, _ => False
  end.
(** the matrix of x at batch index j *)
Definition mre (x : arr) (j : index) (a c : nat) : R := toR (xre (entry_c x (j ++ [a; c])%list)).
Definition mim (x : arr) (j : index) (a c : nat) : R := toR (xim (entry_c x (j ++ [a; c])%list)).
(** the array x of batch shape b is a value of the support for n dimensions *)
Definition supp_member (s : support) (b : shape) (n : nat) (x : arr) : Prop :=
  ashape x = (b ++ supp_shape s n)%list /\
  match s with
  | ScalarS r | VectorS r => ring_member r b x
  | SymS r hermitian psd nsd =>
      (forall i, inb (ashape x) i = true -> finite_entry (entry_c x i)) /\ kind_ok s x = true /\
      arr_symmetric hermitian b n x /\
      (psd = true -> forall j, inb b j = true -> hsd n (mre x j) (mim x j)) /\
      (psd = false -> nsd = true -> forall j, inb b j = true -> hsd n (fun a c => - mre x j a c) (fun a c => - mim x j a c))
  | _ => False
  end.

(** Bounds for which generation can succeed. *)
Definition ring_ready (r : ring) (b : shape) : Prop :=
  match r with
  | RealF mn mx sc => 0 <= sc /\ match mn, mx with Some m, Some M => m <= M | _, _ => True end
  | ComplexF mn mx => bound_pre mn b /\ mx_pre mx b /\ forall j, inb b j = true -> exists lo hi,
      bval mn j = Fin lo /\ mx_val mx j = option_map Fin hi /\ 0 <= lo /\ match hi with Some M => 0 < M | None => True end
  | BoolR => True
  | IntR mn mx => mx = None /\ match mn with Some m => (0 <= m)%Z | None => True end
  end.
Definition supp_ready (s : support) (b : shape) : Prop :=
  match s with
  | ScalarS r | VectorS r => ring_ready r b
  | SymS r h _ _ => r = real_field \/ (r = complex_field /\ h = true)
  | _ => False
  end.

(** every parameter of the simple distribution q is a value of its support (as adjusted by the other parameters) *)
Definition leaf_member (b : shape) (q : dist) : Prop :=
  exists n, dims_of q = Ok n /\ forall f, In f (fields (dcls q)) -> exists v s,
    dget (dparams q) (fd_name f) = Some v /\ adjust_support (dcls q) (fd_name f) (dparams q) = Ok s /\ supp_member s b n v.
