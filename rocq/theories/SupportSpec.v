(** Specification vocabulary for values in a support (independent of the flatten/unflatten code). *)
From Coq Require Import List Arith Bool Reals ZArith.
From Verif Require Import Base XReal Tensor Support.
Import ListNotations.
Local Open Scope R_scope.

(** strictly between the bounds that are present *)
Definition inside (mn mx : option R) (v : R) : Prop :=
  (match mn with Some m => m < v | None => True end) /\
  (match mx with Some M => v < M | None => True end).
(** the interval is not empty *)
Definition proper (mn mx : option R) : Prop :=
  match mn, mx with Some m, Some M => m < M | _, _ => True end.

Definition cfin (a b : R) : xc := XC (Fin a) (Fin b).
Definition cmag (a b : R) : R := sqrt (a * a + b * b).
(** a magnitude strictly above the minimum m and, when a maximum is given, below m + M *)
Definition mag_inside (m : R) (M : option R) (r : R) : Prop :=
  m < r /\ match M with Some M => r < m + M | None => True end.

(** a bound of a complex field as an array over the leading axes of the parameter *)
Definition bound_tensor (b : bound) : tensor xr := match b with BFloat r => tscalar (Fin r) | BArr t => t end.
Definition bound_pre (b : bound) (s : shape) : Prop := exists s2, s = shp (bound_tensor b) ++ s2.
(** the bound that applies to the entry at index i *)
Definition bval (b : bound) (i : index) : xr := tget (bound_tensor b) (firstn (rank (bound_tensor b)) i).
Definition mx_pre (mx : option bound) (s : shape) : Prop := forall M, mx = Some M -> bound_pre M s.
Definition mx_val (mx : option bound) (i : index) : option xr := option_map (fun b => bval b i) mx.

(** The array x (batch shape b) holds values of the ring's kind; when [m] (mapped) is set, values strictly
    inside the ring's bounds, finite. *)
Definition ring_vals (r : ring) (m : bool) (b : shape) (x : arr) : Prop :=
  match r, x with
  | RealF mn mx _, RA t => m = true -> forall i, inb (shp t) i = true -> exists v, tget t i = Fin v /\ inside mn mx v
  | ComplexF mn mx, CA t =>
      m = true -> bound_pre mn b /\ mx_pre mx b /\
        forall i, inb (shp t) i = true -> exists lo hi re im,
          bval mn (firstn (length b) i) = Fin lo /\ mx_val mx (firstn (length b) i) = option_map Fin hi /\
          tget t i = cfin re im /\ 0 <= lo /\ mag_inside lo hi (cmag re im)
  | BoolR, RA t => forall i, inb (shp t) i = true -> tget t i = Fin 0 \/ tget t i = Fin 1
  | IntR _ _, RA t => forall i, inb (shp t) i = true -> exists z, tget t i = Fin (IZR z)
  | _, _ => False
  end.

(** the entries below the diagonal are the conjugates of those above it *)
Definition symmetric {A} {DA : Dflt A} (conj : A -> A) (b : shape) (n : nat) (x : tensor A) : Prop :=
  forall j k l, inb b j = true -> (k < l)%nat -> (l < n)%nat -> tget x (j ++ [l; k]) = conj (tget x (j ++ [k; l])).
Definition arr_symmetric (hermitian : bool) (b : shape) (n : nat) (x : arr) : Prop :=
  match x with
  | RA t => symmetric (fun v => v) b n t
  | CA t => symmetric (if hermitian then cconj else fun v => v) b n t
  end.

(** the Euclidean norm of a list of reals *)
Definition sumsq (l : list R) : R := fold_right (fun v a => v * v + a) 0 l.
Definition norm2 (l : list R) : R := sqrt (sumsq l).
(** the last-axis vector at batch index j *)
Definition vec_at (t : tensor xr) (j : index) (n : nat) (l : list R) : Prop :=
  length l = n /\ forall k, (k < n)%nat -> tget t (j ++ [k]) = Fin (nth k l 0).

(** The array x of batch shape b is a value of the support for n dimensions. *)
Definition supp_vals (s : support) (m : bool) (b : shape) (n : nat) (x : arr) : Prop :=
  ashape x = b ++ supp_shape s n /\
  match s with
  | ScalarS r | VectorS r | SimplexS r | SquareS r => ring_vals r m b x
  | SymS r hermitian _ _ => ring_vals r m b x /\ arr_symmetric hermitian b n x
  | CircS radius =>
      match x with
      | RA t => m = true -> 0 < radius /\ forall j, inb b j = true ->
                  exists l, vec_at t j n l /\ 0 < norm2 l < radius
      | CA _ => False
      end
  end.

(** the sub-array t of shape b ++ [k] is a point of the plane that the ring's maps invert on *)
Definition ring_plane (r : ring) (m : bool) (b : shape) (k : nat) (t : tensor xr) : Prop :=
  shp t = b ++ [ring_num_elements r k] /\
  match r with
  | RealF mn mx _ => m = true -> proper mn mx /\ forall i, inb (shp t) i = true -> exists v, tget t i = Fin v
  | ComplexF mn mx =>
      m = true -> bound_pre mn b /\ mx_pre mx b /\
        forall j l, inb b j = true -> (l < k)%nat -> exists lo hi re im,
          bval mn j = Fin lo /\ mx_val mx j = option_map Fin hi /\ 0 <= lo /\
          match hi with Some M => 0 < M | None => True end /\
          tget t (j ++ [l]) = Fin re /\ tget t (j ++ [(k + l)%nat]) = Fin im /\ cmag re im <> 0
  | BoolR => forall i, inb (shp t) i = true -> tget t i = Fin 0 \/ tget t i = Fin 1
  | IntR _ _ => forall i, inb (shp t) i = true -> exists z, tget t i = Fin (IZR z)
  end.
Definition supp_plane (s : support) (m : bool) (b : shape) (n : nat) (t : tensor xr) : Prop :=
  match s with
  | ScalarS r => ring_plane r m b 1 t
  | VectorS r => ring_plane r m b n t
  | SimplexS r => False
  | SymS r _ _ _ => ring_plane r m b (comb2 n) t
  | SquareS r => ring_plane r m b (n * n) t
  | CircS radius =>
      shp t = b ++ [n] /\
      (m = true -> 0 < radius /\ forall j, inb b j = true -> exists l, vec_at t j n l /\ 0 < norm2 l)
  end.

(** every entry is a finite number *)
Definition fin_tensor (t : tensor xr) : Prop := forall i, inb (shp t) i = true -> exists v, tget t i = Fin v.

(** ** clamping (C34) *)
(** at least eps away from the bounds that are present *)
Definition clear_of (mn mx : option R) (v : R) : Prop :=
  (match mn with Some m => m + feps <= v | None => True end) /\
  (match mx with Some M => v <= M - feps | None => True end).
(** the interval has room for a value that is eps away from both ends *)
Definition roomy (mn mx : option R) : Prop :=
  match mn, mx with Some m, Some M => m + feps <= M - feps | _, _ => True end.
Definition finite_entries (t : tensor xr) : Prop := forall i, inb (shp t) i = true -> exists v, tget t i = Fin v.
