(** Model of the solver of the searches with one parameter, default_bisection_minimizer (mixins/exp_to_nat/optimistix.py:57-61; exp_to_nat.py:38-46 chooses it when there is one search parameter).

    [bis_fun] and the first interval are code of the repository. The loops [expand] and [bisect] idealise optimistix.Bisection (rtol=0.0,
    atol=1e-7, flip='detect', expand_if_necessary=True), which is not part of the repository: while the function has not opposite signs at
    the ends of the interval, the interval is doubled about its middle; then it is halved. The numbers of steps k and n are arbitrary; the
    detected direction is always "increasing" (C52_increasing). *)
From Coq Require Import String List Bool Arith Reals.
From Verif Require Import Base XReal Tensor Support Dist Structure Fam.
Import ListNotations.
Local Open Scope R_scope.

(** optimistix.py:27-34: f(x) = exp_to_nat.search_gradient(x[newaxis])[0] *)
Definition bis_fun (f : family) (e : dist) (x : R) : xr :=
  match search_gradient e f (tbuild [1%nat] (fun _ => Fin x)) with Ok g => tget g [0%nat] | Err _ => NaN end.
Section Loop.
  Variable F : R -> xr.
  Definition brackets (lo hi : R) : bool := xleb (F lo) (Fin 0) && xleb (Fin 0) (F hi).
  Fixpoint expand (k : nat) (lo hi : R) : R * R :=
    if brackets lo hi then (lo, hi) else match k with O => (lo, hi) | S k' => expand k' (lo - (hi - lo) / 2) (hi + (hi - lo) / 2) end.
  Fixpoint bisect (n : nat) (lo hi : R) : R * R :=
    match n with O => (lo, hi) | S n' => let mid := (lo + hi) / 2 in if xleb (F mid) (Fin 0) then bisect n' mid hi else bisect n' lo mid end.
  (** optimistix.py:36-42: the first interval is one to each side of the initial search parameter; the result is in the last interval *)
  Definition bis_interval (start : R) (k n : nat) : R * R := let (lo, hi) := expand k (start - 1) (start + 1) in bisect n lo hi.
End Loop.
(** OptimistixRootFinder.solve (optimistix.py:25-49) with send_lower_and_upper, for every function start for initial_search_parameters *)
Definition bis_solve (start : dist -> R) (k n : nat) : minimizer -> dist -> nat -> xr := fun _ e _ =>
  match dcls e with EP f => let (lo, hi) := bis_interval (bis_fun f e) (start e) k n in Fin ((lo + hi) / 2) | _ => NaN end.
