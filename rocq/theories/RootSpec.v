(** Specification vocabulary for C28. *)
From Coq Require Import String List Bool Arith Reals.
From Verif Require Import Base XReal Tensor Support Dist Spec DotSpec SumSpec PointSpec Fam.
Import ListNotations.
Local Open Scope string_scope.
Local Open Scope R_scope.

(** the families whose to_nat is a search, and the number of search parameters per batch element (n is the number of dimensions) *)
Definition search_count (f : family) (n : nat) : option nat :=
  match f with
  | Beta | Dirichlet => Some n
  | GeneralizedDirichlet => Some (n + n)%nat
  | Gamma | VonMisesFisher | ChiSquare | Logarithmic => Some 1%nat
  | _ => None
  end.
(** the search parameters at batch index i are finite *)
Definition finite_search (b i : list nat) (m : nat) (sp : tensor xr) : Prop :=
  shp sp = (b ++ [m])%list /\ forall k, (k < m)%nat -> exists v, tget sp (i ++ [k])%list = Fin v.
(** the array g is zero at batch index i *)
Definition zero_at (b i : list nat) (g : tensor xr) : Prop := forall j, inb (skipn (length b) (shp g)) j = true -> tget g (i ++ j)%list = Fin 0.

(** the search parameters the solver [m] returns for the unbatched distribution e, k of them *)
Definition solution (solve : minimizer -> dist -> nat -> xr) (m : minimizer) (e : dist) (k : nat) : tensor xr := tbuild [k] (fun i => solve m e (last i 0%nat)).
(** the contract of the solver for the unbatched distribution e: what it returns for e is finite and a root of e.search_gradient *)
Definition root_found (solve : minimizer -> dist -> nat -> xr) (f : family) (e : dist) : Prop :=
  exists n k g, dims_of e = Ok n /\ search_count f n = Some k /\ let sp := solution solve (dmin e) (default_minimizers e) k in
    finite_search [] [] k sp /\ search_gradient (default_minimizers e) f sp = Ok g /\ zero_at [] [] g.
(** the distribution whose search finds the natural parameters of e: e itself, but the chi-square distribution for chi (chi.py:92-97) *)
Definition searched (f : family) (e : dist) : family * dist :=
  match f with Chi => (ChiSquare, Dist (EP ChiSquare) DefaultMinimizer (dparams e) []) | _ => (f, e) end.
