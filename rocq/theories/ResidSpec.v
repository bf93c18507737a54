(** Specification vocabulary for C54. *)
From Coq Require Import String List Bool Arith Reals.
From Verif Require Import Base XReal Tensor Support Dist Spec DotSpec SumSpec PointSpec VarSpec Fam RootSpec.
Import ListNotations.
Local Open Scope string_scope.
Local Open Scope R_scope.

(** every entry of the array g at batch index i is a real number between -eps and eps *)
Definition residual_at (b i : list nat) (eps : R) (g : tensor xr) : Prop :=
  forall j, inb (skipn (length b) (shp g)) j = true -> exists r, tget g (i ++ j)%list = Fin r /\ Rabs r <= eps.
(** two simple distributions of the same class, batch shape and dimensions whose parameters at batch index i are real and differ by at most eps *)
Definition near_params_at (b i : list nat) (eps : R) (q r : dist) : Prop :=
  dcls q = dcls r /\ well_formed q = true /\ well_formed r = true /\ leaf_shaped b q = true /\ leaf_shaped b r = true /\ dims_of q = dims_of r /\
  forall f v w j, In f (fields (dcls q)) -> dget (dparams q) (fd_name f) = Some v -> dget (dparams r) (fd_name f) = Some w ->
    inb (skipn (length b) (ashape v)) j = true -> exists x y, entry_c v (i ++ j)%list = cofr (Fin x) /\ entry_c w (i ++ j)%list = cofr (Fin y) /\ Rabs (y - x) <= eps.
(** what the solver returns for the unbatched distribution e is finite, and e.search_gradient is there at most eps in absolute value *)
Definition residual_found (solve : minimizer -> dist -> nat -> xr) (eps : R) (f : family) (e : dist) : Prop :=
  exists n k g, dims_of e = Ok n /\ search_count f n = Some k /\ let sp := solution solve (dmin e) (default_minimizers e) k in
    finite_search [] [] k sp /\ search_gradient (default_minimizers e) f sp = Ok g /\ residual_at [] [] eps g.
