(** Specification vocabulary for the dot product (C10) and sums over observations (C16). *)
From Coq Require Import String List Bool Arith Reals.
From Verif Require Import Base XReal Tensor Support Dist Iteration Spec SumSpec.
Import ListNotations.

(** the parameters that are not fixed, in declaration order *)
Definition var_fields (c : cls) : list field_desc := filter (fun f => negb (fd_fixed f)) (fields c).
(** the entry of an array as a complex number *)
Definition entry_c (a : arr) (i : list nat) : xc := match a with RA t => cofr (tget t i) | CA t => tget t i end.
(** sum over event indices of the real part of the product, at batch index i *)
Definition array_inner (b : list nat) (i : list nat) (v w : arr) : xr :=
  xsum (map (fun j => xre (cmul (entry_c v (i ++ j)) (entry_c w (i ++ j)))) (indices (skipn (length b) (ashape v)))).
(** the inner product of two simple distributions: variable parameters paired in declaration order *)
Definition leaf_inner (b : list nat) (i : list nat) (q r : dist) : xr :=
  xsum (map (fun fg => match dget (dparams q) (fd_name (fst fg)), dget (dparams r) (fd_name (snd fg)) with
                       | Some v, Some w => array_inner b i v w
                       | _, _ => NaN
                       end) (combine (var_fields (dcls q)) (var_fields (dcls r)))).
(** the entries of every variable parameter are finite *)
Definition finite_entry (z : xc) : Prop := exists a b, z = XC (Fin a) (Fin b).
Definition finite_vars (d : dist) : Prop := forall p f v i,
  field_at d p = Some f -> fd_fixed f = false -> param_at d p = Some v -> inb (ashape v) i = true -> finite_entry (entry_c v i).
(** an elementwise operation on two arrays that computes u*x + c*y on finite numbers *)
Definition lincomb (u c : R) (x y : xc) : xc :=
  XC (xadd (xmul (Fin u) (xre x)) (xmul (Fin c) (xre y))) (xadd (xmul (Fin u) (xim x)) (xmul (Fin c) (xim y))).
Definition lin_op (u c : R) (l : list arr) : result arr :=
  match l with
  | [RA x; RA y] => rmap RA (tmap2 (fun a b => xadd (xmul (Fin u) a) (xmul (Fin c) b)) x y)
  | [CA x; CA y] => rmap CA (tmap2 (lincomb u c) x y)
  | _ => Err TypeError
  end.
(** the array at every index of shape b: t = u * s1 + c * s2, all finite *)
Definition lin_entries (b : list nat) (u c : R) (t s1 s2 : tensor xr) : Prop :=
  shp t = b /\ shp s1 = b /\ shp s2 = b /\
  forall i, inb b i = true -> exists x y, tget s1 i = Fin x /\ tget s2 i = Fin y /\ tget t i = Fin (u * x + c * y).
