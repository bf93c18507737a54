(** VonMisesFisherNP.kappa and to_kappa_angle. *)
From Coq Require Import String List Bool Arith Reals.
From Verif Require Import Base XReal Tensor Support Dist Iteration Structure Tools Joint SpecFun Expr Fam.
Import ListNotations.
Local Open Scope string_scope.
Local Open Scope R_scope.

(** jnp.arctan2 at finite arguments.  (Simplified: NaN at the other ones.) *)
Definition arctan2 (y x : R) : R :=
  if Rlt_dec 0 x then atan (y / x)
  else if Rlt_dec x 0 then (if Rle_dec 0 y then atan (y / x) + PI else atan (y / x) - PI)
  else if Rlt_dec 0 y then PI / 2
  else if Rlt_dec y 0 then - (PI / 2)
  else 0.
Definition xatan2 (y x : xr) : xr := match y, x with Fin b, Fin a => Fin (arctan2 b a) | _, _ => NaN end.

(** von_mises.py:74-75 *)
Definition kappa_e : aexp KR := jnorm (self "mean_times_concentration").
Definition kappa (d : dist) : result (tensor xr) :=
  match dcls d with NP VonMisesFisher => eval (dparams d) kappa_e | _ => Err AttributeErr end.
(** von_mises.py:77-85; the elementwise where is written as one operation *)
Definition angle_e : aexp KR :=
  r2 (fun k a => if xeqb k (Fin 0) then Fin 0 else a) kappa_e (r2 xatan2 (jat 1 (self "mean_times_concentration")) (jat 0 (self "mean_times_concentration"))).
Definition to_kappa_angle (d : dist) : result (tensor xr * tensor xr) :=
  let* m := dims_of d in
  if negb (Nat.eqb m 2) then Err ValueError
  else let* k := kappa d in
       let* a := eval (dparams d) angle_e in
       Ok (k, a).
