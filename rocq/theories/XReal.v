(** Extended reals: the scalars of the array model.

    A jax float is modelled as [Fin r] with r a real number, or one of the three special
    values.  No rounding, no overflow, no signed zero (simplification, see DESIGN.md section 2):
    [x/0] is NaN for x = 0 and otherwise the infinity with the sign of x. *)
From Coq Require Import Reals ZArith Bool.
Local Open Scope R_scope.

Inductive xr := Fin (r : R) | PInf | NInf | NaN.

Definition rltb (a b : R) : bool := if Rlt_dec a b then true else false.
Definition rleb (a b : R) : bool := if Rle_dec a b then true else false.
Definition reqb (a b : R) : bool := if Req_EM_T a b then true else false.

Definition xneg (x : xr) : xr :=
  match x with Fin r => Fin (- r) | PInf => NInf | NInf => PInf | NaN => NaN end.
Definition xadd (x y : xr) : xr :=
  match x, y with
  | NaN, _ | _, NaN => NaN
  | Fin a, Fin b => Fin (a + b)
  | PInf, NInf | NInf, PInf => NaN
  | PInf, _ | _, PInf => PInf
  | NInf, _ | _, NInf => NInf
  end.
Definition xsub (x y : xr) : xr := xadd x (xneg y).
(** infinity [s] (true = +inf) times the finite real r *)
Definition inf_mul (s : bool) (r : R) : xr :=
  if Req_EM_T r 0 then NaN else if xorb s (rltb r 0) then PInf else NInf.
Definition xmul (x y : xr) : xr :=
  match x, y with
  | NaN, _ | _, NaN => NaN
  | Fin a, Fin b => Fin (a * b)
  | PInf, Fin b => inf_mul true b
  | NInf, Fin b => inf_mul false b
  | Fin a, PInf => inf_mul true a
  | Fin a, NInf => inf_mul false a
  | PInf, PInf | NInf, NInf => PInf
  | PInf, NInf | NInf, PInf => NInf
  end.
Definition xdiv (x y : xr) : xr :=
  match x, y with
  | NaN, _ | _, NaN => NaN
  | Fin a, Fin b =>
      if Req_EM_T b 0
      then (if Req_EM_T a 0 then NaN else if rltb a 0 then NInf else PInf)
      else Fin (a / b)
  | Fin _, _ => Fin 0
  | PInf, Fin b => if rltb b 0 then NInf else PInf
  | NInf, Fin b => if rltb b 0 then PInf else NInf
  | _, _ => NaN
  end.
Definition xexp (x : xr) : xr :=
  match x with Fin r => Fin (exp r) | PInf => PInf | NInf => Fin 0 | NaN => NaN end.
Definition xlog (x : xr) : xr :=
  match x with
  | Fin r => if Rlt_dec 0 r then Fin (ln r) else if Req_EM_T r 0 then NInf else NaN
  | PInf => PInf | _ => NaN
  end.
Definition xsqrt (x : xr) : xr :=
  match x with
  | Fin r => if Rle_dec 0 r then Fin (sqrt r) else NaN
  | PInf => PInf | _ => NaN
  end.
Definition xabs (x : xr) : xr :=
  match x with Fin r => Fin (Rabs r) | NaN => NaN | _ => PInf end.
(** comparisons: false whenever NaN is involved *)
Definition xltb (x y : xr) : bool :=
  match x, y with
  | NaN, _ | _, NaN => false
  | Fin a, Fin b => rltb a b
  | NInf, NInf | PInf, _ | _, NInf => false
  | _, _ => true
  end.
Definition xeqb (x y : xr) : bool :=
  match x, y with
  | Fin a, Fin b => reqb a b
  | PInf, PInf | NInf, NInf => true
  | _, _ => false
  end.
Definition xleb (x y : xr) : bool := xltb x y || xeqb x y.
(** jnp.maximum / jnp.minimum propagate NaN *)
Definition xmax (x y : xr) : xr :=
  match x, y with
  | NaN, _ | _, NaN => NaN
  | _, _ => if xltb x y then y else x
  end.
Definition xmin (x y : xr) : xr :=
  match x, y with
  | NaN, _ | _, NaN => NaN
  | _, _ => if xltb x y then x else y
  end.
(** jnp.clip(x, min=mn, max=mx) = minimum(maximum(x, mn), mx) *)
Definition xclip (mn mx : option xr) (x : xr) : xr :=
  let y := match mn with Some a => xmax x a | None => x end in
  match mx with Some b => xmin y b | None => y end.

Definition xsquare (x : xr) : xr := xmul x x.
Definition xrecip (x : xr) : xr := xdiv (Fin 1) x.
Definition xlog1p (x : xr) : xr := xlog (xadd (Fin 1) x).
Definition xexpm1 (x : xr) : xr := xsub (xexp x) (Fin 1).

(** jax.scipy.special.expit / logit *)
Definition expit (r : R) : R := / (1 + exp (- r)).
Definition xexpit (x : xr) : xr :=
  match x with Fin r => Fin (expit r) | PInf => Fin 1 | NInf => Fin 0 | NaN => NaN end.
Definition xlogit (x : xr) : xr := xlog (xdiv x (xsub (Fin 1) x)).

(** tjax.softplus / tjax.inverse_softplus, idealised as log(1+e^x) and log(e^y-1) *)
Definition xsoftplus (x : xr) : xr := xlog (xadd (Fin 1) (xexp x)).
Definition xinv_softplus (y : xr) : xr := xlog (xsub (xexp y) (Fin 1)).

(** jnp.logaddexp *)
Definition xlogaddexp (x y : xr) : xr := xlog (xadd (xexp x) (xexp y)).

(** C-style conversion to an integer (truncation towards zero), jnp.astype(int). *)
Definition rtrunc (r : R) : Z := if Rle_dec 0 r then Int_part r else (- Int_part (- r))%Z.
Definition xtrunc (x : xr) : xr :=
  match x with Fin r => Fin (IZR (rtrunc r)) | _ => x end.
(** conversion to bool and back: nonzero *)
Definition xbool (x : xr) : xr :=
  match x with Fin r => Fin (if Req_EM_T r 0 then 0 else 1) | _ => Fin 1 end.

(** numpy: math.copysign on reals (positive for 0) *)
Definition copysign (m s : R) : R := if Rlt_dec s 0 then - Rabs m else Rabs m.

(** * Complex scalars *)
Record xc := XC { xre : xr; xim : xr }.
Definition cadd (a b : xc) := XC (xadd (xre a) (xre b)) (xadd (xim a) (xim b)).
Definition cneg (a : xc) := XC (xneg (xre a)) (xneg (xim a)).
Definition csub (a b : xc) := XC (xsub (xre a) (xre b)) (xsub (xim a) (xim b)).
Definition cmul (a b : xc) :=
  XC (xsub (xmul (xre a) (xre b)) (xmul (xim a) (xim b)))
     (xadd (xmul (xre a) (xim b)) (xmul (xim a) (xre b))).
Definition cconj (a : xc) := XC (xre a) (xneg (xim a)).
Definition cabs (a : xc) : xr := xsqrt (xadd (xsquare (xre a)) (xsquare (xim a))).
(** real scalar times / over complex, componentwise *)
Definition cscale (r : xr) (a : xc) := XC (xmul r (xre a)) (xmul r (xim a)).
Definition cdivr (a : xc) (r : xr) := XC (xdiv (xre a) r) (xdiv (xim a) r).
Definition cofr (r : xr) := XC r (Fin 0).
