(** The special functions the distributions call: jax.scipy.special.gammaln, digamma, betaln, logsumexp,
    tensorflow_probability's log_bessel_ive and bessel_iv_ratio (efax/_src/tools.py:76-77), and the constants of
    jax.numpy and math.  They are external code: the model takes their documented mathematical meaning. *)
From Coq Require Import Reals List ZArith.
From Coquelicot Require Import Coquelicot.
From Verif Require Import XReal Support.
Import ListNotations.
Local Open Scope R_scope.

(** log Gamma(x), x > 0, by Euler's limit  Gamma(x) = lim n^x n! / (x (x+1) ... (x+n)) *)
Definition lngamma_seq (x : R) (n : nat) : R :=
  x * ln (INR n) + ln (INR (fact n)) - sum_f_R0 (fun k => ln (x + INR k)) n.
Definition lngamma (x : R) : R := real (Lim_seq (lngamma_seq x)).
(** the Euler-Mascheroni constant (jnp.euler_gamma): lim (1 + 1/2 + ... + 1/n - log n) *)
Definition euler_gamma : R :=
  real (Lim_seq (fun n => sum_f_R0 (fun k => / INR (S k)) n - ln (INR (S n)))).
(** digamma(x), x > 0, by its series *)
Definition digamma (x : R) : R :=
  - euler_gamma + Series (fun k => / INR (S k) - / (x + INR k)).
(** the modified Bessel function of the first kind I_v(z), v > -1, z > 0 *)
Definition bessel_i (v z : R) : R :=
  Rpower (z / 2) v * Series (fun k => (z / 2) ^ (2 * k) / (INR (fact k) * exp (lngamma (v + INR k + 1)))).

(** The functions on array elements.  gammaln and digamma are only modelled for positive arguments and at
    the special values (log|Gamma| and digamma at negative non-integers are NaN here: not modelled). *)
Definition is_int (r : R) : bool := if Req_EM_T (IZR (Int_part r)) r then true else false.
Definition xgammaln (x : xr) : xr :=
  match x with
  | Fin r => if Rlt_dec 0 r then Fin (lngamma r) else if is_int r then PInf else NaN
  | PInf | NInf => PInf
  | NaN => NaN
  end.
Definition xdigamma (x : xr) : xr :=
  match x with
  | Fin r => if Rlt_dec 0 r then Fin (digamma r) else NaN
  | PInf => PInf
  | _ => NaN
  end.
(** jax.scipy.special.betaln(a, b) = gammaln(a) + gammaln(b) - gammaln(a + b) *)
Definition xbetaln (a b : xr) : xr := xsub (xadd (xgammaln a) (xgammaln b)) (xgammaln (xadd a b)).
(** log_ive(v, z) = log(I_v(z) exp(-|z|)) for a Python number v and z >= 0; at z = 0 the limit *)
Definition xlog_ive (v z : xr) : xr :=
  match v, z with
  | Fin v, Fin z =>
      if Rlt_dec 0 z then Fin (ln (bessel_i v z) - z)
      else if Req_EM_T z 0 then (if Req_EM_T v 0 then Fin 0 else if Rlt_dec 0 v then NInf else PInf)
      else NaN
  | _, _ => NaN
  end.
(** iv_ratio(v, z) = I_v(z) / I_{v-1}(z) *)
Definition xiv_ratio (v z : xr) : xr :=
  match v, z with
  | Fin v, Fin z => if Rlt_dec 0 z then Fin (bessel_i v z / bessel_i (v - 1) z) else if Req_EM_T z 0 then Fin 0 else NaN
  | _, _ => NaN
  end.
(** x ** y for real arrays; simplification: a negative base is NaN, 0 ** y is 0, 1 or +inf *)
Definition xpow (x y : xr) : xr :=
  match x, y with
  | Fin a, Fin b =>
      if Rlt_dec 0 a then Fin (Rpower a b)
      else if Req_EM_T a 0 then (if Req_EM_T b 0 then Fin 1 else if Rlt_dec 0 b then Fin 0 else PInf)
      else NaN
  | _, _ => NaN
  end.
(** jnp.where(c, a, b) on elements *)
Definition xwhere (c : bool) (a b : xr) : xr := if c then a else b.
(** jss.logsumexp of a row: log (sum (exp x)) *)
Definition xlogsumexp (l : list xr) : xr := xlog (xsum (map xexp l)).
(** jnp.amax of a nonempty row *)
Definition xamax (l : list xr) : xr := match l with [] => NaN | a :: l' => fold_left xmax l' a end.
(** jnp.linalg.norm(x, 2, axis=-1) *)
Definition xnorm (l : list xr) : xr := xsqrt (xsum (map xsquare l)).
(** jnp.cumulative_sum of a row, without / with include_initial *)
Fixpoint xcumsum_from (a : xr) (l : list xr) : list xr :=
  match l with [] => [] | x :: l' => xadd a x :: xcumsum_from (xadd a x) l' end.
Definition xcumsum (l : list xr) : list xr := xcumsum_from (Fin 0) l.
Definition xcumsum0 (l : list xr) : list xr := Fin 0 :: xcumsum l.

(** tjax.abs_square: |z|^2 *)
Definition cabs_square (z : xc) : xr := xadd (xsquare (xre z)) (xsquare (xim z)).
(** complex square, division and reciprocal *)
Definition csquare (z : xc) : xc := cmul z z.
Definition cdiv (a b : xc) : xc := cdivr (cmul a (cconj b)) (cabs_square b).
Definition crecip (a : xc) : xc := cdivr (cconj a) (cabs_square a).

(** ** Matrices given by entries (jnp.linalg.inv, det, slogdet), over any field of scalars *)
Definition skip (k i : nat) : nat := if Nat.ltb i k then i else S i.
Section Matrix.
  Context {A : Type} (a0 a1 : A) (add mul : A -> A -> A) (opp inv : A -> A).
  Definition alt (j : nat) (x : A) : A := if Nat.even j then x else opp x.
  (** determinant by expansion along the first row *)
  Fixpoint gdet (n : nat) (m : nat -> nat -> A) : A :=
    match n with
    | O => a1
    | S n' => fold_right add a0
        (map (fun j => alt j (mul (m O j) (gdet n' (fun a b => m (S a) (skip j b))))) (seq 0 n))
    end.
  (** inverse by Cramer's rule: inv(m)[i][j] = (-1)^(i+j) det(m without row j and column i) / det m *)
  Definition ginv (n : nat) (m : nat -> nat -> A) (i j : nat) : A :=
    mul (alt (i + j) (gdet (pred n) (fun a b => m (skip j a) (skip i b)))) (inv (gdet n m)).
End Matrix.
Definition rdet : nat -> (nat -> nat -> R) -> R := gdet 0 1 Rplus Rmult Ropp.
Definition rinv : nat -> (nat -> nat -> R) -> nat -> nat -> R := ginv 0 1 Rplus Rmult Ropp Rinv.
Definition cdet : nat -> (nat -> nat -> C) -> C := gdet (RtoC 0) (RtoC 1) Cplus Cmult Copp.
Definition cinv : nat -> (nat -> nat -> C) -> nat -> nat -> C := ginv (RtoC 0) (RtoC 1) Cplus Cmult Copp Cinv.
Definition xfin (x : xr) : option R := match x with Fin r => Some r | _ => None end.
Definition xcfin (x : xc) : option C := match xre x, xim x with Fin a, Fin b => Some (a, b) | _, _ => None end.
Definition xcof (c : C) : xc := XC (Fin (fst c)) (Fin (snd c)).
Fixpoint sequence {A} (l : list (option A)) : option (list A) :=
  match l with
  | [] => Some []
  | Some a :: l' => option_map (cons a) (sequence l')
  | None :: _ => None
  end.
(** the matrix of a row-major list of entries *)
Definition entries {A} (d : A) (n : nat) (l : list A) : nat -> nat -> A := fun i j => nth (i * n + j) l d.
(** jnp.linalg.inv of one n x n matrix, entry (i, j).  Simplification: a singular matrix, or one with a
    non-finite entry, gives NaN entries. *)
Definition xinv (n : nat) (l : list xr) (i j : nat) : xr :=
  match sequence (map xfin l) with
  | Some m => if Req_EM_T (rdet n (entries 0 n m)) 0 then NaN else Fin (rinv n (entries 0 n m) i j)
  | None => NaN
  end.
Definition xcinv (n : nat) (l : list xc) (i j : nat) : xc :=
  match sequence (map xcfin l) with
  | Some m => if Req_EM_T (Cmod (cdet n (entries (RtoC 0) n m))) 0 then XC NaN NaN
              else xcof (cinv n (entries (RtoC 0) n m) i j)
  | None => XC NaN NaN
  end.
(** jnp.linalg.slogdet(m)[1] = log |det m|; jnp.linalg.det *)
Definition xslogdet (n : nat) (l : list xr) : xr :=
  match sequence (map xfin l) with Some m => xlog (Fin (Rabs (rdet n (entries 0 n m)))) | None => NaN end.
Definition xcdet (n : nat) (l : list xc) : xc :=
  match sequence (map xcfin l) with Some m => xcof (cdet n (entries (RtoC 0) n m)) | None => XC NaN NaN end.
