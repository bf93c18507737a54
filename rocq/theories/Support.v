(** Rings and supports: efax/_src/parameter.py. *)
From Coq Require Import List Arith Bool Reals ZArith.
From Verif Require Import Base XReal Tensor.
Import ListNotations.
Set Implicit Arguments.

#[global] Instance Dflt_xr : Dflt xr := NaN.
#[global] Instance Dflt_xc : Dflt xc := XC NaN NaN.

(** A jax array: real (float, int or bool dtype; ints and bools are their real values) or complex. *)
Inductive arr := RA (t : tensor xr) | CA (t : tensor xc).
Definition ashape (a : arr) : shape := match a with RA t => shp t | CA t => shp t end.
(** simplification: a real field given a complex array is outside the typed contract *)
Definition as_real (a : arr) : result (tensor xr) :=
  match a with RA t => Ok t | CA _ => Err TypeError end.
Definition as_complex (a : arr) : tensor xc :=
  match a with RA t => tmap cofr t | CA t => t end.

Definition xsum (l : list xr) : xr := fold_right xadd (Fin 0) l.
Definition csum (l : list xc) : xc := fold_right cadd (XC (Fin 0) (Fin 0)) l.

(** np.finfo(canonicalize_dtype(float)).eps for jax's default float32 (parameter.py:50-51).
    Only 0 < feps < 1/8 is used by the proofs. *)
Definition feps : R := (/ 2 ^ 23)%R.

(** ** Rings *)
Inductive bound := BFloat (r : R) | BArr (t : tensor xr).
Inductive ring :=
  | RealF (mn mx : option R) (scale : R)         (* bounds after __post_init__ *)
  | ComplexF (minmod : bound) (maxmod : option bound)
  | BoolR
  | IntR (mn mx : option Z).

(** parameter.py:41-57 RealField.__init__ and __post_init__ *)
Definition adj_min (m : R) : R := Rmax (m + feps) (m * (1 + copysign feps m)).
Definition adj_max (m : R) : R := Rmin (m - feps) (m * (1 + copysign feps (- m))).
Definition mk_real_field (mn mx : option R) (scale : R) (min_open max_open : bool) : ring :=
  RealF (if min_open then option_map adj_min mn else mn)
        (if max_open then option_map adj_max mx else mx) scale.

(** parameter.py:213-218 *)
Definition real_field : ring := mk_real_field None None 1 true true.
Definition negative_support : ring := mk_real_field None (Some 0%R) 1 true true.
Definition positive_support : ring := mk_real_field (Some 0%R) None 1 true true.
Definition integral_ring : ring := IntR None None.
Definition complex_field : ring := ComplexF (BFloat 0) None.
Definition boolean_ring : ring := BoolR.

(** parameter.py:59-60, 118-119, 172-173, 194-195 *)
Definition ring_num_elements (r : ring) (n : nat) : nat :=
  match r with ComplexF _ _ => n * 2 | _ => n end.

(** parameter.py:63-74 RealField.flattened, map_to_plane branch, one element *)
Definition real_to_plane (mn mx : option R) (x : xr) : xr :=
  match mn, mx with
  | None, Some M => xneg (xinv_softplus (xsub (Fin M) x))
  | Some m, None => xinv_softplus (xsub x (Fin m))
  | Some m, Some M => xlogit (xdiv (xsub x (Fin m)) (Fin (M - m)))
  | None, None => x
  end.
(** parameter.py:77-88 RealField.unflattened, map_from_plane branch, one element *)
Definition real_from_plane (mn mx : option R) (y : xr) : xr :=
  match mn, mx with
  | None, Some M => xsub (Fin M) (xsoftplus (xneg y))
  | Some m, None => xadd (xsoftplus y) (Fin m)
  | Some m, Some M => xadd (Fin m) (xmul (xexpit y) (Fin (M - m)))
  | None, None => y
  end.

(** parameter.py:472-480 fix_bound: append axes until the rank of the other array is reached *)
Definition fix_bound (b : bound) (ndim : nat) : tensor xr :=
  let t := match b with BFloat r => tscalar (Fin r) | BArr t => t end in
  Nat.iter (ndim - rank t) tnewaxis t.

(** parameter.py:122-140 ComplexField.flattened with map_to_plane *)
Definition complex_to_plane (mn : bound) (mx : option bound) (x : tensor xc) : result (tensor xc) :=
  let minimum := fix_bound mn (rank x) in
  let magnitude := tmap cabs x in
  let* d := tmap2 xsub magnitude minimum in
  let* corrected_magnitude :=
    match mx with
    | None => Ok d
    | Some b =>
        let* q := tmap2 xdiv d (fix_bound b (rank x)) in
        Ok (tmap (fun v => xlogit (xadd (xmul v (Fin (1/2))) (Fin (1/2)))) q)
    end in
  let* p := tmap2 (fun z r => cscale r z) x corrected_magnitude in
  tmap2 cdivr p magnitude.
(** parameter.py:151-163 ComplexField._unflattened *)
Definition complex_from_plane (mn : bound) (mx : option bound) (y : tensor xc) : result (tensor xc) :=
  let minimum := fix_bound mn (rank y) in
  let corrected_magnitude := tmap cabs y in
  let* magnitude :=
    match mx with
    | None => tmap2 xadd corrected_magnitude minimum
    | Some b =>
        let* m := tmap2 (fun b c => xmul (xmul b (xsub (xexpit c) (Fin (1/2)))) (Fin 2))
                        (fix_bound b (rank y)) corrected_magnitude in
        tmap2 xadd m minimum
    end in
  let* p := tmap2 (fun z r => cscale r z) y magnitude in
  tmap2 cdivr p corrected_magnitude.

(** Ring.flattened: parameter.py:63-74 (RealField), 122-140 (ComplexField), 176-177 (BooleanRing),
    198-199 (IntegralRing) *)
Definition ring_flattened (r : ring) (map_to_plane : bool) (x : arr) : result (tensor xr) :=
  match r with
  | RealF mn mx _ =>
      let* t := as_real x in
      Ok (if map_to_plane then tmap (real_to_plane mn mx) t else t)
  | ComplexF mn mx =>
      let z := as_complex x in
      let* c := if map_to_plane then complex_to_plane mn mx z else Ok z in
      tappend (tmap xre c) (tmap xim c)
  | BoolR | IntR _ _ => as_real x
  end.
(** Ring.unflattened: parameter.py:77-88, 143-149, 180-181, 202-203 *)
Definition ring_unflattened (r : ring) (map_from_plane : bool) (y : tensor xr) : result arr :=
  match r with
  | RealF mn mx _ => Ok (RA (if map_from_plane then tmap (real_from_plane mn mx) y else y))
  | ComplexF mn mx =>
      let* n2 := opt_err IndexErr (last_dim (shp y)) in
      if negb (n2 mod 2 =? 0) then Err AssertionError else
      let n := n2 / 2 in
      let* c := tmap2 XC (tslice 0 n y) (tslice n n2 y) in
      if map_from_plane then rmap CA (complex_from_plane mn mx c) else Ok (CA c)
  | BoolR => Ok (RA (tmap xbool y))
  | IntR _ _ => Ok (RA (tmap xtrunc y))
  end.

(** parameter.py:105-109 RealField.clamp; 36-37 Ring.clamp is the identity *)
Definition ring_clamp (r : ring) (x : arr) : result arr :=
  match r with
  | RealF mn mx _ =>
      let* t := as_real x in
      Ok (RA (tmap (xclip (option_map (fun m => Fin (m + feps)) mn)
                          (option_map (fun m => Fin (m - feps)) mx)) t))
  | _ => Ok x
  end.

(** ** Supports (parameter.py:221-460) *)
Inductive support :=
  | ScalarS (r : ring)
  | VectorS (r : ring)
  | SimplexS (r : ring)
  | SymS (r : ring) (hermitian psd nsd : bool)
  | SquareS (r : ring)
  | CircS (radius : R).

Definition supp_ring (s : support) : ring :=
  match s with
  | ScalarS r | VectorS r | SimplexS r | SymS r _ _ _ | SquareS r => r
  | CircS _ => real_field
  end.

Definition supp_axes (s : support) : nat :=
  match s with
  | ScalarS _ => 0
  | VectorS _ | SimplexS _ | CircS _ => 1
  | SymS _ _ _ _ | SquareS _ => 2
  end.
(** Support.shape(dimensions).  SimplexS: dimensions - 1, for dimensions >= 1. *)
Definition supp_shape (s : support) (d : nat) : shape :=
  match s with
  | ScalarS _ => []
  | VectorS _ | CircS _ => [d]
  | SimplexS _ => [d - 1]
  | SymS _ _ _ _ | SquareS _ => [d; d]
  end.
(** math.comb(d + 1, 2) *)
Definition comb2 (d : nat) : nat := (d + 1) * d / 2.
Definition supp_num_elements (s : support) (d : nat) : nat :=
  match s with
  | ScalarS r => ring_num_elements r 1
  | VectorS r => ring_num_elements r d
  | CircS _ => d
  | SimplexS r => ring_num_elements r (d - 1)
  | SymS r _ _ _ => ring_num_elements r (comb2 d)
  | SquareS r => ring_num_elements r (d * d)
  end.

(** jnp.triu_indices(n): row-major positions on and above the diagonal *)
Definition triu (n : nat) : list (nat * nat) :=
  filter (fun p => fst p <=? snd p) (list_prod (seq 0 n) (seq 0 n)).
(** x[(..., *triu_indices(n))] *)
Definition gather_triu {A} `{Dflt A} (n : nat) (x : tensor A) : tensor A :=
  tbuild (removelast (removelast (shp x)) ++ [length (triu n)])
    (fun i => let ab := nth (last i 0) (triu n) (0, 0) in
              tget x (removelast i ++ [fst ab; snd ab])).
(** position of a pair in a list *)
Fixpoint pos_of (p : nat * nat) (l : list (nat * nat)) : nat :=
  match l with
  | [] => 0
  | q :: l' => if (fst p =? fst q) && (snd p =? snd q) then 0 else S (pos_of p l')
  end.
(** e.at[(..., *triu_indices(n))].set(x) *)
Definition scatter_triu {A} `{Dflt A} (n : nat) (e x : tensor A) : tensor A :=
  tbuild (shp e)
    (fun i => let j := last i 0 in let b := removelast i in
              let k := last b 0 in let b' := removelast b in
              if k <=? j then tget x (b' ++ [pos_of (k, j) (triu n)]) else tget e i).

(** parameter.py:381-397 SymmetricMatrixSupport.unflattened after the ring's unflattening;
    [conj] is complex conjugation when hermitian.  sqrt(1+8k) is an exact square root test
    (floats: exact below 2^52).  jnp.empty is zero-filled in jax: [z]. *)
Definition sym_unflatten {A} `{Dflt A} (z : A) (conj : A -> A) (x : tensor A) : result (tensor A) :=
  let* k := opt_err IndexErr (last_dim (shp x)) in
  let i_sqrt := Nat.sqrt (1 + 8 * k) in
  if negb (i_sqrt * i_sqrt =? 1 + 8 * k) then Err ValueError else
  if negb (i_sqrt mod 2 =? 1) then Err ValueError else
  let d := (i_sqrt - 1) / 2 in
  let empty := tfull (removelast (shp x) ++ [d; d]) z in
  let lower := tmap conj (tswap (scatter_triu d empty x)) in
  Ok (scatter_triu d lower x).

Definition arr_gather_triu (n : nat) (x : arr) : arr :=
  match x with RA t => RA (gather_triu n t) | CA t => CA (gather_triu n t) end.
Definition arr_sym_unflatten (hermitian : bool) (x : arr) : result arr :=
  match x with
  | RA t => rmap RA (sym_unflatten (Fin 0) (fun v => v) t)
  | CA t => rmap CA (sym_unflatten (XC (Fin 0) (Fin 0)) (if hermitian then cconj else fun v => v) t)
  end.
Definition arr_newaxis (x : arr) : arr :=
  match x with RA t => RA (tnewaxis t) | CA t => CA (tnewaxis t) end.
Definition arr_last (k : nat) (x : arr) : arr :=
  match x with RA t => RA (tlast k t) | CA t => CA (tlast k t) end.
Definition arr_reshape (s : shape) (x : arr) : result arr :=
  match x with RA t => rmap RA (treshape s t) | CA t => rmap CA (treshape s t) end.

(** jnp.linalg.norm(x, 2, axis=-1, keepdims=True) *)
Definition norm_last (x : tensor xr) : tensor xr :=
  tnewaxis (tfold_last (fun l => xsqrt (xsum (map xsquare l))) x).
(** parameter.py:444-450 CircularBoundedSupport.flattened *)
Definition circ_to_plane (radius : R) (x : tensor xr) : result (tensor xr) :=
  let magnitude := norm_last x in
  let cm := tmap (fun m => xlogit (xadd (xmul (xdiv m (Fin radius)) (Fin (1/2))) (Fin (1/2)))) magnitude in
  let* p := tmap2 xmul x cm in tmap2 xdiv p magnitude.
(** parameter.py:453-460 CircularBoundedSupport.unflattened *)
Definition circ_from_plane (radius : R) (y : tensor xr) : result (tensor xr) :=
  let cm := norm_last y in
  let magnitude := tmap (fun c => xmul (xmul (Fin radius) (xsub (xexpit c) (Fin (1/2)))) (Fin 2)) cm in
  let* p := tmap2 xmul y magnitude in tmap2 xdiv p cm.

(** Support.flattened: parameter.py:269-270, 297-298, 325-326, 374-378, 428-430, 444-450 *)
Definition supp_flattened (s : support) (m : bool) (x : arr) : result (tensor xr) :=
  match s with
  | ScalarS r => ring_flattened r m (arr_newaxis x)
  | VectorS r | SimplexS r => ring_flattened r m x
  | SymS r _ _ _ =>
      match rev (ashape x) with
      | d :: d' :: _ => if d' =? d then ring_flattened r m (arr_gather_triu d x)
                        else Err AssertionError
      | _ => Err IndexErr
      end
  | SquareS r =>
      let s := ashape x in
      let b := removelast (removelast s) in
      let* y := arr_reshape (b ++ [last (removelast s) 0 * last s 0]) x in
      ring_flattened r m y
  | CircS radius => let* t := as_real x in if m then circ_to_plane radius t else Ok t
  end.

(** Support.unflattened: parameter.py:273-276, 301-304, 329-332, 381-397, 433-435, 453-460 *)
Definition supp_unflattened (s : support) (y : tensor xr) (d : nat) (m : bool) : result arr :=
  match s with
  | ScalarS r =>
      let* x := ring_unflattened r m y in
      let* n := opt_err IndexErr (last_dim (ashape x)) in
      if n =? 1 then Ok (arr_last 0 x) else Err AssertionError
  | VectorS r | SimplexS r =>
      let* x := ring_unflattened r m y in
      let* n := opt_err IndexErr (last_dim (ashape x)) in
      if n =? d then Ok x else Err AssertionError
  | SymS r hermitian _ _ =>
      let* x := ring_unflattened r m y in arr_sym_unflatten hermitian x
  | SquareS r =>
      let* x := ring_unflattened r m y in
      arr_reshape (removelast (ashape x) ++ [d; d]) x
  | CircS radius =>
      if m then
        let* n := opt_err IndexErr (last_dim (shp y)) in
        if n =? d then rmap RA (circ_from_plane radius y) else Err AssertionError
      else Ok (RA y)
  end.

(** Support.clamp: parameter.py:251-252; SimplexSupport.clamp: 335-339 *)
Definition simplex_clamp (t : tensor xr) : result (tensor xr) :=
  let s := tnewaxis (tfold_last xsum t) in
  let* x := tmap2 xmul t (tmap (fun v => xmin (Fin 1) (xdiv (Fin (1 - feps)) v)) s) in
  Ok (tmap (xclip (Some (Fin feps)) (Some (Fin (1 - feps)))) x).
Definition supp_clamp (s : support) (x : arr) : result arr :=
  match s with
  | SimplexS _ => let* t := as_real x in rmap RA (simplex_clamp t)
  | _ => ring_clamp (supp_ring s) x
  end.
