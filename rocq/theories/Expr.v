(** Array expressions: the language in which the methods of the distribution classes are transcribed.

    [eval] gives an expression the meaning jax gives to the corresponding Python expression: arrays with
    batch axes, numpy broadcasting for elementwise operations, reductions over the trailing axes, and
    an exception when the shapes do not fit. *)
From Coq Require Import String List Bool Arith Reals.
From Verif Require Import Base XReal Tensor Support SpecFun.
Import ListNotations.
Set Implicit Arguments.
Local Unset Asymmetric Patterns.

(** real or complex dtype *)
Inductive kind := KR | KC.
Definition elt (k : kind) : Type := match k with KR => xr | KC => xc end.
#[global] Instance Dflt_elt k : Dflt (elt k) := match k with KR => NaN | KC => XC NaN NaN end.
Definition pack (k : kind) : tensor (elt k) -> arr := match k with KR => RA | KC => CA end.
(** an array variable used at a dtype (a real array is promoted where a complex one is expected) *)
Definition get_kind (k : kind) (a : arr) : result (tensor (elt k)) :=
  match k with
  | KR => as_real a
  | KC => Ok (as_complex a)
  end.

(** A function of the trailing axes of an array, applied to every batch element: [g_rank] trailing axes are
    consumed; [g_ok] says for which sizes of these axes it is defined; [g_out] is the event shape of the
    result; [g_fun s l j] is entry j of the result from the row-major entries l of one batch element. *)
Record gufunc (k1 k2 : kind) := Gufunc {
  g_rank : nat;
  g_ok : list nat -> bool;
  g_out : list nat -> list nat;
  g_fun : list nat -> list (elt k1) -> list nat -> elt k2 }.
Record gufunc2 (k1 k2 k3 : kind) := Gufunc2 {
  h_rank1 : nat; h_rank2 : nat;
  h_ok : list nat -> list nat -> bool;
  h_out : list nat -> list nat -> list nat;
  h_fun : list nat -> list nat -> list (elt k1) -> list (elt k2) -> list nat -> elt k3 }.

Inductive aexp : kind -> Type :=
  | EVar (k : kind) (n : string) : aexp k                    (* self.n, x, or fixed_parameters['n'] *)
  | ENum (r : R) : aexp KR                                   (* a Python number *)
  | EDim (n : string) : aexp KR                              (* self.n.shape[-1], i.e. self.dimensions() *)
  | EMap {k1 k2} (f : elt k1 -> elt k2) (e : aexp k1) : aexp k2
  | EMap2 {k1 k2 k3} (f : elt k1 -> elt k2 -> elt k3) (e1 : aexp k1) (e2 : aexp k2) : aexp k3
  | EMap3 {k} (f : elt k -> elt k -> elt k -> elt k) (e1 e2 e3 : aexp k) : aexp k   (* jnp.where *)
  | ENewaxis {k} (e : aexp k) : aexp k                       (* e[..., newaxis] *)
  | EKeep {k} (f : list (elt k) -> elt k) (e : aexp k) : aexp k  (* a reduction with axis=-1, keepdims=True *)
  | EGu {k1 k2} (g : gufunc k1 k2) (e : aexp k1) : aexp k2
  | EGu2 {k1 k2 k3} (g : gufunc2 k1 k2 k3) (e1 : aexp k1) (e2 : aexp k2) : aexp k3
  | EZeros {k} (drop : nat) (e : aexp k) : aexp KR           (* jnp.zeros(e.shape[:-drop]) *)
  | EBroadcast {k1 k2} (e : aexp k1) (to : aexp k2) : aexp k1.   (* jnp.broadcast_to(e, to.shape) *)

Section Apply.
  Context {k1 k2 k3 : kind}.
  Definition gu_apply (g : gufunc k1 k2) (t : tensor (elt k1)) : result (tensor (elt k2)) :=
    let r := rank t - g_rank g in
    let b := firstn r (shp t) in let s := skipn r (shp t) in
    if (g_rank g <=? rank t) && g_ok g s then
      Ok (tbuild (b ++ g_out g s)
            (fun i => g_fun g s (map (fun j => tget t (firstn r i ++ j)) (indices s)) (skipn r i)))
    else Err ValueError.
  (** simplification: the batch shapes of the two operands must be equal *)
  Definition gu2_apply (g : gufunc2 k1 k2 k3) (t : tensor (elt k1)) (u : tensor (elt k2))
    : result (tensor (elt k3)) :=
    let r := rank t - h_rank1 g in let r' := rank u - h_rank2 g in
    let b := firstn r (shp t) in let s := skipn r (shp t) in
    let b' := firstn r' (shp u) in let s' := skipn r' (shp u) in
    if (h_rank1 g <=? rank t) && (h_rank2 g <=? rank u) && h_ok g s s' then
      if list_eq_dec Nat.eq_dec b b' then
        Ok (tbuild (b ++ h_out g s s')
              (fun i => h_fun g s s' (map (fun j => tget t (firstn r i ++ j)) (indices s))
                                     (map (fun j => tget u (firstn r i ++ j)) (indices s')) (skipn r i)))
      else Err BroadcastError
    else Err ValueError.
End Apply.
(** three-way broadcasting, jnp.where *)
Definition tmap3 {A} `{Dflt A} (f : A -> A -> A -> A) (t u v : tensor A) : result (tensor A) :=
  match bshape (shp t) (shp u) with
  | Some s1 =>
      match bshape s1 (shp v) with
      | Some s => Ok (tbuild s (fun i => f (tget t (bidx (shp t) i)) (tget u (bidx (shp u) i)) (tget v (bidx (shp v) i))))
      | None => Err BroadcastError
      end
  | None => Err BroadcastError
  end.
Definition tkeep {A} `{Dflt A} (f : list A -> A) (t : tensor A) : result (tensor A) :=
  match shp t with
  | [] => Err ValueError
  | _ => Ok (tbuild (removelast (shp t) ++ [1])
               (fun i => f (map (fun k => tget t (removelast i ++ [k])) (seq 0 (last (shp t) 0)))))
  end.

Fixpoint eval {k} (env : dict string arr) (e : aexp k) : result (tensor (elt k)) :=
  match e with
  | EVar k n => let* a := opt_err AttributeErr (dget env n) in get_kind k a
  | ENum r => Ok (tscalar (A := elt KR) (Fin r))
  | EDim n => let* a := opt_err AttributeErr (dget env n) in
              let* d := opt_err IndexErr (last_dim (ashape a)) in Ok (tscalar (A := elt KR) (Fin (INR d)))
  | @EMap _ _ f e => let* t := eval env e in Ok (tmap f t)
  | @EMap2 _ _ _ f e1 e2 => let* t := eval env e1 in let* u := eval env e2 in tmap2 f t u
  | @EMap3 _ f e1 e2 e3 => let* t := eval env e1 in let* u := eval env e2 in let* v := eval env e3 in tmap3 f t u v
  | @ENewaxis _ e => let* t := eval env e in Ok (tnewaxis t)
  | @EKeep _ f e => let* t := eval env e in tkeep f t
  | @EGu _ _ g e => let* t := eval env e in gu_apply g t
  | @EGu2 _ _ _ g e1 e2 => let* t := eval env e1 in let* u := eval env e2 in gu2_apply g t u
  | @EZeros _ drop e => let* t := eval env e in Ok (tfull (A := elt KR) (firstn (rank t - drop) (shp t)) (Fin 0))
  | @EBroadcast _ _ e to => let* t := eval env e in let* u := eval env to in tbroadcast_to (shp u) t
  end.
(** a constructor call: the named arguments, evaluated in order *)
Definition arg := (string * {k : kind & aexp k})%type.
Definition evals (env : dict string arr) (l : list arg) : result (dict string arr) :=
  mapM (fun ne : arg => let '(n, existT _ k e) := ne in let* t := eval env e in Ok (n, pack k t)) l.
