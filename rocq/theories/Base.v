(** Exceptions as values, and insertion-ordered dictionaries.

    Python exceptions are modelled by [Err]; the constructor of [exn] names the
    exception class the code raises. *)
From Coq Require Import String List Bool Arith.
Import ListNotations.
Set Implicit Arguments.

Inductive exn :=
  | ValueError | TypeError | KeyError | AssertionError | NotImplementedErr | RuntimeErr
  | BroadcastError (* numpy/jax: incompatible shapes (a TypeError/ValueError raised by jax) *)
  | IndexErr
  | AttributeErr.

Inductive result (A : Type) := Ok (a : A) | Err (e : exn).
Arguments Ok {A} a.
Arguments Err {A} e.

Definition bind {A B} (x : result A) (f : A -> result B) : result B :=
  match x with Ok a => f a | Err e => Err e end.
Definition rmap {A B} (f : A -> B) (x : result A) : result B :=
  match x with Ok a => Ok (f a) | Err e => Err e end.
Notation "'let*' x ':=' e 'in' k" := (bind e (fun x => k))
  (at level 200, x pattern, e at level 100, k at level 200, right associativity).
Definition bind2 {A B C} (f : A -> B -> result C) (x : result A) (y : result B) : result C :=
  bind x (fun a => bind y (fun b => f a b)).

Fixpoint mapM {A B} (f : A -> result B) (l : list A) : result (list B) :=
  match l with
  | [] => Ok []
  | a :: l' => let* b := f a in let* bs := mapM f l' in Ok (b :: bs)
  end.

Fixpoint foldM {A S} (f : S -> A -> result S) (s : S) (l : list A) : result S :=
  match l with
  | [] => Ok s
  | a :: l' => let* s' := f s a in foldM f s' l'
  end.

(** functools.reduce without an initial value: raises TypeError on an empty iterable. *)
Definition reduceM {A} (f : A -> A -> result A) (l : list A) : result A :=
  match l with
  | [] => Err TypeError
  | a :: l' => foldM f a l'
  end.

(** zip(strict=True): ValueError if the lengths differ. *)
Fixpoint zip_strict {A B} (xs : list A) (ys : list B) : result (list (A * B)) :=
  match xs, ys with
  | [], [] => Ok []
  | x :: xs', y :: ys' => let* zs := zip_strict xs' ys' in Ok ((x, y) :: zs)
  | _, _ => Err ValueError
  end.

Definition opt_err {A} (e : exn) (o : option A) : result A :=
  match o with Some a => Ok a | None => Err e end.

(** * Dictionaries

    A Python dict is an association list in insertion order without repeated keys.
    [dset] replaces in place or appends, as [d[k] = v] does. *)
Class EqDec (K : Type) := keq : forall a b : K, {a = b} + {a <> b}.
#[global] Instance EqDec_string : EqDec string := string_dec.
#[global] Instance EqDec_path : EqDec (list string) := list_eq_dec string_dec.
#[global] Instance EqDec_nat : EqDec nat := Nat.eq_dec.

Definition dict (K V : Type) := list (K * V).

Section Dict.
  Context {K V : Type} `{EqDec K}.
  Fixpoint dget (d : dict K V) (k : K) : option V :=
    match d with
    | [] => None
    | (k', v) :: d' => if keq k k' then Some v else dget d' k
    end.
  Fixpoint dset (d : dict K V) (k : K) (v : V) : dict K V :=
    match d with
    | [] => [(k, v)]
    | (k', v') :: d' => if keq k k' then (k', v) :: d' else (k', v') :: dset d' k v
    end.
  (** dict(iterable of pairs) *)
  Definition dict_of (l : list (K * V)) : dict K V :=
    fold_left (fun d kv => dset d (fst kv) (snd kv)) l [].
  (** {**a, **b} *)
  Definition dupdate (a b : dict K V) : dict K V :=
    fold_left (fun d kv => dset d (fst kv) (snd kv)) b a.
  (** d[k], raising KeyError *)
  Definition dindex (d : dict K V) (k : K) : result V := opt_err KeyError (dget d k).
  Definition keys (d : dict K V) : list K := map fst d.
  Definition values (d : dict K V) : list V := map snd d.
  Definition dmem (d : dict K V) (k : K) : bool := if dget d k then true else false.
End Dict.
