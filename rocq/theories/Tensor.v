(** n-dimensional arrays: a shape and row-major data, as numpy/jax arrays.

    [tbuild s f] is the array of shape [s] whose entry at multi-index [i] is [f i];
    every array operation of the model is written with [tbuild] and [tget], with the
    index arithmetic of the numpy operation it models. *)
From Coq Require Import List Arith Bool Lia Eqdep_dec.
From Verif Require Import Base.
Import ListNotations.
Set Implicit Arguments.

Notation shape := (list nat) (only parsing).
Notation index := (list nat) (only parsing).

Fixpoint prods (s : shape) : nat :=
  match s with [] => 1 | n :: s' => n * prods s' end.

(** all multi-indices of a shape in row-major order *)
Fixpoint indices (s : shape) : list index :=
  match s with
  | [] => [[]]
  | n :: s' => flat_map (fun k => map (cons k) (indices s')) (seq 0 n)
  end.
(** row-major position *)
Fixpoint ravel (s : shape) (i : index) : nat :=
  match s, i with
  | n :: s', k :: i' => k * prods s' + ravel s' i'
  | _, _ => 0
  end.
Fixpoint inb (s : shape) (i : index) : bool :=
  match s, i with
  | [], [] => true
  | n :: s', k :: i' => (k <? n) && inb s' i'
  | _, _ => false
  end.

Record tensor (A : Type) := mkT {
  shp : shape;
  dat : list A;
  twf : Nat.eqb (length dat) (prods shp) = true }.

(** A default element; [tget] is only ever applied to in-range indices by the operations
    (see the [_inb] lemmas), the default never reaches a result. *)
Class Dflt (A : Type) := dflt : A.

Lemma length_indices s : length (indices s) = prods s.
Proof.
  induction s as [|n s IH]; simpl; [reflexivity|].
  assert (H : forall l, length (flat_map (fun k => map (cons k) (indices s)) l)
                        = length l * prods s).
  { induction l as [|a l IHl]; simpl; [reflexivity|].
    rewrite app_length, map_length, IHl. f_equal. exact IH. }
  rewrite H, seq_length. reflexivity.
Qed.

Section Build.
  Context {A : Type} {DA : Dflt A}.
  Definition tget (t : tensor A) (i : index) : A := nth (ravel (shp t) i) (dat t) dflt.
End Build.
Definition tbuild {A} (s : shape) (f : index -> A) : tensor A.
Proof.
  refine (@mkT A s (map f (indices s)) _).
  rewrite map_length, length_indices. apply Nat.eqb_refl.
Defined.

(** ** Elementwise operations and broadcasting *)
Definition tmap {A B} `{Dflt A} (f : A -> B) (t : tensor A) : tensor B :=
  tbuild (shp t) (fun i => f (tget t i)).

(** right-aligned broadcasting of shapes, on reversed shapes *)
Fixpoint brev (a b : shape) : option shape :=
  match a, b with
  | [], _ => Some b
  | _, [] => Some a
  | m :: a', n :: b' =>
      match brev a' b' with
      | None => None
      | Some s =>
          if m =? n then Some (m :: s)
          else if m =? 1 then Some (n :: s)
          else if n =? 1 then Some (m :: s)
          else None
      end
  end.
Definition bshape (a b : shape) : option shape := option_map (@rev nat) (brev (rev a) (rev b)).
(** the index into an array of shape [s] selected by an index [i] of the broadcast shape *)
Definition bidx (s : shape) (i : index) : index :=
  map (fun nk : nat * nat => if fst nk =? 1 then 0 else snd nk)
      (combine s (skipn (length i - length s) i)).

Definition tmap2 {A B C} `{Dflt A} `{Dflt B} (f : A -> B -> C) (t : tensor A) (u : tensor B)
  : result (tensor C) :=
  match bshape (shp t) (shp u) with
  | Some s => Ok (tbuild s (fun i => f (tget t (bidx (shp t) i)) (tget u (bidx (shp u) i))))
  | None => Err BroadcastError
  end.

(** jnp.broadcast_to(t, s) *)
Definition tbroadcast_to {A} `{Dflt A} (s : shape) (t : tensor A) : result (tensor A) :=
  match bshape (shp t) s with
  | Some s' => if list_eq_dec Nat.eq_dec s' s
               then Ok (tbuild s (fun i => tget t (bidx (shp t) i)))
               else Err BroadcastError
  | None => Err BroadcastError
  end.

Definition tfull {A} (s : shape) (a : A) : tensor A := tbuild s (fun _ => a).
Definition tscalar {A} (a : A) : tensor A := tfull [] a.

(** ** Shape manipulation *)
Definition rank {A} (t : tensor A) : nat := length (shp t).
(** last element of a shape, if any *)
Definition last_dim (s : shape) : option nat :=
  match rev s with [] => None | n :: _ => Some n end.
Definition init_shape (s : shape) : shape := removelast s.

(** x[i] for a multi-index i over the leading axes *)
Definition tsub {A} `{Dflt A} (t : tensor A) (i : index) : tensor A :=
  tbuild (skipn (length i) (shp t)) (fun j => tget t (i ++ j)).
(** x[..., newaxis] *)
Definition tnewaxis {A} `{Dflt A} (t : tensor A) : tensor A :=
  tbuild (shp t ++ [1]) (fun i => tget t (removelast i)).
(** x[..., k] *)
Definition tlast {A} `{Dflt A} (k : nat) (t : tensor A) : tensor A :=
  tbuild (removelast (shp t)) (fun i => tget t (i ++ [k])).
(** x[..., a:b]; numpy clips the bounds to the axis length *)
Definition tslice {A} `{Dflt A} (a b : nat) (t : tensor A) : tensor A :=
  let n := last (shp t) 0 in
  tbuild (removelast (shp t) ++ [Nat.min b n - Nat.min a n])
         (fun i => tget t (removelast i ++ [Nat.min a n + last i 0])).
(** jnp.append(x, y, axis=-1) = concatenate([x, y], axis=-1): the other axes must agree *)
Definition tappend {A} `{Dflt A} (t u : tensor A) : result (tensor A) :=
  match shp t, shp u with
  | [], _ | _, [] => Err ValueError
  | _, _ =>
    if list_eq_dec Nat.eq_dec (removelast (shp t)) (removelast (shp u)) then
      let n := last (shp t) 0 in
      Ok (tbuild (removelast (shp t) ++ [n + last (shp u) 0])
            (fun i => let k := last i 0 in
                      if k <? n then tget t i else tget u (removelast i ++ [k - n])))
    else Err BroadcastError
  end.
(** jnp.swapaxes(x, -2, -1) *)
Definition swap_last2 {A} (l : list A) : list A :=
  match rev l with a :: b :: r => rev (b :: a :: r) | _ => l end.
Definition tswap {A} `{Dflt A} (t : tensor A) : tensor A :=
  tbuild (swap_last2 (shp t)) (fun i => tget t (swap_last2 i)).
(** jnp.reshape(x, s) *)
Definition treshape {A} (s : shape) (t : tensor A) : result (tensor A) :=
  match Bool.bool_dec (Nat.eqb (length (dat t)) (prods s)) true with
  | left e => Ok (mkT _ _ e)
  | right _ => Err BroadcastError
  end.
(** sum (or any fold) over the last axis / the last n axes *)
Definition tfold_last {A B} `{Dflt A} (f : list A -> B) (t : tensor A) : tensor B :=
  tbuild (removelast (shp t))
         (fun i => f (map (fun k => tget t (i ++ [k])) (seq 0 (last (shp t) 0)))).
Definition tfold_axes {A B} `{Dflt A} (f : list A -> B) (n : nat) (t : tensor A) : tensor B :=
  let b := firstn (rank t - n) (shp t) in
  let e := skipn (rank t - n) (shp t) in
  tbuild b (fun i => f (map (fun j => tget t (i ++ j)) (indices e))).
(** jnp.stack([t, u], axis=-1) of equally shaped arrays *)
Definition tstack2 {A} `{Dflt A} (t u : tensor A) : result (tensor A) :=
  if list_eq_dec Nat.eq_dec (shp t) (shp u) then
    Ok (tbuild (shp t ++ [2])
          (fun i => if last i 0 =? 0 then tget t (removelast i) else tget u (removelast i)))
  else Err BroadcastError.
