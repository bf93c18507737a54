(** efax/_src/iteration.py *)
From Coq Require Import String List Bool Arith.
From Verif Require Import Base XReal Tensor Support Dist.
Import ListNotations.
Set Implicit Arguments.

Notation path := (list string).

(** ** Nested mappings *)
Inductive nested (V : Type) :=
  | Leaf (v : V)
  | Node (kvs : list (string * nested V)).
Arguments Leaf {V} v.
Arguments Node {V} kvs.

(** iteration.py:12-25: the sequence of assignments result[path] = value performed by _flatten *)
Fixpoint flat_items {V} (prefix : path) (m : nested V) : list (path * V) :=
  match m with
  | Leaf v => [(prefix, v)]
  | Node kvs => flat_map (fun kv => flat_items (prefix ++ [fst kv]) (snd kv)) kvs
  end.
Definition flatten_mapping {V} (m : list (string * nested V)) : dict path V :=
  dict_of (flat_items [] (Node m)).

(** iteration.py:28-36: one iteration of the loop: walk with setdefault, then assign.
    A non-mapping met on the way has no setdefault (AttributeError); an empty path has no
    last element (IndexError). *)
Fixpoint unflat_insert {V} (kvs : list (string * nested V)) (p : path) (v : V)
  : result (list (string * nested V)) :=
  match p with
  | [] => Err IndexErr
  | [k] => Ok (dset kvs k (Leaf v))
  | k :: p' =>
      match dget kvs k with
      | None => let* s := unflat_insert [] p' v in Ok (dset kvs k (Node s))
      | Some (Node sub) => let* s := unflat_insert sub p' v in Ok (dset kvs k (Node s))
      | Some (Leaf _) => Err AttributeErr
      end
  end.
Definition unflatten_mapping {V} (m : dict path V) : result (list (string * nested V)) :=
  foldM (fun r pv => unflat_insert r (fst pv) (snd pv)) [] m.

(** ** parameters (iteration.py:104-148) *)
Definition fixed_ok (fixed : option bool) (f : field_desc) : bool :=
  match fixed with None => true | Some b => Bool.eqb (fd_fixed f) b end.

(** the fields of q itself: iteration.py:125-140 (also the recurse=False result) *)
Definition own_params (fixed : option bool) (c : cls) (ps : dict string arr)
  : result (list (string * (arr * support))) :=
  mapM (fun f => let* v := opt_err AttributeErr (dget ps (fd_name f)) in
                 Ok (fd_name f, (v, fd_support f)))
       (filter (fixed_ok fixed) (fields c)).

(** _parameters(q, base_path): own fields, then the sub-distributions in order *)
Fixpoint param_items (fixed : option bool) (base : path) (d : dist)
  : result (list (path * (arr * support))) :=
  let '(Dist c _ ps subs) := d in
  let* own := own_params fixed c ps in
  let* rest :=
    (fix go (l : list (string * dist)) :=
       match l with
       | [] => Ok []
       | (n, s) :: l' =>
           let* a := param_items fixed (base ++ [n]) s in
           let* b := go l' in Ok (a ++ b)
       end) subs in
  Ok (map (fun nv => (base ++ [fst nv], snd nv)) own ++ rest).

(** parameters(d, fixed=fixed, support=True) and with support=False *)
Definition parameters_s (d : dist) (fixed : option bool) : result (dict path (arr * support)) :=
  rmap dict_of (param_items fixed [] d).
Definition parameters (d : dist) (fixed : option bool) : result (dict path arr) :=
  rmap (fun l => dict_of (map (fun kv => (fst kv, fst (snd kv))) l)) (param_items fixed [] d).

(** flat_dict_of_observations: iteration.py:194-196 *)
Definition flat_dict_of_observations (x : nested arr) : dict path arr :=
  match x with Node m => flatten_mapping m | Leaf a => [([], a)] end.
