(** Specification vocabulary used by the theorem statements (independent of the modelled code):
    what a well formed distribution object is. *)
From Coq Require Import String List Bool Arith.
From Verif Require Import Base XReal Tensor Support Dist Iteration.
Import ListNotations.
Set Implicit Arguments.

Definition null {A} (l : list A) : bool := match l with [] => true | _ => false end.
Fixpoint nodupb (l : list string) : bool :=
  match l with [] => true | a :: l' => negb (existsb (String.eqb a) l') && nodupb l' end.
Fixpoint list_eqb {A} (eqb : A -> A -> bool) (l m : list A) : bool :=
  match l, m with
  | [], [] => true
  | a :: l', b :: m' => eqb a b && list_eqb eqb l' m'
  | _, _ => false
  end.
Definition shape_eqb : shape -> shape -> bool := list_eqb Nat.eqb.

(** Every object that the constructors build: a simple class has exactly its declared fields and no
    sub-distributions; a joint class has no fields of its own and at least one sub-distribution, with
    distinct names. *)
Fixpoint well_formed (d : dist) : bool :=
  let '(Dist c _ ps subs) := d in
  list_eqb String.eqb (map fst ps) (map fd_name (fields c)) &&
  (if is_joint c then negb (null subs) && nodupb (map fst subs) else null subs) &&
  forallb (fun ns => well_formed (snd ns)) subs.

(** dtype agreement: complex fields hold complex arrays, all other fields real ones *)
Definition kind_ok (s : support) (a : arr) : bool :=
  match supp_ring s, a with
  | ComplexF _ _, CA _ => true
  | ComplexF _ _, RA _ => false
  | _, RA _ => true
  | _, CA _ => false
  end.

(** The sizes the classes are defined for: a beta distribution has two shape parameters
    (beta.py:26-27), a Dirichlet distribution at least one, a multinomial at least one log-odds. *)
Definition dims_ok (c : cls) (n : nat) : bool :=
  match c with
  | NP Beta | EP Beta => n =? 2
  | NP Dirichlet | EP Dirichlet | NP Multinomial | EP Multinomial => 1 <=? n
  | _ => true
  end.
(** Every parameter array has the shape (batch shape) + (support shape for the common dimensions). *)
Definition leaf_shaped (b : shape) (d : dist) : bool :=
  match dims_of d with
  | Ok n => dims_ok (dcls d) n && forallb (fun f => match dget (dparams d) (fd_name f) with
                              | Some a => shape_eqb (ashape a) (b ++ supp_shape (fd_support f) n)
                                          && kind_ok (fd_support f) a
                              | None => false
                              end) (fields (dcls d))
  | Err _ => false
  end.
Fixpoint shaped (b : shape) (d : dist) : bool :=
  let '(Dist c _ _ subs) := d in
  (if is_joint c then true else leaf_shaped b d) && forallb (fun ns => shaped b (snd ns)) subs.

(** The same object with every minimizer replaced by the default one. *)
Fixpoint default_minimizers (d : dist) : dist :=
  let '(Dist c _ ps subs) := d in
  Dist c DefaultMinimizer ps (map (fun ns => (fst ns, default_minimizers (snd ns))) subs).
Definition is_default (m : minimizer) : bool := match m with DefaultMinimizer => true | _ => false end.
(** no user-supplied minimizer anywhere in the object *)
Fixpoint no_custom_minimizer (d : dist) : bool :=
  let '(Dist _ m _ subs) := d in
  is_default m && forallb (fun ns => no_custom_minimizer (snd ns)) subs.

(** The paths and classes of the leaves (simple distributions) of an object, in depth-first order. *)
Fixpoint leaves (base : path) (d : dist) : list (path * dist) :=
  let '(Dist c _ _ subs) := d in
  if is_joint c then flat_map (fun ns => leaves (base ++ [fst ns]) (snd ns)) subs
  else [(base, d)].

(** ** Nested mappings *)
(** m[k1][k2]...[kn], when that is a leaf *)
Fixpoint nested_get {V} (m : nested V) (p : path) : option V :=
  match m, p with
  | Leaf v, [] => Some v
  | Node kvs, k :: p' =>
      (fix go (l : list (string * nested V)) :=
         match l with
         | [] => None
         | (k', s) :: l' => if string_dec k k' then nested_get s p' else go l'
         end) kvs
  | _, _ => None
  end.
(** a Python nested mapping: no repeated keys at any level *)
Fixpoint nested_ok {V} (m : nested V) : bool :=
  match m with
  | Leaf _ => true
  | Node kvs => nodupb (map fst kvs) && forallb (fun kv => nested_ok (snd kv)) kvs
  end.
(** no empty mapping strictly inside *)
Fixpoint no_empty {V} (m : nested V) : bool :=
  match m with
  | Leaf _ => true
  | Node kvs => negb (null kvs) && forallb (fun kv => no_empty (snd kv)) kvs
  end.
(** p is a prefix of q *)
Fixpoint prefixb (p q : path) : bool :=
  match p, q with
  | [], _ => true
  | a :: p', b :: q' => String.eqb a b && prefixb p' q'
  | _, [] => false
  end.
(** a set of paths in which no path is a prefix of another, and none is empty *)
Fixpoint prefix_free (l : list path) : bool :=
  match l with
  | [] => true
  | p :: l' => negb (null p) && forallb (fun q => negb (prefixb p q) && negb (prefixb q p)) l' && prefix_free l'
  end.

(** d.<sub>.<sub>....<field>: the parameter array at an attribute path *)
Fixpoint param_at (d : dist) (p : path) : option arr :=
  match p with
  | [] => None
  | [n] => dget (dparams d) n
  | n :: p' => match dget (sub_distributions d) n with Some s => param_at s p' | None => None end
  end.
(** the declaration of that parameter *)
Fixpoint field_at (d : dist) (p : path) : option field_desc :=
  match p with
  | [] => None
  | [n] => find (fun f => String.eqb (fd_name f) n) (fields (dcls d))
  | n :: p' => match dget (sub_distributions d) n with Some s => field_at s p' | None => None end
  end.
(** d.<sub>.<sub>...: the distribution at a path *)
Fixpoint dist_at (d : dist) (p : path) : option dist :=
  match p with
  | [] => Some d
  | n :: p' => match dget (sub_distributions d) n with Some s => dist_at s p' | None => None end
  end.
(** the two trees have the same classes and the same names, in the same order, at every path *)
Definition same_skeleton (d e : dist) : Prop := forall p,
  option_map dcls (dist_at d p) = option_map dcls (dist_at e p) /\
  option_map (fun x => map fst (sub_distributions x)) (dist_at d p) = option_map (fun x => map fst (sub_distributions x)) (dist_at e p).
