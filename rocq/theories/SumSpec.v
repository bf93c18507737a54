(** Specification vocabulary for sums over the leaves of a joint distribution (C10, C16, C17). *)
From Coq Require Import String List Bool Arith Reals.
From Verif Require Import Base XReal Tensor Support Dist Iteration Spec.
Import ListNotations.

(** the entry at batch index i of a computed array *)
Definition entry (r : result (tensor xr)) (i : list nat) : xr := match r with Ok t => tget t i | Err _ => NaN end.
(** that entry is a finite number *)
Definition fin_at (r : result (tensor xr)) (i : list nat) : Prop := exists v, entry r i = Fin v.
(** r is an array of shape b, every g a (a in ls) is an array of shape b, and r is their elementwise sum *)
Definition sums_to {A} (g : A -> result (tensor xr)) (b : list nat) (ls : list A) (r : result (tensor xr)) : Prop :=
  (forall a, In a ls -> exists t, g a = Ok t /\ shp t = b) /\
  exists t, r = Ok t /\ shp t = b /\ forall i, inb b i = true -> tget t i = xsum (map (fun a => entry (g a) i) ls).

(** every node of the tree satisfies P *)
Fixpoint all_nodes (P : cls -> bool) (d : dist) : bool :=
  let '(Dist c _ _ subs) := d in P c && forallb (fun ns => all_nodes P (snd ns)) subs.
(** natural (expectation) distribution trees *)
Definition nat_tree : dist -> bool := all_nodes is_nat.
Definition exp_tree : dist -> bool := all_nodes is_exp.

(** the family of a natural or expectation parametrization class *)
Definition family_of (c : cls) : option family := match c with NP f | EP f => Some f | _ => None end.
(** two simple distributions of one family, batch shape b and the same dimensions *)
Definition leaf_match (b : list nat) (q r : dist) : Prop :=
  well_formed q = true /\ well_formed r = true /\ leaf_shaped b q = true /\ leaf_shaped b r = true /\ dims_of q = dims_of r /\
  exists f, family_of (dcls q) = Some f /\ family_of (dcls r) = Some f.
(** the leaves of the two trees, in order: the same paths, matching distributions *)
Definition tree_match (b : list nat) (x y : dist) : Prop :=
  Forall2 (fun p q => fst p = fst q /\ leaf_match b (snd p) (snd q)) (leaves [] x) (leaves [] y).

(** one leaf function of two trees, by path *)
Definition at_path {T} (d : dist) (p : path) (k : dist -> result T) : result T :=
  match dist_at d p with Some q => k q | None => Err KeyError end.

(** x has the tree shape of d, in any key order: an array for every simple distribution *)
Fixpoint obs_matches (d : dist) (x : nested arr) : Prop :=
  let '(Dist c _ _ subs) := d in
  if is_joint c then
    match x with
    | Leaf _ => False
    | Node kvs => NoDup (map fst kvs) /\ (forall n, In n (map fst kvs) <-> In n (map fst subs)) /\
        (fix go (l : list (string * dist)) : Prop :=
           match l with
           | [] => True
           | (n, s) :: l' => match dget kvs n with Some y => obs_matches s y | None => False end /\ go l'
           end) subs
    end
  else match x with Leaf _ => True | Node _ => False end.

(** an observation of a simple distribution of batch shape b: the domain's event shape and dtype *)
Definition obs_leaf (b : list nat) (q : dist) (x : arr) : Prop := exists n s,
  dims_of q = Ok n /\ domain_support (dcls q) = Some s /\ ashape x = b ++ supp_shape s n /\ kind_ok s x = true.
(** every leaf of the observation is such an observation of the distribution at the same path *)
Definition obs_shaped (b : list nat) (q : dist) (x : nested arr) : Prop := forall p l a,
  In (p, l) (leaves [] q) -> nested_get x p = Some a -> obs_leaf b l a.
