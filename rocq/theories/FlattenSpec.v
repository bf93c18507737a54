(** Specification vocabulary for flattening (independent of the Flattener code). *)
From Coq Require Import String List Bool Arith Reals.
From Verif Require Import Base XReal Tensor Support SupportSpec Dist Iteration Spec.
Import ListNotations.

(** the variable (not fixed) fields of a class *)
Definition variable_fields (c : cls) : list field_desc := filter (fun f => negb (fd_fixed f)) (fields c).

(** every variable parameter of the simple distribution q, with batch shape b, is a value of its support
    (as adjusted by the other parameters of q); strictly inside the bounds when m is set *)
Definition leaf_vals (m : bool) (b : shape) (q : dist) : Prop :=
  exists n, dims_of q = Ok n /\
    forall f, In f (variable_fields (dcls q)) -> exists v s,
      dget (dparams q) (fd_name f) = Some v /\
      adjust_support (dcls q) (fd_name f) (dparams q) = Ok s /\ supp_vals s m b n v.
Definition dist_vals (m : bool) (b : shape) (d : dist) : Prop :=
  forall p q, In (p, q) (leaves [] d) -> leaf_vals m b q.

(** the supports of the variable parameters in depth-first order, with their dimensions *)
Definition leaf_fields (q : dist) : list (support * nat) :=
  match dims_of q with
  | Ok n => map (fun f => (fd_support f, n)) (variable_fields (dcls q))
  | Err _ => []
  end.
Definition flat_fields (d : dist) : list (support * nat) := flat_map (fun pq => leaf_fields (snd pq)) (leaves [] d).
Definition fields_size (l : list (support * nat)) : nat := list_sum (map (fun sn => supp_num_elements (fst sn) (snd sn)) l).
(** the length of the flat vector of d *)
Definition flat_size (d : dist) : nat := fields_size (flat_fields d).
(** every parameter's section of the flat array t (batch shape b) is a point of the plane *)
Fixpoint plane_list (m : bool) (b : shape) (t : tensor xr) (off : nat) (l : list (support * nat)) : Prop :=
  match l with
  | [] => True
  | (s, n) :: l' => let k := supp_num_elements s n in
                    supp_plane s m b n (tslice off (off + k) t) /\ plane_list m b t (off + k) l'
  end.
Definition plane_point (m : bool) (b : shape) (d : dist) (t : tensor xr) : Prop :=
  shp t = b ++ [flat_size d] /\ plane_list m b t 0 (flat_fields d).
