(** Specification vocabulary for C29 and C42: which section of the flattened parameters belongs to which parameter. *)
From Coq Require Import String List Bool Arith Reals.
From Verif Require Import Base XReal Tensor Support Dist Iteration Spec FlattenSpec.
Import ListNotations.

(** the paths of the variable parameters in depth-first order, with the number of their flattened elements *)
Definition leaf_sizes (pq : path * dist) : list (path * nat) :=
  match dims_of (snd pq) with
  | Ok n => map (fun f => (fst pq ++ [fd_name f], supp_num_elements (fd_support f) n)) (variable_fields (dcls (snd pq)))
  | Err _ => []
  end.
Definition sizes (d : dist) : list (path * nat) := flat_map leaf_sizes (leaves [] d).
(** the position of the first one is [off], each of the others follows the one before *)
Fixpoint sections_from (off : nat) (l : list (path * nat)) : list (path * (nat * nat)) :=
  match l with
  | [] => []
  | (p, k) :: l' => (p, (off, k)) :: sections_from (off + k) l'
  end.
(** (p, (off, k)): the parameter at path p is flattened to the elements off, ..., off + k - 1 *)
Definition sections (d : dist) : list (path * (nat * nat)) := sections_from 0 (sizes d).
(** the variable parameters of d range over all real numbers, vectors or symmetric matrices *)
Definition unbounded_real (s : support) : Prop :=
  exists sc, s = ScalarS (RealF None None sc) \/ s = VectorS (RealF None None sc) \/ exists h psd nsd, s = SymS (RealF None None sc) h psd nsd.
Definition unbounded (d : dist) : Prop := forall p q f, In (p, q) (leaves [] d) -> In f (variable_fields (dcls q)) -> unbounded_real (fd_support f).
(** the diagonal entries off, ..., off + k - 1 of the matrix F are the real numbers whose sum is x *)
Definition block_trace (F : tensor xr) (off k : nat) (x : R) : Prop :=
  exists l, length l = k /\ (forall a, a < k -> tget F [off + a; off + a] = Fin (nth a l 0%R)) /\ x = fold_right Rplus 0%R l.
