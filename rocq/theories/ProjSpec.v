(** Vocabulary for C73: an arbitrary true density and the distribution whose expectation parameters are its moments. *)
From Coquelicot Require Import Coquelicot.
From Coq Require Import String List Bool Arith Reals.
From Verif Require Import Base XReal Tensor Support Dist Iteration Structure Tools Joint Spec SumSpec DotSpec PointSpec DensSpec SampleSpec IntSpec JointIntSpec.
Import ListNotations.
Local Open Scope R_scope.

(** P, any function on the sample space of p, is a probability density *)
Definition true_density (p : dist) (P : jobs -> R) : Prop := (forall xv, joint_space p xv -> 0 <= P xv) /\ integral_joint p P 1.
(** the expected sufficient statistics under P are the expectation parameters p.to_exp() *)
Definition has_moments (L : leaf_methods) (b i : list nat) (p : dist) (P : jobs -> R) : Prop := exists e, to_exp L p = Ok e /\
  forall pth l f n g c j T le v, In (pth, l) (leaves [] p) -> dcls l = NP f -> dims_of l = Ok n -> In g (var_fields (EP f)) -> inb (supp_shape (fd_support g) n) j = true ->
    joint_statistic_is L b i p pth c (fd_name g) j T -> dist_at e pth = Some le -> value_at le i c (fd_name g) j v -> integral_joint p (fun xv => P xv * T xv) v.
(** the expected carrier measure of every leaf under P is what expected_carrier_measure() says of p.to_exp() *)
Definition has_carriers (L : leaf_methods) (b i : list nat) (p : dist) (P : jobs -> R) : Prop := exists e, to_exp L p = Ok e /\
  forall pth l f n M le t c, In (pth, l) (leaves [] p) -> dcls l = NP f -> dims_of l = Ok n -> carrier_is L b i f n l M ->
    dist_at e pth = Some le -> expected_carrier_measure L le = Ok t -> tget t i = Fin c -> integral_joint p (fun xv => P xv * M (xv pth)) c.
