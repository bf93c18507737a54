(** examples/optimization.py (the README's optimization example): gradient descent on the cross entropy.
    The automatic derivative [grad] is not modelled here as a program: what it must return is specified in OptimSpec.v. *)
From Coq Require Import String List Bool Arith Reals.
From Verif Require Import Base XReal Tensor Support Dist Iteration Structure Tools Joint.
Import ListNotations.
Local Open Scope R_scope.

(** jnp.sum(x) over all axes *)
Definition tsum (t : tensor xr) : xr := xsum (map (tget t) (indices (shp t))).
(** examples/optimization.py:10-11 cross_entropy_loss *)
Definition cross_entropy_loss (L : leaf_methods) (p q : dist) : result xr := rmap tsum (cross_entropy L p q).
(** examples/optimization.py:17-18 apply; the learning rate eta is 1e-4 there *)
Definition apply_op (eta : R) (l : list arr) : result arr :=
  match l with
  | [RA x; RA x_bar] => rmap RA (tmap2 (fun a g => xsub a (xmul (Fin eta) g)) x x_bar)
  | _ => Err TypeError
  end.
(** examples/optimization.py:21-23 body_fun, given q_bar = gce(some_p, q) *)
Definition body_fun (eta : R) (q q_bar : dist) : result dist := parameter_map (apply_op eta) q [q_bar].
(** examples/optimization.py:26-29 cond_fun: the total compared with the threshold, given q_bar = gce(some_p, q) *)
Definition grad_norm (q_bar : dist) : result xr := rmap tsum (parameter_dot_product q_bar q_bar).
