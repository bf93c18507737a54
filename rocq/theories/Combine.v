(** Combining and scaling evidence: "The motivation for the natural parametrization is combining and scaling independent predictive evidence.
    In the natural parametrization, these operations correspond to scaling and addition" (README.rst:82-83, natural_parametrization.py:44-47).
    Addition is parameter_map(jnp.add, p, q), as kl_divergence forms parameter_map(jnp.subtract, p, q) (expectation_parametrization.py:49);
    scaling is parameter_map(lambda x: c * x, p), as the optimization example of README.rst:255-261 writes its own operation. *)
From Coq Require Import String List Reals.
From Verif Require Import Base XReal Tensor Support Dist Iteration Structure Tools.
Import ListNotations.

(** jnp.add as the operation of parameter_map (tools.py:43-65) *)
Definition arr_add (x y : arr) : result arr :=
  match x, y with
  | RA a, RA b => rmap RA (tmap2 xadd a b)
  | _, _ => rmap CA (tmap2 cadd (as_complex x) (as_complex y))
  end.
Definition add_op (l : list arr) : result arr :=
  match l with [x; y] => arr_add x y | _ => Err TypeError end.
(** multiplication by the real number c as the operation of parameter_map *)
Definition scale_op (c : R) (l : list arr) : result arr :=
  match l with
  | [RA a] => Ok (RA (tmap (xmul (Fin c)) a))
  | [CA a] => Ok (CA (tmap (cscale (Fin c)) a))
  | _ => Err TypeError
  end.
(** tools.py:43-65 with these operations *)
Definition combine_evidence (p q : dist) : result dist := parameter_map add_op p [q].
Definition scale_evidence (c : R) (p : dist) : result dist := parameter_map (scale_op c) p [].
