(** natural_parametrization.py: the Fisher information.

    jax.vjp and jacfwd(grad(...)) are external: their results are arguments ([vjp], [fisher_matrix]) and what JAX promises
    about them is said in FisherSpec.v. *)
From Coq Require Import String List Bool Arith Reals.
From Verif Require Import Base XReal Tensor Support Dist Iteration Structure Tools Joint.
Import ListNotations.
Set Implicit Arguments.

(** natural_parametrization.py:157-169 apply_fisher_information: [vjp self vector] is f_vjp(vector), f_vjp the pullback of
    to_exp at self (f_vjp returns a 1-tuple, which the model drops) *)
Definition apply_fisher_information (L : leaf_methods) (vjp : dist -> dist -> result dist) (self vector : dist) : result (dist * dist) :=
  let* expectation_parameters := to_exp L self in
  let* w := vjp self vector in
  Ok (expectation_parameters, w).

(** jnp.diagonal(a): the diagonal over the first two axes, which becomes the last axis of the result *)
Definition jdiagonal (a : tensor xr) : result (tensor xr) :=
  match shp a with
  | n :: m :: rest => Ok (tbuild (rest ++ [min n m]) (fun i => let d := last i 0 in tget a (d :: d :: removelast i)))
  | _ => Err ValueError
  end.

(** natural_parametrization.py:112-123 fisher_information_diagonal *)
Definition fisher_information_diagonal (fisher_matrix : dist -> result (tensor xr)) (self : dist) : result dist :=
  let* (flattener, _) := flatten self true in
  let* m := fisher_matrix self in
  let* fisher_diagonal := jdiagonal m in
  unflatten flattener fisher_diagonal.

(** jnp.triu: zero below the diagonal of the last two axes *)
Definition jtriu {A} `{Dflt A} (zero : A) (a : tensor A) : tensor A :=
  tbuild (shp a) (fun i => if nth (length i - 2) i 0 <=? nth (length i - 1) i 0 then tget a i else zero).
(** natural_parametrization.py:138-147: the reduction of one parameter of the diagonal *)
Definition trace_value (s : support) (v : arr) : result arr :=
  match supp_axes s with
  | 0 => Ok v
  | 1 => Ok (match v with RA t => RA (tfold_axes xsum 1 t) | CA t => CA (tfold_axes csum 1 t) end)
  | 2 => Ok (match v with RA t => RA (tfold_axes xsum 2 (jtriu (Fin 0) t)) | CA t => CA (tfold_axes csum 2 (jtriu (XC (Fin 0) (Fin 0)) t)) end)
  | _ => Err RuntimeErr
  end.
(** natural_parametrization.py:126-148 fisher_information_trace (jnp.sum over axes the value does not have raises
    ValueError; parameters of a distribution always have them) *)
Definition fisher_information_trace (fisher_matrix : dist -> result (tensor xr)) (self : dist) : result dist :=
  let* diagonal := fisher_information_diagonal fisher_matrix self in
  let* structure := create self in
  let* final_parameters := parameters self None in
  let* ps := parameters_s diagonal None in
  let* final_parameters := foldM (fun (acc : dict path arr) kv => let* v := trace_value (snd (snd kv)) (fst (snd kv)) in Ok (dset acc (fst kv) v)) final_parameters ps in
  assemble structure final_parameters.
