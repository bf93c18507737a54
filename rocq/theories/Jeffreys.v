(** natural_parametrization.py: the Jeffreys prior.  [fisher_matrix] stands for _fisher_information_matrix, as in Fisher.v. *)
From Coq Require Import List Bool Arith Reals.
From Verif Require Import Base XReal Tensor Support Dist SpecFun.
Import ListNotations.
Set Implicit Arguments.

(** jnp.linalg.det of one n x n matrix, given by the row-major list of its entries *)
Definition xdet (n : nat) (l : list xr) : xr :=
  match sequence (map xfin l) with Some m => Fin (rdet n (entries 0%R n m)) | None => NaN end.
(** jnp.linalg.det: the determinant over the last two axes, which must be of the same length (ValueError otherwise); a matrix
    with an entry that is not a finite number has determinant NaN (JAX may return an infinity) *)
Definition jdet (a : tensor xr) : result (tensor xr) :=
  match rev (shp a) with
  | n :: m :: rest =>
      if n =? m then
        Ok (tbuild (rev rest) (fun i => xdet n (map (fun j => tget a (i ++ j)) (indices [n; n]))))
      else Err ValueError
  | _ => Err ValueError
  end.
(** natural_parametrization.py:151-153 jeffreys_prior *)
Definition jeffreys_prior (fisher_matrix : dist -> result (tensor xr)) (self : dist) : result (tensor xr) :=
  let* m := fisher_matrix self in
  let* d := jdet m in
  Ok (tmap xsqrt d).
