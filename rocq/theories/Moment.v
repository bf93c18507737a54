(** The variance() methods of the expectation parametrizations. *)
From Coq Require Import String List Bool Arith Reals.
From Verif Require Import Base XReal Tensor Support Dist Iteration Structure Tools Joint SpecFun Expr Fam Var.
Import ListNotations.
Local Open Scope string_scope.

Definition variance (d : dist) : result (tensor xr) :=
  match dcls d with
  | EP Normal | EP MultivariateDiagonalNormal => eval (dparams d) variance_e        (* normal/normal.py:120-121, multivariate_normal/diagonal.py:122-123 *)
  | EP MultivariateNormal => eval (dparams d) mvn_variance_e                        (* multivariate_normal/arbitrary.py:116-117 *)
  | EP IsotropicNormal => eval (dparams d) isotropic_variance                       (* multivariate_normal/isotropic.py:131-133 *)
  | _ => Err AttributeErr
  end.
