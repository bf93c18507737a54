(** Definitions for C65: for which families any two pieces of evidence can be combined, and for which the density has no carrier factor. *)
From Coq Require Import Bool.
From Verif Require Import Base XReal Tensor Support Dist.

(** the families whose natural parameters are closed under addition and multiplication by a positive number: the sum of the parameters of two
    distributions (with the same fixed parameters) always is the parameter of a distribution.  It is not so for the families whose parameters
    are "minus one" (-1/2 and -3/4 are allowed, -5/4 is not), and for VonMisesFisher opposite directions cancel *)
Definition closed_under_combination (f : family) : bool :=
  match f with
  | Beta | Dirichlet | GeneralizedDirichlet | Chi | ChiSquare | Gamma | VonMisesFisher => false
  | _ => true
  end.
(** the families whose densities have no factor that does not depend on the parameters *)
Definition no_carrier (f : family) : bool :=
  match f with
  | Bernoulli | Beta | ComplexCircularlySymmetricNormal | ComplexNormal | Dirichlet | Exponential | Gamma | GeneralizedDirichlet | Geometric | IsotropicNormal
  | Multinomial | MultivariateDiagonalNormal | MultivariateNormal | Normal | VonMisesFisher => true
  | _ => false
  end.
