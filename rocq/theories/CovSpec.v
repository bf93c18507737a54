(** Specification vocabulary for C47 and C48: linear functions of the sufficient statistics. *)
From Coquelicot Require Import Coquelicot.
From Coq Require Import String List Bool Arith Reals.
From Verif Require Import Base XReal Tensor Support Dist Iteration Structure Tools Joint Spec SumSpec DotSpec PointSpec DensSpec SampleSpec IntSpec JointIntSpec.
Import ListNotations.
Local Open Scope R_scope.

(** X is the value of parameter_dot_product(v, T(x)), where T(x) are the sufficient statistics that the estimator made from q computes *)
Definition projection_is (L : leaf_methods) (b i : list nat) (q v : dist) (X : jobs -> R) : Prop := forall x xv,
  joint_observed b i q x xv -> joint_space q xv -> exists est s t,
    create_estimator_from_natural q = Ok est /\ mle_sufficient_statistics L est x = Ok s /\ parameter_dot_product v s = Ok t /\ shp t = b /\ tget t i = Fin (X xv).
(** m is the inner product of v and q.to_exp() *)
Definition mean_along (L : leaf_methods) (b i : list nat) (q v : dist) (m : R) : Prop :=
  exists e t, to_exp L q = Ok e /\ parameter_dot_product v e = Ok t /\ shp t = b /\ tget t i = Fin m.
(** a is the value of q.log_normalizer() *)
Definition log_normalizer_is (L : leaf_methods) (b i : list nat) (q : dist) (a : R) : Prop :=
  exists t, log_normalizer L q = Ok t /\ shp t = b /\ tget t i = Fin a.
