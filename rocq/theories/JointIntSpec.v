(** Specification vocabulary for C23-C25 on joint distributions: the iterated integral over the sample spaces of the leaves. *)
From Coquelicot Require Import Coquelicot.
From Coq Require Import String List Bool Arith Reals.
From Verif Require Import Base XReal Tensor Support Dist Iteration Structure Tools Joint Spec SumSpec DotSpec PointSpec DensSpec SampleSpec IntSpec.
Import ListNotations.
Local Open Scope R_scope.

(** the value of a joint observation: the value of the observation of every leaf, by path *)
Definition jobs := path -> obs.
Definition assign (w : jobs) (p : path) (x : obs) : jobs := fun p' => if list_eq_dec string_dec p' p then x else w p'.
(** the families and dimensions of the leaves *)
Definition spaces (q : dist) : list (path * (family * nat)) :=
  flat_map (fun pl => match dcls (snd pl), dims_of (snd pl) with NP f, Ok n => [(fst pl, (f, n))] | _, _ => [] end) (leaves [] q).
(** the points of a sample space; the observations of a real family have no imaginary part *)
Definition point_of_space (f : family) (n : nat) (x : obs) : Prop := sample_space f n x /\ real_obs (NP f) n x.
(** the iterated sum or integral of F over the sample spaces ls, the first one outermost; w holds the values chosen already *)
Fixpoint joint_integral (ls : list (path * (family * nat))) (w : jobs) (F : jobs -> R) (v : R) : Prop :=
  match ls with
  | [] => v = F w
  | (p, (f, n)) :: ls' => exists G, (forall x, point_of_space f n x -> joint_integral ls' (assign w p x) F (G x)) /\ integral_over f n G v
  end.
(** before any value is chosen *)
Definition nowhere : jobs := fun _ _ _ => 0.
Definition integral_joint (q : dist) : (jobs -> R) -> R -> Prop := joint_integral (spaces q) nowhere.
(** x is an observation of the joint distribution q whose values at batch index i are xv *)
Definition joint_observed (b i : list nat) (q : dist) (x : nested arr) (xv : jobs) : Prop := obs_matches q x /\
  forall p l, In (p, l) (leaves [] q) -> exists a, nested_get x p = Some a /\ observed b i l a (xv p).
(** every leaf's value is in its sample space *)
Definition joint_space (q : dist) (xv : jobs) : Prop := forall p f n, In (p, (f, n)) (spaces q) -> sample_space f n (xv p).
(** P (l) is the value of q.pdf (q.log_pdf) *)
Definition joint_pdf_is (L : leaf_methods) (b i : list nat) (q : dist) (P : jobs -> R) : Prop := forall x xv,
  joint_observed b i q x xv -> joint_space q xv -> exists t, pdf L q x = Ok t /\ shp t = b /\ tget t i = Fin (P xv).
Definition joint_log_pdf_is (L : leaf_methods) (b i : list nat) (q : dist) (l : jobs -> R) : Prop := forall x xv,
  joint_observed b i q x xv -> joint_space q xv -> exists t, log_pdf L q x = Ok t /\ shp t = b /\ tget t i = Fin (l xv).
(** T is component c of entry j of parameter nm of the leaf at path p of the sufficient statistics *)
Definition joint_statistic_is (L : leaf_methods) (b i : list nat) (q : dist) (p : path) (c : bool) (nm : string) (j : list nat) (T : jobs -> R) : Prop :=
  forall x xv, joint_observed b i q x xv -> joint_space q xv -> exists est s l,
    create_estimator_from_natural q = Ok est /\ mle_sufficient_statistics L est x = Ok s /\ dist_at s p = Some l /\ value_at l i c nm j (T xv).
(** a tree of natural distributions with batch shape b whose parameters at batch index i are in their domains *)
Definition joint_proper (b i : list nat) (q : dist) : Prop :=
  well_formed q = true /\ nat_tree q = true /\ shaped b q = true /\ inb b i = true /\ tree_in_domain q i.
