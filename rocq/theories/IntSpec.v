(** Specification vocabulary for C23-C25: sums and integrals over the sample space of a family. *)
From Coquelicot Require Import Coquelicot.
From Coq Require Import String List Bool Arith Reals.
From Verif Require Import Base XReal Tensor Support Dist Iteration Structure Tools Joint Spec SumSpec DotSpec PointSpec DensSpec.
Import ListNotations.
Local Open Scope string_scope.
Local Open Scope R_scope.

(** the improper Riemann integral over the open interval from lo to hi *)
Definition right_of (lo : Rbar) : (R -> Prop) -> Prop := match lo with Finite a => at_right a | _ => Rbar_locally m_infty end.
Definition left_of (hi : Rbar) : (R -> Prop) -> Prop := match hi with Finite b => at_left b | _ => Rbar_locally p_infty end.
Definition improper (lo hi : Rbar) (F : R -> R) (v : R) : Prop := is_RInt_gen F (right_of lo) (left_of hi) v.
Definition inside (lo hi : Rbar) (t : R) : Prop := Rbar_lt lo t /\ Rbar_lt t hi.
(** the iterated integral of F over k more coordinates; each coordinate t ranges between bounds that may depend on the coordinates [l] before it *)
Fixpoint iterated (k : nat) (lo hi : list R -> Rbar) (l : list R) (F : list R -> R) (v : R) : Prop :=
  match k with
  | O => v = F l
  | S k' => exists G, (forall t, inside (lo l) (hi l) t -> iterated k' lo hi (l ++ [t])%list F (G t)) /\ improper (lo l) (hi l) G v
  end.
(** the integral of u |-> F (l ++ s u) over the unit sphere of dimension k (in k + 1 coordinates) in its surface measure, in hyperspherical
    coordinates: the sphere of dimension 0 is two points, and u = (cos t, sin t u') with t between 0 and pi and u' on the sphere of dimension
    k - 1, the surface element being sin^(k-1) t dt du' *)
Fixpoint sphere (k : nat) (s : R) (l : list R) (F : list R -> R) (v : R) : Prop :=
  match k with
  | O => v = F (l ++ [s])%list + F (l ++ [- s])%list
  | S k' => exists G, (forall t, 0 < t < PI -> sphere k' (s * sin t) (l ++ [s * cos t])%list F (G t)) /\ is_RInt (fun t => sin t ^ k' * G t) 0 PI v
  end.
Definition scalar_obs (t : R) : obs := fun c _ => if c then 0 else t.
Definition vector_obs (l : list R) : obs := fun c j => if c then 0 else nth (hd 0%nat j) l 0.
Definition complex_obs (z : R * R) : obs := fun c _ => if c then snd z else fst z.
(** the coordinates are re 0, im 0, re 1, im 1, ... *)
Definition complex_vector_obs (l : list R) : obs := fun c j => nth (2 * hd 0%nat j + if c then 1 else 0)%nat l 0.
Definition lsum (l : list R) : R := fold_right Rplus 0 l.
(** the sum or integral of F over the sample space of family f with n dimensions *)
Definition integral_over (f : family) (n : nat) (F : obs -> R) (v : R) : Prop :=
  let whole_line k := iterated k (fun _ => m_infty) (fun _ => p_infty) [] in
  let simplex k := iterated k (fun _ => Finite 0) (fun l => Finite (1 - lsum l)) [] in
  match f with
  | Bernoulli => v = F (scalar_obs 0) + F (scalar_obs 1)
  | Multinomial => v = F (vector_obs []) + sumR n (fun k => F (vector_obs (repeat 0 k ++ [1])%list))
  | Geometric | NegativeBinomial | Poisson => is_series (fun k => F (scalar_obs (INR k))) v
  | Logarithmic => is_series (fun k => F (scalar_obs (INR (S k)))) v
  | Chi | ChiSquare | Exponential | Gamma | Rayleigh | Weibull => improper 0 p_infty (fun t => F (scalar_obs t)) v
  | Beta => improper 0 1 (fun t => F (scalar_obs t)) v
  | Normal | UnitNormal => improper m_infty p_infty (fun t => F (scalar_obs t)) v
  | Dirichlet => simplex (n - 1)%nat (fun l => F (vector_obs l)) v
  | GeneralizedDirichlet => simplex n (fun l => F (vector_obs l)) v
  | MultivariateNormal | MultivariateDiagonalNormal | MultivariateFixedVarianceNormal | IsotropicNormal | MultivariateUnitNormal =>
      whole_line n (fun l => F (vector_obs l)) v
  | ComplexNormal | ComplexUnitNormal => whole_line 2%nat (fun l => F (complex_obs (nth 0 l 0, nth 1 l 0))) v
  | ComplexMultivariateUnitNormal | ComplexCircularlySymmetricNormal => whole_line (n + n)%nat (fun l => F (complex_vector_obs l)) v
  | VonMisesFisher => (1 <= n)%nat /\ sphere (n - 1) 1 [] (fun l => F (vector_obs l)) v
  end.
(** P is the probability (density) that q.pdf computes at batch index i, for every observation of the sample space *)
Definition pdf_is (L : leaf_methods) (b i : list nat) (f : family) (n : nat) (q : dist) (P : obs -> R) : Prop :=
  forall x xv, observed b i q x xv -> sample_space f n xv -> density L b i q x (P xv).
(** the expected value of g under P is v *)
Definition expected (f : family) (n : nat) (P g : obs -> R) (v : R) : Prop := integral_over f n (fun x => P x * g x) v.
(** component c (false: real part, true: imaginary part) of entry j of parameter nm of d, at batch index i, is the real number r *)
Definition value_at (d : dist) (i : list nat) (c : bool) (nm : string) (j : list nat) (r : R) : Prop :=
  exists a, dget (dparams d) nm = Some a /\ comp c (entry_c a (i ++ j)%list) = Fin r.
(** T is what the sufficient statistics of an observation, as the estimator made from q computes them, hold as that component *)
Definition statistic_is (L : leaf_methods) (b i : list nat) (f : family) (n : nat) (q : dist) (c : bool) (nm : string) (j : list nat) (T : obs -> R) : Prop :=
  forall x xv, observed b i q x xv -> sample_space f n xv -> exists est s,
    create_estimator_from_natural q = Ok est /\ mle_sufficient_statistics L est (Leaf x) = Ok s /\ value_at s i c nm j (T xv).
(** M is the value of q.carrier_measure *)
Definition carrier_is (L : leaf_methods) (b i : list nat) (f : family) (n : nat) (q : dist) (M : obs -> R) : Prop :=
  forall x xv, observed b i q x xv -> sample_space f n xv -> exists t, carrier_measure L q (Leaf x) = Ok t /\ shp t = b /\ tget t i = Fin (M xv).
(** l is the value of q.log_pdf *)
Definition log_pdf_is (L : leaf_methods) (b i : list nat) (f : family) (n : nat) (q : dist) (l : obs -> R) : Prop :=
  forall x xv, observed b i q x xv -> sample_space f n xv -> log_density L b i q x (l xv).
(** q.to_exp().to_nat() has the parameters of q at batch index i (C21 for the closed-form families; for the others, the search succeeded, C28) *)
Definition recovered (L : leaf_methods) (b i : list nat) (q : dist) : Prop := exists e r, to_exp L q = Ok e /\ to_nat L e = Ok r /\ same_at b i q r.
(** the families whose expected_carrier_measure calls to_nat *)
Definition carrier_by_search (f : family) : bool := match f with Chi | ChiSquare => true | _ => false end.
