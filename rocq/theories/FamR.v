(** Real closed forms of the methods of the classes at one batch element (used in proofs only: the statements of the
    theorems do not mention them). *)
From Coq Require Import String List Bool Arith Reals.
From Coquelicot Require Import Coquelicot.
From Verif Require Import Base XReal Support Dist SpecFun PointSpec Val.
Import ListNotations.
Local Open Scope string_scope.
Local Open Scope R_scope.

Fixpoint slook (l : list (string * (bool -> list nat -> R))) (n : string) : bool -> list nat -> R :=
  match l with [] => fun _ _ => 0 | (k, g) :: l' => if String.eqb n k then g else slook l' n end.
Definition mkpt (l : list (string * (bool -> list nat -> R))) : point := fun c n j => slook l n c j.
Definition re (g : list nat -> R) : bool -> list nat -> R := fun c j => if c then 0 else g j.
Definition cx (g : list nat -> C) : bool -> list nat -> R := fun c j => if c then snd (g j) else fst (g j).
Definition cpt (p : point) (n : string) (j : list nat) : C := (p false n j, p true n j).

Section R.
  Variables (n : nat) (p : point).
  Let s (nm : string) := p false nm [].
  Let v (nm : string) (k : nat) := p false nm [k].
  Definition sumsq (nm : string) : R := sumR n (fun k => v nm k * v nm k).
  Definition norm2 (nm : string) : R := sqrt (sumsq nm).
  (** generalized Dirichlet *)
  Definition gdR_alpha (k : nat) : R := v "alpha_minus_one" k + 1.
  Definition gdR_beta (k : nat) : R :=
    sumR (S (n - 1 - k)) (fun m => v "gamma" (n - 1 - m)) + sumR (n - 1 - k) (fun m => gdR_alpha (n - 1 - m)) + 1.
  (** complex normal *)
  Definition cnR_np : R := s "negative_precision".
  Definition cnR_r : C := (fst (Copp (cpt p "pseudo_precision" [])) / cnR_np, snd (Copp (cpt p "pseudo_precision" [])) / cnR_np).
  Definition cnR_s : R := 1 / ((csq_abs cnR_r - 1) * cnR_np).
  Definition cnR_k : C := (fst (cpt p "pseudo_precision" []) / cnR_np, snd (cpt p "pseudo_precision" []) / cnR_np).
  Definition cnR_l : C := let d := (csq_abs cnR_k - 1) * cnR_np in
    ((1 / 2 * fst (cpt p "mean_times_precision" [])) / d, (1 / 2 * snd (cpt p "mean_times_precision" [])) / d).
  Definition cnR_mu : C := Cminus (Cconj cnR_l) (Cmult (Cconj cnR_k) cnR_l).
  Definition lnR (f : family) : R :=
    match f with
    | Bernoulli => ln (exp (s "log_odds") + exp 0)
    | Beta | Dirichlet => sumR n (fun k => lngamma (v "alpha_minus_one" k + 1)) - lngamma (sumR n (v "alpha_minus_one") + INR n)
    | Chi | ChiSquare => lngamma (s "k_over_two_minus_one" + 1) - (s "k_over_two_minus_one" + 1) * ln (1 / 2)
    | ComplexCircularlySymmetricNormal => - ln (fst (cdet n (fun a b => Copp (cpt p "negative_precision" [a; b])))) + INR n * ln PI
    | ComplexMultivariateUnitNormal =>
        sumR n (fun k => csq_abs (1 / 2 * p false "two_mean_conjugate" [k], 1 / 2 * p true "two_mean_conjugate" [k])) + INR n * ln PI
    | ComplexNormal =>
        - csq_abs cnR_mu * cnR_np - fst (Cmult (Cmult cnR_mu cnR_mu) (cpt p "pseudo_precision" [])) + 1 / 2 * ln cnR_s - 1 / 2 * ln (- cnR_np) + ln PI
    | ComplexUnitNormal => csq_abs (1 / 2 * p false "two_mean_conjugate" [], 1 / 2 * p true "two_mean_conjugate" []) + ln PI
    | Exponential => - ln (- s "negative_rate")
    | Gamma => lngamma (s "shape_minus_one" + 1) - (s "shape_minus_one" + 1) * ln (- s "negative_rate")
    | GeneralizedDirichlet => sumR n (fun k => lngamma (gdR_alpha k) + lngamma (gdR_beta k) - lngamma (gdR_alpha k + gdR_beta k))
    | Geometric => - (1) * ln (1 + - exp (s "log_not_p"))
    | Logarithmic => ln (- ln (1 + - exp (s "log_probability")))
    | Multinomial => ln (1 + sumR n (fun k => exp (v "log_odds" k)))
    | MultivariateNormal => 
        -1 / 4 * sumR n (fun a => sumR n (fun b => rinv n (fun a b => p false "negative_half_precision" [a; b]) a b * (v "mean_times_precision" a * v "mean_times_precision" b)))
        - 1 / 2 * ln (Rabs (rdet n (fun a b => - p false "negative_half_precision" [a; b]))) + 1 / 2 * INR n * ln PI
    | MultivariateDiagonalNormal =>
        sumR n (fun k => - (v "mean_times_precision" k * v "mean_times_precision" k) / (4 * v "negative_half_precision" k) + 1 / 2 * ln (- PI / v "negative_half_precision" k))
    | MultivariateFixedVarianceNormal => 1 / 2 * (sumsq "mean_times_precision" * s "variance" + INR n * ln (PI * 2 * s "variance"))
    | IsotropicNormal => 1 / 2 * (-1 / 2 * sumsq "mean_times_precision" / s "negative_half_precision" + INR n * ln (PI / - s "negative_half_precision"))
    | MultivariateUnitNormal => 1 / 2 * (sumsq "mean" + INR n * ln (PI * 2))
    | NegativeBinomial => - s "failures" * ln (1 + - exp (s "log_not_p"))
    | Normal => - (s "mean_times_precision" * s "mean_times_precision") / (4 * s "negative_half_precision") + 1 / 2 * ln (- PI / s "negative_half_precision")
    | UnitNormal => 1 / 2 * (s "mean" * s "mean" + ln (PI * 2))
    | Poisson => exp (s "log_mean")
    | Rayleigh => - ln (- s "eta")
    | VonMisesFisher => let k := norm2 "mean_times_concentration" in
        k - (INR n * (1 / 2) - 1) * ln k + INR n * (1 / 2) * ln (2 * PI) + (ln (bessel_i (INR n * (1 / 2) - 1) k) - k)
    | Weibull => - ln (- s "eta") - ln (s "concentration")
    end.
  Definition expR (f : family) : point :=
    match f with
    | Bernoulli => mkpt [("probability", re (fun _ => expit (s "log_odds")))]
    | Beta | Dirichlet => mkpt [("mean_log_probability", re (fun j => digamma (p false "alpha_minus_one" j + 1) - digamma (sumR n (v "alpha_minus_one") + INR n)))]
    | Chi | ChiSquare => mkpt [("mean_log", re (fun _ => digamma (s "k_over_two_minus_one" + 1) - ln (1 / 2)))]
    | ComplexCircularlySymmetricNormal =>
        mkpt [("variance", cx (fun j => Cconj (cinv n (fun a b => Copp (cpt p "negative_precision" [a; b])) (nth 0 j 0%nat) (nth 1 j 0%nat))))]
    | ComplexMultivariateUnitNormal | ComplexUnitNormal =>
        mkpt [("mean", cx (fun j => (1 / 2 * p false "two_mean_conjugate" j, 1 / 2 * - p true "two_mean_conjugate" j)))]
    | ComplexNormal =>
        mkpt [("mean", cx (fun _ => cnR_mu)); ("second_moment", re (fun _ => cnR_s + csq_abs cnR_mu));
              ("pseudo_second_moment", cx (fun _ => Cplus (Cconj (cnR_s * fst cnR_r, cnR_s * snd cnR_r)) (Cmult cnR_mu cnR_mu)))]
    | Exponential => mkpt [("mean", re (fun _ => -1 / s "negative_rate"))]
    | Gamma => mkpt [("mean", re (fun _ => - (s "shape_minus_one" + 1) / s "negative_rate"));
                     ("mean_log", re (fun _ => digamma (s "shape_minus_one" + 1) - ln (- s "negative_rate")))]
    | GeneralizedDirichlet =>
        let ds k := digamma (gdR_alpha k + gdR_beta k) in
        mkpt [("mean_log_probability", re (fun j => let k := hd 0%nat j in digamma (gdR_alpha k) - ds k + sumR k (fun m => digamma (gdR_beta m) - ds m)));
              ("mean_log_cumulative_probability", re (fun j => sumR (S (hd 0%nat j)) (fun m => digamma (gdR_beta m) - ds m)))]
    | Geometric => mkpt [("mean", re (fun _ => 1 / (exp (- s "log_not_p") - 1)))]
    | Logarithmic => mkpt [("chi", re (fun _ => exp (s "log_probability") / ((exp (s "log_probability") - 1) * ln (1 + - exp (s "log_probability")))))]
    | Multinomial => mkpt [("probability", re (fun j => exp (p false "log_odds" j) / (1 + sumR n (fun k => exp (v "log_odds" k)))))]
    | MultivariateNormal =>
        let hi := rinv n (fun a b => p false "negative_half_precision" [a; b]) in
        let he a := sumR n (fun b => hi a b * v "mean_times_precision" b) in
        mkpt [("mean", re (fun j => -1 / 2 * he (hd 0%nat j)));
              ("second_moment", re (fun j => let a := nth 0 j 0%nat in let b := nth 1 j 0%nat in 1 / 4 * (he a * he b) - 1 / 2 * hi a b))]
    | MultivariateDiagonalNormal | Normal =>
        let m j := - p false "mean_times_precision" j / (2 * p false "negative_half_precision" j) in
        mkpt [("mean", re m); ("second_moment", re (fun j => m j * m j - 1 / 2 / p false "negative_half_precision" j))]
    | MultivariateFixedVarianceNormal =>
        mkpt [("mean", re (fun j => p false "mean_times_precision" j * s "variance")); ("variance", re (fun _ => s "variance"))]
    | IsotropicNormal =>
        let precision := -2 * s "negative_half_precision" in
        let m j := p false "mean_times_precision" j / precision in
        mkpt [("mean", re m); ("total_second_moment", re (fun _ => sumR n (fun k => m [k] * m [k]) + INR n / precision))]
    | MultivariateUnitNormal | UnitNormal => mkpt [("mean", re (fun j => p false "mean" j))]
    | NegativeBinomial => mkpt [("mean", re (fun _ => s "failures" / (exp (- s "log_not_p") - 1))); ("failures", re (fun _ => s "failures"))]
    | Poisson => mkpt [("mean", re (fun _ => exp (s "log_mean")))]
    | Rayleigh => mkpt [("chi", re (fun _ => -1 / s "eta"))]
    | VonMisesFisher => let k := norm2 "mean_times_concentration" in
        mkpt [("mean", re (fun j => p false "mean_times_concentration" j * (bessel_i (INR n * (1 / 2)) k / bessel_i (INR n * (1 / 2) - 1) k / k)))]
    | Weibull => mkpt [("concentration", re (fun _ => s "concentration")); ("chi", re (fun _ => -1 / s "eta"))]
    end.
  (** to_nat, closed forms *)
  Definition natR (f : family) : point :=
    match f with
    | Bernoulli => mkpt [("log_odds", re (fun _ => ln (s "probability" / (1 - s "probability"))))]
    | ComplexCircularlySymmetricNormal =>
        mkpt [("negative_precision", cx (fun j => Copp (Cconj (cinv n (fun a b => cpt p "variance" [a; b]) (nth 0 j 0%nat) (nth 1 j 0%nat)))))]
    | ComplexMultivariateUnitNormal | ComplexUnitNormal => mkpt [("two_mean_conjugate", cx (fun j => (2 * p false "mean" j, 2 * - p true "mean" j)))]
    | ComplexNormal =>
        let mean := cpt p "mean" [] in
        let variance := s "second_moment" - csq_abs mean in
        let pv := Cminus (cpt p "pseudo_second_moment" []) (Cmult mean mean) in
        let r : C := (fst (Cconj pv) / variance, snd (Cconj pv) / variance) in
        let pc := Cminus (RtoC variance) (Cconj (Cmult r pv)) in
        let pic : C := (fst pc / csq_abs pc, - snd pc / csq_abs pc) in
        let precision := - fst pic in
        let pp := Cmult r pic in
        let z := Cplus (precision * fst (Cconj mean), precision * snd (Cconj mean)) (Cmult pp mean) in
        mkpt [("mean_times_precision", cx (fun _ => (-2 * fst z, -2 * snd z))); ("negative_precision", re (fun _ => precision)); ("pseudo_precision", cx (fun _ => pp))]
    | Exponential => mkpt [("negative_rate", re (fun _ => -1 / s "mean"))]
    | Geometric => mkpt [("log_not_p", re (fun _ => - ln (1 + 1 / s "mean")))]
    | Multinomial => mkpt [("log_odds", re (fun j => ln (p false "probability" j / (1 - sumR n (v "probability")))))]
    | MultivariateNormal =>
        let pr := rinv n (fun a b => p false "second_moment" [a; b] - v "mean" a * v "mean" b) in
        mkpt [("mean_times_precision", re (fun j => sumR n (fun b => pr (hd 0%nat j) b * v "mean" b)));
              ("negative_half_precision", re (fun j => -1 / 2 * pr (nth 0 j 0%nat) (nth 1 j 0%nat)))]
    | MultivariateDiagonalNormal | Normal =>
        let var j := p false "second_moment" j - p false "mean" j * p false "mean" j in
        mkpt [("mean_times_precision", re (fun j => p false "mean" j / var j)); ("negative_half_precision", re (fun j => -1 / 2 / var j))]
    | MultivariateFixedVarianceNormal =>
        mkpt [("mean_times_precision", re (fun j => p false "mean" j / s "variance")); ("variance", re (fun _ => s "variance"))]
    | IsotropicNormal =>
        let var := (s "total_second_moment" - sumsq "mean") / INR n in
        mkpt [("mean_times_precision", re (fun j => p false "mean" j / var)); ("negative_half_precision", re (fun _ => -1 / 2 / var))]
    | MultivariateUnitNormal | UnitNormal => mkpt [("mean", re (fun j => p false "mean" j))]
    | NegativeBinomial => mkpt [("log_not_p", re (fun _ => - ln (1 + s "failures" / s "mean"))); ("failures", re (fun _ => s "failures"))]
    | Poisson => mkpt [("log_mean", re (fun _ => ln (s "mean")))]
    | Rayleigh => mkpt [("eta", re (fun _ => -1 / s "chi"))]
    | Weibull => mkpt [("concentration", re (fun _ => s "concentration")); ("eta", re (fun _ => -1 / s "chi"))]
    | Beta | Chi | ChiSquare | Dirichlet | Gamma | GeneralizedDirichlet | Logarithmic | VonMisesFisher => mkpt []
    end.
End R.
