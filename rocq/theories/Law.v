(** The density of a draw is, up to a factor, the density of the sample it gives (C49): one case per class that draws itself. *)
From Coquelicot Require Import Coquelicot.
From Coq Require Import String List Bool Arith Reals Lia Lra.
From Verif Require Import Base XReal Tensor TensorFacts Support Dist Iteration Structure Spec SumSpec DotSpec Tools Joint SpecFun GammaFn Expr Fam DotFacts BatchFacts
  PointSpec PointFacts Val FamR FamVal ConvFacts LeafVal ConvThms MatVal VarThms DerivFacts DensSpec DensVal DensThms IntSpec IntFacts GammaInt IntNorm IntGen IntMulti IntFam IntThms
  Var VarSpec Sample SampleSpec SampleFacts SampleShape SampleVal SampleThms LawSpec LawFacts.
Import ListNotations.
Local Unset Asymmetric Patterns.
Local Open Scope string_scope.
Local Open Scope R_scope.

(** an observation with only the entries of the sample space *)
Definition canon (f : family) (n : nat) (x : obs) : obs :=
  match f with
  | Dirichlet => vector_obs (map (fun k => x false [k]) (seq 0 (n - 1)))
  | GeneralizedDirichlet | VonMisesFisher | Multinomial
  | MultivariateNormal | MultivariateDiagonalNormal | MultivariateFixedVarianceNormal | IsotropicNormal | MultivariateUnitNormal => vector_obs (map (fun k => x false [k]) (seq 0 n))
  | ComplexNormal | ComplexUnitNormal => complex_obs (x false [], x true [])
  | ComplexMultivariateUnitNormal | ComplexCircularlySymmetricNormal => complex_vector_obs (map (fun k => x (Nat.odd k) [Nat.div2 k]) (seq 0 (n + n)))
  | _ => scalar_obs (x false [])
  end.
(** the natural parameters of a class that draws itself *)
Definition natpt (c : cls) (n : nat) (p : point) : point :=
  match c with
  | EP f => natR n p f
  | NormalVP | MultivariateDiagonalNormalVP =>
      mkpt [("mean_times_precision", re (fun j => p false "mean" j / p false "variance" j)); ("negative_half_precision", re (fun j => -1 / 2 / p false "variance" j))]
  | MultivariateNormalVP =>
      let pr := rinv n (fun a b => p false "variance" [a; b]) in
      mkpt [("mean_times_precision", re (fun j => sumR n (fun b => pr (hd 0%nat j) b * p false "mean" [b])));
            ("negative_half_precision", re (fun j => -1 / 2 * pr (nth 0 j 0%nat) (nth 1 j 0%nat)))]
  | _ => p
  end.
Definition vlen (c : cls) (n : nat) : nat :=
  match c with NP Dirichlet | MultivariateNormalVP => n | EP ComplexCircularlySymmetricNormal => (n + n)%nat | EP ComplexNormal => 2%nat | _ => 0%nat end.
Definition law_core (c : cls) (f : family) (n n' : nat) (p : point) (k : rkind) : Prop :=
  let s := (direct_ev c n ++ direct_draw c n)%list in let A := argR n p c in
  legal k n' A /\ exists z Q pos, 0 < z /\ precision_of k n' A Q /\ permutes (entries s) pos /\
    forall g v, integral_over f n (fun x => dens f n (natpt c n p) x * g x) v -> draw_space k n' s pos (fun u => draw_kernel k n' s A Q u * g (canon f n (postR n p c u))) (z * v).
Ltac ev_ := unfold direct_ev; cbn [direct np_sampler ep_sampler vp_sampler s_mean domain_support supp_shape app direct_draw].
Ltac dn := unfold dens; lpe.
Lemma perm_id m : permutes m (fun a => a). Proof. intros k Hk. exists k. auto. Qed.
Lemma noQ k n A Q : k <> Multivariate_normal_ -> precision_of k n A Q. Proof. intros H E. contradiction. Qed.
Ltac idQ z := exists z, (fun _ _ => 0), (fun a => a); split; [|split; [apply noQ; discriminate|split; [apply perm_id|]]].
(** a scalar density F and a scalar kernel K over the same interval *)
Lemma same_line lo hi (F G : R -> R) a0 z v : inside lo hi a0 -> (forall t, inside lo hi t -> G t = z * F t) -> improper lo hi F v -> improper lo hi G (z * v).
Proof. intros I0 E H. apply (improper_ext lo hi (fun t => z * F t) _ _ a0 I0); [intros t Ht; symmetry; now apply E|]. now apply improper_scal. Qed.
Lemma in01 : inside 0 1 (1 / 2). Proof. split; cbn; lra. Qed.
Lemma in0p1 : inside 0 p_infty 1. Proof. split; [cbn; lra|exact Logic.I]. Qed.

Lemma law_chisquare n n' p : nat_dom ChiSquare n p -> law_core (NP ChiSquare) ChiSquare n n' p Chisquare_.
Proof.
  cbn [nat_dom]. intros H. split; [cbn; lra|]. set (k := p false "k_over_two_minus_one" []) in *. idQ (exp (lnR n p ChiSquare)); [apply exp_pos|]. intros g v. cbn [integral_over draw_space].
  apply same_line with (a0 := 1); [exact in0p1|]. intros t Ht. apply in0p in Ht. cbn [draw_kernel argR natpt canon postR reo].
  change (canon ChiSquare n (reo (fun _ => t))) with (scalar_obs t). rewrite <- Rmult_assoc. f_equal.
  unfold dens. rewrite <- exp_plus. unfold Rpower. rewrite <- exp_plus. f_equal. lpe. fold k. cbn [lnR]. fold k. field.
Qed.

Lemma law_beta n' p : nat_dom Beta 2 p -> law_core (NP Beta) Beta 2 n' p Beta_.
Proof.
  cbn [nat_dom]. intros [Hn H]. pose proof (H 0%nat ltac:(lia)) as H0. pose proof (H 1%nat ltac:(lia)) as H1. split; [cbn; lra|]. idQ (exp (lnR 2 p Beta)); [apply exp_pos|]. intros g v. cbn [integral_over draw_space].
  apply same_line with (a0 := 1 / 2); [exact in01|]. intros t Ht. destruct Ht as [Ht Ht']. cbn in Ht, Ht'. cbn [draw_kernel argR natpt].
  change (canon Beta 2 (postR 2 p (NP Beta) (fun _ => t))) with (scalar_obs t). rewrite <- Rmult_assoc. f_equal.
  unfold dens. rewrite <- exp_plus. unfold Rpower. rewrite <- exp_plus. f_equal. lpe. rewrite !sumR2. cbn [Nat.eqb lnR]. unfold Rminus. ring.
Qed.
Lemma law_exponential n n' p : nat_dom Exponential n p -> law_core (NP Exponential) Exponential n n' p Exponential_.
Proof.
  cbn [nat_dom]. intros H. split; [exact Logic.I|]. set (r := p false "negative_rate" []) in *. set (a := / - r). assert (Ha : 0 < a) by (apply Rinv_0_lt_compat; lra).
  idQ (exp (lnR n p Exponential) / a); [apply Rdiv_lt_0_compat; [apply exp_pos|exact Ha]|]. intros g v. cbn [integral_over draw_space]. intros I.
  apply (half_scale a _ v Ha) in I. revert I. apply same_line with (a0 := 1); [exact in0p1|]. intros t Ht. apply in0p in Ht. cbn [draw_kernel argR natpt].
  replace (canon Exponential n (postR n p (NP Exponential) (fun _ => t))) with (scalar_obs (a * t)) by (cbn [canon postR reo]; unfold reo; cbv iota; fold r; f_equal; unfold a; field; lra). cbv beta.
  replace (exp (lnR n p Exponential) / a * (a * (dens Exponential n p (scalar_obs (a * t)) * g (scalar_obs (a * t))))) with ((exp (lnR n p Exponential) * dens Exponential n p (scalar_obs (a * t))) * g (scalar_obs (a * t))) by (field; lra). f_equal.
  unfold dens. rewrite <- exp_plus. f_equal. lpe. cbn [lnR]. fold r. unfold a. field. lra.
Qed.
Lemma law_gamma n n' p : nat_dom Gamma n p -> law_core (NP Gamma) Gamma n n' p Gamma_.
Proof.
  cbn [nat_dom]. intros [H H']. split; [cbn; lra|]. set (r := p false "negative_rate" []) in *. set (a := / - r). assert (Ha : 0 < a) by (apply Rinv_0_lt_compat; lra).
  idQ (exp (lnR n p Gamma - p false "shape_minus_one" [] * ln a) / a); [apply Rdiv_lt_0_compat; [apply exp_pos|exact Ha]|]. intros g v. cbn [integral_over draw_space]. intros I.
  apply (half_scale a _ v Ha) in I. revert I. apply same_line with (a0 := 1); [exact in0p1|]. intros t Ht. apply in0p in Ht. cbn [draw_kernel argR natpt].
  replace (canon Gamma n (postR n p (NP Gamma) (fun _ => t))) with (scalar_obs (a * t)) by (cbn [canon postR reo]; unfold reo; cbv iota; fold r; f_equal; unfold a; field; lra). cbv beta.
  match goal with |- _ * ?G = ?e / a * (a * (?d * ?G)) => replace (e / a * (a * (d * G))) with ((e * d) * G) by (field; lra) end. f_equal.
  unfold dens, Rpower. rewrite <- !exp_plus. f_equal. lpe. rewrite ln_mult by assumption. cbn [lnR]. fold r. unfold a. field. lra.
Qed.
Lemma law_exponential_ep n n' p : exp_dom Exponential n p -> law_core (EP Exponential) Exponential n n' p Exponential_.
Proof.
  cbn [exp_dom]. intros Ha. split; [exact Logic.I|]. set (a := p false "mean" []) in *. set (q := natpt (EP Exponential) n p).
  idQ (exp (lnR n q Exponential) / a); [apply Rdiv_lt_0_compat; [apply exp_pos|exact Ha]|]. intros g v. cbn [integral_over draw_space]. intros I.
  apply (half_scale a _ v Ha) in I. revert I. apply same_line with (a0 := 1); [exact in0p1|]. intros t Ht. apply in0p in Ht. cbn [draw_kernel argR].
  replace (canon Exponential n (postR n p (EP Exponential) (fun _ => t))) with (scalar_obs (a * t)) by (cbn [canon postR reo]; unfold reo; cbv iota; fold a; f_equal; ring). cbv beta. fold q.
  match goal with |- _ * ?G = ?e / a * (a * (?d * ?G)) => replace (e / a * (a * (d * G))) with ((e * d) * G) by (field; lra) end. f_equal.
  unfold dens. rewrite <- exp_plus. f_equal. lpe. cbn [lnR]. unfold q. cbn [natpt natR]. mkv. fold a. field. lra.
Qed.
Lemma law_rayleigh n n' p : nat_dom Rayleigh n p -> law_core (NP Rayleigh) Rayleigh n n' p Rayleigh_.
Proof.
  cbn [nat_dom]. intros H. assert (P : 0 < -1 / 2 / p false "eta" []) by (replace (-1 / 2) with (- (1 / 2)) by lra; apply nn_pos; lra). split; [cbn; now apply sqrt_lt_R0|].
  idQ (exp (lnR n p Rayleigh - ln 2)); [apply exp_pos|]. intros g v. cbn [integral_over draw_space].
  apply same_line with (a0 := 1); [exact in0p1|]. intros t Ht. apply in0p in Ht. cbn [draw_kernel argR natpt].
  change (canon Rayleigh n (postR n p (NP Rayleigh) (fun _ => t))) with (scalar_obs t). rewrite <- (Rmult_assoc (exp _)). f_equal. rewrite sqrt_sqrt by lra. rewrite <- (exp_ln t) at 1 by exact Ht.
  unfold dens. rewrite <- !exp_plus. f_equal. lpe. cbn [lnR]. field. lra.
Qed.
Lemma law_rayleigh_ep n n' p : exp_dom Rayleigh n p -> law_core (EP Rayleigh) Rayleigh n n' p Rayleigh_.
Proof.
  cbn [exp_dom]. intros H. set (q := natpt (EP Rayleigh) n p). split; [cbn; apply sqrt_lt_R0; lra|].
  idQ (exp (lnR n q Rayleigh - ln 2)); [apply exp_pos|]. intros g v. cbn [integral_over draw_space].
  apply same_line with (a0 := 1); [exact in0p1|]. intros t Ht. apply in0p in Ht. cbn [draw_kernel argR]. fold q.
  change (canon Rayleigh n (postR n p (EP Rayleigh) (fun _ => t))) with (scalar_obs t). rewrite <- (Rmult_assoc (exp _)). f_equal. rewrite sqrt_sqrt by lra. rewrite <- (exp_ln t) at 1 by exact Ht.
  unfold dens. rewrite <- !exp_plus. f_equal. lpe. cbn [lnR]. unfold q. cbn [natpt natR]. mkv. field. lra.
Qed.
Lemma law_weibull n n' p : exp_dom Weibull n p -> law_core (EP Weibull) Weibull n n' p Weibull_min_.
Proof.
  cbn [exp_dom]. intros [H H']. set (q := natpt (EP Weibull) n p). split; [split; [apply exp_pos|exact H]|].
  idQ (exp (lnR n q Weibull)); [apply exp_pos|]. intros g v. cbn [integral_over draw_space].
  apply same_line with (a0 := 1); [exact in0p1|]. intros t Ht. apply in0p in Ht. cbn [draw_kernel argR]. fold q.
  change (canon Weibull n (postR n p (EP Weibull) (fun _ => t))) with (scalar_obs t). rewrite <- Rmult_assoc. f_equal.
  assert (E : Rpower (t / Rpower (p false "chi" []) (1 / p false "concentration" [])) (p false "concentration" []) = Rpower t (p false "concentration" []) / p false "chi" []).
  { set (k := p false "concentration" []) in *. set (c := p false "chi" []) in *. unfold Rpower. rewrite ln_div by (try apply exp_pos; exact Ht). rewrite ln_exp. replace (k * (ln t - 1 / k * ln c)) with (k * ln t + - ln c) by (field; lra). rewrite exp_plus, exp_Ropp, exp_ln by exact H'. reflexivity. }
  rewrite E. unfold dens. rewrite <- !exp_plus. unfold Rpower at 1. rewrite <- exp_plus. f_equal. lpe. cbn [lnR]. unfold q. cbn [natpt natR]. mkv. unfold Rpower. field. lra.
Qed.
(** ** independent normal draws *)
Lemma affl_map sg mu l : forall k, affl k sg mu l = map (fun m => sg m * nth (m - k) l 0 + mu m) (seq k (length l)).
Proof.
  induction l as [|t l IH]; intros k; [reflexivity|]. cbn [affl length seq map]. rewrite Nat.sub_diag. cbn [nth]. f_equal. rewrite IH. apply map_ext_in. intros m Hm. apply in_seq in Hm. replace (m - k)%nat with (S (m - S k)) by lia. reflexivity.
Qed.
Lemma diag_law N a b sg mu (h : list R -> R) v : (forall k, (k < N)%nat -> 0 < sg k /\ a k = -1 / 2 / (sg k * sg k) /\ b k = mu k / (sg k * sg k)) ->
  WL N [] (fun l => diagP N a b l * h l) v ->
  WL N [] (fun l => exp (- sumR N (fun m => nth m l 0 * nth m l 0) / 2) * h (affl 0 sg mu l)) (exp (- sumR N (fun k => mu k * mu k / (2 * (sg k * sg k)) - ga (a k) (b k))) / prod_from 0 N sg * v).
Proof.
  intros H I. assert (Pp : 0 < prod_from 0 N sg) by (apply prod_from_pos; intros j Hj; apply H; lia). apply (WL_affine sg mu _ N []) in I; [|cbn; intros j Hj; apply H; lia].
  cbn [length] in I. apply (iterated_scal _ _ _ (exp (- sumR N (fun k => mu k * mu k / (2 * (sg k * sg k)) - ga (a k) (b k))) / prod_from 0 N sg)) in I. revert I. apply WL_ext. intros l Hl. cbn [app].
  match goal with |- ?e / ?p * (?p * (?d * ?G)) = _ => replace (e / p * (p * (d * G))) with ((e * d) * G) by (field; lra) end. f_equal. unfold diagP. rewrite <- exp_plus. f_equal.
  rewrite <- sumR_opp, <- sumR_plus. replace (- sumR N (fun m => nth m l 0 * nth m l 0) / 2) with (- 1 / 2 * sumR N (fun m => nth m l 0 * nth m l 0)) by lra. rewrite <- sumR_scal. apply sumR_ext. intros k Hk.
  rewrite affl_nth by lia. cbn [Nat.add]. destruct (H k Hk) as (S0 & -> & ->). field. lra.
Qed.
Definition vec_of (l : list R) : list nat -> R := fun e => nth (hd 0%nat e) l 0.
Lemma iter_ext N (F G : list R -> R) v : (forall l, length l = N -> F l = G l) -> iterated N (fun _ => m_infty) (fun _ => p_infty) [] F v -> iterated N (fun _ => m_infty) (fun _ => p_infty) [] G v.
Proof. intros E. apply WL_ext. intros l Hl. cbn. now apply E. Qed.
(** the vector families *)
Lemma vec_law n a b sg mu (P : obs -> R) (Y : (list nat -> R) -> obs) : (forall k, (k < n)%nat -> 0 < sg k /\ a k = -1 / 2 / (sg k * sg k) /\ b k = mu k / (sg k * sg k)) ->
  (forall l, P (vector_obs l) = diagP n a b l) -> (forall l, length l = n -> Y (vec_of l) = vector_obs (map (fun k => sg k * nth k l 0 + mu k) (seq 0 n))) ->
  exists z, 0 < z /\ forall g v, iterated n (fun _ => m_infty) (fun _ => p_infty) [] (fun l => P (vector_obs l) * g (vector_obs l)) v ->
    iterated n (fun _ => m_infty) (fun _ => p_infty) [] (fun l => exp (- sumR n (fun m => nth m l 0 * nth m l 0) / 2) * g (Y (vec_of l))) (z * v).
Proof.
  intros H E HY. exists (exp (- sumR n (fun k => mu k * mu k / (2 * (sg k * sg k)) - ga (a k) (b k))) / prod_from 0 n sg). split.
  - apply Rdiv_lt_0_compat; [apply exp_pos|]. apply prod_from_pos. intros j Hj. apply H. lia.
  - intros g v I. apply (iter_ext n _ (fun l => diagP n a b l * g (vector_obs l))) in I; [|intros l Hl; now rewrite E]. apply (diag_law n a b sg mu (fun l => g (vector_obs l)) v H) in I. revert I. apply iter_ext. intros l Hl. rewrite HY by exact Hl. do 3 f_equal. rewrite affl_map, Hl. apply map_ext. intros m. now rewrite Nat.sub_0_r.
Qed.
(** the scalar families *)
Lemma scal_law a b sg mu (P : obs -> R) (Y : (list nat -> R) -> obs) : 0 < sg /\ a = -1 / 2 / (sg * sg) /\ b = mu / (sg * sg) ->
  (forall t, P (scalar_obs t) = gd a b t) -> (forall l, length l = 1%nat -> Y (vec_of l) = scalar_obs (sg * nth 0 l 0 + mu)) ->
  exists z, 0 < z /\ forall g v, improper m_infty p_infty (fun t => P (scalar_obs t) * g (scalar_obs t)) v ->
    iterated 1 (fun _ => m_infty) (fun _ => p_infty) [] (fun l => exp (- sumR 1 (fun m => nth 0 l 0 * nth 0 l 0) / 2) * g (Y (vec_of l))) (z * v).
Proof.
  intros H E HY. exists (exp (- sumR 1 (fun k => mu * mu / (2 * (sg * sg)) - ga a b)) / prod_from 0 1 (fun _ => sg)). split.
  - apply Rdiv_lt_0_compat; [apply exp_pos|]. apply prod_from_pos. intros j Hj. apply H.
  - intros g v I. apply line_space in I. apply (iter_ext 1 _ (fun l => diagP 1 (fun _ => a) (fun _ => b) l * g (scalar_obs (nth 0 l 0)))) in I.
    + apply (diag_law 1 (fun _ => a) (fun _ => b) (fun _ => sg) (fun _ => mu) (fun l => g (scalar_obs (nth 0 l 0))) v (fun _ _ => H)) in I. revert I. apply iter_ext. intros l Hl. rewrite HY by exact Hl. rewrite affl_nth by lia. rewrite !sumR_S, !sumR_0. reflexivity.
    + intros l Hl. rewrite E. f_equal. unfold gd, diagP. now rewrite sumR_S, sumR_0, Rplus_0_l.
Qed.
Ltac nQ Z Hz K := destruct K as (Z & Hz & K); split; [exact Logic.I|]; idQ Z; [exact Hz|]; intros g v.
Lemma sqrt_sq s : 0 < s -> sqrt s * sqrt s = s. Proof. intros; apply sqrt_sqrt; lra. Qed.
Lemma law_unit_normal n n' p : law_core (NP UnitNormal) UnitNormal n n' p Normal_.
Proof.
  pose proof (scal_law (- (1 / 2)) (p false "mean" []) 1 (p false "mean" []) (dens UnitNormal n p) (fun u => canon UnitNormal n (postR n p (NP UnitNormal) u))) as K.
  lapply K; [clear K; intros K|split; [lra|split; field]]. lapply K; [clear K; intros K|]. 2:{ intros t. unfold gd, dens, ga. f_equal. lpe. replace (- PI / - (1 / 2)) with (PI * 2) by field. field. }
  lapply K; [clear K; intros K|]. 2:{ intros l Hl. cbn [canon postR]. unfold reo, vec_of. cbn [hd]. f_equal. ring. }
  nQ z Hz K. exact (K g v).
Qed.
Lemma law_normal_vp n n' p : pre NormalVP n p -> law_core NormalVP Normal n n' p Normal_.
Proof.
  cbn [pre]. intros H. set (s := p false "variance" []) in *. pose proof (sqrt_lt_R0 s H) as S0. pose proof (sqrt_sq s H) as S2.
  pose proof (scal_law (-1 / 2 / s) (p false "mean" [] / s) (sqrt s) (p false "mean" []) (dens Normal n (natpt NormalVP n p)) (fun u => canon Normal n (postR n p NormalVP u))) as K.
  lapply K; [clear K; intros K|rewrite S2; auto]. lapply K; [clear K; intros K|]. 2:{ intros t. unfold gd, dens, ga. f_equal. lpe. cbn [natpt]. mkv. fold s. ring. }
  lapply K; [clear K; intros K|]. 2:{ intros l Hl. cbn [canon postR]. unfold reo, vec_of. cbn [hd]. fold s. f_equal. ring. }
  nQ z Hz K. exact (K g v).
Qed.
Lemma law_normal_ep n n' p : exp_dom Normal n p -> law_core (EP Normal) Normal n n' p Normal_.
Proof.
  cbn [exp_dom]. intros H. set (s := p false "second_moment" [] - p false "mean" [] * p false "mean" []) in *. assert (H' : 0 < s) by (unfold s; lra). pose proof (sqrt_lt_R0 s H') as S0. pose proof (sqrt_sq s H') as S2.
  pose proof (scal_law (-1 / 2 / s) (p false "mean" [] / s) (sqrt s) (p false "mean" []) (dens Normal n (natpt (EP Normal) n p)) (fun u => canon Normal n (postR n p (EP Normal) u))) as K.
  lapply K; [clear K; intros K|rewrite S2; auto]. lapply K; [clear K; intros K|]. 2:{ intros t. unfold gd, dens, ga. f_equal. lpe. cbn [natpt]. mkv. fold s. ring. }
  lapply K; [clear K; intros K|]. 2:{ intros l Hl. cbn [canon postR]. unfold reo, vec_of. cbn [hd]. fold s. f_equal. ring. }
  nQ z Hz K. exact (K g v).
Qed.
Ltac vspace n := unfold law_core; ev_; cbv zeta; cbn [integral_over draw_space entries fold_right]; rewrite ?Nat.mul_1_r.
Ltac veq := intros l Hl; cbn [canon postR]; f_equal; apply map_ext; intros m; unfold reo, vec_of; cbn [hd]; try match goal with s := _ |- _ => subst s end; ring.
Lemma law_mun n n' p : law_core (NP MultivariateUnitNormal) MultivariateUnitNormal n n' p Normal_.
Proof.
  pose proof (vec_law n (fun _ => - (1 / 2)) (fun k => p false "mean" [k]) (fun _ => 1) (fun k => p false "mean" [k]) (dens MultivariateUnitNormal n p) (fun u => canon MultivariateUnitNormal n (postR n p (NP MultivariateUnitNormal) u))) as K.
  lapply K; [clear K; intros K|intros; split; [lra|split; field]]. lapply K; [clear K; intros K|exact (mun_dens n p)]. lapply K; [clear K; intros K|veq].
  unfold law_core. ev_. cbv zeta. cbn [entries fold_right]. rewrite Nat.mul_1_r. nQ z Hz K. cbn [integral_over draw_space entries fold_right draw_kernel cell]. rewrite Nat.mul_1_r. exact (K g v).
Qed.
Lemma law_mdn_vp n n' p : pre MultivariateDiagonalNormalVP n p -> law_core MultivariateDiagonalNormalVP MultivariateDiagonalNormal n n' p Normal_.
Proof.
  cbn [pre]. intros H.
  pose proof (vec_law n (fun k => -1 / 2 / p false "variance" [k]) (fun k => p false "mean" [k] / p false "variance" [k]) (fun k => sqrt (p false "variance" [k])) (fun k => p false "mean" [k]) (dens MultivariateDiagonalNormal n (natpt MultivariateDiagonalNormalVP n p))
    (fun u => canon MultivariateDiagonalNormal n (postR n p MultivariateDiagonalNormalVP u))) as K.
  lapply K; [clear K; intros K|intros k Hk; rewrite (sqrt_sq _ (H k Hk)); split; [apply sqrt_lt_R0, H, Hk|auto]]. lapply K; [clear K; intros K|intros l; exact (mdn_dens n _ l)]. lapply K; [clear K; intros K|veq].
  unfold law_core. ev_. cbv zeta. cbn [entries fold_right]. rewrite Nat.mul_1_r. nQ z Hz K. cbn [integral_over draw_space entries fold_right draw_kernel cell]. rewrite Nat.mul_1_r. exact (K g v).
Qed.
Lemma law_mfv n n' p : exp_dom MultivariateFixedVarianceNormal n p -> law_core (EP MultivariateFixedVarianceNormal) MultivariateFixedVarianceNormal n n' p Normal_.
Proof.
  intros H. pose proof (nat_ok MultivariateFixedVarianceNormal n p eq_refl H) as H'. cbn [exp_dom] in H. set (s := p false "variance" []) in *.
  pose proof (vec_law n (fun k => - (1 / (2 * s))) (fun k => p false "mean" [k] / s) (fun k => sqrt s) (fun k => p false "mean" [k]) (dens MultivariateFixedVarianceNormal n (natpt (EP MultivariateFixedVarianceNormal) n p))
    (fun u => canon MultivariateFixedVarianceNormal n (postR n p (EP MultivariateFixedVarianceNormal) u))) as K.
  lapply K; [clear K; intros K|intros k Hk; rewrite (sqrt_sq _ H); split; [apply sqrt_lt_R0, H|split; field; lra]]. lapply K; [clear K; intros K|intros l; exact (mfv_dens n _ l H')]. lapply K; [clear K; intros K|veq].
  unfold law_core. ev_. cbv zeta. cbn [entries fold_right]. rewrite Nat.mul_1_r. nQ z Hz K. cbn [integral_over draw_space entries fold_right draw_kernel cell]. rewrite Nat.mul_1_r. exact (K g v).
Qed.
Lemma law_iso n n' p : exp_dom IsotropicNormal n p -> law_core (EP IsotropicNormal) IsotropicNormal n n' p Normal_.
Proof.
  intros H0. pose proof (nat_ok IsotropicNormal n p eq_refl H0) as H'. pose proof (iso_var_pos n p H0) as H. set (s := iso_var n p) in *.
  pose proof (vec_law n (fun k => -1 / 2 / s) (fun k => p false "mean" [k] / s) (fun k => sqrt s) (fun k => p false "mean" [k]) (dens IsotropicNormal n (natpt (EP IsotropicNormal) n p))
    (fun u => canon IsotropicNormal n (postR n p (EP IsotropicNormal) u))) as K.
  lapply K; [clear K; intros K|intros k Hk; rewrite (sqrt_sq _ H); split; [apply sqrt_lt_R0, H|split; field; lra]]. lapply K; [clear K; intros K|intros l; exact (iso_dens n _ l H')].
  lapply K; [clear K; intros K|intros l Hl; cbn [canon postR]; fold s; f_equal; apply map_ext; intros m; unfold reo, vec_of; cbn [hd]; ring].
  unfold law_core. ev_. cbv zeta. cbn [entries fold_right]. rewrite Nat.mul_1_r. nQ z Hz K. cbn [integral_over draw_space entries fold_right draw_kernel cell]. rewrite Nat.mul_1_r. exact (K g v).
Qed.
(** ** discrete draws *)
Lemma law_bernoulli n n' p : exp_dom Bernoulli n p -> law_core (EP Bernoulli) Bernoulli n n' p Bernoulli_.
Proof.
  cbn [exp_dom]. intros H. split; [cbn; lra|]. set (a := p false "probability" []) in *. idQ 1; [lra|]. intros g v. cbn [integral_over draw_space draw_kernel argR]. cbv beta. intros ->.
  change (canon Bernoulli n (postR n p (EP Bernoulli) (fun _ => 0))) with (scalar_obs 0). change (canon Bernoulli n (postR n p (EP Bernoulli) (fun _ => 1))) with (scalar_obs 1).
  destruct (Req_EM_T 0 1); [lra|]. destruct (Req_EM_T 1 1); [|lra]. rewrite Rmult_1_l. fold a.
  assert (R : 0 < a / (1 - a)) by (apply Rdiv_lt_0_compat; lra).
  assert (E : forall t, dens Bernoulli n (natpt (EP Bernoulli) n p) (scalar_obs t) = exp (ln (a / (1 - a)) * t) * (1 - a)).
  { intros t. unfold dens. transitivity (exp (ln (a / (1 - a)) * t + ln (1 - a))); [|rewrite exp_plus, exp_ln by lra; reflexivity]. f_equal. lpe. cbn [natpt]. mkv. fold a. rewrite exp_ln, exp_0 by exact R.
    replace (a / (1 - a) + 1) with (/ (1 - a)) by (field; lra). rewrite ln_Rinv by lra. ring. }
  rewrite !E, Rmult_0_r, Rmult_1_r, exp_0, exp_ln by exact R. field. lra.
Qed.
Lemma law_poisson n n' p : exp_dom Poisson n p -> law_core (EP Poisson) Poisson n n' p Poisson_.
Proof.
  cbn [exp_dom]. intros H. split; [exact H|]. set (a := p false "mean" []) in *. idQ (exp a); [apply exp_pos|]. intros g v. cbn [integral_over draw_space]. intros I. apply (is_series_scal_l (exp a)) in I. revert I. apply is_series_ext_R. intros k.
  cbn [draw_kernel argR]. fold a. change (canon Poisson n (postR n p (EP Poisson) (fun _ => INR k))) with (scalar_obs (INR k)). rewrite whole_INR. change (scal (exp a)) with (Rmult (exp a)). rewrite <- Rmult_assoc. f_equal.
  unfold Rdiv. rewrite <- fact_lngamma. unfold dens, Rpower. rewrite <- !exp_plus. f_equal. lpe. cbn [natpt]. mkv. fold a. rewrite exp_ln by exact H. ring.
Qed.
