(** Theorems for C52: which expectation parameters a distribution has, and the roots the searches of to_nat look for.
    [mean_of L b i f q e]: q is a distribution of family f at batch index i with q.to_exp() == e there; [search_root b i f m e sp]: the m
    search parameters sp are finite and e.search_gradient(sp) is zero at batch index i; [attainable] and [representable]: MeanSpec.v. *)
From Coq Require Import String List Bool Arith Reals.
From Verif Require Import Base XReal Tensor Support Dist Iteration Structure Spec FlattenSpec Tools Joint Fam SumSpec DotSpec PointSpec VarSpec DensSpec RootSpec RootEx MeanSpec MeanThms MeanEx.
Import ListNotations.

(** the expectation parameters in the domain of the family that are those of a distribution.  Missing: the generalized Dirichlet family,
    whose natural domain has no closed-form image; C52_search covers it. *)
Theorem C52_mean_space_partial solve b i f e n : f <> GeneralizedDirichlet -> proper_e b i f e -> dims_of e = Ok n ->
  ((exists q, mean_of (fam_methods solve) b i f q e) <-> attainable f n (point_of e i)).
Proof. exact (t_attained solve b i f e n). Qed.
Example C52_mean_space_example : proper_e [2] [1] Dirichlet (ex_dir (-1)) /\ dims_of (ex_dir (-1)) = Ok 2 /\ attainable Dirichlet 2 (point_of (ex_dir (-1)) [1]).
Proof. split; [apply ex_dir_proper; Lra.lra|]. split; [reflexivity|exact ex_dir_attainable]. Qed.
(** the declared supports of the expectation parameters (Dirichlet: every mean_log_probability is negative) contain values no distribution has *)
Theorem C52_support_refuted solve : exists b i e, proper_e b i Dirichlet e /\ dims_of e = Ok 2 /\ ~ exists q, mean_of (fam_methods solve) b i Dirichlet q e.
Proof. exact (t_support_refuted solve). Qed.
(** the search gradient has a root exactly when the expectation parameters are those of a distribution within the range of the search *)
Theorem C52_search solve b i f e n m : proper_e b i f e -> dims_of e = Ok n -> search_count f n = Some m -> (f = Dirichlet -> 2 <= n) -> (f = VonMisesFisher -> b = []) ->
  ((exists sp, search_root b i f m e sp) <-> exists q, mean_of (fam_methods solve) b i f q e /\ representable f n (point_of q i)).
Proof. exact (t_root_iff solve b i f e n m). Qed.
Example C52_search_example : proper_e [2] [1] Gamma ex_g2 /\ dims_of ex_g2 = Ok 1 /\ search_count Gamma 1 = Some 1 /\ search_root [2] [1] Gamma 1 ex_g2 (tbuild [2; 1] (fun _ => Fin 0)).
Proof. split; [exact ex_g2_proper|]. split; [reflexivity|]. split; [reflexivity|exact ex_g2_search]. Qed.
(** the searches for a gamma or a von Mises-Fisher distribution always have a root *)
Theorem C52_search_always b i f e n : f = Gamma \/ (f = VonMisesFisher /\ b = []) -> proper_e b i f e -> dims_of e = Ok n -> exists sp, search_root b i f 1 e sp.
Proof. exact (t_always solve0 b i f e n). Qed.
Example C52_search_always_example : proper_e [] [] VonMisesFisher ex_v /\ dims_of ex_v = Ok 3.
Proof. split; [exact ex_v_proper|reflexivity]. Qed.
(** and no search has two *)
Theorem C52_root_unique b i f e n m sp sp' : proper_e b i f e -> dims_of e = Ok n -> search_count f n = Some m -> (f = Dirichlet -> 2 <= n) -> (f = VonMisesFisher -> b = []) ->
  search_root b i f m e sp -> search_root b i f m e sp' -> forall k, k < m -> tget sp (i ++ [k]) = tget sp' (i ++ [k]).
Proof. exact (t_root_unique solve0 b i f e n m sp sp'). Qed.
(** the gradient of a one-parameter search increases with the parameter, so that bisection on its sign finds the root.
    (Below log-probability -50 the mean of the logarithmic distribution is constant.) *)
Theorem C52_increasing b i f e n sp sp' : f = Gamma \/ f = ChiSquare \/ f = Logarithmic \/ f = VonMisesFisher -> proper_e b i f e -> dims_of e = Ok n -> (f = VonMisesFisher -> b = []) ->
  finite_search b i 1 sp -> finite_search b i 1 sp' -> xltb (tget sp (i ++ [0])) (tget sp' (i ++ [0])) = true ->
  (f = Logarithmic -> forall q, search_to_natural e f sp = Ok q -> (-50 <= par q i "log_probability"%string [])%R) ->
  exists g g' x x', search_gradient e f sp = Ok g /\ search_gradient e f sp' = Ok g' /\ tget g (i ++ [0]) = Fin x /\ tget g' (i ++ [0]) = Fin x' /\ (x < x')%R.
Proof. intros F. apply (t_grad_incr solve0). destruct F as [->|[->|[->| ->]]]; reflexivity. Qed.
Example C52_increasing_example : proper_e [2] [1] Gamma ex_g2 /\ dims_of ex_g2 = Ok 1 /\ finite_search [2] [1] 1 (tbuild [2; 1] (fun _ => Fin 0)) /\ finite_search [2] [1] 1 (tbuild [2; 1] (fun _ => Fin 1)) /\
  xltb (tget (tbuild [2; 1] (fun _ => Fin 0)) ([1] ++ [0])) (tget (tbuild [2; 1] (fun _ => Fin 1)) ([1] ++ [0])) = true.
Proof.
  split; [exact ex_g2_proper|]. split; [reflexivity|]. split; [exact (zeros [2] [1] eq_refl)|]. split; [exact (ones [2] [1] eq_refl)|].
  cbn. unfold xltb, rltb. destruct (Rlt_dec 0 1); [reflexivity|Lra.lra].
Qed.
