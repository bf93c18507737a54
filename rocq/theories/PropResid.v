(** Theorems for C54: to_nat when the solver stops near a root. [residual_at b i eps g]: the entries of g at i are between -eps and eps;
    [near_params_at b i eps e e']: e and e' have the same class and dimensions, and parameters at i that differ by at most eps;
    [residual_found]: what the solver returns has a residual of at most eps (ResidSpec.v). *)
From Coq Require Import String List Bool Arith Reals.
From Verif Require Import Base XReal Tensor Support Dist Iteration Structure Spec FlattenSpec Tools Joint Fam SumSpec DotSpec PointSpec VarSpec DensSpec RootSpec MeanSpec ResidSpec
  ResidThms BracketThms RootEx ResidEx.
Import ListNotations.
Local Open Scope R_scope.

(** wherever search_gradient is at most eps, search_to_natural gives natural parameters in their domain whose expectation parameters
    are within eps of e *)
Theorem C54_residual solve eps b i f e n m sp g : proper_e b i f e -> dims_of e = Ok n -> search_count f n = Some m -> (f = Dirichlet -> (2 <= n)%nat) -> (f = VonMisesFisher -> b = []) ->
  finite_search b i m sp -> search_gradient e f sp = Ok g -> residual_at b i eps g ->
  exists q e', search_to_natural e f sp = Ok q /\ proper b i f q /\ to_exp (fam_methods solve) q = Ok e' /\ near_params_at b i eps e e'.
Proof. exact (t_resid solve eps b i f e n m sp g). Qed.
(** e.to_nat().to_exp() is within eps of e when the solver's residual is at most eps *)
Theorem C54_to_nat solve eps f e : proper_e [] [] f e -> (forall n, f = Dirichlet -> dims_of e = Ok n -> (2 <= n)%nat) ->
  dist_vals true [] (snd (searched f e)) -> residual_found solve eps (fst (searched f e)) (snd (searched f e)) ->
  exists q e', to_nat (fam_methods solve) e = Ok q /\ proper [] [] f q /\ to_exp (fam_methods solve) q = Ok e' /\ near_params_at [] [] eps e e'.
Proof. exact (t_to_nat_resid solve eps f e). Qed.
Example C54_to_nat_example : proper_e [] [] Gamma ex_g3 /\ dist_vals true [] (snd (searched Gamma ex_g3)) /\ residual_found solve0 (1/10) (fst (searched Gamma ex_g3)) (snd (searched Gamma ex_g3)).
Proof. exact (conj ex_g3_proper (conj ex_g3_vals ex_g3_resid)). Qed.
(** the root of a one-parameter search is between two search parameters with a non-positive and a non-negative gradient, so that every
    step of a bisection keeps it *)
Theorem C54_bracket b i f e n lo hi sp : f = Gamma \/ f = ChiSquare \/ f = VonMisesFisher -> proper_e b i f e -> dims_of e = Ok n -> (f = VonMisesFisher -> b = []) ->
  finite_search b i 1 lo -> finite_search b i 1 hi -> search_root b i f 1 e sp ->
  (exists g x, search_gradient e f lo = Ok g /\ tget g (i ++ [0%nat])%list = Fin x /\ x <= 0) ->
  (exists g x, search_gradient e f hi = Ok g /\ tget g (i ++ [0%nat])%list = Fin x /\ 0 <= x) ->
  exists x y z, tget lo (i ++ [0%nat])%list = Fin x /\ tget sp (i ++ [0%nat])%list = Fin y /\ tget hi (i ++ [0%nat])%list = Fin z /\ x <= y <= z.
Proof. exact (t_bracket b i f e n lo hi sp). Qed.
Example C54_bracket_example : proper_e [2]%nat [1]%nat Gamma ex_g2 /\ dims_of ex_g2 = Ok 1%nat /\
  finite_search [2]%nat [1]%nat 1 (tbuild [2; 1]%nat (fun _ => Fin (-1))) /\ finite_search [2]%nat [1]%nat 1 (tbuild [2; 1]%nat (fun _ => Fin 1)) /\
  search_root [2]%nat [1]%nat Gamma 1 ex_g2 (tbuild [2; 1]%nat (fun _ => Fin 0)) /\
  (exists g x, search_gradient ex_g2 Gamma (tbuild [2; 1]%nat (fun _ => Fin (-1))) = Ok g /\ tget g ([1]%nat ++ [0%nat])%list = Fin x /\ x <= 0) /\
  (exists g x, search_gradient ex_g2 Gamma (tbuild [2; 1]%nat (fun _ => Fin 1)) = Ok g /\ tget g ([1]%nat ++ [0%nat])%list = Fin x /\ 0 <= x).
Proof. exact ex_g2_bracket. Qed.
