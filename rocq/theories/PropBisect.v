(** C74: with the bisection that efax uses when there is one search parameter, expectation -> natural -> expectation comes as close to the
    identity as one likes. Start is any function for e.initial_search_parameters(); k and m are the numbers of doublings and halvings. *)
From Coq Require Import String List Bool Arith Reals.
From Verif Require Import Base XReal Tensor Support Dist Structure Spec DotSpec SumSpec FlattenSpec PointSpec VarSpec DensSpec Fam Joint RootSpec ResidSpec MeanSpec Bisect BisectThms RootEx ResidEx MeanThms MeanEx BisectEx.
Import ListNotations.
Local Open Scope R_scope.

(** Gamma and VonMisesFisher: for every proper distribution. ChiSquare and Chi: when the search has a root; C52_search says when. *)
Theorem C74_bisection start f e eps : 0 < eps -> proper_e [] [] f e -> dist_vals true [] (snd (searched f e)) ->
  f = Gamma \/ f = VonMisesFisher \/ ((f = ChiSquare \/ f = Chi) /\ exists sp, search_root [] [] ChiSquare 1 (snd (searched f e)) sp) ->
  exists K N, forall k m, (K <= k)%nat -> (N <= m)%nat -> let L := fam_methods (bis_solve start k m) in
    exists q e', to_nat L e = Ok q /\ proper [] [] f q /\ to_exp L q = Ok e' /\ near_params_at [] [] eps e e'.
Proof. exact (t_bisection start f e eps). Qed.
(** a proper Gamma with a mean of one and a proper VonMisesFisher in three dimensions *)
Example C74_bisection_example : (proper_e [] [] Gamma ex_g3 /\ dist_vals true [] ex_g3) /\ (proper_e [] [] VonMisesFisher ex_v /\ dist_vals true [] ex_v).
Proof. exact (conj (conj ex_g3_proper ex_g3_vals) (conj ex_v_proper ex_v_vals)). Qed.
(** each halving of an interval at whose ends the gradient has opposite signs keeps the signs and halves the width *)
Theorem C74_halving f e n lo hi m : bisected f = true -> proper_e [] [] f e -> dims_of e = Ok n -> (exists sp, search_root [] [] f 1 e sp) ->
  xleb (bis_fun f e lo) (Fin 0) = true -> xleb (Fin 0) (bis_fun f e hi) = true ->
  let (a, b) := bisect (bis_fun f e) m lo hi in xleb (bis_fun f e a) (Fin 0) = true /\ xleb (Fin 0) (bis_fun f e b) = true /\ b - a = (hi - lo) / 2 ^ m.
Proof. exact (t_halving f e n lo hi m). Qed.
Example C74_halving_example : proper_e [] [] Gamma ex_g3 /\ dims_of ex_g3 = Ok 1%nat /\ (exists sp, search_root [] [] Gamma 1 ex_g3 sp) /\
  exists lo hi, lo < hi /\ xleb (bis_fun Gamma ex_g3 lo) (Fin 0) = true /\ xleb (Fin 0) (bis_fun Gamma ex_g3 hi) = true.
Proof.
  assert (R : exists sp, search_root [] [] Gamma 1 ex_g3 sp) by exact (t_always solve0 [] [] Gamma ex_g3 1 (or_introl eq_refl) ex_g3_proper eq_refl).
  exact (conj ex_g3_proper (conj eq_refl (conj R (t_bracketed Gamma ex_g3 1 eq_refl ex_g3_proper eq_refl R)))).
Qed.
