(** Theorems for C28: to_nat by search.  [proper_e b i f e] ([proper b i f q]): e (q) is a distribution of family f in expectation
    (natural) form whose parameters at batch index i are in the domain (DensSpec.v); [same_params_at b i e e']: e and e' have the same
    class, dimensions and parameters at batch index i (VarSpec.v); [zero_at] and [root_found]: RootSpec.v. *)
From Coq Require Import String List Bool Arith Reals.
From Verif Require Import Base XReal Tensor Support Dist Iteration Structure Spec FlattenSpec Tools Joint Fam SumSpec DotSpec PointSpec VarSpec DensSpec RootSpec RootThms InjThms RootEx.
Import ListNotations.

(** at every root of search_gradient, search_to_natural gives natural parameters in their domain whose expectation parameters are e.
    (The search gradient of von Mises-Fisher is only well shaped for an unbatched distribution, which is how to_nat calls it.) *)
Theorem C28_root solve b i f e n m sp g : proper_e b i f e -> dims_of e = Ok n -> search_count f n = Some m -> (f = Dirichlet -> 2 <= n) -> (f = VonMisesFisher -> b = []) ->
  finite_search b i m sp -> search_gradient e f sp = Ok g -> zero_at b i g ->
  exists q e', search_to_natural e f sp = Ok q /\ proper b i f q /\ to_exp (fam_methods solve) q = Ok e' /\ same_params_at b i e e'.
Proof. exact (t_root solve b i f e n m sp g). Qed.
(** to_nat of an unbatched distribution (C27 extends it to every batch element): whenever the solver returns a root for the distribution it is given,
    e.to_nat() is in the natural domain and e.to_nat().to_exp() == e *)
Theorem C28_to_nat solve f e : proper_e [] [] f e -> (forall n, f = Dirichlet -> dims_of e = Ok n -> 2 <= n) ->
  dist_vals true [] (snd (searched f e)) -> root_found solve (fst (searched f e)) (snd (searched f e)) ->
  exists q e', to_nat (fam_methods solve) e = Ok q /\ proper [] [] f q /\ to_exp (fam_methods solve) q = Ok e' /\ same_params_at [] [] e e'.
Proof. exact (t_to_nat solve f e). Qed.
Example C28_example : (exists g, proper_e [2] [1] Gamma ex_g2 /\ dims_of ex_g2 = Ok 1 /\ search_count Gamma 1 = Some 1 /\ finite_search [2] [1] 1 (tbuild [2; 1] (fun _ => Fin 0)) /\
    search_gradient ex_g2 Gamma (tbuild [2; 1] (fun _ => Fin 0)) = Ok g /\ zero_at [2] [1] g) /\
  (proper_e [] [] Gamma ex_g /\ dist_vals true [] (snd (searched Gamma ex_g)) /\ root_found solve0 (fst (searched Gamma ex_g)) (snd (searched Gamma ex_g))).
Proof.
  split.
  - destruct (ex_g_zero [2] [1] ex_g2 ex_g2_proper eq_refl eq_refl eq_refl) as (g & G & Z). exists g. split; [exact ex_g2_proper|]. split; [reflexivity|]. split; [reflexivity|]. split; [exact (zeros [2] [1] eq_refl)|]. split; [exact G|exact Z].
  - split; [exact ex_g_proper|]. split; [exact ex_g_vals|exact ex_g_root].
Qed.
(** the root is the only possible answer: q.to_exp().to_nat() == q whenever the solver returns a root (for every family, the closed forms are C21) *)
Theorem C28_to_exp_to_nat solve f q e : proper [] [] f q -> not_clipped q [] -> to_exp (fam_methods solve) q = Ok e ->
  dist_vals true [] (snd (searched f e)) -> root_found solve (fst (searched f e)) (snd (searched f e)) ->
  exists r, to_nat (fam_methods solve) e = Ok r /\ same_params_at [] [] q r.
Proof. exact (t_nat_unique solve f q e). Qed.
Example C28_to_exp_to_nat_example : proper [] [] Gamma ex_gq /\ not_clipped ex_gq [] /\
  exists e, to_exp (fam_methods solve0) ex_gq = Ok e /\ dist_vals true [] (snd (searched Gamma e)) /\ root_found solve0 (fst (searched Gamma e)) (snd (searched Gamma e)).
Proof.
  split; [exact ex_gq_proper|]. split; [|exact ex_gq_root].
  intros p l H E. cbn in H. destruct H as [H|[]]. injection H as <- <-. discriminate E.
Qed.
