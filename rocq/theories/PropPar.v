(** Theorems for C64: to_exp and to_nat convert between the natural and the expectation parameters that textbooks give for the same distribution,
    [converted i p e] (ParSpec.v) *)
From Coq Require Import String List Bool Arith Reals Lra.
From Verif Require Import Base XReal Tensor Support Dist Iteration Structure Spec Tools Joint Fam SumSpec DotSpec PointSpec SpecFun KlSpec DensSpec Examples ConvEx JointEx MatEx MatEx2 KlEx RootEx KlEx2 ParSpec ParThms.
Import ListNotations.
Local Open Scope string_scope.
Local Open Scope R_scope.

(** p.to_exp(), p a simple or joint distribution of any families *)
Theorem C64_to_exp solve b i p : well_formed p = true -> nat_tree p = true -> shaped b p = true -> inb b i = true -> tree_in_domain p i -> not_clipped p i ->
  exists e, to_exp (fam_methods solve) p = Ok e /\ well_formed e = true /\ tree_match b p e /\ converted i p e.
Proof. exact (to_exp_textbook solve b i p). Qed.
Example C64_example : (well_formed ex_joint = true /\ nat_tree ex_joint = true /\ shaped [2]%nat ex_joint = true /\ inb [2]%nat [1]%nat = true /\ tree_in_domain ex_joint [1]%nat /\ not_clipped ex_joint [1]%nat) /\
  (well_formed ex_mat = true /\ nat_tree ex_mat = true /\ shaped [2]%nat ex_mat = true /\ tree_in_domain ex_mat [1]%nat /\ not_clipped ex_mat [1]%nat).
Proof. split; repeat (split; [first [reflexivity|exact ex_joint_dom|exact ex_mat_dom]|]); [apply ex_joint_clip|apply ex_mat_clip]. Qed.
(** e.to_nat(), for the families whose to_nat has a closed form *)
Theorem C64_to_nat solve b i e : well_formed e = true -> exp_tree e = true -> shaped b e = true -> inb b i = true -> tree_in_domain e i -> families (fun f => closed_form f = true) e ->
  exists q, to_nat (fam_methods solve) e = Ok q /\ well_formed q = true /\ tree_match b e q /\ converted i q e.
Proof. exact (to_nat_textbook solve b i e). Qed.
Example C64_to_nat_example : (well_formed ex_closed_e = true /\ exp_tree ex_closed_e = true /\ shaped [2]%nat ex_closed_e = true /\ tree_in_domain ex_closed_e [1]%nat /\ families (fun f => closed_form f = true) ex_closed_e) /\
  (well_formed ex_mat_e = true /\ exp_tree ex_mat_e = true /\ shaped [2]%nat ex_mat_e = true /\ tree_in_domain ex_mat_e [1]%nat /\ families (fun f => closed_form f = true) ex_mat_e).
Proof.
  split; repeat (split; [first [reflexivity|exact ex_closed_e_dom|exact ex_mat_e_dom]|]); [exact (fun p l f I F => proj2 (ex_closed_e_fam p l f I F))|exact ex_mat_e_fam].
Qed.
(** e.to_nat() for all families, when the numerical search finds parameters q whose expectation parameters are e (C28, C52) *)
Theorem C64_to_nat_search solve b i e q r : well_formed e = true -> exp_tree e = true -> shaped b e = true -> inb b i = true -> tree_in_domain e i ->
  to_nat (fam_methods solve) e = Ok q -> tree_in_domain q i -> not_clipped q i -> to_exp (fam_methods solve) q = Ok r -> same_at b i e r -> converted i q e.
Proof. exact (to_nat_search_textbook solve b i e q r). Qed.
Example C64_search_example : exists q r, well_formed ex_g = true /\ exp_tree ex_g = true /\ shaped [] ex_g = true /\ tree_in_domain ex_g [] /\
  to_nat (fam_methods solve0) ex_g = Ok q /\ tree_in_domain q [] /\ not_clipped q [] /\ to_exp (fam_methods solve0) q = Ok r /\ same_at [] [] ex_g r.
Proof.
  destruct ex_g_kl as (q & r & A1 & A2 & A3 & _ & A4 & A5 & A6 & A7 & A8 & _). exists q, r. do 3 (split; [assumption|]). split; [|auto 10].
  intros p l [I|[]]. injection I as <- <-. exact (proj2 (proj2 (proj2 (proj2 ex_g_proper)))).
Qed.
