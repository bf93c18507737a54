(** Expectation parameters of a gamma distribution, whose to_nat is a search, for kl_divergence (C19). *)
From Coq Require Import String List Bool Arith Reals Lra Lia.
From Verif Require Import Base XReal Tensor Support Dist Iteration Structure Spec Tools Joint Fam SumSpec DotSpec PointSpec PointFacts KlSpec MapFacts SumFacts JointThms2 DensSpec VarSpec RootSpec RootThms RootEx JointEx Examples ConvEx MatEx2.
Import ListNotations.
Local Open Scope string_scope.
Local Open Scope R_scope.
Lemma ex_g_kl : exists sn r, well_formed ex_g = true /\ exp_tree ex_g = true /\ shaped [] ex_g = true /\ well_formed ex_gq = true /\
  to_nat (fam_methods solve0) ex_g = Ok sn /\ to_exp (fam_methods solve0) sn = Ok r /\ same_at [] [] ex_g r /\ tree_in_domain sn [] /\ not_clipped sn [] /\
  same_skeleton sn ex_gq /\ tree_match [] ex_g ex_gq /\ tree_in_domain ex_gq [] /\ same_fixed_at [] [] sn ex_gq.
Proof.
  destruct (t_to_nat solve0 Gamma ex_g ex_g_proper ltac:(discriminate) ex_g_vals ex_g_root) as (sn & r & E1 & (C & W & S & _ & D) & E3 & (C' & W1 & W2 & S1 & S2 & Ed & E)).
  assert (Jr : is_joint (dcls r) = false) by (rewrite <- C'; reflexivity). assert (Js : is_joint (dcls sn) = false) by now rewrite C.
  exists sn, r. do 4 (split; [reflexivity|]). split; [exact E1|]. split; [exact E3|]. split.
  { unfold same_at. rewrite (leaf_leaves r []), (leaf_leaves ex_g []) by (assumption || reflexivity). constructor; [|constructor]. split; [reflexivity|]. split; [exact C'|]. split; [|exact E].
    repeat (split; [assumption|]). exists Gamma. cbn [snd]. rewrite <- C'. split; reflexivity. }
  split. { intros p l I. rewrite (leaf_leaves sn []) in I by assumption. destruct I as [I|[]]. injection I as <- <-. exact D. }
  split. { intros p l I Z. rewrite (leaf_leaves sn []) in I by assumption. destruct I as [I|[]]. injection I as <- <-. rewrite C in Z. discriminate Z. }
  split. { apply leaf_skel; [exact W|reflexivity|exact Js|now rewrite C]. }
  split. { unfold tree_match. cbn [leaves ex_g ex_gq is_joint]. repeat constructor; try (cbn; eexists; split; reflexivity); reflexivity. }
  split. { intros p l I. cbn in I. destruct I as [I|[]]. injection I as <- <-. exact (proj2 (proj2 (proj2 (proj2 ex_gq_proper)))). }
  unfold same_fixed_at. rewrite (leaf_leaves sn []), (leaf_leaves ex_gq []) by (assumption || reflexivity). constructor; [|constructor].
  intros f v w j I F. cbn [snd] in I. rewrite C in I. cbn in I. destruct I as [<-|[<-|[]]]; discriminate F.
Qed.
