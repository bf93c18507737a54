(** C29: the image in the plane of the result of fisher_information_diagonal. *)
From Coq Require Import String List Bool Arith Reals Lia Lra.
From Verif Require Import Base XReal Tensor TensorFacts TensorFacts2 Support SupportSpec Dist Iteration Structure Spec FlattenSpec StructProofs FlattenThms Fisher.
Import ListNotations.
Local Open Scope nat_scope.

Lemma t_diag_plane d m diag : well_formed d = true -> dist_vals true [] d -> shp m = [flat_size d; flat_size d] -> shp diag = [flat_size d] ->
  (forall k, k < flat_size d -> tget diag [k] = tget m [k; k]) -> plane_point true [] d diag ->
  exists r F t, fisher_information_diagonal (fun _ => Ok m) d = Ok r /\ flatten d true = Ok (F, t) /\ flatten r true = Ok (F, diag).
Proof.
  intros W V Sm Sd E P. destruct (p_C05 true [] d W V) as (F & t & A & _). unfold fisher_information_diagonal. rewrite A. cbn [bind]. unfold jdiagonal. rewrite Sm. cbn [app bind].
  assert (D : tbuild [min (flat_size d) (flat_size d)] (fun i => tget m (last i 0 :: last i 0 :: removelast i)) = diag).
  { apply tensor_ext; [cbn [shp tbuild]; now rewrite Nat.min_id, Sd|]. intros i Hi. rewrite Nat.min_id in *. cbn [shp tbuild] in Hi. rewrite tget_tbuild by exact Hi. destruct i as [|k [|? ?]]; [discriminate Hi| |cbn in Hi; rewrite andb_false_r in Hi; discriminate Hi]. cbn [last removelast].
    cbn in Hi. rewrite andb_true_r in Hi. apply Nat.ltb_lt in Hi. now rewrite E. }
  rewrite D. pose proof A as A'. unfold flatten in A'. destruct (walk (make_flat true) d []) as [xss|]; [|discriminate A']. cbn [bind] in A'. destruct (reduceM (@tappend xr _) (concat xss)) as [fa|]; [|discriminate A']. cbn [bind] in A'.
  destruct (create d) as [infos|] eqn:Ec; [|discriminate A']. cbn [bind] in A'. destruct (parameters d (Some true)) as [fx|] eqn:Ep; [|discriminate A']. cbn [bind] in A'. injection A' as <- <-.
  destruct (p_C06 [] d diag infos fx W Ec Ep P) as (r & R1 & R2 & R3 & R4). exists r, (Flattener infos fx true), fa. auto.
Qed.
