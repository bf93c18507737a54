(** C15: flat_dict_of_observations. *)
From Coq Require Import String List Bool Arith.
From Verif Require Import Base XReal Tensor Support Dist DictFacts Iteration Structure Spec MappingFacts.
Import ListNotations.

Lemma p_C15_obs x : nested_ok x = true -> NoDup (keys (flat_dict_of_observations x)) /\ forall p, dget (flat_dict_of_observations x) p = nested_get x p.
Proof.
  destruct x as [a|m]; intros H; cbn [flat_dict_of_observations].
  - split; [constructor; [intros []|constructor]|]. intros p. destruct p; reflexivity.
  - split; [apply NoDup_keys_dict_of|]. intros p. now apply flatten_mapping_get.
Qed.
