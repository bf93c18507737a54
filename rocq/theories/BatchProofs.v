(** Proofs of the theorems of PropBatch.v. *)
From Coq Require Import String List Bool Arith Reals Lia.
From Verif Require Import Base XReal Tensor TensorFacts Support Dist DictFacts Iteration Structure Spec Tools Joint Fam SumSpec ExprFacts SearchFacts
  MappingFacts MapFacts JointThms JointThms2 LogPdfThms JointProofs BatchFacts BatchThms Examples JointEx.
Import ListNotations.
Local Open Scope string_scope.
Local Open Scope list_scope.
Section P.
  Variable solve : minimizer -> dist -> nat -> xr.
  Notation L := (fam_methods solve).
  Notation G := (fam_good solve).
  Lemma p_C27_ln b d i : well_formed d = true -> nat_tree d = true -> shaped b d = true -> no_custom_minimizer d = true -> inb b i = true ->
    exists di t, getitem d i = Ok di /\ log_normalizer L d = Ok t /\ shp t = b /\ log_normalizer L di = Ok (tsub t i).
  Proof.
    intros W N S M Hi. destruct (ln_tree_yields solve b d W N S) as (t & T1 & T2 & T3). exists (stree i d), t. split; [now apply (getitem_stree b)|]. auto.
  Qed.
  Lemma p_C27_to_exp b d i : well_formed d = true -> nat_tree d = true -> shaped b d = true -> no_custom_minimizer d = true -> inb b i = true ->
    exists di e ei, getitem d i = Ok di /\ to_exp L d = Ok e /\ getitem e i = Ok ei /\ to_exp L di = Ok ei.
  Proof.
    intros W N S M Hi. destruct (g_exp_tree L G b d W N S) as (e & E1 & E2 & E3 & E4 & E5 & _). destruct (tm_shaped b d e W E2 E5) as [_ Se]. exists (stree i d), e, (stree i e).
    split; [now apply (getitem_stree b)|]. split; [exact E1|]. split; [now apply (getitem_stree b)|now apply (to_exp_slice solve b)].
  Qed.
  Lemma p_C27_to_nat b d i : well_formed d = true -> exp_tree d = true -> shaped b d = true -> no_custom_minimizer d = true -> inb b i = true ->
    exists di e ei, getitem d i = Ok di /\ to_nat L d = Ok e /\ getitem e i = Ok ei /\ to_nat L di = Ok ei.
  Proof.
    intros W N S M Hi. destruct (g_nat_tree L G b d W N S) as (e & E1 & E2 & E3 & E4 & E5 & _). destruct (tm_shaped b d e W E2 E5) as [_ Se]. exists (stree i d), e, (stree i e).
    split; [now apply (getitem_stree b)|]. split; [exact E1|]. split; [now apply (getitem_stree b)|now apply (to_nat_slice solve b)].
  Qed.
  Lemma p_C27_cm b q i x xi : well_formed q = true -> nat_tree q = true -> shaped b q = true -> no_custom_minimizer q = true -> inb b i = true ->
    obs_matches q x -> obs_shaped b q x -> obs_matches q xi -> (forall p a, nested_get x p = Some a -> exists ai, arr_getitem i a = Ok ai /\ nested_get xi p = Some ai) ->
    exists qi t, getitem q i = Ok qi /\ carrier_measure L q x = Ok t /\ shp t = b /\ carrier_measure L qi xi = Ok (tsub t i).
  Proof.
    intros W N S M Hi O Os Oi Ox. destruct (carrier_index solve b i q x xi W N S O Os Oi Ox Hi) as (t & T). exists (stree i q), t. split; [now apply (getitem_stree b)|exact T].
  Qed.
  Lemma p_C27_log_pdf b q i x xi : well_formed q = true -> nat_tree q = true -> shaped b q = true -> no_custom_minimizer q = true -> inb b i = true ->
    obs_matches q x -> obs_shaped b q x -> obs_matches q xi -> (forall p a, nested_get x p = Some a -> exists ai, arr_getitem i a = Ok ai /\ nested_get xi p = Some ai) ->
    exists qi t, getitem q i = Ok qi /\ log_pdf L q x = Ok t /\ shp t = b /\ log_pdf L qi xi = Ok (tsub t i).
  Proof.
    intros W N S M Hi O Os Oi Ox. destruct (log_pdf_index solve b i q x xi W N S O Os Oi Ox Hi) as (t & T). exists (stree i q), t. split; [now apply (getitem_stree b)|exact T].
  Qed.
  Lemma p_C27_entropy_nat b q i : well_formed q = true -> nat_tree q = true -> shaped b q = true -> no_custom_minimizer q = true -> inb b i = true ->
    (forall p l f, In (p, l) (leaves [] q) -> dcls l = NP f -> has_entropy_ep (EP f) = true) ->
    exists qi t, getitem q i = Ok qi /\ entropy_nat L q = Ok t /\ shp t = b /\ entropy_nat L qi = Ok (tsub t i).
  Proof.
    intros W N S M Hi He. destruct (entropy_nat_yields solve b q W N S He) as (t & T1 & T2 & T3). exists (stree i q), t. split; [now apply (getitem_stree b)|]. auto.
  Qed.
  Lemma p_C27_entropy_exp b p i : well_formed p = true -> all_nodes has_entropy_ep p = true -> shaped b p = true -> no_custom_minimizer p = true -> inb b i = true ->
    exists pi t, getitem p i = Ok pi /\ entropy_exp L p = Ok t /\ shp t = b /\ entropy_exp L pi = Ok (tsub t i).
  Proof.
    intros W N S M Hi. destruct (entropy_exp_yields solve b p W N S) as (t & T1 & T2 & T3). exists (stree i p), t. split; [now apply (getitem_stree b)|]. auto.
  Qed.
  Lemma p_C27_cross_entropy b p q i : well_formed p = true -> well_formed q = true -> all_nodes has_entropy_ep p = true -> nat_tree q = true -> tree_match b p q ->
    no_custom_minimizer p = true -> no_custom_minimizer q = true -> inb b i = true ->
    exists pi qi t, getitem p i = Ok pi /\ getitem q i = Ok qi /\ cross_entropy L p q = Ok t /\ shp t = b /\ cross_entropy L pi qi = Ok (tsub t i).
  Proof.
    intros Wp Wq Hp Nq T Mp Mq Hi. destruct (tm_shaped b p q Wp Wq T) as [Sp Sq]. destruct (ce_yields solve b p q Wp Wq Hp Nq T) as (t & T1 & T2 & T3).
    exists (stree i p), (stree i q), t. split; [now apply (getitem_stree b)|]. split; [now apply (getitem_stree b)|]. auto.
  Qed.
  Lemma p_C27_kl b p q i : well_formed p = true -> well_formed q = true -> nat_tree p = true -> nat_tree q = true -> same_skeleton p q -> tree_match b p q ->
    no_custom_minimizer p = true -> no_custom_minimizer q = true -> inb b i = true ->
    exists pi qi t, getitem p i = Ok pi /\ getitem q i = Ok qi /\ kl_divergence_nat L p q = Ok t /\ shp t = b /\ kl_divergence_nat L pi qi = Ok (tsub t i).
  Proof.
    intros Wp Wq Np Nq Sk T Mp Mq Hi. destruct (tm_shaped b p q Wp Wq T) as [Sp Sq]. destruct (kl_yields solve b p q Wp Wq Np Nq Sk T) as (t & T1 & T2 & T3).
    exists (stree i p), (stree i q), t. split; [now apply (getitem_stree b)|]. split; [now apply (getitem_stree b)|]. auto.
  Qed.
  Lemma p_C27_kl_exp b p q n i : well_formed p = true -> well_formed q = true -> exp_tree p = true -> nat_tree q = true ->
    to_nat L p = Ok n -> same_skeleton n q -> tree_match b p q -> no_custom_minimizer p = true -> no_custom_minimizer q = true -> inb b i = true ->
    exists pi qi t, getitem p i = Ok pi /\ getitem q i = Ok qi /\ kl_divergence_exp L p q None = Ok t /\ shp t = b /\
      kl_divergence_exp L pi qi None = Ok (tsub t i).
  Proof.
    intros Wp Wq Np Nq Hn Sk T Mp Mq Hi. destruct (tm_shaped b p q Wp Wq T) as [Sp Sq]. destruct (kl_exp_yields solve b p q n Wp Wq Np Nq Hn Sk T) as (t & T1 & T2 & T3).
    exists (stree i p), (stree i q), t. split; [now apply (getitem_stree b)|]. split; [now apply (getitem_stree b)|]. auto.
  Qed.
End P.
(** ** examples *)
Fixpoint nslice (i : list nat) (x : nested arr) : nested arr :=
  match x with Leaf a => Leaf (asub i a) | Node kvs => Node (map (fun kv => (fst kv, nslice i (snd kv))) kvs) end.
Lemma p_C27_ex : (well_formed ex_joint = true /\ nat_tree ex_joint = true /\ shaped [2] ex_joint = true /\ no_custom_minimizer ex_joint = true /\ inb [2] [1] = true /\
    (forall p l f, In (p, l) (leaves [] ex_joint) -> dcls l = NP f -> has_entropy_ep (EP f) = true)) /\
  (well_formed ex_joint' = true /\ nat_tree ex_joint' = true /\ same_skeleton ex_joint ex_joint' /\ tree_match [2] ex_joint ex_joint' /\ no_custom_minimizer ex_joint' = true) /\
  (well_formed ex_joint_e = true /\ exp_tree ex_joint_e = true /\ all_nodes has_entropy_ep ex_joint_e = true /\ shaped [2] ex_joint_e = true /\ no_custom_minimizer ex_joint_e = true /\ tree_match [2] ex_joint_e ex_joint) /\
  exists xi, obs_matches ex_joint ex_obs /\ obs_shaped [2] ex_joint ex_obs /\ obs_matches ex_joint xi /\
    (forall p a, nested_get ex_obs p = Some a -> exists ai, arr_getitem [1] a = Ok ai /\ nested_get xi p = Some ai).
Proof.
  destruct p_C17_ex as (A1 & A2 & A3 & A4 & A5 & A6 & A7 & A8 & A9 & A10 & A11 & A12).
  split; [repeat (split; [first [assumption|reflexivity]|]); exact A12|]. split; [repeat (split; [first [assumption|reflexivity]|]); reflexivity|]. split; [repeat (split; [first [assumption|reflexivity]|]); exact A11|].
  destruct ex_obs_ok as [O1 O2]. exists (nslice [1] ex_obs). split; [exact O1|]. split; [exact O2|]. split.
  - cbn [obs_matches ex_joint is_joint ex_normal ex_gamma ex_fixed ex_obs nslice map fst snd].
    split; [repeat constructor; cbn; intuition discriminate|]. split; [intros n; cbn; tauto|]. cbn.
    split; [|split; [exact I|exact I]]. split; [repeat constructor; cbn; intuition discriminate|]. split; [intros n; cbn; tauto|]. auto.
  - intros p a H. cbn [ex_obs nslice map fst snd]. unfold ex_obs in H. destruct p as [|k p]; [discriminate|]. rewrite nested_get_node in H |- *. cbn [dget] in *.
    destruct (keq k "m"); [|destruct (keq k "x"); [|discriminate]]; (destruct p as [|k' p]; [|try (destruct p; discriminate)]); try discriminate.
    + injection H as <-. eexists. split; reflexivity.
    + rewrite nested_get_node in H |- *. cbn [dget] in *. destruct (keq k' "g"); [|destruct (keq k' "n"); [|discriminate]]; (destruct p as [|? p]; [|destruct p; discriminate]); injection H as <-; eexists; split; reflexivity.
Qed.
