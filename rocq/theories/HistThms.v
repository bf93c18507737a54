(** Proofs for C68: Bayesian updating over a history of observations. *)
From Coquelicot Require Import Coquelicot.
From Coq Require Import String List Bool Arith Reals Lia Lra Permutation.
From Verif Require Import Base XReal Tensor TensorFacts Support Dist DictFacts Iteration Structure Spec SumSpec DotSpec Tools Joint SpecFun Expr Fam PointSpec PointFacts FamR FamVal ConvFacts LeafVal ConvThms DerivFacts DensSpec DensVal DensThms KlSpec BregThms KlPos InjThms IntThms MleThms
  Conj ConjSpec ConjThms Combine CombSpec CombThms BayesSpec ConjBayes.
Import ListNotations.
Local Unset Asymmetric Patterns.
Local Open Scope string_scope.
Local Open Scope R_scope.

Section H.
  Variable solve : minimizer -> dist -> nat -> xr.
  Notation L := (fam_methods solve).
  Variables (b i : list nat) (f : family) (m : nat) (q : dist) (est : estimator) (one : arr).
  Hypothesis Hf : has_prior f.
  Hypothesis Pq : proper b i f q.
  Hypothesis Dq : dims_of q = Ok m.
  Hypothesis Ee : create_estimator_from_natural q = Ok est.
  Hypothesis One : pseudo_observations b i one 1.
  Notation G := (NP (prior_fam f)).
  Notation K := (prior_dims f m).
  Definition evid (T : point) : point := priR m T 1 f.
  Lemma Hi : inb b i = true. Proof. apply Pq. Qed.
  Lemma evidence_of x xv : observed b i q x xv -> sample_space f m xv -> exists e c1, mle_sufficient_statistics L est (Leaf x) = Ok e /\ conjugate_prior_distribution e one = Ok c1 /\
    at_pt b i c1 G K (evid (ssR m (point_of q i) xv f)).
  Proof.
    intros O X. destruct (mle_at solve b i f q m x xv Pq Dq O X) as (est' & e & E1 & E2 & Ae). assert (est' = est) by congruence. subst est'.
    destruct (proper_dims b i f q Pq) as (m' & D1 & _ & D3 & D4 & _). assert (m' = m) by congruence. subst m'.
    destruct (prior_at' b i f e one 1 m _ Hf Hi Ae) as (c1 & E & A); try assumption; [|exists e, c1; auto].
    destruct f; try contradiction; try exact Logic.I; cbn [prior_ok]; [change (xv false [] <> 0); cbn [sample_space] in X; lra|]. change (point_of q i false "variance" [] <> 0). cbn [nat_dom] in D3. lra.
  Qed.
  Lemma update_pt x xv c p : observed b i q x xv -> sample_space f m xv -> at_pt b i c G K p -> exists s, update L est one c x = Ok s /\ at_pt b i s G K (padd G p (evid (ssR m (point_of q i) xv f)) 1).
  Proof.
    intros O X A. destruct (evidence_of x xv O X) as (e & c1 & E1 & E2 & A1). destruct (comb_at b i _ _ c c1 _ _ Hi A A1) as (s & S1 & S2). exists s. split; [|exact S2]. unfold update. rewrite E1. cbn [bind]. rewrite E2. exact S1.
  Qed.
  Definition stat_of (x : arr) (T : point) : Prop := exists xv, observed b i q x xv /\ sample_space f m xv /\ T = ssR m (point_of q i) xv f.
  Definition acc (Ts : list point) (p : point) : point := fold_left (fun p T => padd G p (evid T) 1) Ts p.
  Lemma stats_of xs : history b i f m q xs -> exists Ts, Forall2 stat_of xs Ts.
  Proof. induction 1 as [|x xs (xv & O & X) _ (Ts & IH)]; [now exists []|]. exists (ssR m (point_of q i) xv f :: Ts). constructor; [now exists xv|exact IH]. Qed.
  Lemma posterior_pt xs Ts : Forall2 stat_of xs Ts -> forall c p, at_pt b i c G K p -> exists s, posterior L est one c xs = Ok s /\ at_pt b i s G K (acc Ts p).
  Proof.
    induction 1 as [|x T xs Ts (xv & O & X & ->) _ IH]; intros c p A; [exists c; auto|].
    destruct (update_pt x xv c p O X A) as (s & S1 & S2). destruct (IH s _ S2) as (t & T1 & T2). exists t. split; [|exact T2]. unfold posterior in *. cbn [foldM]. now rewrite S1.
  Qed.
  Lemma acc_val Ts : forall p k nm j, acc Ts p k nm j = if existsb (fun g => fd_fixed g && String.eqb (fd_name g) nm) (fields G) then p k nm j else p k nm j + fold_right Rplus 0 (map (fun T => evid T k nm j) Ts).
  Proof.
    induction Ts as [|T Ts IH]; intros p k nm j; cbn [acc fold_left map fold_right].
    - destruct (existsb _ _); [reflexivity|]. ring.
    - change (fold_left _ Ts ?z) with (acc Ts z). rewrite IH. unfold padd. destruct (existsb _ _); [reflexivity|]. ring.
  Qed.
  Lemma perm_sum l l' : Permutation l l' -> fold_right Rplus 0 l = fold_right Rplus 0 l'.
  Proof. induction 1; cbn; try lra. Qed.
  Theorem t_order xs ys c : history b i f m q xs -> Permutation xs ys -> proper b i (prior_fam f) c -> dims_of c = Ok K ->
    exists s t, posterior L est one c xs = Ok s /\ posterior L est one c ys = Ok t /\ same_leaf_at b i s t.
  Proof.
    intros H P Pc Dc. destruct (stats_of xs H) as (Ts & F). destruct (Permutation_Forall2 P F) as (Us & Q & F').
    pose proof Pc as (Cc & Wc & Sc & _ & _). destruct (proper_dims b i (prior_fam f) c Pc) as (k' & D1 & D2 & D3 & _). assert (k' = K) by congruence. subst k'.
    assert (Ac : at_pt b i c G K (point_of c i)) by (apply at_pt_self; auto; exact Hi).
    destruct (posterior_pt xs Ts F c _ Ac) as (s & S1 & S2). destruct (posterior_pt ys Us F' c _ Ac) as (t & T1 & T2). exists s, t. split; [exact S1|]. split; [exact T1|].
    apply (at_pt_same b i s t G (prior_fam f) K (acc Us (point_of c i))); [reflexivity| |exact T2]. apply (at_pt_eq _ _ _ _ _ _ _ S2). intros nm k s' j E Hj. unfold pvals. 
    assert (Z : forall w, acc Ts (point_of c i) w nm j = acc Us (point_of c i) w nm j). { intros w. rewrite !acc_val. destruct (existsb _ _); [reflexivity|]. f_equal. apply perm_sum. now apply Permutation_map. }
    destruct k; now rewrite !Z.
  Qed.
End H.

Section T.
  Variable solve : minimizer -> dist -> nat -> xr.
  Notation L := (fam_methods solve).
  Variables (b i : list nat) (f : family) (m : nat) (p1 p2 q1 q2 : dist) (est : estimator) (one o1 o2 : arr).
  Hypothesis Hf : has_prior f.
  Hypothesis Hx : f <> Exponential.
  Hypothesis C12 : comparable b i f p1 p2.
  Hypothesis Dm : dims_of p1 = Ok m.
  Hypothesis T1 : to_nat L p1 = Ok q1.
  Hypothesis T2 : to_nat L p2 = Ok q2.
  Hypothesis Ee : create_estimator_from_natural q1 = Ok est.
  Hypothesis One : pseudo_observations b i one 1.
  Hypothesis O1 : conjugate_prior_observation p1 = Ok o1.
  Hypothesis O2 : conjugate_prior_observation p2 = Ok o2.
  Notation g := (prior_fam f).
  Lemma setup : inb b i = true /\ at_pt b i p1 (EP f) m (point_of p1 i) /\ at_pt b i p2 (EP f) m (point_of p2 i) /\ exp_dom f m (point_of p1 i) /\ exp_dom f m (point_of p2 i) /\ dims_ok (EP f) m = true /\ proper b i f q1 /\ dims_of q1 = Ok m.
  Proof.
    destruct (prior_closed f Hf) as (M & C & M'). destruct (divergence_at solve b i f p1 p2 M C C12) as (m' & A1 & A2 & H1 & H2 & K & _).
    assert (m' = m) by (pose proof (ap_dims _ _ _ _ _ _ A1); congruence). subst m'. pose proof (proj1 C12) as (_ & _ & _ & Hi & _). do 6 (split; [assumption|]).
    destruct (nat_at solve b i p1 f m _ Hi A1 H1 C) as (q' & E1 & E2). assert (q' = q1). { assert (to_nat L p1 = Ok q'); [|congruence]. pose proof (ap_cls _ _ _ _ _ _ A1) as Cp. clear - E1 Cp. destruct p1 as [c m2 ps subs]. cbn [dcls] in Cp. subst c. exact E1. } subst q'.
    split; [|exact (ap_dims _ _ _ _ _ _ E2)]. split; [exact (ap_cls _ _ _ _ _ _ E2)|]. split; [exact (ap_wf _ _ _ _ _ _ E2)|]. split; [exact (ap_shaped _ _ _ _ _ _ E2)|]. split; [exact Hi|].
    exact (at_pt_nat_dom b i q1 f m _ Hi E2 (nat_ok f m _ C H1)).
  Qed.
  Lemma ld_inj L' q x d d' : log_density L' b i q x d -> log_density L' b i q x d' -> d = d'.
  Proof. intros (t & E & _ & V) (t' & E' & _ & V'). assert (t' = t) by congruence. subst t'. rewrite V in V'. now injection V'. Qed.
  Lemma prior_ld c p o : at_pt b i p (EP f) m (point_of p i) -> exp_dom f m (point_of p i) -> conjugate_prior_observation p = Ok o -> proper b i g c -> dims_of c = Ok (prior_dims f m) -> exists d, log_density L b i c o d.
  Proof.
    intros A H E Pc Dc. destruct setup as (Hi & _ & _ & _ & _ & K & _). destruct (proper_dims b i g c Pc) as (k' & D1 & D2 & D3 & _). assert (k' = prior_dims f m) by congruence. subst k'. pose proof Pc as (Cc & Wc & Sc & _ & _).
    assert (Ac : at_pt b i c (NP g) (prior_dims f m) (point_of c i)) by now apply at_pt_self.
    destruct (prior_obs b i f p m g c _ Hf Hi A K eq_refl Ac) as (o' & E' & O'). assert (o' = o) by congruence. subst o'. eexists. apply log_density_at; [exact Pc|exact Dc|exact O'|now apply pobs_space].
  Qed.
  Lemma hist xs : history b i f m q1 xs -> forall c, proper b i g c -> dims_of c = Ok (prior_dims f m) -> exists s d1 d2 t1 t2 ls1 ls2,
    posterior L est one c xs = Ok s /\ proper b i g s /\ dims_of s = Ok (prior_dims f m) /\ log_density L b i c o1 d1 /\ log_density L b i c o2 d2 /\ log_density L b i s o1 t1 /\ log_density L b i s o2 t2 /\
    log_likelihoods L b i q1 xs ls1 /\ log_likelihoods L b i q2 xs ls2 /\ t1 - t2 = (d1 + total ls1) - (d2 + total ls2).
  Proof.
    destruct setup as (Hi & A1 & A2 & H1 & H2 & K & Pq & Dq). induction 1 as [|x xs (xv & O & X) _ IH]; intros c Pc Dc.
    - destruct (prior_ld c p1 o1 A1 H1 O1 Pc Dc) as (d1 & E1). destruct (prior_ld c p2 o2 A2 H2 O2 Pc Dc) as (d2 & E2). exists c, d1, d2, d1, d2, [], []. do 7 (split; [first [assumption|reflexivity]|]). split; [constructor|]. split; [constructor|]. cbn. lra.
    - destruct (evidence_of solve b i f m q1 est one Hf Pq Dq Ee One x xv O X) as (e & c1 & E1 & E2 & Ac1).
      destruct (t_bayes solve b i f p1 p2 q1 q2 m x xv est e one Hf Hx C12 Dm T1 T2 O X Ee E1 One) as (g' & c1' & o1' & o2' & l1 & l2 & Y1 & Y2 & Y3 & Y4 & Y5 & Y6 & _ & Y8).
      assert (c1' = c1) by congruence. subst c1'. assert (o1' = o1) by congruence. subst o1'. assert (o2' = o2) by congruence. subst o2'. assert (g' = g) by (pose proof (ap_cls _ _ _ _ _ _ Ac1); congruence). subst g'.
      rewrite (ap_dims _ _ _ _ _ _ Ac1) in Y8. destruct (Y8 c Pc Dc) as (s & d1 & d2 & t1 & t2 & Z1 & Z2 & Z3 & Z4 & Z5 & Z6 & Z7 & Z8).
      destruct (IH s Z2 Z3) as (s' & d1' & d2' & t1' & t2' & ls1 & ls2 & W1 & W2 & W3 & W4 & W5 & W6 & W7 & W8 & W9 & W10).
      rewrite <- (ld_inj _ _ _ _ _ Z6 W4), <- (ld_inj _ _ _ _ _ Z7 W5) in W10. exists s', d1, d2, t1', t2', (l1 :: ls1), (l2 :: ls2). split.
      { unfold posterior in *. cbn [foldM]. unfold update at 1. rewrite E1. cbn [bind]. rewrite E2. cbn [bind]. rewrite Z1. exact W1. }
      do 6 (split; [assumption|]). split; [now constructor|]. split; [now constructor|]. unfold total in *. cbn [fold_right]. lra.
  Qed.
End T.

Lemma prior_class (solve : minimizer -> dist -> nat -> xr) b i f p n N c g : has_prior f -> proper_e b i f p -> pseudo_observations b i n N -> conjugate_prior_distribution p n = Ok c -> dcls c = NP g ->
  exists m, dims_of p = Ok m /\ g = prior_fam f /\ dims_of c = Ok (prior_dims f m).
Proof.
  intros Hf Pp Hn E Cg. destruct (prior_closed f Hf) as (M & C & M').
  assert (Cs : comparable b i f p p). { split; [exact Pp|]. split; [exact Pp|]. split; [reflexivity|]. intros h v w j _ _ V W. congruence. }
  destruct (divergence_at solve b i f p p M C Cs) as (m & A & _ & H & _ & K & _). exists m. split; [exact (ap_dims _ _ _ _ _ _ A)|].
  assert (Ok' : prior_ok f (point_of p i)) by (destruct f; try contradiction; cbn [exp_dom prior_ok] in *; try exact Logic.I; lra).
  destruct (prior_at' b i f p n N m _ Hf (proj1 (proj2 (proj2 (proj2 Pp)))) A Ok' K Hn) as (c' & E' & Ac). assert (c' = c) by congruence. subst c'.
  split; [pose proof (ap_cls _ _ _ _ _ _ Ac); congruence|exact (ap_dims _ _ _ _ _ _ Ac)].
Qed.
Theorem t_history solve b i f p1 p2 q1 q2 m est one xs o1 o2 n N c0 c g : has_prior f -> f <> Exponential -> comparable b i f p1 p2 -> dims_of p1 = Ok m ->
  to_nat (fam_methods solve) p1 = Ok q1 -> to_nat (fam_methods solve) p2 = Ok q2 -> create_estimator_from_natural q1 = Ok est -> pseudo_observations b i one 1 ->
  conjugate_prior_observation p1 = Ok o1 -> conjugate_prior_observation p2 = Ok o2 -> pseudo_observations b i n N -> conjugate_prior_distribution p1 n = Ok c0 -> dcls c0 = NP g ->
  proper b i g c -> dims_of c = dims_of c0 -> history b i f m q1 xs ->
  exists s d1 d2 t1 t2 ls1 ls2, posterior (fam_methods solve) est one c xs = Ok s /\ proper b i g s /\ dims_of s = dims_of c0 /\
    log_density (fam_methods solve) b i c o1 d1 /\ log_density (fam_methods solve) b i c o2 d2 /\ log_density (fam_methods solve) b i s o1 t1 /\ log_density (fam_methods solve) b i s o2 t2 /\
    log_likelihoods (fam_methods solve) b i q1 xs ls1 /\ log_likelihoods (fam_methods solve) b i q2 xs ls2 /\ t1 - t2 = (d1 + total ls1) - (d2 + total ls2).
Proof.
  intros Hf Hx C12 Dm T1 T2 Ee One O1 O2 Hn E0 C0 Pc Dc H. destruct (prior_class solve b i f p1 n N c0 g Hf (proj1 C12) Hn E0 C0) as (m' & D & -> & D0). assert (m' = m) by congruence. subst m'.
  rewrite D0 in *. exact (hist solve b i f m p1 p2 q1 q2 est one o1 o2 Hf Hx C12 Dm T1 T2 Ee One O1 O2 xs H c Pc Dc).
Qed.
Theorem t_order' solve b i f q p m est one xs ys n N c0 c g : has_prior f -> proper b i f q -> dims_of q = Ok m -> create_estimator_from_natural q = Ok est -> pseudo_observations b i one 1 ->
  proper_e b i f p -> dims_of p = Ok m -> pseudo_observations b i n N -> conjugate_prior_distribution p n = Ok c0 -> dcls c0 = NP g -> proper b i g c -> dims_of c = dims_of c0 -> history b i f m q xs -> Permutation xs ys ->
  exists s t, posterior (fam_methods solve) est one c xs = Ok s /\ posterior (fam_methods solve) est one c ys = Ok t /\ same_leaf_at b i s t.
Proof.
  intros Hf Pq Dq Ee One Pp Dp Hn E0 C0 Pc Dc H P. destruct (prior_class solve b i f p n N c0 g Hf Pp Hn E0 C0) as (m' & D & -> & D0). assert (m' = m) by congruence. subst m'. rewrite D0 in Dc.
  exact (t_order solve b i f m q est one Hf Pq Dq Ee One xs ys c H P Pc Dc).
Qed.
