(** The generalized conjugate prior of a multinomial distribution (C31), for the arguments the code accepts. *)
From Coquelicot Require Import Coquelicot.
From Coq Require Import String List Bool Arith Reals Lia Lra.
From Verif Require Import Base XReal Tensor TensorFacts Support Dist DictFacts Iteration Structure Spec SumSpec DotSpec Tools Joint SpecFun GammaFn Expr Fam ExprFacts FamTy FamFacts SearchFacts DotFacts StructThms SumFacts MapFacts
  JointThms JointThms2 DotLaws BatchFacts PointSpec PointFacts Val FamR FamVal ConvFacts LeafVal ConvThms DensSpec KlSpec KlExp Conj ConjSpec ConjThms.
Import ListNotations.
Local Unset Asymmetric Patterns.
Local Open Scope string_scope.
Local Open Scope R_scope.

Lemma roll_seq {A} (f : nat -> A) x m : (tl (map f (seq 0 (S m))) ++ [x])%list = map (fun k => if Nat.ltb k m then f (S k) else x) (seq 0 (S m)).
Proof.
  rewrite tl_seq. cbn [pred]. rewrite seq_S, map_app. cbn [map plus]. rewrite Nat.ltb_irrefl. f_equal. apply map_ext_in. intros k Hk. apply in_seq in Hk. now rewrite (proj2 (Nat.ltb_lt k m)) by lia.
Qed.
Lemma VR_roll0 G p e m r : VR G p e (Ev [S m]) r -> VR G p (jroll0 e) (Ev [S m]) (fun j => if Nat.ltb (hd 0%nat j) m then r [S (hd 0%nat j)] else 0).
Proof.
  intros H. unfold jroll0. apply (VR_row G p (fun l => (tl l ++ [Fin 0])%list) (fun n => n) e (S m) r (fun k => if Nat.ltb k m then r [S k] else 0) H).
  rewrite (roll_seq (fun k => Fin (r [k]))). apply map_ext. intros k. now destruct (Nat.ltb k m).
Qed.
Lemma VR_diff1 G p e m r : VR G p e (Ev [S m]) r -> VR G p (jdiff1 e) (Ev [S m]) (fun j => (if Nat.ltb (hd 0%nat j) m then r [S (hd 0%nat j)] else 1) - r [hd 0%nat j]).
Proof.
  intros H. unfold jdiff1. apply (VR_row G p (fun l => map (fun ab : xr * xr => xsub (fst ab) (snd ab)) (combine (tl l ++ [Fin 1]) l))%list (fun n => n) e (S m) r (fun k => (if Nat.ltb k m then r [S k] else 1) - r [k]) H).
  rewrite (roll_seq (fun k => Fin (r [k]))). generalize (seq 0 (S m)). intros l. induction l as [|k l IH]; [reflexivity|]. cbn [map combine fst snd]. rewrite IH. f_equal. now destruct (Nat.ltb k m).
Qed.

(** the probabilities of all categories *)
Definition all_prob (m : nat) (P : point) (k : nat) : R := if Nat.ltb k m then P false "probability" [k] else 1 - sumR m (fun k => P false "probability" [k]).
Definition gmR (m : nat) (P : point) (N : nat -> R) : point :=
  mkpt [("alpha_minus_one", re (fun j => N (hd 0%nat j) * all_prob m P (hd 0%nat j) - 1));
        ("gamma", re (fun j => let k := hd 0%nat j in
            - ((if Nat.ltb k m then N (S k) * (1 - all_prob m P (S k)) else 1) - N k * (1 - all_prob m P k)) - (if Nat.ltb k m then N (S k) * all_prob m P (S k) else 0)))].
Lemma gm_val m P N : args_at (("n", (KR, [S m])) :: ctx_of (EP Multinomial) m) (pnv P N) (gmR m P N) (match gen_prior_args Multinomial with Some (_, l) => l | None => [] end) (ctx_of (NP GeneralizedDirichlet) (S m)).
Proof.
  set (G := ("n", (KR, [S m])) :: ctx_of (EP Multinomial) m).
  assert (AP : VR G (pnv P N) (jappend (self "probability") (esub (ENum 1) (jsum_keep (self "probability")))) (Ev [S m]) (fun j => all_prob m P (hd 0%nat j))).
  { replace (S m) with (m + 1)%nat by lia. eapply VR_ext; [eapply VR_append; vr|]. intros j Hj. destruct (inb1 _ _ Hj) as (k & -> & Hk). unfold all_prob. cbn [hd]. pnvs. destruct (Nat.ltb k m); reflexivity. }
  assert (NV : VR G (pnv P N) NN (Ev [S m]) (fun j => N (hd 0%nat j))).
  { change NN with (self "n"). eapply VR_ext; [vr|]. intros j Hj. reflexivity. }
  assert (AV : VR G (pnv P N) (emul NN (jappend (self "probability") (esub (ENum 1) (jsum_keep (self "probability"))))) (Ev [S m]) (fun j => N (hd 0%nat j) * all_prob m P (hd 0%nat j))).
  { eapply VR_ext; [eapply VR_mul; [exact NV|exact AP|alt_]|]. intros j Hj. reflexivity. }
  unfold args_at. cbn [map fields gen_prior_args]. argv; cbn [fd_name fd_support var supp_shape].
  - eapply VR_ext; [eapply VR_sub; [exact AV|vr|alt_]|]. intros j Hj. reflexivity.
  - eapply VR_ext; [eapply VR_sub; [eapply VR_neg; eapply VR_diff1; eapply VR_mul; [exact NV|eapply VR_sub; [vr|exact AP|alt_]|alt_]|eapply VR_roll0; exact AV|alt_]|]. intros j Hj. reflexivity.
Qed.
Lemma gm_alpha m P N k : gdR_alpha (gmR m P N) k = N k * all_prob m P k.
Proof. unfold gdR_alpha, gmR, mkpt, re. cbn [slook String.eqb Ascii.eqb Bool.eqb fst snd hd]. ring. Qed.
Lemma gm_beta m P N k : (k <= m)%nat -> gdR_beta (S m) (gmR m P N) k = N k * (1 - all_prob m P k).
Proof.
  intros Hk. unfold gdR_beta. replace (S m - 1 - k)%nat with (m - k)%nat by lia. remember (m - k)%nat as d eqn:Ed. revert k Hk Ed. induction d as [|d IH]; intros k Hk Ed.
  - rewrite sumR_S, !sumR_0. replace (S m - 1 - 0)%nat with k by lia. unfold gmR at 1, mkpt, re. cbn [slook String.eqb Ascii.eqb Bool.eqb fst snd hd]. assert (Nat.ltb k m = false) as -> by (apply Nat.ltb_ge; lia). ring.
  - specialize (IH (S k) ltac:(lia) ltac:(lia)). rewrite (sumR_S (S d)), (sumR_S d (fun m0 => gdR_alpha _ _)). replace (S m - 1 - S d)%nat with k by lia. replace (S m - 1 - d)%nat with (S k) by lia.
    rewrite gm_alpha. match goal with |- ?a + ?b + (?c + ?e) + 1 = _ => transitivity ((a + c + 1) + b + e); [ring|] end. rewrite IH.
    unfold gmR, mkpt, re. cbn [slook String.eqb Ascii.eqb Bool.eqb fst snd hd]. assert (Nat.ltb k m = true) as -> by (apply Nat.ltb_lt; lia). ring.
Qed.
Lemma gm_at b i p n N m : inb b i = true -> at_pt b i p (EP Multinomial) m (point_of p i) -> pseudo_observations_v b i (S m) n N ->
  exists c, generalized_conjugate_prior_distribution p n = Ok c /\ at_pt b i c (NP GeneralizedDirichlet) (S m) (gmR m (point_of p i) N).
Proof.
  intros Hi A (t & -> & St & Vt). pose proof A as [C W S' D V]. set (P := point_of p i) in *.
  pose proof (env_cons b _ _ "n" KR [S m] t (leaf_env _ _ _ S' D) St) as HE. rewrite C in HE. cbn [pack] in HE.
  assert (V' : vals_eq (("n", (KR, [S m])) :: ctx_of (EP Multinomial) m) (vals_of (("n", RA t) :: dparams p) i) (pvals (pnv P N))).
  { intros nm k s j X Hj. unfold vals_of. cbn [dget] in X |- *. destruct (keq nm "n") as [->|Nm].
    - injection X as <- <-. cbn [get_kind pvals]. destruct (inb1 _ _ Hj) as (k & -> & Hk). etransitivity; [exact (Vt k Hk)|reflexivity].
    - specialize (V nm k s j X Hj). unfold vals_of in V. rewrite V. unfold pvals, pnv. destruct k; (destruct (String.eqb_spec nm "n"); [contradiction|reflexivity]). }
  destruct (make_at b _ _ _ (NP GeneralizedDirichlet) (S m) i _ _ HE Hi V' (gm_val m P N) eq_refl) as (q & E1 & E2 & E3 & E4 & E5 & E6 & E7); [discriminate|reflexivity|].
  exists q. split; [|apply (at_pt_eq _ _ _ _ _ (point_of q i)); [now apply at_pt_self|exact E7]].
  unfold generalized_conjugate_prior_distribution, prior_of. rewrite C. exact E1.
Qed.
Lemma t_gen_sticks b i p m n N : proper_e b i Multinomial p -> dims_of p = Ok m -> pseudo_observations_v b i (m + 1) n N ->
  let P k := if (k <? m)%nat then par p i "probability" [k] else 1 - sumR m (fun k => par p i "probability" [k]) in
  exists c al be, generalized_conjugate_prior_distribution p n = Ok c /\ dcls c = NP GeneralizedDirichlet /\ dims_of c = Ok (m + 1)%nat /\
    alpha_beta c = Ok (al, be) /\ shp al = (b ++ [m + 1]%nat)%list /\ shp be = (b ++ [m + 1]%nat)%list /\
    forall k, (k < m + 1)%nat -> tget al (i ++ [k])%list = Fin (N k * P k) /\ tget be (i ++ [k])%list = Fin (N k * (1 - P k)).
Proof.
  rewrite Nat.add_1_r. intros (C & W & S' & Hi & Dm) D Hn P.
  assert (F : finite_at p m i) by (destruct Dm as (n' & D' & F & _); rewrite D in D'; injection D' as <-; exact F).
  destruct (gm_at b i p n N m Hi (at_pt_self b i p _ m C W S' D Hi F) Hn) as (c & Ec & Ac). pose proof Ac as [C2 W2 S2 D2 V2].
  pose proof (leaf_env _ _ _ S2 D2) as HE. rewrite C2 in HE.
  destruct (eval_at b _ _ i _ gd_alpha [S m] _ HE Hi V2 (gd_alpha_val (S m) _)) as (ta & A1 & A2 & A3).
  destruct (eval_at b _ _ i _ gd_beta [S m] _ HE Hi V2 (gd_beta_val (S m) _)) as (tb & B1 & B2 & B3).
  exists c, ta, tb. split; [exact Ec|]. split; [exact C2|]. split; [exact D2|]. split; [unfold alpha_beta; rewrite A1; cbn [bind]; rewrite B1; reflexivity|]. split; [exact A2|]. split; [exact B2|].
  intros k Hk. assert (Hj : inb [S m] [k] = true) by (apply inb1_intro; exact Hk). split.
  - etransitivity; [exact (A3 _ Hj)|]. cbn [hd]. rewrite gm_alpha. reflexivity.
  - etransitivity; [exact (B3 _ Hj)|]. cbn [hd]. rewrite gm_beta by lia. reflexivity.
Qed.
(** with equal numbers of pseudo-observations the prior's gamma is negative: outside its declared support *)
Lemma t_gen_outside b i p m n N : proper_e b i Multinomial p -> dims_of p = Ok m -> (1 <= m)%nat -> 0 < N -> pseudo_observations_v b i (m + 1) n (fun _ => N) ->
  exists c, generalized_conjugate_prior_distribution p n = Ok c /\ dcls c = NP GeneralizedDirichlet /\ dims_of c = Ok (m + 1)%nat /\
    (forall k, (k < m)%nat -> par c i "gamma" [k] = - N * par p i "probability" [k] /\ par c i "gamma" [k] < 0) /\ ~ in_domain c i.
Proof.
  rewrite Nat.add_1_r. intros (C & W & S' & Hi & Dm) D Hm HN Hn.
  destruct Dm as (n' & D' & F & Dm). rewrite D in D'. injection D' as <-. rewrite C in Dm.
  destruct (gm_at b i p n _ m Hi (at_pt_self b i p _ m C W S' D Hi F) Hn) as (c & Ec & Ac). pose proof Ac as [C2 W2 S2 D2 V2]. exists c. split; [exact Ec|]. split; [exact C2|]. split; [exact D2|].
  assert (G : forall k, (k < m)%nat -> par c i "gamma" [k] = - N * par p i "probability" [k] /\ par c i "gamma" [k] < 0).
  { intros k Hk. assert (E : par c i "gamma" [k] = - N * par p i "probability" [k]).
    - unfold par. pose proof (at_pt_pt _ _ _ _ _ _ Hi Ac) as E. etransitivity; [symmetry; exact (pt_re _ _ _ _ _ [k] E (or_intror (or_introl eq_refl)) (inb1_intro _ _ (Nat.lt_lt_succ_r _ _ Hk)))|].
      unfold gmR, mkpt, re. cbn [fd_name var slook String.eqb Ascii.eqb Bool.eqb fst snd hd]. assert (Nat.ltb k m = true) as Hk' by (now apply Nat.ltb_lt). cbv zeta. rewrite Hk'. unfold all_prob at 2. rewrite Hk'. ring.
    - split; [exact E|]. rewrite E. cbn [exp_dom] in Dm. destruct Dm as [Dm _]. specialize (Dm k Hk). unfold par. nra. }
  split; [exact G|]. intros (n' & D' & F' & Dm'). rewrite D2 in D'. injection D' as <-. rewrite C2 in Dm'. destruct (Dm' 0%nat ltac:(lia)) as [_ X]. destruct (G 0%nat ltac:(lia)) as [_ Y]. unfold par in Y. cbv beta in X. lra.
Qed.
