(** C47 and C48: the log-normalizer generates the cumulants of the sufficient statistics. *)
From Coquelicot Require Import Coquelicot.
From Coq Require Import String List Bool Arith ZArith Reals Lra Lia FunctionalExtensionality.
From Verif Require Import Base XReal Tensor TensorFacts Support Dist Iteration Structure Tools Joint Spec StructFacts SumSpec DotSpec DotFacts DotLaws TensorFacts2 PointSpec SpecFun Expr Fam
  DictFacts MappingFacts PointFacts LeafVal DerivFacts MatDeriv MatBreg DerivThms DensSpec DensVal DensThms ConvFacts ConvThms AssembleFacts SumFacts MapFacts JointThms JointThms2 BatchFacts LogPdfThms KlThms
  HessFacts Fisher FisherSpec FisherThms FisherMat SampleSpec FamR IntSpec IntFacts IntGen IntFam IntThms JointIntSpec JointInt DomConv DomConv2 Moments CovSpec.
Import ListNotations.
Local Unset Asymmetric Patterns.
Local Open Scope string_scope.
Local Open Scope R_scope.

Definition pplus (u v : point) : point := fun c nm j => u c nm j + v c nm j.
Lemma dot_pplus c e n u v x : dotP c e n (pplus u v) x = dotP c e n u x + dotP c e n v x.
Proof. unfold dotP. rewrite <- rsum_add. apply rsum_ext. intros [g h] _. cbn [fst snd]. rewrite <- rsum_add. apply rsum_ext. intros j _. unfold pplus. ring. Qed.
Lemma sym_pplus f n u v : sym_dir f n u -> sym_dir f n v -> sym_dir f n (pplus u v).
Proof.
  intros A B. destruct f; try exact Logic.I; cbn [sym_dir] in *; intros a c Ha Hc; unfold pplus; specialize (A a c Ha Hc); specialize (B a c Ha Hc); [destruct A as [-> ->], B as [-> ->]; split; ring|now rewrite A, B].
Qed.
Lemma hL_pplus_l f n p u v w : nat_dom f n p -> sym_dir f n u -> sym_dir f n v -> sym_dir f n w -> hL f n p (pplus u v) w = hL f n p u w + hL f n p v w.
Proof.
  intros K Su Sv Sw. unfold hL at 1. apply is_derive_unique. eapply is_derive_ext; [|exact (is_derive_plus _ _ _ _ _ (hL_derive f n p u w K Su Sw) (hL_derive f n p v w K Sv Sw))]. intros s. cbv beta. rewrite dot_pplus. reflexivity.
Qed.
Lemma hL_pplus f n p u v : nat_dom f n p -> sym_dir f n u -> sym_dir f n v -> hL f n p (pplus u v) (pplus u v) = hL f n p u u + 2 * hL f n p u v + hL f n p v v.
Proof.
  intros K Su Sv. pose proof (sym_pplus f n u v Su Sv) as Sw. rewrite hL_pplus_l by assumption. rewrite (hL_sym f n p u (pplus u v)), (hL_sym f n p v (pplus u v)) by assumption. rewrite !hL_pplus_l by assumption. rewrite (hL_sym f n p v u) by assumption. ring.
Qed.
Lemma padd_0 c p v : padd c p v 0 = p.
Proof. do 3 (apply functional_extensionality; intros ?). unfold padd. destruct (existsb _ _); [reflexivity|ring]. Qed.
Lemma derive_rsum {A} (g : A -> R -> R) (d : A -> R) s l : (forall a, In a l -> is_derive (g a) s (d a)) -> is_derive (fun t => rsum (map (fun a => g a t) l)) s (rsum (map d l)).
Proof.
  induction l as [|a l IH]; intros H; cbn [map rsum]; [exact (is_derive_const 0 s)|]. apply @is_derive_plus; [apply H; now left|]. apply IH. intros x I. apply H. now right.
Qed.

Section C.
  Variable solve : minimizer -> dist -> nat -> xr.
  Let L := fam_methods solve.
  Variables (b i : list nat) (q : dist).
  Hypothesis JP : joint_proper b i q.
  Let W : well_formed q = true. Proof. now destruct JP. Qed.
  Let N : nat_tree q = true. Proof. now destruct JP as (_ & ? & _). Qed.
  Let S : shaped b q = true. Proof. now destruct JP as (_ & _ & ? & _). Qed.
  Let Hi : inb b i = true. Proof. now destruct JP as (_ & _ & _ & ? & _). Qed.
  Let pt (p : path) : point := point_of (leafat q p) i.
  Lemma space_dom p f n : In (p, (f, n)) (spaces q) -> nat_dom f n (pt p) /\ dims_ok (NP f) n = true.
  Proof. intros I. destruct (in_spaces b i q JP p f n I) as (l & _ & E & D & Pl). destruct (proper_dims b i f l Pl) as (n' & D1 & _ & D3 & D4 & _). assert (n' = n) by congruence. subst n'. unfold pt. rewrite E. now split. Qed.
  (** a direction: a point for every leaf *)
  Definition okd (d : path -> point) : Prop := forall p f n, In (p, (f, n)) (spaces q) -> sym_dir f n (d p).
  Definition xl (d : path -> point) (p : path) (x : obs) : R := let '(f, n) := fam_dim (leafat q p) in dotP (NP f) (EP f) n (d p) (ssR n (pt p) x f).
  Definition Xd (d : path -> point) (xv : jobs) : R := sumG (xl d) (spaces q) xv.
  Definition As (d : path -> point) (s : R) : R := rsum (map (fun l : leafspace => let '(p, (f, n)) := l in lnR n (padd (NP f) (pt p) (d p) s) f) (spaces q)).
  Definition Hs (d e : path -> point) (s : R) : R := rsum (map (fun l : leafspace => let '(p, (f, n)) := l in dotP (NP f) (EP f) n (e p) (expR n (padd (NP f) (pt p) (d p) s) f)) (spaces q)).
  Definition Qd (d e : path -> point) : R := rsum (map (fun l : leafspace => let '(p, (f, n)) := l in hL f n (pt p) (e p) (d p)) (spaces q)).
  Definition dom_at (d : path -> point) (s : R) : Prop := forall l, In l (spaces q) -> let '(p, (f, n)) := l in nat_dom f n (padd (NP f) (pt p) (d p) s).
  Lemma dim_at p f n : In (p, (f, n)) (spaces q) -> fam_dim (leafat q p) = (f, n).
  Proof. intros I. destruct (in_spaces b i q JP p f n I) as (l & _ & E & D & (C & _)). unfold fam_dim. now rewrite E, C, D. Qed.
  (** ** the moment generating function *)
  Lemma mgf d s : dom_at d s -> joint_integral (spaces q) nowhere (fun xv => prodP (densl i q) (spaces q) xv * exp (s * Xd d xv)) (exp (As d s - As d 0)).
  Proof.
    intros Dm. set (ds := fun p x => let '(f, n) := fam_dim (leafat q p) in exp (lpR n (padd (NP f) (pt p) (d p) s) x f)).
    assert (E : exp (As d s - As d 0) = exp (As d s - As d 0) * (1 + rsum (map (fun l : leafspace => 0) (spaces q)))) by (rewrite JointInt.rsum_zero by reflexivity; ring).
    rewrite E. apply (ji_main ds (fun _ _ => 0) (fun _ => 0)); [exact (spaces_nodup b i q JP)| |].
    - intros p f n I. destruct (space_dom p f n I) as [_ D]. specialize (Dm _ I). cbn beta iota in Dm. destruct (fam_norm_mean f n _ D Dm) as [K _].
      assert (K' : integral_over f n (ds p) 1). { eapply integral_ext; [|exact K]. intros x _. unfold ds. rewrite (dim_at p f n I). reflexivity. }
      split; [exact K'|]. eapply integral_to; [|eapply integral_ext; [|exact (integral_scal f n _ _ 0 K')]]; [ring|]. intros x _. cbv beta. ring.
    - intros xv _ _. assert (Z : sumG (fun _ _ => 0) (spaces q) xv = 0) by (now apply JointInt.rsum_zero). rewrite Z, Rplus_0_r, Rmult_1_r.
      unfold Xd, As. clear E Z. assert (F : forall l, In l (spaces q) -> let '(p, (f, n)) := l in fam_dim (leafat q p) = (f, n)) by (intros [p [f n]] I; now apply dim_at).
      assert (F' : forall p f n, In (p, (f, n)) (spaces q) -> forall x, lpl i q p x = lpR n (pt p) x f) by (intros p f n I x; now rewrite (lpl_at b i q JP p f n (leafat q p) I eq_refl)).
      revert F F'. induction (spaces q) as [|[p [f n]] l IH]; intros F F'.
      + unfold prodP, sumG. cbn. rewrite Rmult_0_r, Rminus_0_r, exp_0. ring.
      + specialize (IH (fun a Ha => F a (or_intror Ha)) (fun p' f' n' Ha => F' p' f' n' (or_intror Ha))). pose proof (F _ (or_introl eq_refl)) as Fd. cbn beta iota in Fd.
        unfold prodP, sumG in *. cbn [map fold_right rsum fst]. rewrite padd_0.
        match goal with |- densl i q p ?x * ?A * exp (s * (?B + ?C)) = exp (?a + ?a' - (?c + ?c')) * (?D * ?E) =>
          transitivity ((densl i q p x * exp (s * B)) * (A * exp (s * C))); [rewrite Rmult_plus_distr_l, exp_plus; ring|transitivity ((exp (a - c) * D) * (exp (a' - c') * E)); [|replace (a + a' - (c + c')) with ((a - c) + (a' - c')) by ring; rewrite exp_plus; ring]] end.
        f_equal; [|exact IH]. unfold densl, ds, xl. rewrite (F' p f n (or_introl eq_refl)), Fd. rewrite <- !exp_plus. f_equal. rewrite lp_line. ring.
  Qed.
  Lemma dom_near d : okd d -> exists eps, 0 < eps /\ forall s, Rabs s < eps -> dom_at d s.
  Proof.
    intros O. assert (Op : locally 0 (dom_at d)). { apply (loc_list (spaces q) (fun (l : leafspace) s => let '(p, (f, n)) := l in nat_dom f n (padd (NP f) (pt p) (d p) s))). intros [p [f n]] I. apply dom_open_s; [now apply O|now apply space_dom]. }
    destruct Op as [eps Op]. exists eps. split; [apply cond_pos|]. intros s Hs. apply Op. now apply ball_abs.
  Qed.
  Lemma As_derive d s : dom_at d s -> is_derive (As d) s (Hs d d s).
  Proof. intros Dm. unfold As, Hs. apply (derive_rsum (fun (l : leafspace) s => let '(p, (f, n)) := l in lnR n (padd (NP f) (pt p) (d p) s) f)). intros [p [f n]] I. apply line_derive. exact (Dm _ I). Qed.
  Lemma Hs_derive d e : okd d -> okd e -> is_derive (Hs d e) 0 (Qd d e).
  Proof.
    intros Od Oe. unfold Hs, Qd. apply (derive_rsum (fun (l : leafspace) s => let '(p, (f, n)) := l in dotP (NP f) (EP f) n (e p) (expR n (padd (NP f) (pt p) (d p) s) f))). intros [p [f n]] I.
    apply hL_derive; [now apply space_dom|now apply Oe|now apply Od].
  Qed.
  Let P0 := prodP (densl i q) (spaces q).
  Lemma P0_pos xv : 0 <= P0 xv.
  Proof. unfold P0, prodP. induction (spaces q) as [|l ls IH]; cbn [map fold_right]; [lra|]. apply Rmult_le_pos; [left; apply exp_pos|exact IH]. Qed.
  Lemma moments d : okd d -> joint_integral (spaces q) nowhere (fun xv => P0 xv * Xd d xv) (Hs d d 0) /\ joint_integral (spaces q) nowhere (fun xv => P0 xv * (Xd d xv) ^ 2) (Qd d d + Hs d d 0 ^ 2).
  Proof.
    intros O. destruct (dom_near d O) as (eps & Pe & Dm). set (M := fun s => exp (As d s - As d 0)). set (M1 := fun s => Hs d d s * M s).
    assert (D1 : forall s, Rabs s < eps -> is_derive M s (M1 s)).
    { intros s Hs'. unfold M1, M. apply (is_derive_comp exp (fun s => As d s - As d 0) s); [apply is_derive_exp|]. pose proof (is_derive_minus (As d) (fun _ => As d 0) s _ _ (As_derive d s (Dm s Hs')) (is_derive_const (As d 0) s)) as Q. rewrite minus_zero_r in Q. exact Q. }
    assert (Z : Rabs 0 < eps) by (now rewrite Rabs_R0). assert (M0 : M 0 = 1) by (unfold M; now rewrite Rminus_eq_0, exp_0).
    assert (D2 : is_derive M1 0 (Qd d d + Hs d d 0 ^ 2)).
    { pose proof (is_derive_mult (Hs d d) M 0 _ _ (Hs_derive d d O O) (D1 0 Z) Rmult_comm) as Q. unfold M1 in Q. rewrite M0 in Q. unfold plus, mult in Q; cbn in Q. replace (Qd d d + Hs d d 0 ^ 2) with (Qd d d * 1 + Hs d d 0 * (Hs d d 0 * 1)) by ring. exact Q. }
    assert (HM : forall s, Rabs s < eps -> joint_integral (spaces q) nowhere (fun xv => P0 xv * exp (s * Xd d xv)) (M s)) by (intros s Hs'; apply mgf; now apply Dm).
    split.
    - apply (moment1 (spaces q) nowhere P0 (Xd d) M eps (spaces_nodup b i q JP) (fun xv _ => P0_pos xv) Pe HM). specialize (D1 0 Z). unfold M1 in D1. rewrite M0, Rmult_1_r in D1. exact D1.
    - exact (moment2 (spaces q) nowhere P0 (Xd d) M eps (spaces_nodup b i q JP) (fun xv _ => P0_pos xv) Pe HM M1 _ D1 D2).
  Qed.
  Lemma norm0 : joint_integral (spaces q) nowhere P0 1.
  Proof. apply (proj2 (joint_normalised solve b i q JP)). apply joint_p. exact JP. Qed.
  Definition dplus (d e : path -> point) (p : path) : point := pplus (d p) (e p).
  Lemma Xd_plus d e xv : Xd (dplus d e) xv = Xd d xv + Xd e xv.
  Proof. unfold Xd, sumG. rewrite <- rsum_add. apply rsum_ext. intros l _. unfold xl. destruct (fam_dim _) as [f n]. apply dot_pplus. Qed.
  Lemma Hs_plus d e g : Hs g (dplus d e) 0 = Hs g d 0 + Hs g e 0.
  Proof. unfold Hs. rewrite <- rsum_add. apply rsum_ext. intros [p [f n]] _. apply dot_pplus. Qed.
  Lemma Hs_0 d d' e : Hs d e 0 = Hs d' e 0.
  Proof. unfold Hs. apply rsum_ext. intros [p [f n]] _. now rewrite !padd_0. Qed.
  Lemma Qd_plus d e : okd d -> okd e -> Qd (dplus d e) (dplus d e) = Qd d d + 2 * Qd e d + Qd e e.
  Proof.
    intros Od Oe. assert (E : Qd d d + 2 * Qd e d + Qd e e = rsum (map (fun l : leafspace => let '(p, (f, n)) := l in hL f n (pt p) (d p) (d p) + 2 * hL f n (pt p) (d p) (e p) + hL f n (pt p) (e p) (e p)) (spaces q))).
    { unfold Qd. induction (spaces q) as [|[p [f n]] ls IH]; cbn [map rsum]; [ring|]. rewrite <- IH. ring. }
    rewrite E. unfold Qd. apply rsum_ext. intros [p [f n]] I. apply hL_pplus; [now apply space_dom|now apply Od|now apply Oe].
  Qed.
  Lemma okd_plus d e : okd d -> okd e -> okd (dplus d e). Proof. intros A B p f n I. apply sym_pplus; [now apply A|now apply B]. Qed.
  Lemma covariance0 d e : okd d -> okd e -> joint_integral (spaces q) nowhere (fun xv => P0 xv * ((Xd d xv - Hs d d 0) * (Xd e xv - Hs e e 0))) (Qd e d).
  Proof.
    intros Od Oe. destruct (moments d Od) as [A1 A2]. destruct (moments e Oe) as [B1 B2]. destruct (moments _ (okd_plus d e Od Oe)) as [_ C2]. set (x := Hs d d 0) in *. set (y := Hs e e 0) in *.
    assert (Z : Hs (dplus d e) (dplus d e) 0 = x + y) by (rewrite Hs_plus, (Hs_0 _ d d), (Hs_0 _ e e); reflexivity). rewrite Z, Qd_plus in C2 by assumption.
    pose proof (joint_plus _ _ _ _ _ _ (joint_scal _ (1 / 2) _ _ _ C2) (joint_plus _ _ _ _ _ _ (joint_scal _ (- 1 / 2) _ _ _ A2) (joint_plus _ _ _ _ _ _ (joint_scal _ (- 1 / 2) _ _ _ B2)
      (joint_plus _ _ _ _ _ _ (joint_scal _ (- y) _ _ _ A1) (joint_plus _ _ _ _ _ _ (joint_scal _ (- x) _ _ _ B1) (joint_scal _ (x * y) _ _ _ norm0)))))) as J.
    match type of J with joint_integral _ _ _ ?v => replace (Qd e d) with v by field end. eapply joint_ext; [exact (spaces_nodup b i q JP)| |exact J]. intros xv _. cbv beta. rewrite Xd_plus. field.
  Qed.
End C.
