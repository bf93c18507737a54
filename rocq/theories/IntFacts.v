(** Improper integrals of continuous functions. *)
From Coquelicot Require Import Coquelicot.
From Coq Require Import List Bool Arith Reals Lra Lia.
From Verif Require Import IntSpec.
Import ListNotations.
Local Open Scope R_scope.

Lemma ball_in (x y eps : R) : - eps < y - x < eps -> ball x eps y.
Proof. intros H. apply Rabs_def1; [apply H|apply H]. Qed.
Lemma ball_out (x y eps : R) : ball x eps y -> - eps < y - x < eps.
Proof. intros H. apply Rabs_def2 in H. cbv [minus plus opp] in H. cbn in H. lra. Qed.
Section Interval.
  Variables lo hi : Rbar.
  Notation ins := (inside lo hi).
  Lemma ins_between a b t : ins a -> ins b -> a <= t <= b -> ins t.
  Proof.
    intros [A1 A2] [B1 B2] [H1 H2]. split.
    - apply (Rbar_lt_le_trans lo a t); [exact A1|exact H1].
    - apply (Rbar_le_lt_trans t b hi); [exact H2|exact B2].
  Qed.
  Lemma ins_mm a b t : ins a -> ins b -> Rmin a b <= t <= Rmax a b -> ins t.
  Proof. intros A B H. unfold Rmin, Rmax in H. destruct (Rle_dec a b); [apply (ins_between a b)|apply (ins_between b a)]; auto. Qed.
  Lemma ins_ex_RInt (F : R -> R) a b : (forall t, ins t -> continuous F t) -> ins a -> ins b -> ex_RInt F a b.
  Proof. intros C A B. apply (ex_RInt_continuous F). intros z Hz. apply C. now apply (ins_mm a b). Qed.
  Lemma right_of_ins a0 : ins a0 -> right_of lo (fun a => ins a /\ a <= a0).
  Proof.
    intros [H1 H2]. destruct lo as [l| |]; cbn in H1 |- *; try contradiction.
    - exists (mkposreal (a0 - l) ltac:(lra)). intros a Ha La. apply ball_out in Ha; cbn [pos] in Ha.
      assert (a <= a0) by lra. split; [split; [exact La|]|exact H]. apply (Rbar_le_lt_trans a a0 hi); [exact H|exact H2].
    - exists a0. intros a Ha. split; [split; [exact Logic.I|]|lra]. apply (Rbar_le_lt_trans a a0 hi); [cbn; lra|exact H2].
  Qed.
  Lemma left_of_ins b0 : ins b0 -> left_of hi (fun b => ins b /\ b0 <= b).
  Proof.
    intros [H1 H2]. destruct hi as [l| |]; cbn in H2 |- *; try contradiction.
    - exists (mkposreal (l - b0) ltac:(lra)). intros a Ha La. apply ball_out in Ha; cbn [pos] in Ha.
      assert (b0 <= a) by lra. split; [split; [|exact La]|exact H]. apply (Rbar_lt_le_trans lo b0 a); [exact H1|exact H].
    - exists b0. intros a Ha. split; [split; [|exact Logic.I]|lra]. apply (Rbar_lt_le_trans lo b0 a); [exact H1|cbn; lra].
  Qed.

  Record nint (F : R -> R) (v : R) : Prop := {
    ni_cont : forall t, ins t -> continuous F t;
    ni_pos : forall t, ins t -> 0 <= F t;
    ni_up : forall a b, ins a -> ins b -> a <= b -> RInt F a b <= v;
    ni_lo : forall eps, 0 < eps -> exists a b, ins a /\ ins b /\ a <= b /\ v - eps < RInt F a b }.

  Lemma rint_grow (F : R -> R) a b a' b' : (forall t, ins t -> continuous F t) -> (forall t, ins t -> 0 <= F t) -> ins a' -> ins b' -> a' <= a -> a <= b -> b <= b' -> RInt F a b <= RInt F a' b'.
  Proof.
    intros C P A' B' H1 H2 H3. assert (A : ins a) by (apply (ins_between a' b'); auto; lra). assert (B : ins b) by (apply (ins_between a' b'); auto; lra).
    assert (E : RInt F a' b' = RInt F a' a + RInt F a b + RInt F b b').
    { rewrite <- (RInt_Chasles F a' b b'), <- (RInt_Chasles F a' a b); try (apply ins_ex_RInt; auto). reflexivity. }
    rewrite E. assert (0 <= RInt F a' a) by (apply RInt_ge_0; [lra|apply ins_ex_RInt; auto|intros t Ht; apply P; apply (ins_between a' b'); auto; lra]).
    assert (0 <= RInt F b b') by (apply RInt_ge_0; [lra|apply ins_ex_RInt; auto|intros t Ht; apply P; apply (ins_between a' b'); auto; lra]). lra.
  Qed.
  Lemma nint_gen F v : nint F v -> improper lo hi F v.
  Proof.
    intros N. unfold improper, is_RInt_gen. intros Q [eps HQ]. destruct (ni_lo _ _ N eps (cond_pos eps)) as (a0 & b0 & A & B & L & E).
    apply (Filter_prod _ _ _ _ _ (right_of_ins a0 A) (left_of_ins b0 B)). intros a b [Ia Ha] [Ib Hb]. exists (RInt F a b). split.
    - cbn. apply (RInt_correct F). apply ins_ex_RInt; auto. apply (ni_cont _ _ N).
    - apply HQ. pose proof (ni_up _ _ N a b Ia Ib ltac:(lra)). pose proof (rint_grow F a0 b0 a b (ni_cont _ _ N) (ni_pos _ _ N) Ia Ib Ha L Hb).
      apply ball_in.  pose proof (cond_pos eps). lra.
  Qed.
  Lemma cont_ext_ins (F G : R -> R) : (forall t, ins t -> F t = G t) -> (forall t, ins t -> continuous F t) -> forall t, ins t -> continuous G t.
  Proof.
    intros E C t Ht. apply (continuous_ext_loc _ F); [|now apply C]. destruct Ht as [H1 H2].
    assert (O : locally t (fun y => Rbar_lt lo y /\ Rbar_lt y hi)) by (apply filter_and; [apply (open_Rbar_gt lo); exact H1 | apply (open_Rbar_lt hi); exact H2]).
    eapply filter_imp; [|exact O]. intros y Hy. now apply E.
  Qed.
  Lemma rint_ext_ins (F G : R -> R) a b : (forall t, ins t -> F t = G t) -> ins a -> ins b -> RInt F a b = RInt G a b.
  Proof. intros E A B. apply RInt_ext. intros t Ht. apply E. apply (ins_mm a b); auto. lra. Qed.
  Lemma nint_ext F G v : (forall t, ins t -> F t = G t) -> nint F v -> nint G v.
  Proof.
    intros E [C P U L]. split.
    - exact (cont_ext_ins F G E C).
    - intros t Ht. rewrite <- (E t Ht). auto.
    - intros a b A B H. rewrite <- (rint_ext_ins F G a b E A B). auto.
    - intros eps He. destruct (L eps He) as (a & b & A & B & H & K). exists a, b. rewrite <- (rint_ext_ins F G a b E A B). auto.
  Qed.
  Lemma nint_le F G v w : nint F v -> nint G w -> (forall t, ins t -> F t <= G t) -> v <= w.
  Proof.
    intros N M H. apply Rnot_lt_le. intros K. destruct (ni_lo _ _ N (v - w) ltac:(lra)) as (a & b & A & B & L & E).
    assert (RInt F a b <= RInt G a b) by (apply RInt_le; [exact L|apply ins_ex_RInt; auto; apply (ni_cont _ _ N)|apply ins_ex_RInt; auto; apply (ni_cont _ _ M)|intros t Ht; apply H; apply (ins_between a b); auto; lra]).
    pose proof (ni_up _ _ M a b A B L). lra.
  Qed.
  Lemma nint_unique F v w : nint F v -> nint F w -> v = w.
  Proof. intros N M. apply Rle_antisym; eapply nint_le; eauto; intros; lra. Qed.
  Lemma nint_nonneg F v : nint F v -> 0 <= v.
  Proof.
    intros N. destruct (ni_lo _ _ N 1 ltac:(lra)) as (a & b & A & B & L & E). eapply Rle_trans; [|exact (ni_up _ _ N a b A B L)].
    apply RInt_ge_0; [lra|apply ins_ex_RInt; auto; apply (ni_cont _ _ N)|]. intros t Ht. apply (ni_pos _ _ N). apply (ins_between a b); auto; lra.
  Qed.
  Lemma nint_dom F G w : nint G w -> (forall t, ins t -> continuous F t) -> (forall t, ins t -> 0 <= F t <= G t) -> exists v, nint F v.
  Proof.
    intros N C H. set (E := fun v => exists a b, ins a /\ ins b /\ a <= b /\ v = RInt F a b).
    assert (Up : forall a b, ins a -> ins b -> a <= b -> RInt F a b <= w).
    { intros a b A B L. eapply Rle_trans; [|exact (ni_up _ _ N a b A B L)]. apply RInt_le; [exact L|apply ins_ex_RInt; auto|apply ins_ex_RInt; auto; apply (ni_cont _ _ N)|]. intros t Ht. apply H. apply (ins_between a b); auto; lra. }
    destruct (completeness E) as (v & V1 & V2).
    - exists w. intros x (a & b & A & B & L & ->). auto.
    - destruct (ni_lo _ _ N 1 ltac:(lra)) as (a & b & A & B & L & _). exists (RInt F a b), a, b. auto.
    - exists v. split; [exact C|intros t Ht; apply H; auto| |].
      + intros a b A B L. apply V1. exists a, b. auto.
      + intros eps He. apply Classical_Prop.NNPP. intros K. assert (v <= v - eps); [|lra]. apply V2. intros x (a & b & A & B & L & ->). apply Rnot_lt_le. intros X. apply K. exists a, b. auto.
  Qed.
  Lemma nint_scal F v c : 0 <= c -> nint F v -> nint (fun t => c * F t) (c * v).
  Proof.
    intros Hc N. assert (R : forall a b, ins a -> ins b -> RInt (fun t => c * F t) a b = c * RInt F a b).
    { intros a b A B. apply (RInt_scal F a b c). apply ins_ex_RInt; auto. apply (ni_cont _ _ N). }
    split.
    - intros t Ht. apply (continuous_scal_r c F t). now apply (ni_cont _ _ N).
    - intros t Ht. apply Rmult_le_pos; [exact Hc|]. now apply (ni_pos _ _ N).
    - intros a b A B L. rewrite R by auto. apply Rmult_le_compat_l; [exact Hc|]. now apply (ni_up _ _ N).
    - intros eps He. destruct (ni_lo _ _ N (eps / (c + 1)) ltac:(apply Rdiv_lt_0_compat; lra)) as (a & b & A & B & L & E). exists a, b. rewrite R by auto. do 3 (split; [auto|]).
      assert (c * (v - RInt F a b) < eps).
      { destruct (Rle_lt_or_eq_dec 0 c Hc) as [Pc|<-]; [|lra]. assert (v - RInt F a b < eps / (c + 1)) by lra. apply Rlt_le_trans with (c * (eps / (c + 1))); [now apply Rmult_lt_compat_l|].
        replace eps with ((c + 1) * (eps / (c + 1))) at 2 by (field; lra). apply Rmult_le_compat_r; [|lra]. apply Rlt_le, Rdiv_lt_0_compat; lra. }
      lra.
  Qed.
  Lemma nint_plus F G v w : nint F v -> nint G w -> nint (fun t => F t + G t) (v + w).
  Proof.
    intros N M. assert (R : forall a b, ins a -> ins b -> RInt (fun t => F t + G t) a b = RInt F a b + RInt G a b).
    { intros a b A B. apply (RInt_plus F G a b); apply ins_ex_RInt; auto; [apply (ni_cont _ _ N)|apply (ni_cont _ _ M)]. }
    split.
    - intros t Ht. apply (continuous_plus F G t); [now apply (ni_cont _ _ N)|now apply (ni_cont _ _ M)].
    - intros t Ht. pose proof (ni_pos _ _ N t Ht). pose proof (ni_pos _ _ M t Ht). lra.
    - intros a b A B L. rewrite R by auto. pose proof (ni_up _ _ N a b A B L). pose proof (ni_up _ _ M a b A B L). lra.
    - intros eps He. destruct (ni_lo _ _ N (eps / 2) ltac:(lra)) as (a & b & A & B & L & E). destruct (ni_lo _ _ M (eps / 2) ltac:(lra)) as (a' & b' & A' & B' & L' & E').
      assert (IA : ins (Rmin a a')) by (unfold Rmin; destruct (Rle_dec a a'); auto). assert (IB : ins (Rmax b b')) by (unfold Rmax; destruct (Rle_dec b b'); auto).
      pose proof (Rmin_l a a'). pose proof (Rmin_r a a'). pose proof (Rmax_l b b'). pose proof (Rmax_r b b').
      exists (Rmin a a'), (Rmax b b'). split; [exact IA|]. split; [exact IB|]. split; [lra|]. rewrite R by auto.
      pose proof (rint_grow F a b (Rmin a a') (Rmax b b') (ni_cont _ _ N) (ni_pos _ _ N) IA IB ltac:(lra) L ltac:(lra)).
      pose proof (rint_grow G a' b' (Rmin a a') (Rmax b b') (ni_cont _ _ M) (ni_pos _ _ M) IA IB ltac:(lra) L' ltac:(lra)). lra.
  Qed.
  (** from an antiderivative *)
  Lemma nint_ftc F Phi la lb a0 : ins a0 -> (forall t, ins t -> is_derive Phi t (F t)) -> (forall t, ins t -> continuous F t) -> (forall t, ins t -> 0 <= F t) ->
    filterlim Phi (right_of lo) (locally la) -> filterlim Phi (left_of hi) (locally lb) -> nint F (lb - la).
  Proof.
    intros I0 D C P La Lb.
    assert (R : forall a b, ins a -> ins b -> RInt F a b = Phi b - Phi a).
    { intros a b A B. apply is_RInt_unique. apply (is_RInt_derive Phi F); intros t Ht; [apply D|apply C]; apply (ins_mm a b); auto. }
    assert (Mo : forall a b, ins a -> ins b -> a <= b -> Phi a <= Phi b).
    { intros a b A B L. assert (0 <= RInt F a b) by (apply RInt_ge_0; [lra|apply ins_ex_RInt; auto|intros t Ht; apply P; apply (ins_between a b); auto; lra]). rewrite R in H by auto. lra. }
    assert (Pr : ProperFilter (right_of lo)) by (destruct lo as [l| |]; cbn; typeclasses eauto). assert (Pl : ProperFilter (left_of hi)) by (destruct hi as [l| |]; cbn; typeclasses eauto).
    assert (Bl : forall b, ins b -> Phi b <= lb).
    { intros b B. apply Rnot_lt_le. intros K. assert (Pb : 0 < Phi b - lb) by lra. pose proof (Lb _ (locally_ball lb (mkposreal _ Pb))) as Q. unfold filtermap in Q. pose proof (filter_and _ _ Q (left_of_ins b B)) as Q'.
      apply filter_ex in Q'. destruct Q' as (b' & X1 & X2 & X3). apply ball_out in X1; cbn [pos] in X1. pose proof (Mo b b' B X2 X3). lra. }
    assert (Al : forall a, ins a -> la <= Phi a).
    { intros a A. apply Rnot_lt_le. intros K. assert (Pb : 0 < la - Phi a) by lra. pose proof (La _ (locally_ball la (mkposreal _ Pb))) as Q. unfold filtermap in Q. pose proof (filter_and _ _ Q (right_of_ins a A)) as Q'.
      apply filter_ex in Q'. destruct Q' as (a' & X1 & X2 & X3). apply ball_out in X1; cbn [pos] in X1. pose proof (Mo a' a X2 A X3). lra. }
    split; auto.
    - intros a b A B L. rewrite R by auto. specialize (Bl b B). specialize (Al a A). lra.
    - intros eps He. assert (Pe : 0 < eps / 2) by lra.
      pose proof (La _ (locally_ball la (mkposreal _ Pe))) as Q1. unfold filtermap in Q1. pose proof (filter_and _ _ Q1 (right_of_ins a0 I0)) as Q1'. apply filter_ex in Q1'. destruct Q1' as (a & X1 & X2 & X3).
      pose proof (Lb _ (locally_ball lb (mkposreal _ Pe))) as Q2. unfold filtermap in Q2. pose proof (filter_and _ _ Q2 (left_of_ins a0 I0)) as Q2'. apply filter_ex in Q2'. destruct Q2' as (b & Y1 & Y2 & Y3).
      apply ball_out in X1; apply ball_out in Y1; cbn [pos] in X1, Y1.
      exists a, b. do 2 (split; [auto|]). split; [lra|]. rewrite R by auto. lra.
  Qed.
End Interval.

Lemma rint_eq (F : R -> R) a b (v : R) : is_RInt F a b v -> RInt F a b = v.
Proof. exact (@is_RInt_unique R_CompleteNormedModule F a b v). Qed.
Lemma rint_derive (phi dphi : R -> R) a b : (forall x, Rmin a b <= x <= Rmax a b -> is_derive phi x (dphi x)) -> (forall x, Rmin a b <= x <= Rmax a b -> continuous dphi x) -> RInt dphi a b = phi b - phi a.
Proof. intros D C. apply rint_eq. exact (is_RInt_derive phi dphi a b D C). Qed.
Lemma rint_comp (F phi dphi : R -> R) a b : (forall x, Rmin a b <= x <= Rmax a b -> continuous F (phi x)) ->
  (forall x, Rmin a b <= x <= Rmax a b -> is_derive phi x (dphi x) /\ continuous dphi x) -> RInt (fun y => F (phi y) * dphi y) a b = RInt F (phi a) (phi b).
Proof. intros C D. rewrite <- (RInt_comp F phi dphi a b C D). apply RInt_ext. intros x _. unfold scal; cbn. unfold mult; cbn. ring. Qed.
(** increasing change of variable *)
Lemma nint_subst lo hi lo' hi' F v phi dphi : nint lo' hi' F v -> (forall t, inside lo hi t -> inside lo' hi' (phi t)) ->
  (forall s, inside lo' hi' s -> exists t, inside lo hi t /\ phi t = s) -> (forall t, inside lo hi t -> is_derive phi t (dphi t)) -> (forall t, inside lo hi t -> continuous dphi t) ->
  (forall t, inside lo hi t -> 0 < dphi t) -> nint lo hi (fun t => F (phi t) * dphi t) v.
Proof.
  intros N Im Su De Co Po.
  assert (R : forall a b, inside lo hi a -> inside lo hi b -> RInt (fun t => F (phi t) * dphi t) a b = RInt F (phi a) (phi b)).
  { intros a b A B. apply rint_comp; intros x Hx; [|split]; pose proof (ins_mm lo hi a b x A B Hx) as Ix; [apply (ni_cont _ _ _ _ N); auto|auto|auto]. }
  assert (Mo : forall a b, inside lo hi a -> inside lo hi b -> a <= b -> phi a <= phi b).
  { intros a b A B L. assert (H : 0 <= RInt dphi a b) by (apply RInt_ge_0; [exact L|apply (ins_ex_RInt lo hi); auto|intros x Hx; apply Rlt_le, Po, (ins_between lo hi a b); auto; lra]).
    rewrite (rint_derive phi dphi a b) in H by (intros x Hx; pose proof (ins_mm lo hi a b x A B Hx); auto). lra. }
  split.
  - intros t Ht. apply (continuous_mult (fun t => F (phi t)) dphi t); [|now apply Co]. apply (continuous_comp phi F t); [|apply (ni_cont _ _ _ _ N); auto]. apply (ex_derive_continuous phi t). eexists. now apply De.
  - intros t Ht. apply Rmult_le_pos; [apply (ni_pos _ _ _ _ N); auto|]. now apply Rlt_le, Po.
  - intros a b A B L. rewrite R by auto. apply (ni_up _ _ _ _ N); auto.
  - intros eps He. destruct (ni_lo _ _ _ _ N eps He) as (a' & b' & A' & B' & L' & E'). destruct (Su a' A') as (a & A & <-). destruct (Su b' B') as (b & B & <-).
    destruct (Rle_dec a b) as [L|K].
    + exists a, b. do 3 (split; [auto|]). now rewrite R.
    + assert (K' : b <= a) by lra. pose proof (Mo b a B A K'). assert (Q : phi a = phi b) by lra. exists a, a. do 2 (split; [auto|]). split; [lra|]. rewrite R by auto. now rewrite <- Q in E'.
Qed.
Lemma ins_opp lo hi t : inside (Rbar_opp hi) (Rbar_opp lo) t <-> inside lo hi (- t).
Proof. unfold inside. destruct lo, hi; cbn; intuition lra. Qed.
Lemma nint_opp lo hi F v : nint lo hi F v -> nint (Rbar_opp hi) (Rbar_opp lo) (fun t => F (- t)) v.
Proof.
  intros N. assert (R : forall a b, inside lo hi (-a) -> inside lo hi (-b) -> RInt (fun t => F (- t)) a b = RInt F (- b) (- a)).
  { intros a b A B. assert (E : is_RInt (fun y => opp (F (- y))) a b (RInt F (- a) (- b))).
    { apply (is_RInt_comp_opp F a b). apply (RInt_correct F). apply (ins_ex_RInt lo hi); auto. apply (ni_cont _ _ _ _ N). }
    apply is_RInt_opp in E. apply rint_eq in E. rewrite <- (opp_RInt_swap F (-a) (-b)). 2: apply (ins_ex_RInt lo hi); auto; apply (ni_cont _ _ _ _ N).
    change (RInt (fun t => F (- t)) a b = opp (RInt F (- a) (- b))). etransitivity; [|exact E]. apply RInt_ext. intros x _. symmetry. apply (opp_opp (F (- x))). }
  split.
  - intros t Ht. apply ins_opp in Ht. apply (continuous_comp Ropp F t); [apply (continuous_opp (fun x => x) t), continuous_id|]. now apply (ni_cont _ _ _ _ N).
  - intros t Ht. apply ins_opp in Ht. now apply (ni_pos _ _ _ _ N).
  - intros a b A B L. apply ins_opp in A. apply ins_opp in B. rewrite R by auto. apply (ni_up _ _ _ _ N); auto; lra.
  - intros eps He. destruct (ni_lo _ _ _ _ N eps He) as (a & b & A & B & L & E). exists (- b), (- a).
    assert (A' : inside lo hi (- - a)) by now rewrite Ropp_involutive. assert (B' : inside lo hi (- - b)) by now rewrite Ropp_involutive.
    do 2 (split; [now apply ins_opp|]). split; [lra|]. rewrite R by auto. now rewrite !Ropp_involutive.
Qed.

(** the common core of sums and integrals *)
Record msr (X : Type) := {
  dom : X -> Prop;
  good : (X -> R) -> Prop;
  int : (X -> R) -> R -> Prop;
  int_good : forall F v, int F v -> good F;
  int_pos : forall F v, int F v -> forall t, dom t -> 0 <= F t;
  int_ext : forall F G v, (forall t, dom t -> F t = G t) -> int F v -> int G v;
  int_le : forall F G v w, int F v -> int G w -> (forall t, dom t -> F t <= G t) -> v <= w;
  int_dom : forall F G w, int G w -> good F -> (forall t, dom t -> 0 <= F t <= G t) -> exists v, int F v;
  int_scal : forall F v c, 0 <= c -> int F v -> int (fun t => c * F t) (c * v);
  int_plus : forall F G v w, int F v -> int G w -> int (fun t => F t + G t) (v + w);
  good_plus : forall F G, good F -> good G -> good (fun t => F t + G t) }.
Arguments dom {X} _ _. Arguments good {X} _ _. Arguments int {X} _ _ _. Arguments int_good {X} _ {F v}. Arguments int_pos {X} _ {F v}. Arguments int_ext {X} _ {F G v}. Arguments int_le {X} _ {F G v w}.
Arguments int_dom {X} _ {F G w}. Arguments int_scal {X} _ {F v c}. Arguments int_plus {X} _ {F G v w}. Arguments good_plus {X} _ {F G}.

Lemma cont_plus_ins lo hi (F G : R -> R) : (forall t, inside lo hi t -> continuous F t) -> (forall t, inside lo hi t -> continuous G t) -> forall t, inside lo hi t -> continuous (fun x => F x + G x) t.
Proof. intros H K t Ht. apply (continuous_plus F G t); auto. Qed.
Definition line (lo hi : Rbar) : msr R := {|
  dom := inside lo hi; good := fun F => forall t, inside lo hi t -> continuous F t; int := nint lo hi;
  int_good := fun F v N => ni_cont lo hi F v N; int_pos := fun F v N => ni_pos lo hi F v N; int_ext := nint_ext lo hi; int_le := nint_le lo hi;
  int_dom := nint_dom lo hi; int_scal := fun F v c => nint_scal lo hi F v c; int_plus := fun F G v w => nint_plus lo hi F G v w; good_plus := cont_plus_ins lo hi |}.

Definition nser (a : nat -> R) (v : R) : Prop := (forall k, 0 <= a k) /\ is_series a v.
Lemma is_series_ext_R (a b : nat -> R) v : (forall k, a k = b k) -> is_series a v -> is_series b v.
Proof. intros H. apply is_series_ext. exact H. Qed.
Lemma series_le (a b : nat -> R) v w : (forall k, 0 <= a k <= b k) -> is_series a v -> is_series b w -> v <= w.
Proof. intros H A B. apply is_series_unique in A as <-. rewrite <- (is_series_unique b w B). apply Series_le; [exact H|]. exists w; exact B. Qed.
Lemma nser_dom (F G : nat -> R) w : nser G w -> True -> (forall t, True -> 0 <= F t <= G t) -> exists v, nser F v.
Proof.
  intros [PG SG] _ H. assert (E : ex_series F).
  { apply (ex_series_le F G). - intros k. change (Rabs (F k) <= G k). rewrite Rabs_pos_eq; apply H; exact Logic.I. - exists w; exact SG. }
  exists (Series F). split; [intros k; apply H; exact Logic.I|]. now apply Series_correct.
Qed.
Definition sums : msr nat.
Proof.
  refine {| dom := fun _ => True; good := fun _ => True; int := nser; int_dom := nser_dom |}.
  - auto.
  - intros F v [P _] t _. apply P.
  - intros F G v E [P Q]. split; [intros k; rewrite <- E; auto|]. apply (is_series_ext_R F G); auto.
  - intros F G v w [P Q] [P' Q'] H. apply (series_le F G); auto.
  - intros F v c Hc [P Q]. split; [intros k; apply Rmult_le_pos; auto|]. apply (is_series_scal_l c F v Q).
  - intros F G v w [P Q] [P' Q']. split; [intros k; specialize (P k); specialize (P' k); lra|]. apply (is_series_plus F G v w Q Q').
  - auto.
Defined.

Section Signed.
  Context {X : Type}.
  Variable m : msr X.
  Definition sg (F : X -> R) (v : R) : Prop := exists A B a b, int m A a /\ int m B b /\ (forall t, dom m t -> F t = A t - B t) /\ v = a - b.
  Lemma int_0 F v : int m F v -> int m (fun _ => 0) 0.
  Proof. intros H. pose proof (int_scal m (c := 0) (Rle_refl 0) H) as K. rewrite Rmult_0_l in K. eapply int_ext; [|exact K]. intros t _. cbn. ring. Qed.
  Lemma int_sg F v : int m F v -> sg F v.
  Proof. intros H. exists F, (fun _ => 0), v, 0. split; [exact H|]. split; [exact (int_0 F v H)|]. split; [intros; ring|ring]. Qed.
  Lemma sg_ext F G v : (forall t, dom m t -> F t = G t) -> sg F v -> sg G v.
  Proof. intros E (A & B & a & b & HA & HB & H & ->). exists A, B, a, b. do 2 (split; [auto|]). split; [|auto]. intros t Ht. rewrite <- E by auto. auto. Qed.
  Lemma sg_plus F G v w : sg F v -> sg G w -> sg (fun t => F t + G t) (v + w).
  Proof.
    intros (A & B & a & b & HA & HB & H & ->) (A' & B' & a' & b' & HA' & HB' & H' & ->). exists (fun t => A t + A' t), (fun t => B t + B' t), (a + a'), (b + b').
    split; [now apply int_plus|]. split; [now apply int_plus|]. split; [|ring]. intros t Ht. rewrite H, H' by auto. ring.
  Qed.
  Lemma sg_opp F v : sg F v -> sg (fun t => - F t) (- v).
  Proof. intros (A & B & a & b & HA & HB & H & ->). exists B, A, b, a. do 2 (split; [auto|]). split; [|ring]. intros t Ht. rewrite H by auto. ring. Qed.
  Lemma sg_scal F v c : sg F v -> sg (fun t => c * F t) (c * v).
  Proof.
    assert (P : forall c F v, 0 <= c -> sg F v -> sg (fun t => c * F t) (c * v)).
    { clear. intros c F v Hc (A & B & a & b & HA & HB & H & ->). exists (fun t => c * A t), (fun t => c * B t), (c * a), (c * b). do 2 (split; [now apply int_scal|]). split; [|ring]. intros t Ht. rewrite H by auto. ring. }
    intros H. destruct (Rle_dec 0 c) as [Hc|Hc]; [now apply P|]. apply sg_ext with (fun t => - ((- c) * F t)); [intros; ring|]. replace (c * v) with (- ((- c) * v)) by ring. apply sg_opp, P; [lra|exact H].
  Qed.
  Lemma sg_minus F G v w : sg F v -> sg G w -> sg (fun t => F t - G t) (v - w).
  Proof. intros H K. apply sg_ext with (fun t => F t + - G t); [intros; ring|]. replace (v - w) with (v + - w) by ring. apply sg_plus; [exact H|now apply sg_opp]. Qed.
  Lemma sg_le F G v w : sg F v -> sg G w -> (forall t, dom m t -> F t <= G t) -> v <= w.
  Proof.
    intros (A & B & a & b & HA & HB & H & ->) (A' & B' & a' & b' & HA' & HB' & H' & ->) L.
    assert (a + b' <= a' + b); [|lra]. apply (int_le m (int_plus m HA HB') (int_plus m HA' HB)). intros t Ht. cbn. specialize (L t Ht). rewrite H, H' in L by auto. lra.
  Qed.
  Lemma sg_unique F v w : sg F v -> sg F w -> v = w.
  Proof. intros H K. apply Rle_antisym; eapply sg_le; eauto; intros; lra. Qed.
  (** an expectation is the derivative of the generating function *)
  Lemma sg_derive P T Z z' delta : 0 < delta -> (forall h, - delta < h < delta -> int m (fun t => P t * exp (h * T t)) (Z h)) -> is_derive Z 0 z' -> good m (fun t => P t * T t) -> sg (fun t => P t * T t) z'.
  Proof.
    intros Pd HI HD HG. set (h0 := delta / 2). assert (Ph : 0 < h0) by (unfold h0; lra).
    pose proof (HI h0 ltac:(unfold h0; lra)) as I1. pose proof (HI (- h0) ltac:(unfold h0; lra)) as I2.
    assert (Ih : 0 <= / h0) by (apply Rlt_le, Rinv_0_lt_compat; exact Ph).
    pose proof (int_plus m (int_scal m Ih I1) (int_scal m Ih I2)) as ID. cbv beta in ID. set (d := / h0 * Z h0 + / h0 * Z (- h0)) in *. set (D := fun t => _) in ID.
    assert (I0 : int m P (Z 0)) by (eapply int_ext; [|exact (HI 0 ltac:(lra))]; intros t _; cbn; rewrite Rmult_0_l, exp_0; ring).
    assert (B : forall t, dom m t -> - D t <= P t * T t <= D t).
    { intros t Ht. unfold D. pose proof (int_pos m I0 t Ht) as Pp. pose proof (exp_ineq1_le (h0 * T t)) as E1. pose proof (exp_ineq1_le (- h0 * T t)) as E2. pose proof (exp_pos (h0 * T t)) as Q1. pose proof (exp_pos (- h0 * T t)) as Q2.
      replace (/ h0 * (P t * exp (h0 * T t)) + / h0 * (P t * exp (- h0 * T t))) with (P t * (/ h0 * (exp (h0 * T t) + exp (- h0 * T t)))) by ring.
      assert (X1 : T t <= / h0 * (exp (h0 * T t) + exp (- h0 * T t))).
      { apply (Rmult_le_reg_l h0); [exact Ph|]. rewrite <- Rmult_assoc, Rinv_r, Rmult_1_l by lra. lra. }
      assert (X2 : - T t <= / h0 * (exp (h0 * T t) + exp (- h0 * T t))).
      { apply (Rmult_le_reg_l h0); [exact Ph|]. rewrite <- Rmult_assoc, Rinv_r, Rmult_1_l by lra. lra. }
      pose proof (Rmult_le_compat_l (P t) _ _ Pp X1). pose proof (Rmult_le_compat_l (P t) _ _ Pp X2). lra. }
    destruct (int_dom m (F := fun t => P t * T t + D t) (int_plus m ID ID)) as (w & Iw).
    - apply good_plus; [exact HG|]. exact (int_good m ID).
    - intros t Ht. specialize (B t Ht). lra.
    - assert (Sm : sg (fun t => P t * T t) (w - d)) by (exists (fun t => P t * T t + D t), D, w, d; split; [exact Iw|]; split; [exact ID|]; split; [intros; ring|reflexivity]).
      assert (L : forall h, - delta < h < delta -> Z 0 + h * (w - d) <= Z h).
      { intros h Hh. apply (sg_le _ _ _ _ (sg_plus _ _ _ _ (int_sg _ _ I0) (sg_scal _ _ h Sm)) (int_sg _ _ (HI h Hh))). intros t Ht. cbn. pose proof (int_pos m I0 t Ht) as Pp.
        pose proof (exp_ineq1_le (h * T t)). pose proof (Rmult_le_compat_l (P t) _ _ Pp H). lra. }
      replace z' with (w - d); [exact Sm|]. apply is_derive_Reals in HD.
      destruct (Req_dec (w - d) z') as [|Ne]; [assumption|exfalso].
      set (e := Rabs (w - d - z')). assert (Pe : 0 < e) by (apply Rabs_pos_lt; lra). destruct (HD e Pe) as [[r Pr] Hr]. cbn in Hr.
      set (h := Rmin r delta / 2). assert (Phh : 0 < h) by (unfold h; pose proof (Rmin_pos r delta Pr Pd); lra). assert (h < r) by (unfold h; pose proof (Rmin_l r delta); lra). assert (h < delta) by (unfold h; pose proof (Rmin_r r delta); lra).
      assert (Q1 := Hr h ltac:(lra) ltac:(rewrite Rabs_pos_eq; lra)). assert (Q2 := Hr (- h) ltac:(lra) ltac:(rewrite Rabs_Ropp, Rabs_pos_eq; lra)).
      rewrite Rplus_0_l in Q1, Q2. pose proof (L h ltac:(lra)) as L1. pose proof (L (- h) ltac:(lra)) as L2.
      assert (K1 : w - d <= (Z h - Z 0) / h) by (apply (Rmult_le_reg_l h); [lra|]; replace (h * ((Z h - Z 0) / h)) with (Z h - Z 0) by (field; lra); lra).
      assert (K2 : (Z (- h) - Z 0) / - h <= w - d) by (apply (Rmult_le_reg_l h); [lra|]; replace (h * ((Z (- h) - Z 0) / - h)) with (- (Z (- h) - Z 0)) by (field; lra); lra).
      apply Rabs_def2 in Q1. apply Rabs_def2 in Q2. unfold e in *. unfold Rabs in *. destruct (Rcase_abs (w - d - z')); lra.
  Qed.
End Signed.
Lemma sg_improper lo hi F v : sg (line lo hi) F v -> improper lo hi F v.
Proof.
  intros (A & B & a & b & HA & HB & H & ->). cbn in HA, HB, H. pose proof (nint_gen _ _ _ _ HA) as GA. pose proof (nint_gen _ _ _ _ HB) as GB. unfold improper in *.
  assert (Pr : ProperFilter (right_of lo)) by (destruct lo as [l| |]; cbn; typeclasses eauto). assert (Pl : ProperFilter (left_of hi)) by (destruct hi as [l| |]; cbn; typeclasses eauto).
  destruct (ni_lo _ _ _ _ HA 1 ltac:(lra)) as (a0 & b0 & Ia & Ib & _).
  apply (is_RInt_gen_ext (fun t => minus (A t) (B t))).
  - apply (Filter_prod _ _ _ _ _ (right_of_ins lo hi a0 Ia) (left_of_ins lo hi b0 Ib)). intros x y [Ix _] [Iy _] t Ht. cbn in Ht. symmetry. apply H. apply (ins_mm lo hi x y); auto. lra.
  - exact (is_RInt_gen_minus A B a b GA GB).
Qed.
Lemma sg_series F v : sg sums F v -> is_series F v.
Proof. intros (A & B & a & b & [_ HA] & [_ HB] & H & ->). apply (is_series_ext_R (fun k => minus (A k) (B k))); [intros k; symmetry; now apply H|]. exact (is_series_minus A B a b HA HB). Qed.
