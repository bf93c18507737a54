(** Natural parameters found by a search depend continuously on the expectation parameters, and the divergence to the start of a line vanishes to first order (C53). *)
From Coquelicot Require Import Coquelicot.
From Coq Require Import String List Bool Arith Reals Lia Lra Classical.
From Verif Require Import Base XReal Tensor TensorFacts Support Dist Iteration Spec SumSpec DotSpec SpecFun GammaFn BesselFn BesselFn2 TrigammaFn Expr Fam ExprFacts FamTy FamFacts DotFacts PointSpec PointFacts Val FamR FamVal ConvFacts DerivFacts DerivThms
  BregFacts BregThms MatBreg InjThms KlPos MleThms JointKl GradFacts IntFam LeafVal DotLaws BoxFacts SearchCont.
Import ListNotations.
Local Unset Asymmetric Patterns.
Local Open Scope string_scope.
Local Open Scope R_scope.

(** ** coordinates *)
Definition vpos (nm' : string) (n o : nat) (nm : string) (j : list nat) : option nat :=
  if String.eqb nm nm' then match j with [k] => if (k <? n)%nat then Some (o + k)%nat else None | _ => None end else None.
Definition spos (nm' : string) (o : nat) (nm : string) (j : list nat) : option nat := if String.eqb nm nm' then match j with [] => Some o | _ => None end else None.
Definition alt (a c : option nat) : option nat := match a with Some _ => a | None => c end.
Definition pos_of (f : family) (n : nat) (nm : string) (j : list nat) : option nat :=
  match f with
  | Beta | Dirichlet => vpos "alpha_minus_one" n 0 nm j
  | Chi | ChiSquare => spos "k_over_two_minus_one" 0 nm j
  | Gamma => alt (spos "negative_rate" 0 nm j) (spos "shape_minus_one" 1 nm j)
  | GeneralizedDirichlet => alt (vpos "alpha_minus_one" n 0 nm j) (vpos "gamma" n n nm j)
  | VonMisesFisher => vpos "mean_times_concentration" n 0 nm j
  | _ => None
  end.
Definition nam (f : family) (n k : nat) : string * list nat :=
  match f with
  | Beta | Dirichlet => ("alpha_minus_one", [k])
  | Chi | ChiSquare => ("k_over_two_minus_one", [])
  | Gamma => if (k =? 0)%nat then ("negative_rate", []) else ("shape_minus_one", [])
  | GeneralizedDirichlet => if (k <? n)%nat then ("alpha_minus_one", [k]) else ("gamma", [(k - n)%nat])
  | VonMisesFisher => ("mean_times_concentration", [k])
  | _ => ("", [])
  end.
Definition ncs (f : family) (n : nat) : nat := match f with Beta | Dirichlet | VonMisesFisher => n | Chi | ChiSquare => 1 | Gamma => 2 | GeneralizedDirichlet => n + n | _ => 0 end.
Definition Pl (f : family) (n : nat) (l : list R) : point := fun c nm j => if c then 0 else match pos_of f n nm j with Some k => nth k l 0 | None => 0 end.
Definition shift (p w : point) : point := fun c nm j => p c nm j + w c nm j.
Definition diffs (f : family) (n : nat) (p q : point) : list R := map (fun k => q false (fst (nam f n k)) (snd (nam f n k)) - p false (fst (nam f n k)) (snd (nam f n k))) (seq 0 (ncs f n)).

Lemma pos_nam f n k : sfam f = true -> (k < ncs f n)%nat -> pos_of f n (fst (nam f n k)) (snd (nam f n k)) = Some k.
Proof.
  intros F K. destruct f; try discriminate F; cbn [ncs] in K; cbn [nam pos_of].
  1, 4, 7: cbn [fst snd]; unfold vpos; cbn [String.eqb Ascii.eqb Bool.eqb]; apply Nat.ltb_lt in K; now rewrite K.
  1, 2: destruct k; [reflexivity|lia].
  - destruct k as [|[|k]]; [reflexivity|reflexivity|lia].
  - destruct (k <? n)%nat eqn:E; cbn [fst snd]; unfold vpos, alt; cbn [String.eqb Ascii.eqb Bool.eqb]; [now rewrite E|]. apply Nat.ltb_ge in E. assert ((k - n <? n)%nat = true) as -> by (apply Nat.ltb_lt; lia). f_equal. lia.
Qed.
Lemma pos_lt f n nm j k : pos_of f n nm j = Some k -> (k < ncs f n)%nat.
Proof.
  destruct f; try discriminate; cbn [pos_of ncs]; unfold vpos, spos, alt; intros H.
  all: repeat match type of H with context [String.eqb ?a ?c] => destruct (String.eqb a c) end; try discriminate H; destruct j as [|x [|y j]]; try discriminate H;
    repeat match type of H with context [(?a <? ?c)%nat] => let E := fresh in destruct (a <? c)%nat eqn:E; [apply Nat.ltb_lt in E|] end; try discriminate H; injection H as <-; lia.
Qed.
Lemma len_diffs f n p q : length (diffs f n p q) = ncs f n. Proof. unfold diffs. now rewrite map_length, seq_length. Qed.
Lemma nth_map_seq (g : nat -> R) m k : (k < m)%nat -> nth k (map g (seq 0 m)) 0 = g k.
Proof. intros K. rewrite (nth_indep _ 0 (g 0%nat)) by (now rewrite map_length, seq_length). rewrite map_nth, seq_nth by exact K. reflexivity. Qed.
Lemma diffs_nth f n p q k : (k < ncs f n)%nat -> nth k (diffs f n p q) 0 = q false (fst (nam f n k)) (snd (nam f n k)) - p false (fst (nam f n k)) (snd (nam f n k)).
Proof. intros K. unfold diffs. now rewrite nth_map_seq. Qed.
Lemma all_var f : sfam f = true -> forall g, In g (fields (NP f)) -> fd_fixed g = false /\ kind_of (fd_support g) = KR.
Proof. intros F g I. destruct f; try discriminate F; cbn in I; repeat (destruct I as [<-|I]; [split; reflexivity|]); destruct I. Qed.
Lemma pos_field f n g j : sfam f = true -> In g (fields (NP f)) -> inb (supp_shape (fd_support g) n) j = true -> exists k, pos_of f n (fd_name g) j = Some k /\ (fd_name g, j) = nam f n k.
Proof.
  intros F I Hj. destruct f; try discriminate F; cbn in I; repeat (destruct I as [<-|I]; [|]); try destruct I; cbn [fd_support supp_shape var] in Hj; destruct j as [|k [|k' j]]; cbn [inb] in Hj; try discriminate Hj; rewrite ?andb_true_r in Hj; try (rewrite andb_false_r in Hj; discriminate Hj); cbn [fd_name pos_of var]; unfold vpos, spos, alt; cbn [String.eqb Ascii.eqb Bool.eqb];
    rewrite ?Hj; eexists; (split; [reflexivity|]); cbn [nam Nat.eqb]; rewrite ?Nat.add_0_l, ?Hj; try reflexivity.
  assert ((n + k <? n)%nat = false) as -> by (apply Nat.ltb_ge; lia). do 3 f_equal. lia.
Qed.
Lemma shift_pt f n p q : sfam f = true -> pt_eq (NP f) n q (shift p (Pl f n (diffs f n p q))).
Proof.
  intros F. apply pt_intro. apply Forall_forall. intros g I j Hj. destruct (all_var f F g I) as [_ KR']. destruct (pos_field f n g j F I Hj) as (k & K1 & K2). split; [|rewrite KR'; discriminate].
  unfold shift, Pl. rewrite K1. rewrite (diffs_nth f n p q k (pos_lt _ _ _ _ _ K1)), <- K2. cbn [fst snd]. ring.
Qed.
Lemma shift_inv f n p l : sfam f = true -> pt_eq (NP f) n p (shift p (Pl f n l)) -> forall k, (k < ncs f n)%nat -> nth k l 0 = 0.
Proof.
  intros F E k K. assert (X : exists g, In g (fields (NP f)) /\ fd_name g = fst (nam f n k) /\ inb (supp_shape (fd_support g) n) (snd (nam f n k)) = true).
  { pose proof (proj2 (Nat.ltb_lt k (ncs f n)) K) as Kb. destruct f; try discriminate F; cbn [ncs] in K, Kb; cbn [nam].
    1, 2, 3, 4, 7: eexists; (split; [left; reflexivity|]); split; [reflexivity|cbn [inb fd_support supp_shape var snd]; now rewrite ?Kb].
    - destruct k as [|[|k]]; [eexists; split; [left; reflexivity|split; reflexivity]|eexists; split; [right; left; reflexivity|split; reflexivity]|lia].
    - destruct (k <? n)%nat eqn:En; [eexists; split; [left; reflexivity|split; [reflexivity|cbn [inb fd_support supp_shape var snd]; now rewrite En]]|]. eexists; split; [right; left; reflexivity|]. split; [reflexivity|]. cbn [inb fd_support supp_shape var snd]. apply Nat.ltb_ge in En. assert ((k - n <? n)%nat = true) as -> by (apply Nat.ltb_lt; lia). reflexivity. }
  destruct X as (g & I & Ng & Hj). pose proof (pt_re _ _ _ _ g _ E I Hj) as Q. unfold shift, Pl in Q. rewrite Ng, (pos_nam f n k F K) in Q. lra.
Qed.
Lemma Pl_small f n l d : 0 <= d -> (forall k, (k < ncs f n)%nat -> Rabs (nth k l 0) <= d) -> forall nm j, Rabs (Pl f n l false nm j) <= d.
Proof. intros D H nm j. unfold Pl. destruct (pos_of f n nm j) as [k|] eqn:E; [apply H; exact (pos_lt _ _ _ _ _ E)|now rewrite Rabs_R0]. Qed.
Lemma Pl_near f n l l' d : 0 < d -> near d l l' -> forall nm j, Rabs (Pl f n l' false nm j - Pl f n l false nm j) < d.
Proof. intros D H nm j. unfold Pl. destruct (pos_of f n nm j) as [k|]; [apply H|now rewrite Rminus_0_r, Rabs_R0]. Qed.

(** ** the inner product is bounded *)
Lemma rsum_bound {A} (l : list A) (g : A -> R) (w : A -> R) d : (forall a, In a l -> Rabs (g a) <= d * w a) -> Rabs (rsum (map g l)) <= d * rsum (map w l).
Proof.
  induction l as [|a l IH]; intros H; cbn [map rsum]; [rewrite Rabs_R0; lra|]. eapply Rle_trans; [apply Rabs_triang|]. pose proof (H a (or_introl eq_refl)). specialize (IH ltac:(intros; apply H; now right)). lra.
Qed.
Lemma rsum_nonneg {A} (l : list A) (g : A -> R) : (forall a, 0 <= g a) -> 0 <= rsum (map g l).
Proof. intros H. induction l as [|a l IH]; cbn [map rsum]; [lra|]. specialize (H a). lra. Qed.
Definition dB (c c' : cls) (n : nat) (e : point) : R :=
  rsum (map (fun fg : field_desc * field_desc => rsum (map (fun j => Rabs (e false (fd_name (snd fg)) j)) (indices (supp_shape (fd_support (fst fg)) n)))) (combine (var_fields c) (var_fields c'))).
Lemma dB_nonneg c c' n e : 0 <= dB c c' n e. Proof. apply rsum_nonneg. intros a. apply rsum_nonneg. intros j. apply Rabs_pos. Qed.
Lemma dot_bound c c' n w e d : (forall nm j, Rabs (w false nm j) <= d) -> (forall g j, In g (var_fields c) -> w true (fd_name g) j = 0) -> Rabs (dotP c c' n w e) <= d * dB c c' n e.
Proof.
  intros H Z. unfold dotP, dB. apply rsum_bound. intros [g h] I. cbn [fst snd]. apply in_combine_l in I. apply rsum_bound. intros j _. rewrite (Z g j I), Rmult_0_l, Rminus_0_r, Rabs_mult. apply Rmult_le_compat_r; [apply Rabs_pos|apply H].
Qed.
Lemma Pl_im f n l g j : Pl f n l true g j = 0. Proof. reflexivity. Qed.
Lemma shift_im f n p l : real_im (NP f) p -> real_im (NP f) (shift p (Pl f n l)).
Proof. intros H g j I K. unfold shift. rewrite (H g j I K), Pl_im. ring. Qed.
Lemma fix_any f n p q : sfam f = true -> fix_eq (NP f) n p q.
Proof. intros F. apply Forall_forall. intros g I X. rewrite (proj1 (all_var f F g I)) in X. discriminate X. Qed.
Lemma dot_scal c c' n w w' e a : (forall k nm j, w k nm j = a * w' k nm j) -> dotP c c' n w e = a * dotP c c' n w' e.
Proof. intros H. unfold dotP. rewrite <- rsum_scal. apply rsum_ext. intros [g h] _. cbn [fst snd]. rewrite <- rsum_scal. apply rsum_ext. intros j _. rewrite !H. ring. Qed.
Lemma dot_psub_r c c' n p w e : dotP c c' n (psub (shift p w) p) e = dotP c c' n w e.
Proof. unfold dotP. apply rsum_ext. intros [g h] _. cbn [fst snd]. apply rsum_ext. intros j _. unfold psub, shift. f_equal; f_equal; ring. Qed.
Lemma dot_shift c c' n p w e : dotP c c' n (shift p w) e = dotP c c' n p e + dotP c c' n w e.
Proof. pose proof (dot_psub_r c c' n p w e) as H. rewrite dotP_psub in H. lra. Qed.

(** ** continuity *)
Section Cont.
  Variables (f : family) (n : nat) (p mu v : point).
  Hypotheses (F : sfam f = true) (Dm : dims_ok (NP f) n = true) (H0 : nat_dom f n p) (Z0 : real_im (NP f) p) (M0 : pt_eq (EP f) n (expR n p f) mu).
  Notation dot := (dotP (NP f) (EP f) n).
  Notation K := (fun l => brR f n p (shift p (Pl f n l))).
  Lemma K_val l : K l = lnR n (shift p (Pl f n l)) f - lnR n p f - dot (Pl f n l) (expR n p f).
  Proof. unfold brR. now rewrite dot_psub_r. Qed.
  Lemma sphere e : 0 < e -> (forall q, (forall nm j, Rabs (q false nm j - p false nm j) <= e) -> nat_dom f n q) ->
    exists d, 0 < d /\ forall l, boxed (ncs f n) e l -> (exists k, Rabs (nth k l 0) = e) -> d <= K l.
  Proof.
    intros E B. assert (Dl : forall l, boxed (ncs f n) e l -> nat_dom f n (shift p (Pl f n l))).
    { intros l [_ Hl]. apply B. intros nm j. replace (shift p (Pl f n l) false nm j - p false nm j) with (Pl f n l false nm j) by (unfold shift; ring). apply Pl_small; [lra|exact Hl]. }
    apply sphere_lower; [exact E|..].
    - intros l Hl. apply br_nonneg; auto; [now apply shift_im|now apply fix_any].
    - intros l Hl (k & Nk). assert (Kk : (k < ncs f n)%nat). { destruct (Nat.lt_ge_cases k (ncs f n)) as [X|X]; [exact X|]. exfalso. apply Nk. apply nth_overflow. destruct Hl as [-> _]. exact X. }
      destruct (br_pos f n p (shift p (Pl f n l)) H0 (Dl l Hl) (fix_any f n _ _ F)) as [Q|Q]; [|exact Q]. exfalso. apply Nk. exact (shift_inv f n p l F Q k Kk).
    - intros l Hl eta He. destruct (ball_cont f n (shift p (Pl f n l)) F (Dl l Hl) (eta / 2) ltac:(lra)) as (d1 & D1 & C1). set (W := dB (NP f) (EP f) n (expR n p f)). assert (W0 : 0 <= W) by apply dB_nonneg.
      set (d2 := eta / 2 / (W + 1)). assert (D2 : 0 < d2) by (apply Rdiv_lt_0_compat; lra). exists (Rmin d1 d2). split; [now apply Rmin_pos|]. intros l' Hl' Nr. assert (A1 := Rmin_l d1 d2). assert (A2 := Rmin_r d1 d2).
      assert (Dp : 0 < Rmin d1 d2) by now apply Rmin_pos. pose proof (Pl_near f n l l' _ Dp Nr) as Sm. rewrite !K_val.
      assert (X1 : Rabs (lnR n (shift p (Pl f n l')) f - lnR n (shift p (Pl f n l)) f) < eta / 2). { apply C1. intros nm j. replace (shift p (Pl f n l') false nm j - shift p (Pl f n l) false nm j) with (Pl f n l' false nm j - Pl f n l false nm j) by (unfold shift; ring). specialize (Sm nm j). lra. }
      assert (X2 : Rabs (dot (psub (Pl f n l') (Pl f n l)) (expR n p f)) <= d2 * W). { apply dot_bound; [intros nm j; unfold psub; specialize (Sm nm j); lra|intros g j _; unfold psub; rewrite !Pl_im; ring]. }
      assert (X3 : d2 * W < eta / 2). { unfold d2. replace (eta / 2) with (eta / 2 / (W + 1) * (W + 1)) at 2 by (field; lra). apply Rmult_lt_compat_l; [exact D2|lra]. }
      rewrite dotP_psub in X2. apply Rabs_lt_between in X1. apply Rabs_le_between in X2. apply Rabs_lt_between. lra.
  Qed.
  Lemma theta_cont e : 0 < e -> exists d, 0 < d /\ forall q t, Rabs t < d -> nat_dom f n q -> real_im (NP f) q -> pt_eq (EP f) n (expR n q f) (padd (EP f) mu v t) ->
    forall k, (k < ncs f n)%nat -> Rabs (nth k (diffs f n p q) 0) < e.
  Proof.
    intros E0. destruct (ball_dom f n p F H0) as (e1 & E1 & B1). set (e' := Rmin e e1). assert (E' : 0 < e') by now apply Rmin_pos. assert (A1 := Rmin_l e e1). assert (A2 := Rmin_r e e1). fold e' in A1, A2.
    assert (B : forall q, (forall nm j, Rabs (q false nm j - p false nm j) <= e') -> nat_dom f n q) by (intros q Hq; apply B1; intros nm j; specialize (Hq nm j); lra).
    destruct (sphere e' E' B) as (dl & Dl & Sp). set (W := dB (NP f) (EP f) n v). assert (W0 : 0 <= W) by apply dB_nonneg. assert (WP : 0 < e' * (W + 1)) by (apply Rmult_lt_0_compat; lra).
    exists (dl / (e' * (W + 1))). split; [now apply Rdiv_lt_0_compat|]. intros q t Ht Hq Zq Mq k Kk. apply Rnot_le_lt. intros Ge.
    set (x := diffs f n p q) in *. destruct (largest x) as (N & N0 & N1 & N2). pose proof (N1 k) as N1k. assert (Np : 0 < N) by lra. destruct (N2 Np) as (k0 & _ & Ek0). set (la := e' / N). assert (L0 : 0 < la) by (apply Rdiv_lt_0_compat; lra).
    assert (L1 : la <= 1). { unfold la. apply Rmult_le_reg_r with N; [exact Np|]. unfold Rdiv. rewrite Rmult_assoc, Rinv_l by lra. lra. }
    set (l := map (Rmult la) x). assert (Nl : forall j, nth j l 0 = la * nth j x 0). { intros j. unfold l. replace 0 with (la * 0) at 1 by ring. apply (map_nth (Rmult la)). }
    assert (LN : la * N = e') by (unfold la; field; lra).
    assert (Bl : boxed (ncs f n) e' l). { split; [unfold l; rewrite map_length; apply len_diffs|]. intros j _. rewrite Nl, Rabs_mult, (Rabs_pos_eq la) by lra. rewrite <- LN. apply Rmult_le_compat_l; [lra|apply N1]. }
    assert (Sl : dl <= K l). { apply Sp; [exact Bl|]. exists k0. rewrite Nl, Rabs_mult, (Rabs_pos_eq la) by lra. now rewrite Ek0. }
    cbv beta in Sl. rewrite K_val in Sl. set (th := shift p (Pl f n l)) in *.
    assert (Dt : nat_dom f n th). { apply B. intros nm j. replace (th false nm j - p false nm j) with (Pl f n l false nm j) by (unfold th, shift; ring). apply Pl_small; [lra|exact (proj2 Bl)]. }
    assert (Zt : real_im (NP f) th) by now apply shift_im.
    assert (Pll : forall c nm j, Pl f n l c nm j = la * Pl f n x c nm j). { intros c nm j. unfold Pl. destruct c; [ring|]. destruct (pos_of f n nm j); [apply Nl|ring]. }
    pose proof (br_nonneg f n th q Dm Dt Hq Zt Zq (fix_any f n _ _ F)) as I1. pose proof (br_nonneg f n th p Dm Dt H0 Zt Z0 (fix_any f n _ _ F)) as I2. pose proof (br_nonneg f n q p Dm Hq H0 Zq Z0 (fix_any f n _ _ F)) as I3.
    assert (Qd : forall y, dot q y = dot p y + dot (Pl f n x) y). { intros y. rewrite (dotP_pt (NP f) (EP f) n q (shift p (Pl f n x)) y); [apply dot_shift|now apply shift_pt|]. intros g j I _. apply filter_In in I as [I _]. pose proof (proj2 (all_var f F g I)) as Kg. rewrite (Zq g j I Kg). unfold shift. rewrite (Z0 g j I Kg), Pl_im. ring. }
    assert (Td : forall y, dot th y = dot p y + la * dot (Pl f n x) y). { intros y. unfold th. rewrite dot_shift. f_equal. now apply dot_scal. }
    unfold brR in I1, I2, I3. rewrite (dot_ext_r f n _ _ _ (psub_real _ _ _ Zq Z0) Mq) in I3. rewrite dot_line_r in I3. rewrite !(dotP_psub (NP f)), ?Qd, ?Td in I1. rewrite !(dotP_psub (NP f)), ?Qd, ?Td in I2. rewrite !(dotP_psub (NP f)), ?Qd, ?Td in I3.
    rewrite (dot_scal _ _ _ _ (Pl f n x) _ la Pll) in Sl.
    assert (Me : dot (Pl f n x) mu = dot (Pl f n x) (expR n p f)). { apply dot_ext_r; [intros g j _ _; reflexivity|now apply pt_sym]. }
    assert (Bd : Rabs (dot (Pl f n l) v) <= e' * W). { apply dot_bound; [apply Pl_small; [lra|exact (proj2 Bl)]|reflexivity]. } rewrite (dot_scal _ _ _ _ (Pl f n x) _ la Pll) in Bd.
    set (lq := lnR n q f) in *. set (lp := lnR n p f) in *. set (lt := lnR n th f) in *. set (pe := dot p (expR n th f)) in *. set (xe := dot (Pl f n x) (expR n th f)) in *. set (xm := dot (Pl f n x) mu) in *. set (xv := dot (Pl f n x) v) in *. set (pm := dot p mu) in *. set (pv := dot p v) in *. rewrite <- Me in Sl.
    assert (J1 : lq - lt - (1 - la) * xe >= 0) by lra. assert (J2 : lp - lt + la * xe >= 0) by lra. assert (J3 : lq - lp <= xm + t * xv) by lra.
    assert (J4 : lt <= la * lq + (1 - la) * lp). { assert (Y1 : 0 <= la * (lq - lt - (1 - la) * xe)) by (apply Rmult_le_pos; lra). assert (Y2 : 0 <= (1 - la) * (lp - lt + la * xe)) by (apply Rmult_le_pos; lra). lra. }
    assert (J5 : la * (lq - lp) <= la * (xm + t * xv)) by (apply Rmult_le_compat_l; lra).
    assert (J6 : dl <= t * (la * xv)) by lra.
    assert (J7 : t * (la * xv) <= Rabs t * (e' * W)). { eapply Rle_trans; [apply Rle_abs|]. rewrite Rabs_mult. apply Rmult_le_compat_l; [apply Rabs_pos|exact Bd]. }
    assert (J8 : Rabs t * (e' * W) <= Rabs t * (e' * (W + 1))) by (apply Rmult_le_compat_l; [apply Rabs_pos|]; apply Rmult_le_compat_l; lra).
    assert (J9 : Rabs t * (e' * (W + 1)) < dl). { apply Rmult_lt_compat_r with (r := e' * (W + 1)) in Ht; [|exact WP]. unfold Rdiv in Ht. rewrite Rmult_assoc, Rinv_l, Rmult_1_r in Ht by lra. exact Ht. }
    lra.
  Qed.
End Cont.

(** ** along a line *)
Section Line.
  Variables (f : family) (n : nat) (p mu v : point) (T : R -> point) (eps : R).
  Hypotheses (F : sfam f = true) (Dm : dims_ok (NP f) n = true) (H0 : nat_dom f n p) (Z0 : real_im (NP f) p) (M0 : pt_eq (EP f) n (expR n p f) mu) (He : 0 < eps).
  Hypothesis HT : forall s, Rabs s < eps -> nat_dom f n (T s) /\ real_im (NP f) (T s) /\ pt_eq (EP f) n (expR n (T s) f) (padd (EP f) mu v s).
  Notation dot := (dotP (NP f) (EP f) n).
  Lemma T_cont e : 0 < e -> exists d, 0 < d <= eps /\ forall s, Rabs s < d -> forall k, (k < ncs f n)%nat -> Rabs (nth k (diffs f n p (T s)) 0) < e.
  Proof.
    intros E. destruct (theta_cont f n p mu v F Dm H0 Z0 M0 e E) as (d & D & H). exists (Rmin d eps). split; [split; [now apply Rmin_pos|apply Rmin_r]|]. intros s Hs. assert (A := Rmin_l d eps). assert (B := Rmin_r d eps).
    destruct (HT s ltac:(lra)) as (Q1 & Q2 & Q3). apply (H (T s) s); auto. lra.
  Qed.
  Lemma T_dot s y : Rabs s < eps -> dot (psub (T s) p) y = dot (Pl f n (diffs f n p (T s))) y.
  Proof.
    intros Hs. destruct (HT s Hs) as (Q1 & Q2 & Q3). rewrite dotP_psub. rewrite (dotP_pt (NP f) (EP f) n (T s) (shift p (Pl f n (diffs f n p (T s)))) y); [rewrite dot_shift; ring|now apply shift_pt|].
    intros g j I _. apply filter_In in I as [I _]. pose proof (proj2 (all_var f F g I)) as Kg. rewrite (Q2 g j I Kg). unfold shift. rewrite (Z0 g j I Kg), Pl_im. ring.
  Qed.
  Theorem search_flat : DV (fun s => brR f n (T s) p) 0 0.
  Proof.
    assert (Sq : forall s, Rabs s < eps -> 0 <= brR f n (T s) p <= s * dot (psub (T s) p) v).
    { intros s Hs. destruct (HT s Hs) as (Q1 & Q2 & Q3). pose proof (br_nonneg f n _ _ Dm Q1 H0 Q2 Z0 (fix_any f n _ _ F)) as B1. pose proof (br_nonneg f n _ _ Dm H0 Q1 Z0 Q2 (fix_any f n _ _ F)) as B2. split; [exact B1|].
      unfold brR in B1, B2 |- *. rewrite (dot_ext_r f n _ _ _ (psub_real _ _ _ Z0 Q2) M0) in B2. rewrite (dot_ext_r f n _ _ _ (psub_real _ _ _ Q2 Z0) Q3) in B1 |- *. rewrite dot_line_r in *. rewrite !(dotP_psub (NP f)) in *. lra. }
    assert (G0 : brR f n (T 0) p = 0). { destruct (Sq 0) as [A B]; [rewrite Rabs_R0; exact He|]. lra. }
    split; [exact G0|]. apply is_derive_Reals. intros e E. set (W := dB (NP f) (EP f) n v). assert (W0 : 0 <= W) by apply dB_nonneg. destruct (T_cont (e / (W + 1))) as (d & [D1 D2] & Hd); [apply Rdiv_lt_0_compat; lra|].
    exists (mkposreal d D1). intros h Nh Hh. cbn in Hh. rewrite Rplus_0_l, G0, !Rminus_0_r. destruct (Sq h ltac:(lra)) as [A B].
    rewrite Rabs_div by exact Nh. pose proof (Rabs_pos_lt h Nh) as Ph. apply Rmult_lt_reg_r with (Rabs h); [exact Ph|]. unfold Rdiv at 1. rewrite Rmult_assoc, Rinv_l, Rmult_1_r by lra. rewrite Rabs_pos_eq by exact A.
    eapply Rle_lt_trans; [exact B|]. eapply Rle_lt_trans; [apply Rle_abs|]. rewrite Rabs_mult, (Rmult_comm e). apply Rmult_lt_compat_l; [exact Ph|]. rewrite T_dot by lra.
    eapply Rle_lt_trans; [apply (dot_bound (NP f) (EP f) n _ v (e / (W + 1))); [apply Pl_small; [left; apply Rdiv_lt_0_compat; lra|]|reflexivity]|].
    - intros k Kk. left. now apply Hd.
    - fold W. replace e with (e / (W + 1) * (W + 1)) at 2 by (field; lra). apply Rmult_lt_compat_l; [apply Rdiv_lt_0_compat; lra|lra].
  Qed.
End Line.

(** ** the inverse of a function with a positive derivative *)
Lemma inverse_dv (g y : R -> R) y0 tau a eps : 0 < tau -> is_derive g y0 tau -> 0 < eps -> (forall s, Rabs s < eps -> g (y s) = g y0 + s * a) -> (forall e, 0 < e -> exists d, 0 < d /\ forall s, Rabs s < d -> Rabs (y s - y0) < e) -> DV y y0 (a / tau).
Proof.
  intros Ht Hg He Hy Hc. assert (Y0 : y 0 = y0).
  { apply NNPP. intros N. assert (P : 0 < Rabs (y 0 - y0)) by (apply Rabs_pos_lt; lra). destruct (Hc _ P) as (d & D & H). specialize (H 0). rewrite Rabs_R0 in H. specialize (H D). lra. }
  split; [exact Y0|]. apply is_derive_Reals in Hg. apply is_derive_Reals. intros e E.
  set (A := Rabs a). assert (HA : 0 <= A) by apply Rabs_pos. set (r := Rmin (tau / 2) (e * tau * tau / (2 * (A + 1)))). assert (R1 := Rmin_l (tau / 2) (e * tau * tau / (2 * (A + 1)))). assert (R2 := Rmin_r (tau / 2) (e * tau * tau / (2 * (A + 1)))). fold r in R1, R2.
  assert (Rp : 0 < r). { apply Rmin_pos; [lra|]. apply Rdiv_lt_0_compat; [repeat apply Rmult_lt_0_compat; lra|lra]. }
  destruct (Hg r Rp) as (d1 & H1). destruct (Hc d1 (cond_pos d1)) as (d2 & D2 & H2). assert (Dp : 0 < Rmin d2 eps) by now apply Rmin_pos. exists (mkposreal _ Dp). intros h Nh Hh. cbn in Hh. assert (B1 := Rmin_l d2 eps). assert (B2 := Rmin_r d2 eps).
  rewrite Rplus_0_l, Y0. specialize (H2 h ltac:(lra)). pose proof (Hy h ltac:(lra)) as Eh. destruct (Req_dec (y h - y0) 0) as [Z|Z].
  - assert (y h = y0) as Q by lra. rewrite Q in Eh. assert (a = 0) as -> by (assert (h * a = 0) by lra; apply Rmult_integral in H as [X|X]; [contradiction|exact X]). rewrite Q. replace ((y0 - y0) / h - 0 / tau) with 0 by (field; lra). rewrite Rabs_R0. exact E.
  - specialize (H1 (y h - y0) Z H2). replace (y0 + (y h - y0)) with (y h) in H1 by ring. rewrite Eh in H1. set (z := y h - y0) in *. replace (g y0 + h * a - g y0) with (h * a) in H1 by ring. set (u := h * a / z) in *. assert (Uz : h * a = u * z) by (unfold u; field; exact Z).
    assert (U : tau / 2 < u) by (apply Rabs_lt_between in H1; lra). assert (Ez : z / h = a / u). { apply Rmult_eq_reg_r with (h * u); [|apply Rmult_integral_contrapositive_currified; lra]. replace (z / h * (h * u)) with (u * z) by (field; exact Nh). rewrite <- Uz. field. lra. }
    rewrite Ez. replace (a / u - a / tau) with (a * (tau - u) / (u * tau)) by (field; lra). unfold Rdiv. rewrite !Rabs_mult, Rabs_inv. fold A. rewrite (Rabs_pos_eq (u * tau)) by (apply Rmult_le_pos; lra).
    assert (V : Rabs (tau - u) < r) by (rewrite Rabs_minus_sym; exact H1). assert (P : 0 < u * tau) by (apply Rmult_lt_0_compat; lra). apply Rmult_lt_reg_r with (u * tau); [exact P|]. rewrite Rmult_assoc, Rinv_l, Rmult_1_r by lra.
    assert (X1 : A * Rabs (tau - u) <= A * r) by (apply Rmult_le_compat_l; lra). assert (X2 : A * r < (A + 1) * r) by (apply Rmult_lt_compat_r; lra).
    assert (X3 : (A + 1) * r <= e * tau * tau / 2). { apply Rle_trans with ((A + 1) * (e * tau * tau / (2 * (A + 1)))); [apply Rmult_le_compat_l; lra|]. right. field. lra. }
    assert (X4 : e * tau * tau / 2 <= e * (u * tau)). { assert (0 <= (u - tau / 2) * (e * tau)) by (apply Rmult_le_pos; [lra|apply Rmult_le_pos; lra]). lra. }
    lra.
Qed.

(** ** the expected carrier measure along the line *)
Section Ecm.
  Variables (f : family) (n : nat) (p mu v : point) (T : R -> point) (eps : R).
  Hypotheses (F : sfam f = true) (Dm : dims_ok (NP f) n = true) (H0 : nat_dom f n p) (Z0 : real_im (NP f) p) (M0 : pt_eq (EP f) n (expR n p f) mu) (He : 0 < eps).
  Hypothesis HT : forall s, Rabs s < eps -> nat_dom f n (T s) /\ real_im (NP f) (T s) /\ pt_eq (EP f) n (expR n (T s) f) (padd (EP f) mu v s).
  Lemma chi_dv : f = Chi \/ f = ChiSquare -> exists d, DV (fun s => T s false "k_over_two_minus_one" []) (p false "k_over_two_minus_one" []) d.
  Proof.
    intros C. pose (x := fun s => T s false "k_over_two_minus_one" []). pose (x0 := p false "k_over_two_minus_one" []). assert (P0 : 0 < x0 + 1) by (unfold x0; destruct C as [-> | ->]; cbn [nat_dom] in H0; lra).
    assert (Ex : forall q, expR n q f false "mean_log" [] = digamma (q false "k_over_two_minus_one" [] + 1) - ln (1 / 2)) by (intros q; destruct C as [-> | ->]; reflexivity).
    assert (Fg : exists g, In g (fields (EP f)) /\ fd_name g = "mean_log" /\ inb (supp_shape (fd_support g) n) [] = true /\ forall q w s, padd (EP f) q w s false "mean_log" [] = q false "mean_log" [] + s * w false "mean_log" []).
    { destruct C as [-> | ->]; (eexists; split; [left; reflexivity|]; split; [reflexivity|]; split; [reflexivity|]; reflexivity). }
    destruct Fg as (g & G1 & G2 & G3 & G4). pose proof (pt_re _ _ _ _ g [] M0 G1 G3) as E0. rewrite G2, Ex in E0.
    assert (D : DV (fun s => x s + 1) (x0 + 1) (v false "mean_log" [] / trigamma (x0 + 1))).
    { apply (inverse_dv digamma _ (x0 + 1) (trigamma (x0 + 1)) (v false "mean_log" []) eps); [now apply trigamma_pos|now apply digamma_derive|exact He| |].
      - intros s Hs. destruct (HT s Hs) as (Q1 & Q2 & Q3). pose proof (pt_re _ _ _ _ g [] Q3 G1 G3) as E1. rewrite G2, Ex, G4 in E1. unfold x, x0. lra.
      - intros e E. destruct (T_cont f n p mu v T eps F Dm H0 Z0 M0 He HT e E) as (d & [D1 D2] & Hd). exists d. split; [exact D1|]. intros s Hs. specialize (Hd s Hs 0%nat). assert (K : (0 < ncs f n)%nat) by (destruct C as [-> | ->]; cbn; lia).
        specialize (Hd K). rewrite (diffs_nth f n p (T s) 0 K) in Hd. unfold x, x0. replace (T s false "k_over_two_minus_one" [] + 1 - (p false "k_over_two_minus_one" [] + 1)) with (T s false "k_over_two_minus_one" [] - p false "k_over_two_minus_one" []) by ring. destruct C as [-> | ->]; exact Hd. }
    exists (v false "mean_log" [] / trigamma (x0 + 1) - 0). apply (DV_ext (fun s => (x s + 1) - 1)); [intros s; unfold x; ring|]. eapply DV_eq; [apply DV_minus; [exact D|apply (DV_const 1)]|unfold x0; ring|reflexivity].
  Qed.
  Theorem ecm_search : exists d, DV (fun s => ecmR n (T s) f) (ecmR n p f) d.
  Proof.
    assert (X : f = Chi \/ f = ChiSquare \/ forall q, ecmR n q f = 0) by (clear - F; destruct f; try discriminate F; auto). destruct X as [C|[C|C]].
    - destruct (chi_dv (or_introl C)) as (d & D). assert (P0 : 0 < p false "k_over_two_minus_one" [] + 1) by (rewrite C in H0; cbn [nat_dom] in H0; lra). set (x0 := p false "k_over_two_minus_one" []) in *. rewrite C. eexists. unfold ecmR. fold x0.
      assert (D1 : DV (fun s => T s false "k_over_two_minus_one" [] + 1) (x0 + 1) (d + 0)) by (apply DV_plus; [exact D|apply DV_const]).
      apply DV_plus; [apply DV_plus; [apply DV_mult; [apply (DV_const (-1))|exact D1]|apply DV_mult; [apply (DV_const (1 / 2))|]]|apply DV_const].
      apply (DV_comp _ digamma _ _ (trigamma (x0 + 1)) D1). now apply digamma_derive.
    - destruct (chi_dv (or_intror C)) as (d & D). rewrite C. eexists. unfold ecmR. apply DV_opp. apply DV_plus; [exact D|apply DV_const].
    - exists 0. rewrite C. apply (DV_ext (fun _ => 0)); [intros s; now rewrite C|apply DV_const].
  Qed.
End Ecm.
