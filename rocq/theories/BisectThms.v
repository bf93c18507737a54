(** C74: bisection solves the searches with one parameter. *)
From Coquelicot Require Import Coquelicot.
From Coq Require Import String List Bool Arith Reals Lia Lra.
From Verif Require Import Base XReal Tensor TensorFacts TensorFacts2 Support PlaneFacts Dist DictFacts Iteration Structure Spec StructFacts AssembleFacts SumSpec DotSpec FlattenSpec Tools
  ToolThms Joint StructThms MapFacts SpecFun GammaFn BesselFn Expr Fam ExprFacts FamTy FamFacts SearchFacts DotFacts DotLaws BatchFacts PointSpec PointFacts Val FamR FamVal ConvFacts LeafVal VarSpec DensSpec FlattenThms Var VarThms RootSpec RootVal RootThms ResidSpec ResidThms
  MeanSpec MeanFacts MeanThms Bisect.
Import ListNotations.
Local Unset Asymmetric Patterns.
Local Open Scope string_scope.
Local Open Scope R_scope.

Lemma xleb_fin a b : xleb (Fin a) (Fin b) = true <-> a <= b.
Proof. unfold xleb, xltb, xeqb, rltb, reqb. destruct (Rlt_dec a b); cbn; [split; intros; [lra|reflexivity]|]. destruct (Req_EM_T a b); cbn; split; intros; try discriminate; try reflexivity; lra. Qed.
(** ** the loops on a real function with a root r *)
Section L.
  Variables (F : R -> xr) (h : R -> R) (r : R).
  Hypotheses (HF : forall x, F x = Fin (h x)) (Hi : forall x y, x < y -> h x < h y) (Hr : h r = 0).
  Lemma le_root x : h x <= 0 <-> x <= r.
  Proof. split; intros H; [destruct (Rle_or_lt x r) as [K|K]; [exact K|specialize (Hi _ _ K); lra]|]. destruct H as [H| ->]; [specialize (Hi _ _ H); lra|lra]. Qed.
  Lemma ge_root x : 0 <= h x <-> r <= x.
  Proof. split; intros H; [destruct (Rle_or_lt r x) as [K|K]; [exact K|specialize (Hi _ _ K); lra]|]. destruct H as [H|H]; [specialize (Hi _ _ H); lra|rewrite <- H; lra]. Qed.
  Lemma brackets_iff lo hi : brackets F lo hi = true <-> lo <= r <= hi.
  Proof. unfold brackets. rewrite andb_true_iff, !HF, !xleb_fin, le_root, ge_root. reflexivity. Qed.
  Lemma bisect_spec : forall n lo hi, lo <= r <= hi -> let (a, b) := bisect F n lo hi in a <= r <= b /\ b - a = (hi - lo) * (/ 2) ^ n.
  Proof.
    induction n as [|n IH]; intros lo hi H; [cbn; split; [exact H|ring]|]. cbn [bisect]. cbv zeta. rewrite HF. destruct (xleb (Fin (h ((lo + hi) / 2))) (Fin 0)) eqn:E.
    - apply xleb_fin, le_root in E. specialize (IH ((lo + hi) / 2) hi ltac:(lra)). destruct (bisect F n _ hi) as [a b]. destruct IH as [I1 I2]. split; [exact I1|]. rewrite I2. cbn [pow]. field.
    - assert (E' : ~ h ((lo + hi) / 2) <= 0) by (intros K; apply xleb_fin in K; congruence). assert (r <= (lo + hi) / 2) by (apply ge_root; lra).
      specialize (IH lo ((lo + hi) / 2) ltac:(lra)). destruct (bisect F n lo _) as [a b]. destruct IH as [I1 I2]. split; [exact I1|]. rewrite I2. cbn [pow]. field.
  Qed.
  (** after finitely many doublings the interval holds the root, and stays *)
  Lemma expand_spec : forall j lo hi, lo < hi -> (lo + hi) / 2 - (hi - lo) / 2 * 2 ^ j <= r <= (lo + hi) / 2 + (hi - lo) / 2 * 2 ^ j ->
    forall k, (j <= k)%nat -> let (a, b) := expand F k lo hi in a <= r <= b /\ b - a <= (hi - lo) * 2 ^ j.
  Proof.
    induction j as [|j IH]; intros lo hi L H k K.
    - assert (B : brackets F lo hi = true) by (apply brackets_iff; cbn in H; lra). destruct k; cbn [expand]; rewrite B; cbn; lra.
    - destruct k as [|k]; [lia|]. cbn [expand]. destruct (brackets F lo hi) eqn:B.
      + apply brackets_iff in B. split; [exact B|]. pose proof (pow_lt 2 (Datatypes.S j) ltac:(lra)) as P0. assert (1 <= 2 ^ Datatypes.S j) by (apply pow_R1_Rle; lra). rewrite <- (Rmult_1_r (hi - lo)) at 1. apply Rmult_le_compat_l; lra.
      + specialize (IH (lo - (hi - lo) / 2) (hi + (hi - lo) / 2) ltac:(lra)).
        replace ((lo - (hi - lo) / 2 + (hi + (hi - lo) / 2)) / 2) with ((lo + hi) / 2) in IH by field. replace ((hi + (hi - lo) / 2 - (lo - (hi - lo) / 2)) / 2 * 2 ^ j) with ((hi - lo) / 2 * 2 ^ Datatypes.S j) in IH by (cbn [pow]; field).
        specialize (IH H k ltac:(lia)). destruct (expand F k _ _) as [a b]. destruct IH as [I1 I2]. split; [exact I1|]. eapply Rle_trans; [exact I2|]. right. cbn [pow]. field.
  Qed.
  Lemma interval_spec start d : 0 < d -> exists K N, forall k n, (K <= k)%nat -> (N <= n)%nat -> let (a, b) := bis_interval F start k n in a <= r <= b /\ b - a <= d.
  Proof.
    intros D. destruct (Pow_x_infinity 2 ltac:(rewrite Rabs_pos_eq; lra) (Rabs (r - start))) as [K HK]. exists K. specialize (HK K (le_n K)).
    assert (P2 : 0 < 2 ^ K) by (apply pow_lt; lra). rewrite (Rabs_pos_eq (2 ^ K)) in HK by lra.
    destruct (pow_lt_1_zero (/ 2) ltac:(rewrite Rabs_pos_eq; lra) (d / (2 * 2 ^ K)) ltac:(apply Rdiv_lt_0_compat; lra)) as [N HN]. exists N. intros k n Kk Nn. specialize (HN n Nn).
    rewrite Rabs_pos_eq in HN by (apply pow_le; lra).
    assert (E : (start - 1 + (start + 1)) / 2 = start /\ (start + 1 - (start - 1)) / 2 * 2 ^ K = 2 ^ K) by (split; field). destruct E as [E1 E2].
    pose proof (expand_spec K (start - 1) (start + 1) ltac:(lra)) as X. rewrite E1, E2 in X. assert (R1 : start - 2 ^ K <= r <= start + 2 ^ K) by (revert HK; unfold Rabs; destruct (Rcase_abs (r - start)); lra). specialize (X R1 k Kk).
    unfold bis_interval. destruct (expand F k (start - 1) (start + 1)) as [a b]. destruct X as [X1 X2]. pose proof (bisect_spec n a b X1) as Y. destruct (bisect F n a b) as [a' b']. destruct Y as [Y1 Y2]. split; [exact Y1|]. rewrite Y2.
    assert (Z : 0 < (/ 2) ^ n) by (apply pow_lt; lra). apply Rle_trans with (2 * 2 ^ K * (/ 2) ^ n); [apply Rmult_le_compat_r; lra|]. apply Rmult_lt_compat_l with (r := 2 * 2 ^ K) in HN; [|lra]. replace (2 * 2 ^ K * (d / (2 * 2 ^ K))) with d in HN by (field; lra). lra.
  Qed.
End L.
Lemma near_root h r eps : continuity_pt h r -> h r = 0 -> 0 < eps -> exists d, 0 < d /\ forall x, Rabs (x - r) <= d -> Rabs (h x) <= eps.
Proof.
  intros C Z E. destruct (C eps E) as (d & D & H). exists (d / 2). split; [lra|]. intros x X. destruct (Req_dec x r) as [->|N]; [rewrite Z, Rabs_R0; lra|].
  specialize (H x). unfold Rlimit.dist in H. cbn in H. unfold R_dist in H. rewrite Z, Rminus_0_r in H. left. apply H. split; [split; [exact Logic.I|auto]|lra].
Qed.

(** ** the gradients of the searches *)
Definition bisected (f : family) : bool := match f with Gamma | ChiSquare | VonMisesFisher => true | _ => false end.
Lemma sps_cont s : continuity_pt sps s.
Proof. apply (der_cont sps s (exp s / (1 + exp s))). unfold sps. pose proof (exp_pos s). auto_derive; [lra|field; lra]. Qed.
Lemma comp_cont g s : continuity_pt g (sps s) -> continuity_pt (fun x => g (sps x)) s.
Proof. intros H. exact (continuity_pt_comp sps g s (sps_cont s) H). Qed.
Lemma shift_cont (g : R -> R) c d x : continuity_pt g (x + c) -> continuity_pt (fun y => g (y + c) + d) x.
Proof.
  intros H. apply (continuity_pt_plus (fun y => g (y + c)) (fun _ => d)); [|apply continuity_pt_const; intros a b; reflexivity].
  apply (continuity_pt_comp (fun y => y + c) g); [|exact H]. apply (continuity_pt_plus (fun y => y) (fun _ => c)); [apply derivable_continuous_pt, derivable_pt_id|apply continuity_pt_const; intros a b; reflexivity].
Qed.
Lemma grad_cont f n p r : bisected f = true -> exp_dom f n p -> continuity_pt (fun x => gradR f n p (fun _ => x) 0) r.
Proof.
  intros E H. pose proof (sps_pos r) as P. destruct f; try discriminate E.
  - apply (continuity_pt_locally_ext (fun x => (fun y => digamma (y + (adj_min (-1) + 1)) + (- ln (1 / 2) - p false "mean_log" [])) (sps x)) _ 1 r Rlt_0_1); [intros x _; unfold gradR, snR; mk; rewrite Rplus_assoc; ring|].
    apply (comp_cont (fun y => digamma (y + (adj_min (-1) + 1)) + (- ln (1 / 2) - p false "mean_log" []))). pose proof (adj_min_gt (-1)). apply shift_cont. apply digamma_cont. lra.
  - apply (continuity_pt_locally_ext (fun x => (fun y => (fun z => digamma z - ln z) (y + 0) + (ln (p false "mean" []) - p false "mean_log" [])) (sps x)) _ 1 r Rlt_0_1); [intros x _; unfold gradR; rewrite Rplus_0_r; ring|].
    apply (comp_cont (fun y => (fun z => digamma z - ln z) (y + 0) + (ln (p false "mean" []) - p false "mean_log" []))). apply (shift_cont (fun z => digamma z - ln z)). rewrite Rplus_0_r. apply continuity_pt_minus; [now apply digamma_cont|now apply ln_cont].
  - apply (continuity_pt_locally_ext (fun x => (fun y => brat (INR n * (1 / 2) - 1) (y + 0) + (- sqrt (sumR n (fun k => p false "mean" [k] * p false "mean" [k])))) (sps x)) _ 1 r Rlt_0_1); [intros x _; unfold gradR; rewrite Rplus_0_r; ring|].
    apply (comp_cont (fun y => brat (INR n * (1 / 2) - 1) (y + 0) + (- sqrt (sumR n (fun k => p false "mean" [k] * p false "mean" [k]))))). apply shift_cont. rewrite Rplus_0_r. apply brat_cont; [|exact P]. assert (1 <= INR n); [|lra]. apply (le_INR 1). destruct n; [cbn in H; lra|lia].
Qed.
Section T.
  Variable solve : minimizer -> dist -> nat -> xr.
  Variables (f : family) (e : dist) (n : nat).
  Hypotheses (E : bisected f = true) (P : proper_e [] [] f e) (D : dims_of e = Ok n).
  Let h (x : R) : R := gradR f n (point_of e []) (fun _ => x) 0.
  Lemma count1 : search_count f n = Some 1%nat. Proof. clear - E. destruct f; try discriminate E; reflexivity. Qed.
  Lemma one_dom : exp_dom f n (point_of e []) /\ at_pt [] [] e (EP f) n (point_of e []) /\ dims_ok (EP f) n = true.
  Proof.
    destruct P as (C & W & S & Hi & Dom). destruct (exp_dom_at [] [] e f Hi C W S Dom) as (n' & A & H). assert (n' = n) by (rewrite (ap_dims _ _ _ _ _ _ A) in D; congruence). subst n'.
    split; [exact H|]. split; [exact A|]. destruct (leaf_dims _ _ S) as (n' & D' & K). assert (n' = n) by congruence. subst n'. now rewrite C in K.
  Qed.
  Lemma grad1 sp x : shp sp = [1%nat] -> tget sp [0%nat] = Fin x -> exists g, search_gradient e f sp = Ok g /\ shp g = [1%nat] /\ tget g [0%nat] = Fin (h x).
  Proof.
    intros Sp Sx. destruct one_dom as (H & A & K). destruct (count_dim f n 1 count1 K) as [E2 Em].
    assert (Hn : nat_dom f n (snR n (point_of e []) (fun _ => x) f)) by (apply search_dom; auto; clear - E; destruct f; try discriminate E; exact Logic.I).
    destruct (grad_at solve [] [] e f n (point_of e []) sp (fun _ => x) 1 eq_refl A H count1 (fun _ => eq_refl) Hn Sp) as (g & G1 & G2 & G3). { intros k Kk. replace k with 0%nat by lia. exact Sx. }
    exists g. split; [exact G1|]. split; [exact G2|]. apply (G3 ltac:(clear - E; destruct f; try discriminate E; exact Logic.I) 0%nat Nat.lt_0_1).
  Qed.
  Lemma bis_val x : bis_fun f e x = Fin (h x).
  Proof. unfold bis_fun. destruct (grad1 (tbuild [1%nat] (fun _ => Fin x)) x eq_refl) as (g & G1 & _ & G3); [rewrite tget_tbuild by reflexivity; reflexivity|]. rewrite G1. exact G3. Qed.
  Lemma h_incr x y : x < y -> h x < h y.
  Proof. intros L. refine (grad_incr f n (point_of e []) (fun _ => x) (fun _ => y) _ (proj1 one_dom) L). clear - E. destruct f; try discriminate E; reflexivity. Qed.
  Lemma h_root sp : search_root [] [] f 1 e sp -> exists r, tget sp [0%nat] = Fin r /\ h r = 0.
  Proof.
    intros ([Sp Sf] & g & G & Z). destruct (Sf 0%nat Nat.lt_0_1) as (r & R). exists r. split; [exact R|]. destruct (grad1 sp r Sp R) as (g' & G1 & G2 & G3). assert (g' = g) by congruence. subst g'.
    specialize (Z [0%nat]). cbn [app length skipn] in Z. rewrite G2 in Z. specialize (Z eq_refl). rewrite G3 in Z. congruence.
  Qed.
  (** an interval with opposite signs at its ends that is short enough *)
  Lemma close r eps : h r = 0 -> 0 < eps -> exists d, 0 < d /\ forall lo hi x sx, h lo <= 0 -> 0 <= h hi -> hi - lo <= d -> lo <= x <= hi -> shp sx = [1%nat] -> tget sx [0%nat] = Fin x ->
    exists g, search_gradient e f sx = Ok g /\ residual_at [] [] eps g.
  Proof.
    intros Hr Ep. destruct (near_root h r eps (grad_cont f n _ r E (proj1 one_dom)) Hr Ep) as (d & Dp & Hd). exists d. split; [exact Dp|]. intros lo hi x sx L U Wd X S1 S2.
    apply (le_root h r h_incr Hr) in L. apply (ge_root h r h_incr Hr) in U. destruct (grad1 sx x S1 S2) as (g & G1 & G2 & G3). exists g. split; [exact G1|].
    intros j J. cbn [length skipn] in J. rewrite G2 in J. destruct (inb1 _ _ J) as (k & -> & Kk). replace k with 0%nat by lia. exists (h x). split; [exact G3|]. apply Hd. unfold Rabs. destruct (Rcase_abs (x - r)); lra.
  Qed.
  Lemma interval r start d : h r = 0 -> 0 < d -> exists K N, forall k m, (K <= k)%nat -> (N <= m)%nat -> let (a, b) := bis_interval (bis_fun f e) start k m in h a <= 0 /\ 0 <= h b /\ a <= b /\ b - a <= d.
  Proof.
    intros Hr Dp. destruct (interval_spec (bis_fun f e) h r bis_val h_incr Hr start d Dp) as (K & N & H). exists K, N. intros k m Kk Nm. specialize (H k m Kk Nm). destruct (bis_interval _ _ _ _) as [a b].
    destruct H as [H1 H2]. split; [apply (le_root h r h_incr Hr); lra|]. split; [apply (ge_root h r h_incr Hr); lra|]. lra.
  Qed.
End T.

Lemma chi_square_of e : proper_e [] [] Chi e -> proper_e [] [] ChiSquare (Dist (EP ChiSquare) DefaultMinimizer (dparams e) []).
Proof.
  intros (C & W & S & Hi & Dom). set (e0 := Dist (EP ChiSquare) DefaultMinimizer (dparams e) []) in *.
  destruct (exp_dom_at [] [] e Chi Hi C W S Dom) as (n & A & _). assert (n = 1%nat) by (apply (dims_none _ _ (ap_dims _ _ _ _ _ _ A)); now rewrite C). subst n.
  assert (J : is_joint (dcls e) = false) by now rewrite C. destruct (leaf_inv e W J) as [Q N]. rewrite C in Q, N.
  destruct (leaf_env _ _ _ S (ap_dims _ _ _ _ _ _ A) "mean_log" KR [] ltac:(rewrite C; reflexivity)) as (u & U1 & U2).
  cbn [fields map fd_name var] in N. destruct (names_inv1 _ _ N) as (v & Ev). rewrite Ev in U1. cbn in U1. injection U1 as ->. cbn [pack] in Ev.
  assert (PH : params_hold [] (dparams e) (ctx_of (EP ChiSquare) 1)). { rewrite Ev. repeat constructor. cbn. exists u. split; [reflexivity|exact U2]. }
  destruct (ctx_shaped [] (EP ChiSquare) DefaultMinimizer _ 1 PH (fun _ => eq_refl) eq_refl) as [D3 S3]. fold e0 in D3, S3.
  assert (A0 : at_pt [] [] e0 (EP ChiSquare) 1 (point_of e [])). { split; [reflexivity|now apply wf_leaf|exact S3|exact D3|]. exact (ap_vals _ _ _ _ _ _ A). }
  split; [reflexivity|]. split; [now apply wf_leaf|]. split; [exact S3|]. split; [reflexivity|]. apply (at_pt_exp_dom [] [] e0 ChiSquare 1 (point_of e []) eq_refl A0 Logic.I).
Qed.
Lemma found start f e eps : bisected f = true -> 0 < eps -> proper_e [] [] f e -> (exists sp, search_root [] [] f 1 e sp) ->
  exists K N, forall k m, (K <= k)%nat -> (N <= m)%nat -> residual_found (bis_solve start k m) eps f e.
Proof.
  intros E Ep P (sp & Sr). pose proof P as (C & W & S & Hi & Dom). destruct (leaf_dims _ _ S) as (n & D & Kn).
  destruct (h_root (bis_solve start 0 0) f e n E P D sp Sr) as (r & _ & Hr). unfold residual_found. rewrite (leaf_default e f C W). set (e1 := Dist (EP f) DefaultMinimizer (dparams e) []).
  pose proof (proper_e_min DefaultMinimizer [] [] f e P) as P1. fold e1 in P1.
  assert (D1 : dims_of e1 = Ok n). { rewrite <- D. assert (J : is_joint (dcls e) = false) by (now rewrite C). destruct (leaf_inv e W J) as [Q _]. rewrite C in Q. symmetry. rewrite Q. reflexivity. }
  change (gradR f n (point_of e1 []) (fun _ => r) 0 = 0) in Hr.
  destruct (close (bis_solve start 0 0) f e1 n E P1 D1 r eps Hr Ep) as (d & Dp & Hc). destruct (interval (bis_solve start 0 0) f e1 n E P1 D1 r (start e1) d Hr Dp) as (K & N & H). exists K, N. intros k m Kk Nm. specialize (H k m Kk Nm).
  assert (Sv : forall x, solution (bis_solve start k m) x e1 1 = tbuild [1%nat] (fun _ => let (lo, hi) := bis_interval (bis_fun f e1) (start e1) k m in Fin ((lo + hi) / 2))) by reflexivity.
  destruct (bis_interval (bis_fun f e1) (start e1) k m) as [a b] eqn:B. destruct H as (Ha & Hb & Hab & Hd).
  destruct (Hc a b ((a + b) / 2) (tbuild [1%nat] (fun _ => Fin ((a + b) / 2))) Ha Hb Hd ltac:(lra) eq_refl ltac:(rewrite tget_tbuild by reflexivity; reflexivity)) as (g & G1 & G2).
  exists n, 1%nat, g. split; [exact D|]. split; [exact (count1 f n E)|]. cbv zeta. rewrite Sv. split; [|split; [exact G1|exact G2]].
  split; [reflexivity|]. intros j Hj. replace j with 0%nat by lia. eexists. cbn [app]. rewrite tget_tbuild by reflexivity. reflexivity.
Qed.
Lemma t_halving f e n lo hi m : bisected f = true -> proper_e [] [] f e -> dims_of e = Ok n -> (exists sp, search_root [] [] f 1 e sp) ->
  xleb (bis_fun f e lo) (Fin 0) = true -> xleb (Fin 0) (bis_fun f e hi) = true ->
  let (a, b) := bisect (bis_fun f e) m lo hi in xleb (bis_fun f e a) (Fin 0) = true /\ xleb (Fin 0) (bis_fun f e b) = true /\ b - a = (hi - lo) / 2 ^ m.
Proof.
  intros E P D (sp & Sr) Hl Hh. set (sv := bis_solve (fun _ => 0) 0 0). destruct (h_root sv f e n E P D sp Sr) as (r & _ & Hr).
  pose proof (bis_val sv f e n E P D) as Bv. pose proof (h_incr f e n E P D) as Hi. cbv beta in Bv, Hi.
  rewrite (Bv lo), xleb_fin in Hl. rewrite (Bv hi), xleb_fin in Hh. apply (le_root _ r Hi Hr) in Hl. apply (ge_root _ r Hi Hr) in Hh.
  pose proof (bisect_spec (bis_fun f e) _ r Bv Hi Hr m lo hi (conj Hl Hh)) as X. destruct (bisect (bis_fun f e) m lo hi) as [a b]. destruct X as [[X1 X2] X3].
  rewrite (Bv a), (Bv b), !xleb_fin. split; [now apply (le_root _ r Hi Hr)|]. split; [now apply (ge_root _ r Hi Hr)|]. rewrite X3, pow_inv. reflexivity.
Qed.
Lemma t_bracketed f e n : bisected f = true -> proper_e [] [] f e -> dims_of e = Ok n -> (exists sp, search_root [] [] f 1 e sp) ->
  exists lo hi, lo < hi /\ xleb (bis_fun f e lo) (Fin 0) = true /\ xleb (Fin 0) (bis_fun f e hi) = true.
Proof.
  intros E P D (sp & Sr). set (sv := bis_solve (fun _ => 0) 0 0). destruct (h_root sv f e n E P D sp Sr) as (r & _ & Hr). pose proof (bis_val sv f e n E P D) as Bv. pose proof (h_incr f e n E P D) as Hi. cbv beta in Bv, Hi.
  exists (r - 1), (r + 1). split; [lra|]. rewrite (Bv (r - 1)), (Bv (r + 1)), !xleb_fin. split; [apply (le_root _ r Hi Hr); lra|apply (ge_root _ r Hi Hr); lra].
Qed.
Theorem t_bisection start f e eps : 0 < eps -> proper_e [] [] f e -> dist_vals true [] (snd (searched f e)) ->
  f = Gamma \/ f = VonMisesFisher \/ ((f = ChiSquare \/ f = Chi) /\ exists sp, search_root [] [] ChiSquare 1 (snd (searched f e)) sp) ->
  exists K N, forall k m, (K <= k)%nat -> (N <= m)%nat -> let L := fam_methods (bis_solve start k m) in
    exists q e', to_nat L e = Ok q /\ proper [] [] f q /\ to_exp L q = Ok e' /\ near_params_at [] [] eps e e'.
Proof.
  intros Ep P V F. assert (R : exists K N, forall k m, (K <= k)%nat -> (N <= m)%nat -> residual_found (bis_solve start k m) eps (fst (searched f e)) (snd (searched f e))).
  { pose proof P as (C & W & S & Hi & Dom). destruct (leaf_dims _ _ S) as (n & D & _). destruct F as [->|[->|[[->| ->] X]]]; cbn [searched fst snd] in *.
    - apply found; auto. apply (t_always (bis_solve start 0 0) [] [] Gamma e n); auto.
    - apply found; auto. apply (t_always (bis_solve start 0 0) [] [] VonMisesFisher e n); auto.
    - apply found; auto.
    - apply found; auto. now apply chi_square_of. }
  destruct R as (K & N & R). exists K, N. intros k m Kk Nm. cbv zeta. apply t_to_nat_resid; auto. intros n ->. destruct F as [?|[?|[[?|?] _]]]; discriminate.
Qed.
