(** C53: differentiability of to_nat along a line of expectation parameters. *)
From Coquelicot Require Import Coquelicot.
From Coq Require Import String List Bool Arith Reals Lia Lra.
From Verif Require Import Base XReal Tensor TensorFacts Support Dist Iteration Spec SumSpec DotSpec SpecFun GammaFn BesselFn Expr Fam ExprFacts FamTy FamFacts DotFacts PointSpec PointFacts DetFacts MatFacts Val FamR FamVal ConvFacts DerivFacts MatDeriv BregFacts BregThms MatBreg KlPos IntFam JointKl Joint MleThms ConjThms InjThms LeafVal DerivThms DotLaws.
Import ListNotations.
Local Unset Asymmetric Patterns.
Local Open Scope string_scope.
Local Open Scope R_scope.
Local Notation C := Complex.C (only parsing).

(** the directions that keep the second moments Hermitian *)
Definition exp_sym (f : family) (n : nat) (v : point) : Prop :=
  match f with
  | MultivariateNormal => forall a b, (a < n)%nat -> (b < n)%nat -> v false "second_moment" [a; b]%nat = v false "second_moment" [b; a]%nat
  | ComplexCircularlySymmetricNormal => forall a b, (a < n)%nat -> (b < n)%nat -> v false "variance" [a; b]%nat = v false "variance" [b; a]%nat /\ v true "variance" [a; b]%nat = - v true "variance" [b; a]%nat
  | _ => True
  end.
Definition eV (p : point) (a b : nat) : R := p false "second_moment" [a; b]%nat - p false "mean" [a]%nat * p false "mean" [b]%nat.
Definition eC (p : point) (a b : nat) : C := (p false "variance" [a; b]%nat, p true "variance" [a; b]%nat).
Section Line.
  Variables (n : nat) (p v : point).
  Lemma eV_dv a b : exists d, DV (fun s => eV (padd (EP MultivariateNormal) p v s) a b) (eV p a b) d.
  Proof. eexists. unfold eV. adds. dv. Qed.
  Lemma eC_dv a b : exists d, DVC (fun s => eC (padd (EP ComplexCircularlySymmetricNormal) p v s) a b) (eC p a b) d.
  Proof. eexists (_, _). unfold eC. adds. apply DVC_pair; dv. Qed.
End Line.
Lemma exp_open f n p v : closed_nat f = true -> exp_sym f n v -> exp_dom f n p -> locally 0 (fun s => exp_dom f n (padd (EP f) p v s)).
Proof.
  intros M S H. destruct (mat f) eqn:Mt.
  - destruct f; try discriminate Mt; cbn [exp_dom exp_sym] in *.
    + assert (O : locally 0 (fun s => hpdC n (eC (padd (EP ComplexCircularlySymmetricNormal) p v s)))).
      { pose proof (hpd_C _ _ _ H) as K. apply (hpd_open n _ (eC p)); [intros; apply eC_dv| |exact K]. intros s a b Ha Hb. destruct (S a b Ha Hb) as [S1 S2]. pose proof (proj1 K a b Ha Hb) as Q. unfold eC, Cconj in Q |- *. cbn [fst snd] in Q |- *.
        adds. pose proof (f_equal fst Q) as Q1. pose proof (f_equal snd Q) as Q2. cbn [fst snd] in Q1, Q2. apply Ceq; cbn [fst snd]; [rewrite S1; lra|rewrite S2; lra]. }
      eapply filter_imp; [|exact O]. cbv beta. intros s Hs. exact (C_hpd n _ Hs).
    + assert (O : locally 0 (fun s => hpdC n (cmat (eV (padd (EP MultivariateNormal) p v s))))).
      { pose proof (spd_C _ _ H) as K. apply (hpd_open n _ (cmat (eV p))); [intros a b _ _; destruct (eV_dv p v a b) as [d Hd]; eexists; apply DVC_RtoC; exact Hd| |exact K]. intros s. apply sym_C. intros a b Ha Hb. specialize (S a b Ha Hb).
        pose proof (proj1 H a b Ha Hb) as Q. unfold eV. adds. rewrite S. lra. }
      eapply filter_imp; [|exact O]. cbv beta. intros s Hs. exact (C_spd n _ Hs).
  - destruct f; try discriminate M; try discriminate Mt; cbn [exp_dom exp_sym] in *; adds; try (apply loc_true; intros; exact Logic.I).
    all: try (eapply loc_lt; [dv|dv|]; lra).
    all: try (destruct H as [H1 H2]; apply filter_and; (eapply loc_lt; [dv|dv|]); lra).
    all: try (apply loc_true; intros; assumption).
    + destruct H as [H1 H2]. apply filter_and; [apply loc_all; intros k K; eapply loc_lt; [dv|dv|]; now apply H1|]. eapply loc_lt; [dv|dv|]. exact H2.
    + apply loc_all. intros k K. eapply loc_lt; [dv|dv|]. exact (H k K).
    + destruct H as [H1 H2]. apply filter_and; [apply loc_true; auto|]. eapply loc_lt; [dv|dv|]. exact H2.
    + destruct H as [H1 H2]. apply filter_and; [|apply loc_true; auto]. eapply loc_lt; [dv|dv|]. exact H1.
Qed.
(** to_nat along the line *)
Definition nat_diff (f : family) (n : nat) (p v : point) : Prop :=
  Forall (fun g => forall j, inb (supp_shape (fd_support g) n) j = true -> forall c, exists d, DV (fun s => natR n (padd (EP f) p v s) f c (fd_name g) j) (natR n p f c (fd_name g) j) d) (fields (NP f)).
Lemma DV_ex_ext g h w : (forall s, g s = h s) -> (exists d, DV g w d) -> exists d, DV h w d.
Proof. intros E [d D]. exists d. eapply DV_ext; eauto. Qed.
Lemma nat_dv_s f n p v : mat f = false -> f <> ComplexNormal -> closed_nat f = true -> exp_dom f n p -> nat_diff f n p v.
Proof.
  intros M NC Cl H. unfold nat_diff. destruct f; try discriminate M; try discriminate Cl; try contradiction; cbn [exp_dom] in H; cbn [fields]; repeat (apply Forall_cons; [intros j Hj c; first [apply inb0 in Hj; subst j | destruct (inb1 _ _ Hj) as (k & -> & Hk)]; cbn [fd_name fd_support var fixd kind_of] |]); try apply Forall_nil; destruct c; mk; adds; try (eexists; dv; fail).
  all: try (eexists; dv; try specialize (H k Hk); try (destruct H as [H ?]); lra).
  - eexists. dv; [lra|]. apply Rdiv_lt_0_compat; lra.
  - eexists. dv; [lra|]. assert (0 < 1 / p false "mean" []) by (apply Rdiv_lt_0_compat; lra). lra.
  - destruct H as [H1 H2]. specialize (H1 k Hk). eexists. dv; [cbv beta; lra|]. apply Rdiv_lt_0_compat; [exact H1|lra].
  - destruct H as [H1 H2]. assert (0 < INR n) by (apply lt_0_INR; lia). eexists. dv; [lra|]. apply Rgt_not_eq, Rdiv_lt_0_compat; lra.
  - destruct H as [H1 H2]. assert (0 < INR n) by (apply lt_0_INR; lia). eexists. dv; [lra|]. apply Rgt_not_eq, Rdiv_lt_0_compat; lra.
  - destruct H as [H1 (m & H2)]. rewrite H2. pose proof (lt_0_INR (S m) ltac:(lia)). eexists. dv; [lra|]. assert (0 < INR (S m) / p false "mean" []) by (apply Rdiv_lt_0_compat; lra). lra.
Qed.
Lemma nat_dv_cn n p v : exp_dom ComplexNormal n p -> nat_diff ComplexNormal n p v.
Proof.
  intros H. pose proof (exp_open ComplexNormal n p v eq_refl Logic.I H) as O. pose proof (cne_w n p H) as W. pose proof (cne_d n p H) as D. cbv zeta in W, D. destruct (cne_pp n p H) as [P1 P2]. pose proof (cne_np n p H) as P0.
  assert (N1 : exists d, DV (fun s => natR n (padd (EP ComplexNormal) p v s) ComplexNormal false "negative_precision" []) (natR n p ComplexNormal false "negative_precision" []) d).
  { rewrite P0. eexists. eapply DV_ext_loc; [eapply filter_imp; [|exact O]; cbv beta; intros s Hs; symmetry; exact (cne_np n _ Hs)|]. adds. dv. lra. }
  assert (N2 : exists d, DV (fun s => natR n (padd (EP ComplexNormal) p v s) ComplexNormal false "pseudo_precision" []) (natR n p ComplexNormal false "pseudo_precision" []) d).
  { rewrite P1. eexists. eapply DV_ext_loc; [eapply filter_imp; [|exact O]; cbv beta; intros s Hs; symmetry; exact (proj1 (cne_pp n _ Hs))|]. adds. dv. lra. }
  assert (N3 : exists d, DV (fun s => natR n (padd (EP ComplexNormal) p v s) ComplexNormal true "pseudo_precision" []) (natR n p ComplexNormal true "pseudo_precision" []) d).
  { rewrite P2. eexists. eapply DV_ext_loc; [eapply filter_imp; [|exact O]; cbv beta; intros s Hs; symmetry; exact (proj2 (cne_pp n _ Hs))|]. adds. dv. lra. }
  destruct N1 as [d1 N1]. destruct N2 as [d2 N2]. destruct N3 as [d3 N3]. destruct (cne_mp n p) as [M1 M2].
  unfold nat_diff. cbn [fields]. repeat (apply Forall_cons; [intros j Hj c; apply inb0 in Hj; subst j; cbn [fd_name fd_support var fixd kind_of] |]); try apply Forall_nil; destruct c.
  - eexists. eapply DV_ext; [intros s; symmetry; exact (proj2 (cne_mp n _))|]. rewrite M2. adds. eapply DV_mult; [apply DV_const|]. eapply DV_plus; [eapply DV_mult; [exact N1|dv]|]. eapply DV_plus; (eapply DV_mult; [eassumption|dv]).
  - eexists. eapply DV_ext; [intros s; symmetry; exact (proj1 (cne_mp n _))|]. rewrite M1. adds. eapply DV_mult; [apply DV_const|]. eapply DV_plus; [eapply DV_mult; [exact N1|dv]|]. eapply DV_minus; (eapply DV_mult; [eassumption|dv]).
  - exists 0. apply DV_const.
  - eauto.
  - eauto.
  - eauto.
Qed.
Lemma DV_sum_ex n (g : nat -> R -> R) w : (forall k, (k < n)%nat -> exists d, DV (g k) (w k) d) -> exists d, DV (fun s => sumR n (fun k => g k s)) (sumR n w) d.
Proof.
  induction n as [|n IH]; intros H; [exists 0; apply DV_const|]. destruct IH as [d D]; [intros; apply H; lia|]. destruct (H n ltac:(lia)) as [e E]. exists (d + e).
  rewrite sumR_S. eapply DV_ext; [intros s; symmetry; apply sumR_S|]. now apply DV_plus.
Qed.
Lemma nat_dv_mvn n p v : exp_dom MultivariateNormal n p -> nat_diff MultivariateNormal n p v.
Proof.
  intros H. cbn [exp_dom] in H. pose proof (proj1 H) as Sy. pose proof (Rgt_not_eq _ _ (spd_det _ _ H)) as Dt.
  assert (I : forall a b, (a < n)%nat -> (b < n)%nat -> exists d, DV (fun s => rinv n (eV (padd (EP MultivariateNormal) p v s)) a b) (rinv n (eV p) a b) d).
  { intros a b Ha Hb. eexists. apply (DV_rinv n (fun s => eV (padd (EP MultivariateNormal) p v s)) (eV p)
      (fun a b => v false "second_moment" [a; b]%nat - (v false "mean" [a]%nat * p false "mean" [b]%nat + p false "mean" [a]%nat * v false "mean" [b]%nat))); [|exact Sy|exact Dt|exact Ha|exact Hb]. intros c d _ _. unfold eV. adds. dv. }
  unfold nat_diff. cbn [fields]. apply Forall_cons; [|apply Forall_cons; [|apply Forall_nil]]; intros j Hj c; cbn [fd_name fd_support var fixd].
  - destruct (inb1 _ _ Hj) as (a & -> & Ha). destruct c; [exists 0; apply DV_const|].
    apply (DV_sum_ex n (fun b s => rinv n (eV (padd (EP MultivariateNormal) p v s)) a b * (padd (EP MultivariateNormal) p v s) false "mean" [b]) (fun b => rinv n (eV p) a b * p false "mean" [b])).
    intros b Hb. destruct (I a b Ha Hb) as [d D]. eexists. eapply DV_mult; [exact D|]. adds. dv.
  - destruct (inb2 _ _ _ Hj) as (a & b & -> & Ha & Hb). destruct c; [exists 0; apply DV_const|]. destruct (I a b Ha Hb) as [d D]. eexists. apply (DV_mult (fun _ => -1 / 2) (fun s => rinv n (eV (padd (EP MultivariateNormal) p v s)) a b)); [apply DV_const|exact D].
Qed.
Lemma nat_dv_ccs n p v : exp_dom ComplexCircularlySymmetricNormal n p -> nat_diff ComplexCircularlySymmetricNormal n p v.
Proof.
  intros H. cbn [exp_dom] in H. pose proof (hpd_C _ _ _ H) as K. 
  assert (I : forall a b, (a < n)%nat -> (b < n)%nat -> exists d, DVC (fun s => cinv n (eC (padd (EP ComplexCircularlySymmetricNormal) p v s)) a b) (cinv n (eC p) a b) d).
  { intros a b Ha Hb. eexists. apply (DVC_cinv n (fun s => eC (padd (EP ComplexCircularlySymmetricNormal) p v s)) (eC p) (eC v)); [|exact (proj1 K)|exact (hpd_det_ne _ _ K)|exact Ha|exact Hb]. intros c d _ _. unfold eC. adds. apply DVC_pair; dv. }
  unfold nat_diff. cbn [fields]. apply Forall_cons; [|apply Forall_nil]; intros j Hj c; cbn [fd_name fd_support var fixd].
  destruct (inb2 _ _ _ Hj) as (a & b & -> & Ha & Hb). destruct (I a b Ha Hb) as [d [D1 D2]]. destruct c; eexists.
  - apply (DV_opp (fun s => - snd (cinv n (eC (padd (EP ComplexCircularlySymmetricNormal) p v s)) a b))). apply DV_opp. exact D2.
  - apply (DV_opp (fun s => fst (cinv n (eC (padd (EP ComplexCircularlySymmetricNormal) p v s)) a b))). exact D1.
Qed.
Lemma nat_dv f n p v : closed_nat f = true -> exp_dom f n p -> nat_diff f n p v.
Proof.
  intros Cl H. destruct (mat f) eqn:M; [|assert (Dc : f = ComplexNormal \/ f <> ComplexNormal) by (destruct f; auto; right; discriminate); destruct Dc as [->|N]; [now apply nat_dv_cn|now apply nat_dv_s]].
  destruct f; try discriminate M; [now apply nat_dv_ccs|now apply nat_dv_mvn].
Qed.
(** log_normalizer depends on the values of the parameters only *)
Definition envp (n : nat) (p : point) (l : list field_desc) : dict string arr :=
  map (fun g => (fd_name g, pack (kind_of (fd_support g)) (tbuild (supp_shape (fd_support g) n) (fun j => pvals p (kind_of (fd_support g)) (fd_name g) j)))) l.
Lemma envp_get n p l m k t : dget (map (fd_ctx n) l) m = Some (k, t) -> dget (envp n p l) m = Some (pack k (tbuild t (fun j => pvals p k m j))).
Proof.
  induction l as [|g l IH]; [discriminate|]. intros X. unfold envp. cbn [map dget fd_ctx] in X |- *. destruct (keq m (fd_name g)) as [->|N]; [|now apply IH]. injection X as <- <-. reflexivity.
Qed.
Lemma lnR_pt f n p q : dims_ok (NP f) n = true -> nat_dom f n p -> nat_dom f n q -> pt_eq (NP f) n p q -> lnR n p f = lnR n q f.
Proof.
  intros D P Q E. assert (HE : env_ok [] (ctx_of (NP f) n) (envp n p (fields (NP f)))).
  { intros m k t X. eexists. split; [exact (envp_get n p _ m k t X)|]. reflexivity. }
  assert (V : vals_eq (ctx_of (NP f) n) (vals_of (envp n p (fields (NP f))) []) (pvals p)).
  { intros m k t j X Hj. unfold vals_of. rewrite (envp_get n p _ m k t X), get_pack. cbn [app]. now rewrite tget_tbuild. }
  destruct (eval_at [] _ _ [] p (ln_e f) [] (fun _ => Fin (lnR n p f)) HE eq_refl V (ln_val f n p D P)) as (t & T1 & _ & T3).
  destruct (eval_at [] _ _ [] q (ln_e f) [] (fun _ => Fin (lnR n q f)) HE eq_refl (fun m k s j X Hj => eq_trans (V m k s j X Hj) (E m k s j X Hj)) (ln_val f n q D Q)) as (u & U1 & _ & U3).
  rewrite T1 in U1. injection U1 as <-. specialize (T3 [] eq_refl). specialize (U3 [] eq_refl). rewrite T3 in U3. injection U3. auto.
Qed.
Lemma br_nonneg f n p q : dims_ok (NP f) n = true -> nat_dom f n p -> nat_dom f n q -> real_im (NP f) p -> real_im (NP f) q -> fix_eq (NP f) n p q -> 0 <= brR f n p q.
Proof.
  intros D P Q Zp Zq X. destruct (br_pos f n p q P Q X) as [E|]; [|lra]. right. unfold brR. rewrite (lnR_pt f n p q D P Q E), dotP_zero; [ring|]. apply dotP_pt; [exact E|].
  intros g j I K. apply filter_In in I as [I _]. now rewrite (Zp g j I K), (Zq g j I K).
Qed.
(** ** the divergence from a point of the line to its start vanishes to first order *)
Lemma fix_nat f n p v s : closed_nat f = true -> fix_eq (NP f) n (natR n (padd (EP f) p v s) f) (natR n p f).
Proof.
  intros M. apply Forall_forall. intros g I F. destruct f; try discriminate M; cbn [fields In] in I; repeat (destruct I as [<-|I]; [try discriminate F|]); try destruct I; intros j Hj; mk; adds; split; try reflexivity; discriminate.
Qed.
Lemma DV_squeeze (g h : R -> R) d : locally 0 (fun s => 0 <= g s <= s * h s) -> DV h 0 d -> DV g 0 0.
Proof.
  intros O [H0 Hd]. assert (g 0 = 0). { pose proof (locally_singleton 0 _ O) as Q. cbv beta in Q. lra. } split; [assumption|].
  apply is_derive_Reals. intros eps He.
  pose proof (ex_derive_continuous (K := R_AbsRing) (V := R_NormedModule) h 0 (ex_intro _ d Hd)) as Ch. destruct O as [e1 O].
  destruct (Ch (fun y => Rabs y < eps)) as [e2 C2].
  { exists (mkposreal eps He). intros y Hy. rewrite H0 in Hy. unfold ball in Hy. cbn in Hy. unfold AbsRing_ball, abs, minus, plus, opp in Hy. cbn in Hy. now rewrite Ropp_0, Rplus_0_r in Hy. }
  exists (mkposreal _ (Rmin_stable_in_posreal e1 e2)). intros k Nk Hk. cbn in Hk. rewrite Rplus_0_l, H, !Rminus_0_r.
  assert (B : forall e : posreal, Rabs k < e -> ball 0 e k) by (intros e Q; unfold ball; cbn; unfold AbsRing_ball, abs, minus, plus, opp; cbn; now rewrite Ropp_0, Rplus_0_r).
  pose proof (O k (B e1 (Rlt_le_trans _ _ _ Hk (Rmin_l _ _)))) as [Q1 Q2]. pose proof (C2 k (B e2 (Rlt_le_trans _ _ _ Hk (Rmin_r _ _)))) as Q3.
  rewrite Rabs_div by exact Nk. apply Rmult_lt_reg_r with (Rabs k); [now apply Rabs_pos_lt|]. unfold Rdiv. rewrite Rmult_assoc, Rinv_l, Rmult_1_r by (now apply Rabs_no_R0). rewrite Rabs_pos_eq by exact Q1.
  eapply Rle_lt_trans; [exact Q2|]. eapply Rle_lt_trans; [apply Rle_abs|]. rewrite Rabs_mult, (Rmult_comm (Rabs k)). apply Rmult_lt_compat_r; [now apply Rabs_pos_lt|exact Q3].
Qed.
Lemma dot_line_r f n w p v s : dotP (NP f) (EP f) n w (padd (EP f) p v s) = dotP (NP f) (EP f) n w p + s * dotP (NP f) (EP f) n w v.
Proof.
  unfold dotP. rewrite <- rsum_scal, <- rsum_add. apply rsum_ext. intros [g h] I. cbn [fst snd]. apply in_combine_both in I as [_ I]. cbn [snd] in I. apply filter_In in I as [I X]. apply negb_true_iff in X.
  rewrite <- rsum_scal, <- rsum_add. apply rsum_ext. intros j _. unfold padd. rewrite (fixed_names (EP f) h I), X. ring.
Qed.
Lemma DV_rsum_ex {A} (l : list A) (g : A -> R -> R) w : (forall a, In a l -> exists d, DV (g a) (w a) d) -> exists d, DV (fun s => rsum (map (fun a => g a s) l)) (rsum (map w l)) d.
Proof.
  induction l as [|a l IH]; intros H; [exists 0; apply DV_const|]. destruct IH as [d D]; [intros; apply H; now right|]. destruct (H a (or_introl eq_refl)) as [e E]. exists (e + d). cbn [map rsum fold_right]. exact (DV_plus _ _ _ _ _ _ E D).
Qed.
Lemma dot_dv f n p v : nat_diff f n p v -> exists d, DV (fun s => dotP (NP f) (EP f) n (psub (natR n (padd (EP f) p v s) f) (natR n p f)) v) 0 d.
Proof.
  intros H. assert (Z : exists d, DV (fun s => dotP (NP f) (EP f) n (psub (natR n (padd (EP f) p v s) f) (natR n p f)) v) (dotP (NP f) (EP f) n (psub (natR n p f) (natR n p f)) v) d).
  { unfold dotP. apply DV_rsum_ex. intros [g h] I. cbn [fst snd]. apply in_combine_both in I as [I _]. cbn [fst] in I. apply filter_In in I as [I _]. unfold nat_diff in H. rewrite Forall_forall in H.
    apply DV_rsum_ex. intros j Hj. apply in_indices in Hj. destruct (H g I j Hj false) as [d D]. destruct (H g I j Hj true) as [e E]. eexists. unfold psub. eapply DV_minus; (eapply DV_mult; [eapply DV_minus; [eassumption|apply DV_const]|apply DV_const]). }
  destruct Z as [d Z]. exists d. eapply DV_eq; [exact Z| |reflexivity]. apply dotP_zero. reflexivity.
Qed.
Theorem kl_flat f n p v : closed_nat f = true -> dims_ok (EP f) n = true -> dims_ok (NP f) n = true -> exp_sym f n v -> exp_dom f n p ->
  DV (fun s => brR f n (natR n (padd (EP f) p v s) f) (natR n p f)) 0 0.
Proof.
  intros M D D' S H. destruct (dot_dv f n p v (nat_dv f n p v M H)) as [d Hd]. eapply DV_squeeze; [|exact Hd]. eapply filter_imp; [|exact (exp_open f n p v M S H)]. cbv beta. intros s Hs.
  pose proof (nat_ok f n _ M H) as N. pose proof (nat_ok f n _ M Hs) as Ns. pose proof (natR_im f n p M) as Z. pose proof (natR_im f n (padd (EP f) p v s) M) as Zs. pose proof (fix_nat f n p v s M) as Fx.
  pose proof (br_nonneg f n _ _ D' Ns N Zs Z Fx) as B1. pose proof (br_nonneg f n _ _ D' N Ns Z Zs (fix_sym _ _ _ _ Fx)) as B2. split; [exact B1|].
  unfold brR in B1, B2 |- *. rewrite (dot_ext_r f n _ _ _ (psub_real _ _ _ Z Zs) (exp_nat f n p M D H)) in B2. rewrite (dot_ext_r f n _ _ _ (psub_real _ _ _ Zs Z) (exp_nat f n _ M D Hs)) in B1 |- *.
  rewrite dot_line_r in *. rewrite !(dotP_psub (NP f)) in *. lra.
Qed.
(** ** the expected carrier measure along the line *)
Lemma ecm_dv f n p v : closed_nat f = true -> has_entropy_ep (EP f) = true -> exp_dom f n p -> exists d, DV (fun s => ecmR n (natR n (padd (EP f) p v s) f) f) (ecmR n (natR n p f) f) d.
Proof.
  intros M E H. destruct f; try discriminate M; try discriminate E; cbn [exp_dom] in H; unfold ecmR; try (exists 0; apply DV_const); mk; unfold csq_abs; cbn [fst snd]; adds.
  - eexists. dv.
  - eexists. dv.
  - eexists. dv; lra.
  - eexists. dv.
  - eexists. dv.
  - assert (0 < 1 / p false "chi" []) by (apply Rdiv_lt_0_compat; lra). assert (N : -1 / p false "chi" [] <> 0) by (unfold Rdiv in *; lra). eexists. dv; [lra|exact N|].
    replace (-1 / (-1 / p false "chi" [])) with (p false "chi" []) by (field; lra). lra.
  - destruct H as [H1 H]. assert (0 < 1 / p false "chi" []) by (apply Rdiv_lt_0_compat; lra). assert (N : -1 / p false "chi" [] <> 0) by (unfold Rdiv in *; lra). eexists. dv; [lra|exact N|].
    replace (-1 / (-1 / p false "chi" [])) with (p false "chi" []) by (field; lra). lra.
Qed.
