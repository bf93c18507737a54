(** The methods of the classes, at one batch element with parameters in the domain, compute the real closed forms of FamR.v. *)
From Coq Require Import String List Bool Arith Reals Lia Lra.
From Coquelicot Require Import Coquelicot.
From Verif Require Import Base XReal Tensor TensorFacts TensorFacts2 Support Dist DictFacts Iteration Spec SumSpec SpecFun Expr Fam ExprFacts FamTy PointSpec PointFacts DetFacts MatFacts Val MatVal FamR.
Import ListNotations.
Local Unset Asymmetric Patterns.
Local Open Scope string_scope.
Local Open Scope list_scope.
Local Open Scope R_scope.

Definition mat (f : family) : bool := match f with MultivariateNormal | ComplexCircularlySymmetricNormal => true | _ => false end.
Ltac vx := eapply VR_ext; [vr | ].
Ltac vcx := eapply VC_ext; [vr | ].
Ltac jj := intros j Hj; first [apply inb0 in Hj; subst j | destruct (inb1 _ _ Hj) as (k & -> & Hk)]; cbn beta iota; cbn [removelast hd app].
Lemma exp_lt1 x : x < 0 -> exp x < 1.
Proof. intros H. rewrite <- exp_0. now apply exp_increasing. Qed.
Lemma log1m_neg x : 0 < x < 1 -> ln (1 + - x) < 0.
Proof. intros H. rewrite <- ln_1. apply ln_increasing; lra. Qed.
Lemma sumR_shift n g c : sumR n (fun k => g k + c) = sumR n g + INR n * c.
Proof. rewrite sumR_plus, sumR_const. reflexivity. Qed.
Lemma sumsq_pos n (h : nat -> R) : (exists k, (k < n)%nat /\ h k <> 0) -> 0 < sumR n (fun k => h k * h k).
Proof.
  intros (k & K & H). apply Rlt_le_trans with (h k * h k); [pose proof (Rsqr_pos_lt _ H); exact H0|]. apply (sumR_term n (fun k => h k * h k)); [|exact K]. intros m _. pose proof (Rle_0_sqr (h m)). exact H0.
Qed.
(** multinomial: the log-sum-exp trick *)
Lemma lse m n h : (1 <= n)%nat -> m + ln (exp (- m) + exp (ln (sumR n (fun k => exp (h k - m))))) = ln (1 + sumR n (fun k => exp (h k))).
Proof.
  intros N. assert (P : 0 < sumR n (fun k => exp (h k - m))) by (apply sumR_pos; [intros; apply exp_pos|lia]). rewrite exp_ln by exact P.
  rewrite <- (ln_exp m) at 1. rewrite <- ln_mult by (pose proof (exp_pos (- m)); try apply exp_pos; lra). f_equal. rewrite Rmult_plus_distr_l, <- exp_plus, Rplus_opp_r, exp_0, <- sumR_scal. f_equal.
  apply sumR_ext. intros k _. rewrite <- exp_plus. f_equal. ring.
Qed.
Lemma lse_p m n h k : (1 <= n)%nat -> exp (h k - m - ln (exp (- m) + exp (ln (sumR n (fun k => exp (h k - m)))))) = exp (h k) / (1 + sumR n (fun k => exp (h k))).
Proof.
  intros N. replace (h k - m - ln (exp (- m) + exp (ln (sumR n (fun k => exp (h k - m)))))) with (h k + - (m + ln (exp (- m) + exp (ln (sumR n (fun k => exp (h k - m))))))) by ring.
  rewrite lse by exact N. rewrite exp_plus, exp_Ropp, exp_ln; [reflexivity|]. assert (0 < sumR n (fun k => exp (h k))) by (apply sumR_pos; [intros; apply exp_pos|lia]). lra.
Qed.
Section Multinomial.
  Variables (n : nat) (p : point).
  Hypothesis Hn : (1 <= n)%nat.
  Notation G := (ctx_of (NP Multinomial) n).
  Lemma max_q_val : exists m, VR G p max_q (Ev []) (fun _ => m).
  Proof.
    destruct (VR_amax G p (self "log_odds") n (fun j => p false "log_odds" j)) as (m & M); [vr|exact Hn|]. exists (Rmax 0 m). unfold max_q. eapply VR_ext; [eapply VR_max; [vr|exact M|alt_]|]. reflexivity.
  Qed.
  Lemma multinomial_ln : VR G p (eadd max_q log_scaled_a) (Ev []) (fun _ => lnR n p Multinomial).
  Proof.
    destruct max_q_val as (m & M). eapply VR_ext.
    - eapply VR_add; [exact M|unfold log_scaled_a; eapply VR_logaddexp; [eapply VR_neg; exact M|eapply VR_logsumexp; [unfold q_minus_max_q; eapply VR_sub; [vr|eapply VR_newaxis; exact M|alt_]|exact Hn]|alt_]|alt_].
    - intros j Hj. cbn beta. exact (lse m n (fun k => p false "log_odds" [k]) Hn).
  Qed.
  Lemma multinomial_exp : VR G p (jexp (esub q_minus_max_q (ENewaxis log_scaled_a))) (Ev [n]) (fun j => exp (p false "log_odds" j) / (1 + sumR n (fun k => exp (p false "log_odds" [k])))).
  Proof.
    destruct max_q_val as (m & M). assert (Q : VR G p q_minus_max_q (Ev [n]) (fun j => p false "log_odds" j - m)).
    { unfold q_minus_max_q. eapply VR_ext; [eapply VR_sub; [vr|eapply VR_newaxis; exact M|alt_]|]. reflexivity. }
    eapply VR_ext.
    - eapply VR_exp. eapply VR_sub; [exact Q|eapply VR_newaxis; unfold log_scaled_a; eapply VR_logaddexp; [eapply VR_neg; exact M|eapply VR_logsumexp; [exact Q|exact Hn]|alt_]|alt_].
    - intros j Hj. destruct (inb1 _ _ Hj) as (k & -> & Hk). cbn beta. exact (lse_p m n (fun k => p false "log_odds" [k]) k Hn).
  Qed.
End Multinomial.
Section GenDirichlet.
  Variables (n : nat) (p : point).
  Hypothesis Hd : nat_dom GeneralizedDirichlet n p.
  Notation G := (ctx_of (NP GeneralizedDirichlet) n).
  Lemma gd_alpha_val : VR G p gd_alpha (Ev [n]) (fun j => gdR_alpha p (hd 0%nat j)).
  Proof. unfold gd_alpha. vx. jj. reflexivity. Qed.
  Lemma gd_alpha_pos k : (k < n)%nat -> 0 < gdR_alpha p k.
  Proof. intros K. destruct (Hd k K). unfold gdR_alpha. lra. Qed.
  Lemma gd_beta_pos k : (k < n)%nat -> 0 < gdR_beta n p k.
  Proof.
    intros K. unfold gdR_beta. assert (0 <= sumR (S (n - 1 - k)) (fun m => p false "gamma" [(n - 1 - m)%nat])) by (apply sumR_nonneg; intros m M; destruct (Hd (n - 1 - m)%nat ltac:(lia)); cbn; lra).
    assert (0 <= sumR (n - 1 - k) (fun m => gdR_alpha p (n - 1 - m))) by (apply sumR_nonneg; intros m M; left; apply gd_alpha_pos; lia). lra.
  Qed.
  Lemma gd_beta_val : VR G p gd_beta (Ev [n]) (fun j => gdR_beta n p (hd 0%nat j)).
  Proof.
    eapply VR_ext.
    - unfold gd_beta. eapply VR_rev. eapply VR_add; [eapply VR_add; [eapply VR_cumsum; eapply VR_rev; vr|eapply VR_init; eapply VR_cumsum0; eapply VR_rev; exact gd_alpha_val|cbn [pred]; alt_]|vr|alt_].
    - jj. cbn [hd]. unfold gdR_beta. reflexivity.
  Qed.
  Lemma gd_bb_val : VR G p (jcumsum0 (esub (jdigamma gd_beta) (jdigamma (eadd gd_alpha gd_beta)))) (Ev [S n])
    (fun j => sumR (hd 0%nat j) (fun m => digamma (gdR_beta n p m) - digamma (gdR_alpha p m + gdR_beta n p m))).
  Proof.
    eapply VR_ext; [eapply VR_cumsum0; eapply VR_sub; [eapply VR_digamma; [exact gd_beta_val|]|eapply VR_digamma; [eapply VR_add; [exact gd_alpha_val|exact gd_beta_val|alt_]|]|alt_]|].
    - jj. now apply gd_beta_pos.
    - jj. pose proof (gd_alpha_pos k Hk). pose proof (gd_beta_pos k Hk). lra.
    - reflexivity.
  Qed.
End GenDirichlet.

(** the bounds within which to_exp of the logarithmic distribution uses its exact formula *)
Definition unclipped (f : family) (p : point) : Prop :=
  match f with Logarithmic => log_probability_floor <= p false "log_probability" [] <= log_probability_ceiling | _ => True end.

(** complex normal *)
Section ComplexNormal.
  Variables (n : nat) (p : point).
  Hypothesis Hd : nat_dom ComplexNormal n p.
  Notation G := (ctx_of (NP ComplexNormal) n).
  Lemma cn_np_neg : cnR_np p < 0. Proof. destruct Hd. exact H. Qed.
  Lemma cn_k_abs : csq_abs (cnR_k p) < 1 /\ csq_abs (cnR_r p) = csq_abs (cnR_k p).
  Proof.
    destruct Hd as [H1 H2]. cbn in H1, H2. unfold csq_abs, cnR_k, cnR_r, cnR_np, cpt, Copp. cbn [fst snd].
    set (a := p false "pseudo_precision" []) in *. set (b := p true "pseudo_precision" []) in *. set (c := p false "negative_precision" []) in *.
    split; [|field; lra]. replace (a / c * (a / c) + b / c * (b / c)) with ((a * a + b * b) / (c * c)) by (field; lra). apply Rmult_lt_reg_r with (c * c); [nra|]. unfold Rdiv. rewrite Rmult_assoc, Rinv_l by nra. lra.
  Qed.
  Lemma cn_r_val : VC G p cn_r (Ev []) (fun _ => cnR_r p).
  Proof. unfold cn_r. vcx; [jj; pose proof cn_np_neg; unfold cnR_np in *; lra|]. jj. reflexivity. Qed.
  Lemma cn_den : (csq_abs (cnR_k p) - 1) * cnR_np p <> 0.
  Proof. pose proof cn_np_neg. pose proof cn_k_abs. apply Rmult_integral_contrapositive. split; lra. Qed.
  Lemma cn_s_val : VR G p cn_s (Ev []) (fun _ => cnR_s p).
  Proof.
    unfold cn_s. eapply VR_ext; [eapply VR_div; [vr|eapply VR_mul; [eapply VR_sub; [eapply VR_abs_sq; exact cn_r_val|vr|alt_]|unfold cn_np; vr|alt_]|alt_|]|].
    - jj. rewrite (proj2 cn_k_abs). exact cn_den.
    - jj. reflexivity.
  Qed.
  Lemma cn_s_pos : 0 < cnR_s p.
  Proof.
    unfold cnR_s. rewrite (proj2 cn_k_abs). pose proof cn_np_neg. pose proof (proj1 cn_k_abs). apply Rdiv_lt_0_compat; [lra|]. nra.
  Qed.
  Lemma cn_k_val : VC G p (cdivr_ cn_pp cn_np) (Ev []) (fun _ => cnR_k p).
  Proof. unfold cn_pp, cn_np. vcx; [jj; pose proof cn_np_neg; unfold cnR_np in *; lra|]. jj. reflexivity. Qed.
  Lemma cn_mu_val : VC G p cn_mu (Ev []) (fun _ => cnR_mu p).
  Proof.
    assert (L : VC G p (cdivr_ (rscale (ENum (1 / 2)) (selfc "mean_times_precision")) (emul (esub (abs_sq (cdivr_ cn_pp cn_np)) (ENum 1)) cn_np)) (Ev []) (fun _ => cnR_l p)).
    { eapply VC_ext; [eapply VC_divr; [vr|eapply VR_mul; [eapply VR_sub; [eapply VR_abs_sq; exact cn_k_val|vr|alt_]|unfold cn_np; vr|alt_]|alt_|]|]; [jj; exact cn_den|jj; reflexivity]. }
    unfold cn_mu. eapply VC_ext; [eapply VC_sub; [eapply VC_conj; exact L|eapply VC_mul; [eapply VC_conj; exact cn_k_val|exact L|alt_]|alt_]|]. jj. reflexivity.
  Qed.
End ComplexNormal.

(** the two families whose parameters contain a matrix *)
Ltac j2 := intros j Hj; let a := fresh "a" in let b := fresh "b" in destruct (inb2 _ _ _ Hj) as (a & b & -> & Ha & Hb); cbn beta iota; cbn [removelast hd app nth].
Lemma rdet_neg_ne n m : rdet n (fun a b => - m a b) <> 0 -> rdet n m <> 0.
Proof. intros H E. apply H. rewrite rdet_opp, E. unfold alt. destruct (Nat.even n); ring. Qed.
Section MVN.
  Variables (n : nat) (p : point).
  Lemma mvn_ln : rdet n (fun a b => - p false "negative_half_precision" [a; b]%nat) <> 0 -> VR (ctx_of (NP MultivariateNormal) n) p (ln_e MultivariateNormal) (Ev []) (fun _ => lnR n p MultivariateNormal).
  Proof.
    intros N. pose proof (rdet_neg_ne n (fun a b => p false "negative_half_precision" [a; b]) N) as N'. cbn [ln_e]. pose proof PI_RGT_0.
    eapply VR_ext; [eapply VR_add; [eapply VR_sub; [eapply VR_mul; [vr|eapply VR_mat_dot; [eapply VR_inv; [vr|exact N']|eapply VR_outer; vr]|alt_]|eapply VR_mul; [vr|eapply VR_slogdet; [vr|exact N]|alt_]|alt_]|eapply VR_mul; [vr|vr|alt_]|alt_]|].
    - jj. lra.
    - jj. reflexivity.
  Qed.
  Lemma mvn_exp : nat_dom MultivariateNormal n p -> args_at (ctx_of (NP MultivariateNormal) n) p (expR n p MultivariateNormal) (exp_args MultivariateNormal) (ctx_of (EP MultivariateNormal) n).
  Proof.
    intros H. pose proof (spd_ne _ _ H) as N. pose proof (rdet_neg_ne n (fun a b => p false "negative_half_precision" [a; b]) N) as N'.
    unfold args_at, exp_args, ctx_of. cbn [map fields]. apply Forall2_cons; [|apply Forall2_cons; [|apply Forall2_nil]].
    - split; [reflexivity|]. split; [reflexivity|]. eapply VR_ext; [eapply VR_mul; [vr|eapply VR_mat_vec; [eapply VR_inv; [vr|exact N']|vr]|alt_]|]. jj. reflexivity.
    - split; [reflexivity|]. split; [reflexivity|]. eapply VR_ext; [eapply VR_sub; [eapply VR_mul; [vr|eapply VR_outer; (eapply VR_mat_vec; [eapply VR_inv; [vr|exact N']|vr])|alt_]|eapply VR_mul; [vr|eapply VR_inv; [vr|exact N']|alt_]|alt_]|].
      j2. reflexivity.
  Qed.
  Lemma mvn_nat l : exp_dom MultivariateNormal n p -> nat_args MultivariateNormal = Some l -> args_at (ctx_of (EP MultivariateNormal) n) p (natR n p MultivariateNormal) l (ctx_of (NP MultivariateNormal) n).
  Proof.
    intros H E. pose proof (spd_ne _ _ H) as N. injection E as <-.
    unfold args_at, ctx_of. cbn [map fields]. apply Forall2_cons; [|apply Forall2_cons; [|apply Forall2_nil]].
    - split; [reflexivity|]. split; [reflexivity|]. eapply VR_ext; [eapply VR_mat_vec; [eapply VR_inv; [eapply VR_sub; [vr|eapply VR_outer; vr|alt_]|exact N]|vr]|]. jj. reflexivity.
    - split; [reflexivity|]. split; [reflexivity|]. eapply VR_ext; [eapply VR_mul; [vr|eapply VR_inv; [eapply VR_sub; [vr|eapply VR_outer; vr|alt_]|exact N]|alt_]|]. j2. reflexivity.
  Qed.
  Lemma ccs_ln : 0 < fst (cdet n (fun a b => Copp (cpt p "negative_precision" [a; b]%nat))) -> VR (ctx_of (NP ComplexCircularlySymmetricNormal) n) p (ln_e ComplexCircularlySymmetricNormal) (Ev []) (fun _ => lnR n p ComplexCircularlySymmetricNormal).
  Proof.
    intros H. cbn [ln_e].
    eapply VR_ext; [eapply VR_add; [eapply VR_neg; eapply VR_log; [eapply VR_real; eapply VC_det; vr|]|vr|alt_]|].
    - jj. exact H.
    - jj. reflexivity.
  Qed.
  Lemma ccs_exp : nat_dom ComplexCircularlySymmetricNormal n p ->
    args_at (ctx_of (NP ComplexCircularlySymmetricNormal) n) p (expR n p ComplexCircularlySymmetricNormal) (exp_args ComplexCircularlySymmetricNormal) (ctx_of (EP ComplexCircularlySymmetricNormal) n).
  Proof.
    intros H. apply hpd_C in H. pose proof (hpd_det_ne _ _ H) as N. unfold args_at, exp_args, ctx_of. cbn [map fields]. apply Forall2_cons; [|apply Forall2_nil].
    split; [reflexivity|]. split; [reflexivity|]. eapply VC_ext; [eapply VC_conj; eapply VC_inv; [vr|exact N]|]. j2. reflexivity.
  Qed.
  Lemma ccs_nat l : exp_dom ComplexCircularlySymmetricNormal n p -> nat_args ComplexCircularlySymmetricNormal = Some l ->
    args_at (ctx_of (EP ComplexCircularlySymmetricNormal) n) p (natR n p ComplexCircularlySymmetricNormal) l (ctx_of (NP ComplexCircularlySymmetricNormal) n).
  Proof.
    intros H E. apply hpd_C in H. pose proof (hpd_det_ne _ _ H) as N. injection E as <-. unfold args_at, ctx_of. cbn [map fields]. apply Forall2_cons; [|apply Forall2_nil].
    split; [reflexivity|]. split; [reflexivity|]. eapply VC_ext; [eapply VC_neg; eapply VC_conj; eapply VC_inv; [vr|exact N]|]. j2. reflexivity.
  Qed.
End MVN.
(** where log_normalizer is finite: for the matrix families this is a wider set than the natural parameters, which need not even be symmetric there *)
Definition ln_dom (f : family) (n : nat) (p : point) : Prop :=
  match f with
  | MultivariateNormal => rdet n (fun a b => - p false "negative_half_precision" [a; b]%nat) <> 0
  | ComplexCircularlySymmetricNormal => 0 < fst (cdet n (fun a b => Copp (cpt p "negative_precision" [a; b]%nat)))
  | _ => nat_dom f n p
  end.
Lemma ln_dom_nat f n p : nat_dom f n p -> ln_dom f n p.
Proof.
  intros H. destruct f; try exact H; cbn [ln_dom].
  - cbn [nat_dom] in H. apply hpd_C in H. destruct (hpd_det _ _ H) as (r & R & E). change (0 < fst (cdet n (fun a b => (- p false "negative_precision" [a; b]%nat, - p true "negative_precision" [a; b]%nat)))). rewrite E. exact R.
  - exact (spd_ne _ _ H).
Qed.
Lemma ln_val_d f n p : dims_ok (NP f) n = true -> ln_dom f n p -> VR (ctx_of (NP f) n) p (ln_e f) (Ev []) (fun _ => lnR n p f).
Proof.
  intros D H. pose proof PI_RGT_0 as HPI. destruct f; try exact (mvn_ln n p H); try exact (ccs_ln n p H); cbn [ln_e]; cbn [ln_dom nat_dom] in H; cbn [dims_ok] in D.
  - vx. jj. reflexivity.
  - apply Nat.eqb_eq in D. subst n. destruct H as [_ H]. vx; [jj; specialize (H k Hk); lra| |jj; reflexivity]. jj. rewrite <- (Rmult_1_r (INR 2)), <- sumR_const, <- sumR_plus. apply sumR_pos; [|lia]. intros k K. specialize (H k K). lra.
  - vx; [jj; lra|jj; lra|]. jj. reflexivity.
  - vx; [jj; lra|jj; lra|]. jj. reflexivity.
  - vx. jj. reflexivity.
  - destruct H as [H1 H2]. assert (H : nat_dom ComplexNormal n p) by (split; assumption).
    eapply VR_ext; [eapply VR_add; [eapply VR_sub; [eapply VR_add; [eapply VR_sub; [eapply VR_mul; [eapply VR_neg; eapply VR_abs_sq; exact (cn_mu_val n p H)|unfold cn_np; vr|alt_]|
      eapply VR_real; eapply VC_mul; [eapply VC_sq; exact (cn_mu_val n p H)|unfold cn_pp; vr|alt_]|alt_]|eapply VR_mul; [vr|eapply VR_log; [exact (cn_s_val n p H)|]|alt_]|alt_]|
      eapply VR_mul; [vr|eapply VR_log; [unfold cn_np; vr|]|alt_]|alt_]|vr|alt_]|].
    + jj. exact (cn_s_pos n p H).
    + jj. lra.
    + jj. reflexivity.
  - vx. jj. reflexivity.
  - apply Nat.leb_le in D. destruct H as [_ H]. vx; [jj; specialize (H k Hk); lra| |jj; reflexivity]. jj. rewrite <- (Rmult_1_r (INR n)), <- sumR_const, <- sumR_plus. apply sumR_pos; [|lia]. intros k K. specialize (H k K). lra.
  - vx; [jj; lra|]. jj. reflexivity.
  - vx; [jj; lra|jj; lra|]. jj. reflexivity.
  - eapply VR_ext; [eapply VR_sum; eapply VR_betaln; [exact (gd_alpha_val n p)|exact (gd_beta_val n p)|alt_|]|jj; reflexivity]. jj. split; [now apply (gd_alpha_pos n)|now apply gd_beta_pos].
  - vx; [jj; pose proof (exp_lt1 _ H); lra|]. jj. reflexivity.
  - vx; [jj; pose proof (exp_lt1 _ H); lra| |]; jj.
    + pose proof (exp_lt1 _ H). pose proof (exp_pos (p false "log_probability" [])). pose proof (log1m_neg (exp (p false "log_probability" [])) ltac:(lra)). lra.
    + reflexivity.
  - apply Nat.leb_le in D. now apply multinomial_ln.
  - vx; [jj; specialize (H k Hk); lra|jj; specialize (H k Hk); lra| |]; jj.
    + specialize (H k Hk). replace (- PI / p false "negative_half_precision" [k]) with (PI / - p false "negative_half_precision" [k]) by (field; lra). apply Rdiv_lt_0_compat; lra.
    + reflexivity.
  - vx; [jj; nra|]. jj. reflexivity.
  - destruct H as [_ H]. vx; [jj; lra|jj; lra| |]; jj; [apply Rdiv_lt_0_compat; lra|]. reflexivity.
  - vx. jj. reflexivity.
  - destruct H as [H _]. vx; [jj; pose proof (exp_lt1 _ H); lra|]. jj. reflexivity.
  - vx; [jj; lra|jj; lra| |]; jj.
    + replace (- PI / p false "negative_half_precision" []) with (PI / - p false "negative_half_precision" []) by (field; lra). apply Rdiv_lt_0_compat; lra.
    + reflexivity.
  - vx. jj. reflexivity.
  - vx. jj. reflexivity.
  - vx; [jj; lra|]. jj. reflexivity.
  - assert (K : 0 < norm2 n p "mean_times_concentration") by (apply sqrt_lt_R0; now apply sumsq_pos).
    vx; [jj; exact K|jj; lra|jj; exact K|]. jj. reflexivity.
  - vx; [jj; lra|jj; lra|]. jj. reflexivity.
Qed.
Lemma ln_val f n p : dims_ok (NP f) n = true -> nat_dom f n p -> VR (ctx_of (NP f) n) p (ln_e f) (Ev []) (fun _ => lnR n p f).
Proof. intros D H. apply ln_val_d; [exact D|now apply ln_dom_nat]. Qed.
Lemma arg_R G p w nm e s : VR G p e (Ev s) (fun j => w false nm j) -> arg_at G p w (ra nm e) (nm, (KR, s)).
Proof. intros H. split; [reflexivity|]. split; [reflexivity|]. exact H. Qed.
Lemma arg_C G p w nm e s : VC G p e (Ev s) (fun j => (w false nm j, w true nm j)) -> arg_at G p w (ca nm e) (nm, (KC, s)).
Proof. intros H. split; [reflexivity|]. split; [reflexivity|]. exact H. Qed.
Ltac args1 := apply Forall2_cons; [first [apply arg_R | apply arg_C] | ].
Ltac argv := repeat args1; try apply Forall2_nil.
Lemma VR_where0 G p c a b τ (r : list nat -> R) : VR G p c τ (fun _ => 0) -> VR G p b τ r -> (exists s v, a = ENum v /\ τ = Ev s) \/ (exists v, V (k := KR) G p a τ v) -> VR G p (ewhere c a b) τ r.
Proof.
  intros (dc & Tc & Hc) (db & Tb & Hb) A. unfold ewhere. assert (X : exists τ2 d2, ty G KR a τ2 d2 /\ sub τ2 τ).
  { destruct A as [(s & v & -> & ->) | (v & d & T & _)]; [eexists _, _; split; [apply T_num|exact I]|]. eauto using sub_refl. }
  destruct X as (τ2 & d2 & T2 & S2). eexists. split; [eapply T_map3; [exact Tc|exact T2|exact Tb|apply sub_refl|exact S2|apply sub_refl|now left]|].
  intros j Hj. cbn beta. assert (B : bidx (evs τ) j = j) by now apply bidx_id. rewrite B, (Hc j Hj), (Hb j Hj). cbn [xeqb]. unfold reqb. destruct (Req_EM_T 0 0); [reflexivity|contradiction].
Qed.
(** f(x) < c as a 0/1 array *)
Lemma VR_test G p (F : xr -> bool) e τ r : VR G p e τ r -> (forall j, inb (evs τ) j = true -> F (Fin (r j)) = false) -> VR G p (r1 (fun v => efalse_true (F v)) e) τ (fun _ => 0).
Proof. intros (d & T & H) W. eexists. split; [eapply T_map; exact T|]. intros j Hj. cbn beta. rewrite (H j Hj), (W j Hj). reflexivity. Qed.
Lemma VR_where1 G p c a b n (r r0 : list nat -> R) : VR G p c (Ev [1%nat]) (fun _ => 0) -> VR G p a (Ev [n]) r0 -> VR G p b (Ev [n]) r -> VR G p (ewhere c a b) (Ev [n]) r.
Proof.
  intros (dc & Tc & Hc) (da & Ta & _) (db & Tb & Hb). unfold ewhere.
  eexists. split; [eapply T_map3; [exact Tc|exact Ta|exact Tb| |apply sub_refl|apply sub_refl|now left]|].
  - cbn. constructor; [now right|constructor].
  - intros j Hj. cbn beta. destruct (al_idx _ _ _ _ _ j (al_1n n) Hj) as (E1 & E2 & I1 & I2). rewrite E1, E2, (Hc _ I1), (Hb j Hj). cbn [xeqb]. unfold reqb. destruct (Req_EM_T 0 0); [reflexivity|contradiction].
Qed.
Lemma exp_val f n p : dims_ok (NP f) n = true -> nat_dom f n p -> unclipped f p ->
  args_at (ctx_of (NP f) n) p (expR n p f) (exp_args f) (ctx_of (EP f) n).
Proof.
  intros D H U. pose proof PI_RGT_0 as HPI. destruct f; try exact (mvn_exp n p H); try exact (ccs_exp n p H); cbn [nat_dom] in H; cbn [dims_ok] in D; cbn [unclipped] in U; unfold args_at, exp_args, ctx_of; cbn [map fields]; argv.
  - vx. jj. reflexivity.
  - apply Nat.eqb_eq in D. subst n. destruct H as [_ H]. vx; [jj; specialize (H k Hk); lra| |jj; reflexivity]. jj. rewrite <- (Rmult_1_r (INR 2)), <- sumR_const, <- sumR_plus. apply sumR_pos; [|lia]. intros m K. specialize (H m K). lra.
  - vx; [jj; lra|jj; lra|]. jj. reflexivity.
  - vx; [jj; lra|jj; lra|]. jj. reflexivity.
  - vcx. jj. reflexivity.
  - eapply VC_ext; [exact (cn_mu_val n p H)|]. jj. reflexivity.
  - eapply VR_ext; [eapply VR_add; [exact (cn_s_val n p H)|eapply VR_abs_sq; exact (cn_mu_val n p H)|alt_]|]. jj. reflexivity.
  - eapply VC_ext; [eapply VC_add; [eapply VC_conj; eapply VC_scale; [exact (cn_s_val n p H)|exact (cn_r_val n p H)|alt_]|eapply VC_sq; exact (cn_mu_val n p H)|alt_]|]. jj. reflexivity.
  - vcx. jj. reflexivity.
  - apply Nat.leb_le in D. destruct H as [_ H]. vx; [jj; specialize (H k Hk); lra| |jj; reflexivity]. jj. rewrite <- (Rmult_1_r (INR n)), <- sumR_const, <- sumR_plus. apply sumR_pos; [|lia]. intros m K. specialize (H m K). lra.
  - vx; [jj; lra|]. jj. reflexivity.
  - vx; [jj; lra|]. jj. reflexivity.
  - vx; [jj; lra|jj; lra|]. jj. reflexivity.
  - eapply VR_ext; [eapply VR_add; [eapply VR_sub; [eapply VR_digamma; [exact (gd_alpha_val n p)|]|eapply VR_digamma; [eapply VR_add; [exact (gd_alpha_val n p)|exact (gd_beta_val n p)|alt_]|]|alt_]|eapply VR_init; exact (gd_bb_val n p H)|alt_]|].
    + jj. now apply (gd_alpha_pos n).
    + jj. pose proof (gd_alpha_pos n p H k Hk). pose proof (gd_beta_pos n p H k Hk). lra.
    + jj. reflexivity.
  - eapply VR_ext; [change (supp_shape (fd_support (var "mean_log_cumulative_probability" (VectorS negative_support))) n) with [pred (S n)]; eapply VR_tail; exact (gd_bb_val n p H)|]. jj. reflexivity.
  - vx; [jj|]. { assert (0 < - p false "log_not_p" []) by lra. apply exp_increasing in H0. rewrite exp_0 in H0. lra. } jj. reflexivity.
  - eapply VR_where0; [eapply VR_test; [vr|]| |left; eauto].
    { jj. unfold xltb, rltb. destruct (Rlt_dec _ _); [lra|reflexivity]. }
    eapply VR_where0; [eapply VR_test; [vr|]| |right].
    { jj. unfold xltb, rltb. destruct (Rlt_dec _ _); [lra|reflexivity]. }
    { pose proof (exp_lt1 _ H). pose proof (exp_pos (p false "log_probability" [])). pose proof (log1m_neg (exp (p false "log_probability" [])) ltac:(lra)).
      vx; [jj; lra| |]; jj; [|reflexivity]. apply Rmult_integral_contrapositive. split; lra. }
    eexists. eapply (V_map (k1 := KR) (k2 := KR) _ _ (fun _ => PInf)); [eapply VR_self; reflexivity|]. reflexivity.
  - apply Nat.leb_le in D. eapply VR_ext; [exact (multinomial_exp n p D)|]. jj. reflexivity.
  - vx; [jj; specialize (H k Hk); lra|]. jj. reflexivity.
  - vx; [jj; specialize (H k Hk); lra|jj; specialize (H k Hk); lra|]. jj. reflexivity.
  - vx. jj. reflexivity.
  - vx. jj. reflexivity.
  - destruct H as [_ H]. vx; [jj; lra|]. jj. reflexivity.
  - destruct H as [_ H]. vx; [jj; lra|jj; lra|]. jj. reflexivity.
  - vx. jj. reflexivity.
  - destruct H as [H _]. vx; [jj|]. { assert (E : 0 < - p false "log_not_p" []) by lra. apply exp_increasing in E. rewrite exp_0 in E. lra. } jj. reflexivity.
  - vx. jj. reflexivity.
  - vx; [jj; lra|]. jj. reflexivity.
  - vx; [jj; lra|jj; lra|]. jj. reflexivity.
  - vx. jj. reflexivity.
  - vx. jj. reflexivity.
  - vx; [jj; lra|]. jj. reflexivity.
  - assert (K : 0 < norm2 n p "mean_times_concentration") by (apply sqrt_lt_R0; now apply sumsq_pos).
    eapply VR_where1; [eapply VR_test; [vr|]|vr|].
    + jj. unfold xeqb, reqb. destruct (Req_EM_T _ _) as [E|]; [|reflexivity]. unfold norm2, sumsq in K. lra.
    + vx; jj; [exact K| |reflexivity]. intros E. unfold norm2, sumsq in K. lra.
  - vx. jj. reflexivity.
  - vx; [jj; lra|]. jj. reflexivity.
Qed.
Lemma nat_val f n p l : dims_ok (EP f) n = true -> exp_dom f n p -> nat_args f = Some l ->
  args_at (ctx_of (EP f) n) p (natR n p f) l (ctx_of (NP f) n).
Proof.
  intros D H E. destruct f; try exact (mvn_nat n p l H E); try exact (ccs_nat n p l H E); cbn [exp_dom] in H; cbn [dims_ok] in D; cbn [nat_args] in E; try discriminate E; injection E as <-; unfold args_at, ctx_of; cbn [map fields].
  all: try (argv; vx; jj; try lra; try reflexivity; fail).
  all: try (argv; vcx; jj; try lra; try reflexivity; fail).
  - destruct H as [W U]. set (mr := p false "mean" []) in *. set (mi := p true "mean" []) in *. set (w := p false "second_moment" [] - (mr * mr + mi * mi)) in *.
    set (u := p false "pseudo_second_moment" [] - (mr * mr - mi * mi)) in *. set (u' := p true "pseudo_second_moment" [] - 2 * mr * mi) in *.
    assert (P : 0 < w - (u * u + u' * u') / w). { apply Rmult_lt_reg_r with w; [exact W|]. replace ((w - (u * u + u' * u') / w) * w) with (w * w - (u * u + u' * u')) by (field; lra). lra. }
    assert (Q : forall a b, a = w - (u * u + u' * u') / w -> csq_abs (a, b) <> 0). { intros a b ->. unfold csq_abs. cbn [fst snd]. apply Rgt_not_eq. pose proof (Rle_0_sqr b) as B. unfold Rsqr in B. assert (0 < (w - (u * u + u' * u') / w) * (w - (u * u + u' * u') / w)) by now apply Rmult_lt_0_compat. lra. }
    assert (S2 : forall a b : R, p false "second_moment" [] - csq_abs (a, b) = p false "second_moment" [] - (a * a + b * b)) by reflexivity.
    argv; (first [vcx | vx]; jj; try reflexivity; try (unfold csq_abs; cbn [fst snd]; fold mr mi; fold w; lra);
      match goal with |- csq_abs ?z <> 0 => rewrite (surjective_pairing z); apply Q end; unfold csq_abs, Cminus, Cconj, Cmult, RtoC, Copp, Cplus; cbn [fst snd]; fold mr mi; fold w; unfold u, u'; field; lra).
  - argv. vx; [jj; lra|jj|jj; reflexivity]. assert (0 < 1 / p false "mean" []) by (apply Rdiv_lt_0_compat; lra). lra.
  - argv. destruct H as [H1 H2]. vx; [jj; lra| |jj; reflexivity]. jj. apply Rdiv_lt_0_compat; [now apply H1|lra].
  - argv; vx; jj; try reflexivity; specialize (H k Hk); lra.
  - destruct H as [N H]. assert (0 < INR n) by (apply lt_0_INR; lia). assert (0 < (p false "total_second_moment" [] - sumR n (fun k => p false "mean" [k] * p false "mean" [k])) / INR n) by (apply Rdiv_lt_0_compat; lra).
    argv; vx; jj; try reflexivity; lra.
  - argv; [|vx; jj; reflexivity]. destruct H as [H (k & F)]. vx; [jj; lra|jj|jj; reflexivity]. assert (0 < p false "failures" [] / p false "mean" []) by (apply Rdiv_lt_0_compat; [rewrite F; apply lt_0_INR; lia|lra]). lra.
Qed.
