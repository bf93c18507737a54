(** C26: the mean of the sufficient statistics gives the maximum likelihood estimate. *)
From Coquelicot Require Import Coquelicot.
From Coq Require Import String List Bool Arith Reals Lia Lra.
From Verif Require Import Base XReal Tensor TensorFacts TensorFacts2 Support Dist DictFacts Iteration Structure Spec StructFacts AssembleFacts ParamFacts SumSpec DotSpec Tools
  ToolThms Joint StructThms FlattenThms MapFacts SumFacts JointThms JointThms2 LogPdfThms SpecFun GammaFn Expr Fam ExprFacts FamTy FamFacts SearchFacts DotFacts Laws DotLaws BatchFacts BatchThms PointSpec PointFacts Val FamR FamVal ConvFacts LeafVal ConvThms DerivFacts MatDeriv MatHess MatBreg DerivThms
  BregFacts BregThms KlSpec KlPos InjThms DensSpec DensVal DensThms VarSpec RootThms MleSpec.
Import ListNotations.
Local Unset Asymmetric Patterns.
Local Open Scope string_scope.
Local Open Scope R_scope.

(** ** parameter_mean *)
Lemma mean_ok d axis infos : well_formed d = true -> create d = Ok infos ->
  (forall p v, param_at d p = Some v -> exists w, arr_mean axis v = Ok w) ->
  exists r, parameter_mean d axis = Ok r /\ well_formed r = true /\ no_custom_minimizer r = true /\ same_skeleton d r /\
    forall p, param_at r p = match param_at d p with Some v => match arr_mean axis v with Ok w => Some w | Err _ => None end | None => None end.
Proof.
  intros Hwf Hc Hk. unfold parameter_mean. destruct (params_total d None Hwf) as [P HP]. destruct (params_listed d None P Hwf HP) as [Hn L].
  rewrite Hc. cbn [bind]. rewrite HP. cbn [bind].
  assert (Hq : exists Q, mapM (fun kv : path * arr => let* v := arr_mean axis (snd kv) in Ok (fst kv, v)) P = Ok Q).
  { apply mapM_exists. intros [p v] Hi. apply L in Hi as [Hv _]. destruct (Hk p v Hv) as [w Hw]. exists (p, w). cbn [fst snd]. now rewrite Hw. }
  destruct Hq as [Q HQ]. rewrite HQ. cbn [bind].
  apply mapM_Forall2 in HQ.
  assert (HQk : keys Q = keys P).
  { clear -HQ. induction HQ as [|[p v] [p' w] P Q H _ IH]; [reflexivity|]. cbn [fst snd] in H. destruct (arr_mean axis v); cbn in H; [|discriminate].
    injection H as <- <-. change (p :: keys Q = p :: keys P). now rewrite IH. }
  assert (HnQ : NoDup (keys Q)) by (change (NoDup (map fst Q)); change (map fst Q = keys P) in HQk; rewrite HQk; exact Hn). rewrite (dict_of_nodup Q HnQ).
  assert (HQg : forall p v, param_at d p = Some v -> exists w, arr_mean axis v = Ok w /\ dget Q p = Some w).
  { intros p v Hv. destruct (param_field d p v Hwf Hv) as [f Hf].
    assert (Hi : In (p, v) P) by (apply L; split; [exact Hv|exists f; auto]).
    destruct (Forall2_in_l _ _ _ _ HQ Hi) as ([p' w] & HiQ & HE). cbn [fst snd] in HE. destruct (arr_mean axis v) as [w'|] eqn:E; cbn in HE; [|discriminate].
    injection HE as <- <-. exists w'. split; [reflexivity|]. apply In_dget; [exact HnQ|exact HiQ]. }
  destruct (assemble_dict d infos Q Hwf Hc) as (r & R1 & R2 & R3 & R4 & R5).
  { intros p f Hf. destruct (field_param d p f Hwf Hf) as [v Hv]. destruct (HQg p v Hv) as (w & _ & Hw). eauto. }
  exists r. split; [exact R1|]. split; [exact R2|]. split; [exact R3|]. split; [exact R4|].
  intros p. rewrite R5. destruct (param_at d p) as [v|] eqn:E; [|reflexivity]. destruct (HQg p v E) as (w & Hw & ->). now rewrite Hw.
Qed.
Lemma arr_mean_ok N s v : ashape v = (N :: s)%list -> exists w, arr_mean 0 v = Ok w.
Proof. destruct v as [t|t]; cbn [ashape arr_mean]; intros E; [unfold tmean_axis|unfold cmean_axis]; unfold rank; rewrite E; cbn; eauto. Qed.
Lemma xsum_Fin (g : nat -> R) l : xsum (map (fun k => Fin (g k)) l) = Fin (fold_right Rplus 0 (map g l)).
Proof. induction l as [|a l IH]; [reflexivity|]. cbn [map fold_right]. change (xadd (Fin (g a)) (xsum (map (fun k => Fin (g k)) l)) = Fin (g a + fold_right Rplus 0 (map g l))). rewrite IH. reflexivity. Qed.
Lemma xsum_get N (h : nat -> xr) g : (forall k, (k < N)%nat -> h k = Fin (g k)) -> xsum (map h (seq 0 N)) = Fin (sumR N g).
Proof. intros H. unfold sumR. rewrite <- xsum_Fin. f_equal. apply map_ext_in. intros k Hk. apply in_seq in Hk. apply H. lia. Qed.
Lemma mean_entry N s v w i (g : nat -> bool -> R) : ashape v = (N :: s)%list -> inb s i = true -> (0 < N)%nat -> arr_mean 0 v = Ok w ->
  (forall k, (k < N)%nat -> entry_c v (k :: i) = XC (Fin (g k false)) (Fin (g k true))) ->
  entry_c w i = XC (Fin (sumR N (fun k => g k false) / INR N)) (Fin (sumR N (fun k => g k true) / INR N)).
Proof.
  intros E Hi Hn M H. assert (Nz : INR N <> 0) by (apply not_0_INR; lia).
  assert (D : forall x, xdiv (Fin x) (Fin (INR N)) = Fin (x / INR N)) by (intros x; cbn; destruct (Req_EM_T (INR N) 0); [contradiction|reflexivity]).
  destruct v as [t|t]; cbn [ashape arr_mean] in *; [unfold tmean_axis in M|unfold cmean_axis in M]; unfold rank in M; rewrite E in M; cbn [length Nat.leb firstn skipn app rmap nth] in M; injection M as <-; cbn [entry_c] in *.
  - rewrite tget_tbuild by exact Hi. rewrite (xsum_get N _ (fun k => g k false)) by (intros k Hk; specialize (H k Hk); now injection H). rewrite D. unfold cofr in *. f_equal.
    rewrite (sumR_zero N (fun k => g k true)); [f_equal; field; exact Nz|]. intros k Hk. specialize (H k Hk). now injection H.
  - rewrite tget_tbuild by exact Hi. assert (C : forall l, (forall k, In k l -> (k < N)%nat) -> csum (map (fun k => tget t (k :: i)) l) = XC (Fin (fold_right Rplus 0 (map (fun k => g k false) l))) (Fin (fold_right Rplus 0 (map (fun k => g k true) l)))).
    { induction l as [|k l IH]; intros Hl; [reflexivity|]. cbn [map fold_right]. change (cadd (tget t (k :: i)) (csum (map (fun k => tget t (k :: i)) l)) = XC (Fin (g k false + fold_right Rplus 0 (map (fun k => g k false) l))) (Fin (g k true + fold_right Rplus 0 (map (fun k => g k true) l)))).
      rewrite IH by (intros; apply Hl; now right). rewrite (H k) by (apply Hl; now left). reflexivity. }
    rewrite C by (intros k Hk; apply in_seq in Hk; lia). unfold cdivr. cbn [xre xim]. now rewrite !D.
Qed.

(** ** one distribution *)
Definition meanP (N : nat) (y : nat -> point) : point := fun c nm j => sumR N (fun k => y k c nm j) / INR N.
Lemma dot_plus_r c e n v x y : dotP c e n v (fun k nm j => x k nm j + y k nm j) = dotP c e n v x + dotP c e n v y.
Proof. unfold dotP. rewrite <- rsum_add. apply rsum_ext. intros [g h] _. cbn [fst snd]. rewrite <- rsum_add. apply rsum_ext. intros j _. ring. Qed.
Lemma rsum_scal {A} c (g : A -> R) l : rsum (map (fun a => c * g a) l) = c * rsum (map g l).
Proof. induction l as [|a l IH]; cbn [map rsum]; [ring|]. rewrite IH. ring. Qed.
Lemma dot_scal_r c e n v r x : dotP c e n v (fun k nm j => r * x k nm j) = r * dotP c e n v x.
Proof. unfold dotP. rewrite <- rsum_scal. apply rsum_ext. intros [g h] _. cbn [fst snd]. rewrite <- rsum_scal. apply rsum_ext. intros j _. ring. Qed.
Lemma dot_sum_r c e n v N y : dotP c e n v (fun k nm j => sumR N (fun m => y m k nm j)) = sumR N (fun m => dotP c e n v (y m)).
Proof.
  induction N as [|N IH].
  - unfold dotP. rewrite sumR_0. apply rsum_0. intros [g h] _. apply rsum_0. intros j _. rewrite !sumR_0. ring.
  - rewrite sumR_S, <- IH, <- dot_plus_r. unfold dotP. apply rsum_ext. intros [g h] _. apply rsum_ext. intros j _. now rewrite !sumR_S.
Qed.
Lemma dot_mean c e n v N y : (0 < N)%nat -> INR N * dotP c e n v (meanP N y) = sumR N (fun m => dotP c e n v (y m)).
Proof.
  intros Hn. assert (Nz : INR N <> 0) by (apply not_0_INR; lia). rewrite <- dot_sum_r. transitivity (INR N * dotP c e n v (fun k nm j => / INR N * sumR N (fun m => y m k nm j))).
  - f_equal. unfold dotP, meanP. apply rsum_ext. intros [g h] _. apply rsum_ext. intros j _. unfold Rdiv. ring.
  - rewrite dot_scal_r. field. exact Nz.
Qed.
Lemma dot_sub_l c e n p q x : dotP c e n (psub q p) x = dotP c e n q x - dotP c e n p x.
Proof.
  assert (E : dotP c e n q x = dotP c e n p x + dotP c e n (psub q p) x); [|lra]. unfold dotP. rewrite <- rsum_add. apply rsum_ext. intros [g h] _. cbn [fst snd]. rewrite <- rsum_add. apply rsum_ext. intros j _. unfold psub. ring.
Qed.
Lemma ss_fix f n p p' x v : fix_eq (NP f) n p p' -> cmR n p x f = cmR n p' x f /\ dotP (NP f) (EP f) n v (ssR n p x f) = dotP (NP f) (EP f) n v (ssR n p' x f).
Proof.
  intros H. unfold fix_eq in H. destruct f; try (split; reflexivity); cbn [fields] in H.
  all: repeat (match goal with H : Forall _ (_ :: _) |- _ => inversion H; clear H; subst end).
  all: repeat match goal with H : fd_fixed _ = true -> _ |- _ => first [specialize (H eq_refl)|clear H] end; match goal with H : pt_field _ _ _ _ |- _ => destruct (H [] eq_refl) as [E _]; cbn [fd_name fixd var] in E end.
  all: split; cbn [cmR ssR]; dots; mk; cbv zeta; rewrite ?E; try reflexivity.
Qed.
Lemma fix_trans c n p q r : fix_eq c n p q -> fix_eq c n q r -> fix_eq c n p r.
Proof. unfold fix_eq. rewrite !Forall_forall. intros A B g I F j Hj. destruct (A g I F j Hj) as [A1 A2], (B g I F j Hj) as [B1 B2]. split; [congruence|]. intros K. rewrite (A2 K). auto. Qed.
Lemma psub_real c p q : real_im c p -> real_im c q -> real_im c (psub q p).
Proof. intros A B g j I K. unfold psub. rewrite (A g j I K), (B g j I K). ring. Qed.
(** the log-likelihoods of p and q differ by N times the Bregman divergence *)
Lemma mle_gap f n N p q (p0 : nat -> point) (x : nat -> obs) : (0 < N)%nat -> real_im (NP f) p -> real_im (NP f) q -> fix_eq (NP f) n p q -> (forall k, (k < N)%nat -> fix_eq (NP f) n (p0 k) p) ->
  pt_eq (EP f) n (expR n p f) (meanP N (fun k => ssR n (p0 k) (x k) f)) ->
  sumR N (fun k => lpR n p (x k) f) - sumR N (fun k => lpR n q (x k) f) = INR N * brR f n p q.
Proof.
  intros Hn Zp Zq Fq F0 E. rewrite <- sumR_minus. unfold brR. rewrite (dot_ext_r f n _ _ _ (psub_real _ _ _ Zp Zq) E).
  rewrite Rmult_minus_distr_l, dot_mean by exact Hn.
  rewrite (sumR_ext N (fun k => lpR n p (x k) f - lpR n q (x k) f) (fun k => (lnR n q f - lnR n p f) - dotP (NP f) (EP f) n (psub q p) (ssR n (p0 k) (x k) f))).
  - rewrite sumR_minus, sumR_const. reflexivity.
  - intros k Hk. unfold lpR. rewrite dot_sub_l.
    rewrite (proj2 (ss_fix f n _ _ (x k) q (F0 k Hk))), (proj2 (ss_fix f n _ _ (x k) p (F0 k Hk))), (proj2 (ss_fix f n _ _ (x k) q Fq)), (proj1 (ss_fix f n _ _ (x k) q Fq)). ring.
Qed.
Lemma getitem_obs N b i k q0 q a ak xv n s : observed (N :: b) (k :: i) q0 a xv -> inb b i = true -> (k < N)%nat -> dims_of q0 = Ok n -> dims_of q = Ok n ->
  domain_support (dcls q0) = Some s -> dcls q = dcls q0 -> arr_getitem [k] a = Ok ak -> observed b i q ak xv.
Proof.
  intros [(n' & s' & D' & S' & Sh & Kd) V] Hi Hk D0 D S C Ga. assert (n' = n) by congruence. assert (s' = s) by congruence. subst n' s'.
  unfold arr_getitem in Ga. rewrite Sh in Ga. cbn [length app firstn] in Ga. assert (Kin : inb [N] [k] = true). { cbn [inb]. rewrite (proj2 (Nat.ltb_lt k N) Hk). reflexivity. } rewrite Kin in Ga. injection Ga as <-.
  split.
  - exists n, s. split; [exact D|]. split; [now rewrite C|]. destruct a as [t|t]; cbn [ashape] in *; (split; [|exact Kd]); unfold tsub; rewrite Sh; reflexivity.
  - intros n' s' j En Es Hj. assert (n' = n) by congruence. assert (s' = s) by congruence. subst n' s'. rewrite <- (V n s j D0 S Hj).
    assert (Hij : inb (b ++ supp_shape s n) (i ++ j) = true) by (rewrite inb_app by (now apply inb_length); now rewrite Hi, Hj).
    destruct a as [t|t]; cbn [ashape entry_c] in *; unfold tsub; rewrite Sh; cbn [length skipn]; rewrite tget_tbuild by exact Hij; reflexivity.
Qed.
(** ** trees *)
Lemma skel_obs d : forall e x, well_formed d = true -> well_formed e = true -> same_skeleton d e -> obs_matches d x -> obs_matches e x.
Proof.
  induction d as [c m ps subs IH] using dist_rect'. intros [c' m' ps' subs'] x W W' Sk H. pose proof (wf_inv _ _ _ _ W) as (_ & Hj & _ & Hs). pose proof (wf_inv _ _ _ _ W') as (_ & _ & _ & Hs'). apply skel_inv in Sk as (<- & Hm & Hsk).
  cbn [obs_matches] in *. destruct (is_joint c) eqn:J; [|exact H]. destruct x as [|kvs]; [exact H|]. destruct H as (H1 & H2 & H3). split; [exact H1|]. rewrite <- Hm. split; [exact H2|].
  destruct (Hj eq_refl) as [_ Nd]. pose proof (skel_subs subs subs' Nd Hm Hsk) as F. clear H2 Hm Hsk Nd Hj W W'. induction F as [|[n s] [n' s'] l l' [E1 E2] _ IHF]; [exact Logic.I|].
  cbn [fst snd] in *. subst n'. inversion IH as [|? ? I1 I2]. inversion Hs as [|? ? S1 S2]. inversion Hs' as [|? ? S1' S2']. subst. destruct H3 as [H3 H4]. split; [|now apply IHF]. destruct (dget kvs n) as [y|]; [now apply (I1 s')|exact H3].
Qed.
Lemma fin_choice {A} (a0 : A) N (P : nat -> A -> Prop) : (forall k, (k < N)%nat -> exists x, P k x) -> exists g, forall k, (k < N)%nat -> P k (g k).
Proof.
  induction N as [|N IH]; intros H; [exists (fun _ => a0); intros; lia|]. destruct IH as [g Hg]; [intros; apply H; lia|]. destruct (H N ltac:(lia)) as [x Hx].
  exists (fun k => if Nat.eqb k N then x else g k). intros k Hk. destruct (Nat.eqb_spec k N) as [->|]; [exact Hx|]. apply Hg. lia.
Qed.
Lemma sumR_rsum {A} N (F : A -> nat -> R) l : sumR N (fun k => rsum (map (fun a => F a k) l)) = rsum (map (fun a => sumR N (F a)) l).
Proof. induction l as [|a l IH]; cbn [map rsum]; [rewrite sumR_zero; auto|]. rewrite sumR_plus, IH. reflexivity. Qed.
Lemma rsum_sub {A} (F G : A -> R) l : rsum (map F l) - rsum (map G l) = rsum (map (fun a => F a - G a) l).
Proof. induction l as [|a l IH]; cbn [map rsum]; [ring|]. rewrite <- IH. ring. Qed.
Section T.
  Variable solve : minimizer -> dist -> nat -> xr.
  Notation L := (fam_methods solve).
  Notation G := (fam_good solve).
  Variables (N : nat) (b i : list nat) (q0 p q : dist) (x : nested arr) (xs : nat -> nested arr).
  Definition leaf_ll (d : dist) (pl : path * dist) (k : nat) : result (tensor xr) :=
    match nested_get (xs k) (fst pl) with Some a => log_pdf L (leafat d (fst pl)) (Leaf a) | None => Err KeyError end.
  Definition leaf_llR d pl k : R := toR (entry (leaf_ll d pl k) i).
  Theorem t_mle : well_formed q0 = true -> nat_tree q0 = true -> shaped (N :: b) q0 = true -> obs_matches q0 x -> obs_shaped (N :: b) q0 x -> inb b i = true ->
    (forall k, (k < N)%nat -> tree_in_domain q0 (k :: i)) -> data_in_domain N b i q0 x -> rows N p x xs ->
    well_formed p = true -> well_formed q = true -> nat_tree p = true -> same_skeleton p q -> tree_match b p q ->
    tree_in_domain p i -> tree_in_domain q i -> not_clipped p i -> same_fixed_at b i p q -> stacked_fixed N i q0 p ->
    exists est s m, create_estimator_from_natural q0 = Ok est /\ mle_sufficient_statistics L est x = Ok s /\ parameter_mean s 0 = Ok m /\
      forall e, to_exp L p = Ok e -> same_at b i e m ->
        exists lp lq : nat -> R, (forall k, (k < N)%nat -> log_likelihood L b i p (xs k) (lp k) /\ log_likelihood L b i q (xs k) (lq k)) /\
          sumR N lq <= sumR N lp /\ ((0 < N)%nat -> (sumR N lq = sumR N lp <-> same_at b i p q)).
  Proof.
    intros W0 N0 S0 O0 Os0 Hi H0 HX Rw W Wq Np Sk T H Hq U Fx St.
    destruct (mle_tree L G (N :: b) q0 x W0 N0 S0 O0 Os0) as (est & s & E1 & E2 & E3 & E4 & E5 & E6).
    destruct (tm_shaped (N :: b) q0 s W0 E3 E5) as [_ Ss]. destruct (create_shaped (N :: b) s E3 Ss) as [infos Hc].
    destruct (mean_ok s 0 infos E3 Hc) as (m & M1 & M2 & _ & M4 & M5).
    { intros pt v Hv. destruct (shaped_param (N :: b) s pt v E3 Ss Hv) as (s' & Hs'). exact (arr_mean_ok N _ v Hs'). }
    exists est, s, m. split; [exact E1|]. split; [exact E2|]. split; [exact M1|]. intros e Ee Sm.
    destruct (tm_shaped b p q W Wq T) as [S Sq]. assert (Nq : nat_tree q = true) by (now apply (skel_all is_nat p q)).
    assert (Px : map fst (leaves [] p) = map fst (leaves [] q)) by exact (F2_paths _ _ _ T).
    assert (P0 : map fst (leaves [] q0) = map fst (leaves [] p)) by exact (F2_paths _ _ _ St).
    destruct (t_kl_value solve b i p q W Wq Np Sk T Hi H Hq U) as (Lf & t & T1 & T2 & T3).
    destruct (t_kl solve b i p q W Wq Np Sk T Hi H Hq U Fx) as (t' & k & T1' & T2' & T3' & T4 & T5). rewrite T1 in T1'. injection T1' as <-. rewrite T3 in T3'. injection T3' as Ek. subst k.
    assert (Xl : forall pth l, In (pth, l) (leaves [] p) -> same_fixed_leaf_at b i l (leafat q pth)).
    { intros pth l I. unfold same_fixed_at in Fx. rewrite (leaves_by_path p q Wq Px) in Fx. revert I Fx. clear. generalize (leaves [] p). induction l0 as [|a m IH]; intros I X; [destruct I|]. cbn [map] in X. inversion X; subst. destruct I as [->|I]; auto. }
    destruct (g_exp_tree L G b p W Np S) as (e' & F1 & F2 & F3 & _ & F5 & F6). rewrite Ee in F1. injection F1 as <-.
    assert (Lv : forall pl, In pl (leaves [] p) -> (forall k, (k < N)%nat -> entry (leaf_ll p pl k) i = Fin (leaf_llR p pl k) /\ entry (leaf_ll q pl k) i = Fin (leaf_llR q pl k)) /\
      ((0 < N)%nat -> sumR N (leaf_llR p pl) - sumR N (leaf_llR q pl) = INR N * kl_leaf_R i q pl)).
    { intros [pth l] I. destruct (Lf pth l I) as (f & n & Cf & Fn & A & K & A' & K'). set (l' := leafat q pth) in *.
      destruct (F2_in_r _ _ _ _ St I) as ([pth0 l0] & I0 & Ep & Ec & Ed & Ef). cbn [fst snd] in Ep, Ec, Ed, Ef. subst pth0. destruct (leaf_wf q0 [] pth l0 W0 I0) as [Wl0 _].
      pose proof (shaped_in _ q0 pth l0 S0 I0) as Sl0. destruct (obs_get q0 x [] pth l0 W0 O0 I0) as (r & a & Er & Ga). cbn [app] in Er. subst r.
      assert (Dl : dims_of l = Ok n) by exact (ap_dims _ _ _ _ _ _ A). assert (Dl0 : dims_of l0 = Ok n) by congruence. assert (C0 : dcls l0 = NP f) by congruence.
      destruct (fin_choice (fun _ _ => 0) N (fun k xv => observed (N :: b) (k :: i) l0 a xv /\ sample_space f n xv)) as [X HXk].
      { intros k Hk. exact (HX k pth l0 f n a Hk I0 C0 Dl0 Ga). }
      assert (Ki : forall k, (k < N)%nat -> inb (N :: b) (k :: i) = true) by (intros k Hk; cbn [inb]; rewrite (proj2 (Nat.ltb_lt k N) Hk); exact Hi).
      assert (A0 : forall k, (k < N)%nat -> at_pt (N :: b) (k :: i) l0 (NP f) n (point_of l0 (k :: i)) /\ nat_dom f n (point_of l0 (k :: i))).
      { intros k Hk. destruct (nat_dom_at (N :: b) (k :: i) l0 f (Ki k Hk) C0 Wl0 Sl0 (H0 k Hk pth l0 I0)) as (n' & B & B'). assert (n' = n) by (pose proof (ap_dims _ _ _ _ _ _ B); congruence). subst n'. auto. }
      assert (LD : forall d, at_pt b i d (NP f) n (point_of d i) -> nat_dom f n (point_of d i) -> forall k, (k < N)%nat ->
        exists ak t, nested_get (xs k) pth = Some ak /\ log_pdf L d (Leaf ak) = Ok t /\ tget t i = Fin (lpR n (point_of d i) (X k) f)).
      { intros d B B' k Hk. destruct (Rw k Hk) as [_ Rk]. destruct (Rk pth a Ga) as (ak & G1 & G2). exists ak. destruct (HXk k Hk) as [X1 X2].
        pose proof X1 as ((n1 & s1 & _ & Ds & _) & _).
        destruct (log_pdf_at solve b i d f n ak (X k)) as (t0 & L1 & L2 & L3); try exact (ap_wf _ _ _ _ _ _ B); try exact (ap_shaped _ _ _ _ _ _ B); try exact (ap_cls _ _ _ _ _ _ B); try exact (ap_dims _ _ _ _ _ _ B); auto.
        - exact (at_pt_fin b i d (NP f) n _ B).
        - apply (getitem_obs N b i k l0 d a ak (X k) n s1); auto; [exact (ap_dims _ _ _ _ _ _ B)|pose proof (ap_cls _ _ _ _ _ _ B); congruence].
        - exists t0. auto. }
      assert (Lp : leafat p pth = l) by (apply (leaf_in p pth l W) in I as [I _]; unfold leafat; now rewrite I).
      assert (Vp : forall k, (k < N)%nat -> entry (leaf_ll p (pth, l) k) i = Fin (lpR n (point_of l i) (X k) f)).
      { intros k Hk. destruct (LD l A K k Hk) as (ak & t0 & Q1 & Q2 & Q3). unfold leaf_ll. cbn [fst]. rewrite Q1, Lp, Q2. exact Q3. }
      assert (Vq : forall k, (k < N)%nat -> entry (leaf_ll q (pth, l) k) i = Fin (lpR n (point_of l' i) (X k) f)).
      { intros k Hk. destruct (LD l' A' K' k Hk) as (ak & t0 & Q1 & Q2 & Q3). unfold leaf_ll. cbn [fst]. fold l'. rewrite Q1, Q2. exact Q3. }
      split.
      { intros k Hk. unfold leaf_llR. rewrite (Vp k Hk), (Vq k Hk). auto. }
      intros Hn. rewrite (sumR_ext N (leaf_llR p (pth, l)) (fun k => lpR n (point_of l i) (X k) f)) by (intros k Hk; unfold leaf_llR; now rewrite (Vp k Hk)).
      rewrite (sumR_ext N (leaf_llR q (pth, l)) (fun k => lpR n (point_of l' i) (X k) f)) by (intros k Hk; unfold leaf_llR; now rewrite (Vq k Hk)).
      unfold kl_leaf_R. cbn [fst snd]. rewrite Fn. fold l'. apply (mle_gap f n N _ _ (fun k => point_of l0 (k :: i))); auto.
      - exact (real_im_at b i l _ _ _ A).
      - exact (real_im_at b i l' _ _ _ A').
      - exact (fix_leaf b i _ _ f n Hi A A' (Xl pth l I)).
      - intros k Hk. destruct (A0 k Hk) as [B B']. apply Forall_forall. intros g Ig Fg j Hj. destruct (ap_get _ _ _ _ _ _ g B Ig) as (v0 & V1 & _ & _). destruct (ap_get _ _ _ _ _ _ g A Ig) as (v & V2 & _ & _).
        assert (Ig' : In g (fields (dcls l))) by (rewrite Cf; exact Ig). specialize (Ef k g v0 v j Hk Ig' Fg V1 V2). unfold point_of. rewrite V1, V2. change ((k :: i) ++ j)%list with (k :: i ++ j)%list. rewrite Ef. auto.
      - (* the mean of the statistics *)
        destruct (F2_in _ _ _ _ F6 I) as ([p1 l1] & I1 & Q1 & Q2). cbn [fst snd] in Q1, Q2. subst p1.
        destruct (exp_at solve b i l f n _ Hi A K (clip_leaf p i pth l f U I Cf)) as (r & R1 & R2). rewrite Q2 in R1. injection R1 as <-.
        destruct (F2_in _ _ _ _ Sm I1) as ([p3 ml] & I3 & Q5 & Q6). cbn [fst snd] in Q5, Q6. subst p3.
        assert (Am : at_pt b i ml (EP f) n (expR n (point_of l i) f)).
        { destruct Q6 as (C6 & (_ & W6 & _ & S6 & D6 & _) & V6). apply (params_at_pt b i l1 ml (EP f) n _ Hi R2). split; [exact C6|]. split; [exact (ap_wf _ _ _ _ _ _ R2)|]. split; [exact W6|]. split; [exact (ap_shaped _ _ _ _ _ _ R2)|]. split; [exact S6|]. split; [exact D6|exact V6]. }
        pose proof (E6 pth l0 f a I0 C0 Ga) as Hss. set (sl := leafat s pth) in *.
        assert (As : forall k, (k < N)%nat -> at_pt (N :: b) (k :: i) sl (EP f) n (ssR n (point_of l0 (k :: i)) (X k) f)).
        { intros k Hk. destruct (A0 k Hk) as [B B']. destruct (HXk k Hk) as [X1 X2]. destruct (ss_at solve (N :: b) (k :: i) l0 f n _ a (X k) (Ki k Hk) B B' X1 X2) as (e0 & Z1 & Z2). rewrite Hss in Z1. injection Z1 as <-. exact Z2. }
        assert (Ds : dist_at s pth = Some sl). { destruct (tm_leaf (N :: b) q0 s pth l0 W0 E3 E5 I0) as [_ I4]. fold sl in I4. now apply (leaf_in s pth sl E3) in I4 as [I4 _]. }
        assert (Dm : dist_at m pth = Some ml) by (now apply (leaf_in m pth ml M2) in I3 as [I3 _]).
        apply pt_intro. apply Forall_forall. intros g Ig j Hj.
        destruct (ap_get _ _ _ _ _ _ g Am Ig) as (w & W1 & W2 & W3). destruct (As 0%nat Hn) as [_ _ _ _ _]. destruct (ap_get _ _ _ _ _ _ g (As 0%nat Hn) Ig) as (v & V1 & V2 & V3).
        specialize (M5 (pth ++ [fd_name g])%list). rewrite (dist_at_app m pth ml _ Dm), (dist_at_app s pth sl _ Ds), W1, V1 in M5. destruct (arr_mean 0 v) as [w'|] eqn:Ew; [|discriminate M5]. injection M5 as <-.
        assert (Hij : inb (b ++ supp_shape (fd_support g) n) (i ++ j) = true) by (rewrite inb_app by (now apply inb_length); now rewrite Hi, Hj).
        pose proof (mean_entry N _ v w (i ++ j)%list (fun k c => if c then match kind_of (fd_support g) with KR => 0 | KC => ssR n (point_of l0 (k :: i)) (X k) f true (fd_name g) j end
                     else ssR n (point_of l0 (k :: i)) (X k) f false (fd_name g) j) V2 Hij Hn Ew) as Me.
        pose proof (ap_vals _ _ _ _ _ _ Am _ _ _ j (fields_in_ctx (EP f) n g Ig) Hj) as Va. unfold vals_of in Va. rewrite W1 in Va.
        assert (Vs : forall k, (k < N)%nat -> entry_c v (k :: i ++ j) = XC (Fin (ssR n (point_of l0 (k :: i)) (X k) f false (fd_name g) j)) (Fin (match kind_of (fd_support g) with KR => 0 | KC => ssR n (point_of l0 (k :: i)) (X k) f true (fd_name g) j end))).
        { intros k Hk. pose proof (ap_vals _ _ _ _ _ _ (As k Hk) _ _ _ j (fields_in_ctx (EP f) n g Ig) Hj) as Vk. unfold vals_of in Vk. rewrite V1 in Vk. clear -Vk V3.
          destruct (ex_intro (fun a => v = pack (kind_of (fd_support g)) a) _ V3) as [a0 Ea]. clear V3. subst v. revert a0 Vk. destruct (kind_of (fd_support g)); intros a0 Vk.
          - change (tensor xr) in a0. cbn [pack entry_c] in *. change (tget a0 (k :: i ++ j)%list = Fin (ssR n (point_of l0 (k :: i)) (X k) f false (fd_name g) j)) in Vk. unfold cofr. now rewrite Vk.
          - exact Vk. }
        specialize (Me Vs). cbv beta iota in Me. unfold meanP. clear -Va W3 Me.
        destruct (ex_intro (fun a => w = pack (kind_of (fd_support g)) a) _ W3) as [a0 Ea]. clear W3. subst w. revert a0 Va Me. destruct (kind_of (fd_support g)) eqn:Kg; intros a0 Va Me.
        + change (tensor xr) in a0. change (tget a0 (i ++ j)%list = Fin (expR n (point_of l i) f false (fd_name g) j)) in Va. cbn [pack entry_c] in Me. unfold cofr in Me. rewrite Va in Me. injection Me as Me _. split; [exact Me|discriminate].
        + change (tget a0 (i ++ j)%list = XC (Fin (expR n (point_of l i) f false (fd_name g) j)) (Fin (expR n (point_of l i) f true (fd_name g) j))) in Va. change (tget a0 (i ++ j)%list = XC (Fin (sumR N (fun k => ssR n (point_of l0 (k :: i)) (X k) f false (fd_name g) j) / INR N)) (Fin (sumR N (fun k => ssR n (point_of l0 (k :: i)) (X k) f true (fd_name g) j) / INR N))) in Me.
          rewrite Va in Me. injection Me as Me1 Me2. split; [exact Me1|intros _; exact Me2]. }
    assert (Ob : forall k, (k < N)%nat -> obs_shaped b p (xs k) /\ obs_shaped b q (xs k)).
    { intros k Hk. destruct (Rw k Hk) as [_ Rk]. assert (Z : forall d, map fst (leaves [] p) = map fst (leaves [] d) -> well_formed d = true -> tree_match b p d -> same_skeleton p d -> obs_shaped b d (xs k)); [|split; apply Z; auto; [now apply nat_tm_self; auto|apply skel_refl]].
      intros d Pd Wd Td Skd pth ld a Ia Ga. assert (Ip : In pth (map fst (leaves [] p))) by (rewrite Pd; apply in_map_iff; exists (pth, ld); auto). apply in_map_iff in Ip as ([pth' l] & Eq & I). cbn in Eq. subst pth'.
      destruct (F2_in_r _ _ _ _ St I) as ([pth0 l0] & I0 & Ep & Ec & Ed & _). cbn [fst snd] in Ep, Ec, Ed. subst pth0. destruct (obs_get q0 x [] pth l0 W0 O0 I0) as (r & a1 & Er & Ga1). cbn [app] in Er. subst r.
      destruct (Rk pth a1 Ga1) as (ak & G1 & G2). rewrite Ga in G2. injection G2 as ->. destruct (nat_leaf p [] pth l W Np I) as [f Hf]. destruct (Os0 pth l0 a1 I0 Ga1) as (n & s1 & D1 & Ds1 & _).
      destruct (HX k pth l0 f n a1 Hk I0 ltac:(congruence) D1 Ga1) as (xv & Ov & _).
      destruct (tm_leaf b p d pth l W Wd Td I) as [(_ & _ & _ & _ & Edd & _) Id]. pose proof (proj1 (leaf_in d pth ld Wd) Ia) as [Hd1 _]. pose proof (proj1 (leaf_in d pth _ Wd) Id) as [Hd2 _]. rewrite Hd1 in Hd2. injection Hd2 as Hd2. rewrite <- Hd2 in Edd.
      pose proof (proj1 (leaf_in p pth l W) I) as [Hdp _]. destruct (skel_leafat p d pth l Skd Hdp) as [Cl _]. rewrite <- Hd2 in Cl.
      exact (proj1 (getitem_obs N b i k l0 ld a1 ak xv n s1 Ov Hi Hk D1 ltac:(congruence) Ds1 ltac:(congruence) G1)). }
    exists (fun k => rsum (map (fun pl => leaf_llR p pl k) (leaves [] p))), (fun k => rsum (map (fun pl => leaf_llR q pl k) (leaves [] p))). split.
    { intros k Hk. destruct (Rw k Hk) as [Mk _]. destruct (Ob k Hk) as [O1 O2]. split.
      - destruct (log_pdf_sum L G b p (xs k) W Np S Mk O1) as (_ & u & U1 & U2 & U3). exists u. split; [exact U1|]. split; [exact U2|]. rewrite (U3 i Hi). apply xsum_ext_Fin. intros [pth l] I. destruct (Lv _ I) as [V _]. destruct (V k Hk) as [V1 _].
        rewrite <- V1. unfold leaf_ll. cbn [fst snd]. apply (leaf_in p pth l W) in I as [I _]. unfold leafat. now rewrite I.
      - destruct (log_pdf_sum L G b q (xs k) Wq Nq Sq (skel_obs p q _ W Wq Sk Mk) O2) as (_ & u & U1 & U2 & U3). exists u. split; [exact U1|]. split; [exact U2|]. rewrite (U3 i Hi).
        rewrite (leaves_by_path p q Wq Px), map_map. apply xsum_ext_Fin. intros [pth l] I. destruct (Lv _ I) as [V _]. destruct (V k Hk) as [_ V1]. rewrite <- V1. reflexivity. }
    rewrite !sumR_rsum. destruct (Nat.eq_dec N 0) as [->|Hn0].
    { split; [|lia]. assert (Z : forall F : path * dist -> nat -> R, rsum (map (fun a => sumR 0 (F a)) (leaves [] p)) = 0) by (intros F; apply rsum_0; reflexivity). rewrite !Z. lra. }
    assert (Hn : (0 < N)%nat) by lia. assert (Gap : rsum (map (fun a => sumR N (leaf_llR p a)) (leaves [] p)) - rsum (map (fun a => sumR N (leaf_llR q a)) (leaves [] p)) = INR N * rsum (map (kl_leaf_R i q) (leaves [] p))).
    { rewrite rsum_sub, <- rsum_scal. apply rsum_ext. intros pl I. exact (proj2 (Lv pl I) Hn). }
    pose proof (lt_0_INR N Hn) as HN. split.
    - pose proof (Rmult_le_pos _ _ (Rlt_le _ _ HN) T4). cbv beta in *. lra.
    - intros _. rewrite <- T5. split; intros Z.
      + apply (Rmult_eq_reg_l (INR N)); [|lra]. rewrite Rmult_0_r. cbv beta in *. lra.
      + rewrite Z, Rmult_0_r in Gap. cbv beta in *. lra.
  Qed.
End T.
Lemma t_simple solve b f q0 a : dcls q0 = NP f -> well_formed q0 = true -> leaf_shaped b q0 = true -> (forall g, In g (fields (NP f)) -> fd_fixed g = false) ->
  exists est est', create_estimator_from_natural q0 = Ok est /\ create_simple_estimator (EP f) [] = Ok est' /\
    mle_sufficient_statistics (fam_methods solve) est' (Leaf a) = mle_sufficient_statistics (fam_methods solve) est (Leaf a).
Proof.
  intros C W S Hf. assert (J : is_joint (dcls q0) = false) by now rewrite C. assert (N : nat_tree q0 = true).
  { destruct q0 as [c m ps subs]. cbn [dcls] in C. subst c. pose proof (wf_inv _ _ _ _ W) as (_ & _ & Hs & _). rewrite (Hs eq_refl). reflexivity. }
  destruct (create_shaped b q0 W (shaped_of_leaf b q0 W J S)) as [infos Hc].
  unfold create_estimator_from_natural. rewrite Hc. cbn [bind]. rewrite (struct_to_exp_map q0 [] infos N Hc). cbn [bind]. rewrite parameters_ok by exact W. cbn [bind]. eexists _, _. split; [reflexivity|]. split; [reflexivity|].
  destruct q0 as [c m ps subs]. cbn [dcls] in C. subst c. pose proof (wf_inv _ _ _ _ W) as (_ & _ & Hs & _). specialize (Hs eq_refl). subst subs. unfold create in Hc. rewrite walk_unfold in Hc. cbn [sub_distributions map mapM bind] in Hc.
  apply bind_Ok in Hc as (i & Hi & Hc). cbn in Hc. injection Hc as <-. apply make_info_ok in Hi as (Hp & Ht & Hs). cbn [dcls sub_distributions map] in Ht, Hs.
  unfold mle_sufficient_statistics. cbn [e_infos map]. unfold mle_leaf, info_to_exp. cbn [i_subs i_type i_path]. rewrite Hp, Ht, Hs. cbn [map exp_cls].
  assert (E : keys (class_support (NP f) (Some true)) = []). { destruct f; try reflexivity; exfalso; cbn [fields] in Hf; match type of Hf with forall g, In g ?l -> _ => let rec go l := match l with cons ?x ?l' => first [discriminate (Hf x ltac:(cbn; auto)) | go l'] end in go l end. }
  rewrite E. reflexivity.
Qed.
