(** C23, C24 and C25 on the model. *)
From Coquelicot Require Import Coquelicot.
From Coq Require Import String List Bool Arith ZArith Reals Lra Lia.
From Verif Require Import Base XReal Tensor TensorFacts Support Dist Iteration Structure Tools Joint Spec StructFacts SumSpec DotSpec DotFacts DotLaws TensorFacts2 PointSpec PointFacts DensSpec SpecFun GammaFn BesselFn Expr Fam ExprFacts FamTy FamFacts Val FamR FamVal
  LeafVal DerivFacts DerivThms DensVal DensThms ConvFacts ConvThms AssembleFacts SumFacts MapFacts BatchFacts LogPdfThms KlThms KlPos SampleSpec HessFacts IntSpec IntFacts GammaInt IntNorm IntGen IntMulti IntFam IntSimplex IntOne IntMat IntSphere.
Import ListNotations.
Local Unset Asymmetric Patterns.
Local Open Scope string_scope.
Local Open Scope R_scope.

(** ** integral_over *)
Definition point_ok (f : family) (n : nat) (x : obs) : Prop := sample_space f n x /\ real_obs (NP f) n x.
Lemma real_scalar f n t : real_obs (NP f) n (scalar_obs t). Proof. intros s _ _ e _. reflexivity. Qed.
Lemma real_vector f n l : real_obs (NP f) n (vector_obs l). Proof. intros s _ _ e _. reflexivity. Qed.
Lemma real_complex f n x : domain_support (NP f) = Some (ScalarS complex_field) \/ domain_support (NP f) = Some (VectorS complex_field) -> real_obs (NP f) n x.
Proof. intros [H|H] s S C; rewrite H in S; injection S as <-; exfalso; eapply C; reflexivity. Qed.
Lemma vector_sum l : sumR (length l) (fun k => vector_obs l false [k]) = lsum l.
Proof. rewrite lsum_sumR. reflexivity. Qed.
Lemma integral_ext f n F G v : (forall x, point_ok f n x -> F x = G x) -> integral_over f n F v -> integral_over f n G v.
Proof.
  intros E H. destruct f; cbn [integral_over] in *.
  all: try (rewrite H; rewrite !E; [reflexivity|split; [cbn [sample_space]; unfold scalar_obs; auto|apply real_scalar]..]; fail).
  all: try (eapply improper_ext; [exact in0| |exact H]; intros t [T1 T2]; cbn in T1; apply E; split; [cbn [sample_space]; unfold scalar_obs; auto|apply real_scalar]; fail).
  all: try (eapply improper_ext; [apply (inmp 0)| |exact H]; intros t _; apply E; split; [exact Logic.I|apply real_scalar]; fail).
  all: try (eapply is_series_ext_R; [|exact H]; intros k; apply E; split; [exists k; reflexivity|apply real_scalar]; fail).
  all: try (eapply WL_ext; [|exact H]; intros l _; cbn [app]; apply E; split; [exact Logic.I|first [apply real_vector|apply real_complex; auto]]; fail).
  - eapply improper_ext with (a0 := 1 / 2); [split; cbn; lra| |exact H]. intros t [T1 T2]. cbn in T1, T2. apply E. split; [cbn [sample_space]; unfold scalar_obs; auto|apply real_scalar].
  - eapply simplex_ext; [|exact H]. intros l L S P. apply E. split; [|apply real_vector]. cbn [sample_space]. split; [intros k K; unfold vector_obs; cbn; auto|]. rewrite <- L, vector_sum. exact S.
  - eapply simplex_ext; [|exact H]. intros l L S P. apply E. split; [|apply real_vector]. cbn [sample_space]. split; [intros k K; unfold vector_obs; cbn; auto|]. rewrite <- L, vector_sum. exact S.
  - rewrite H. f_equal.
    + apply E. split; [|apply real_vector]. cbn [sample_space]. assert (Z : forall k, vector_obs [] false [k] = 0) by (intros [|k]; reflexivity). split; [auto|]. rewrite sumR_zero by auto. lra.
    + apply sumR_ext. intros k K. apply E. split; [|apply real_vector]. cbn [sample_space]. assert (Z : forall j, vector_obs (repeat 0 k ++ [1])%list false [j] = if (j =? k)%nat then 1 else 0) by (intros j; apply onehot_nth).
      split; [intros j _; rewrite Z; destruct (j =? k)%nat; auto|]. rewrite (sumR_ext n _ (fun j => if (j =? k)%nat then (fun _ => 1) j else 0)) by (intros; apply Z). rewrite sumR_pick by exact K. lra.
  - destruct H as [N H]. split; [exact N|]. eapply sphere_ext; [|exact H]. intros x Lx Q. apply E. split; [|apply real_vector]. cbn [sample_space]. cbn [length] in Lx. replace n with (length x) by lia.
    transitivity (lsq x); [|rewrite Q; cbn; ring]. unfold lsq. rewrite lsum_sumR, map_length. apply sumR_ext. intros j _. unfold vector_obs. cbn [hd]. rewrite <- (map_nth (fun a => a * a)). f_equal. ring.
Qed.
Lemma integral_plus f n F G v w : integral_over f n F v -> integral_over f n G w -> integral_over f n (fun x => F x + G x) (v + w).
Proof.
  intros H K. destruct f; cbn [integral_over] in *; try (apply improper_plus; assumption); try (apply iterated_plus; assumption); try (exact (is_series_plus _ _ _ _ H K)).
  - rewrite H, K. ring.
  - rewrite H, K, sumR_plus. ring.
  - destruct H as [N H]. destruct K as [_ K]. split; [exact N|]. now apply sphere_plus.
Qed.
Lemma integral_scal f n F v c : integral_over f n F v -> integral_over f n (fun x => c * F x) (c * v).
Proof.
  intros H. destruct f; cbn [integral_over] in *; try (apply improper_scal; assumption); try (apply iterated_scal; assumption); try (exact (is_series_scal c _ _ H)).
  - rewrite H. ring.
  - rewrite H, sumR_scal. ring.
  - destruct H as [N H]. split; [exact N|]. now apply sphere_scal.
Qed.
Lemma integral_to f n F v w : v = w -> integral_over f n F v -> integral_over f n F w. Proof. now intros ->. Qed.
(** ** every family *)
Theorem fam_norm_mean f n p : dims_ok (NP f) n = true -> nat_dom f n p -> norm_ok f n p /\ mean_ok f n p.
Proof.
  intros D H. destruct f; cbn [dims_ok] in D.
  - split; apply bernoulli_int.
  - apply Nat.eqb_eq in D. subst n. exact (beta_mean p H).
  - exact (chi_mean n p H).
  - exact (chisquare_mean n p H).
  - destruct (ccs_int n p H) as (A & B & _). exact (conj A B).
  - split; apply cmun_int.
  - destruct (cn_int n p H) as (A & B & _). exact (conj A B).
  - split; apply cun_int.
  - destruct (dir_int n p H) as (A & B & _). exact (conj A B).
  - exact (exponential_mean n p H).
  - exact (gamma_mean n p H).
  - destruct (gdir_int n p H) as (A & B & _). exact (conj A B).
  - exact (geometric_mean n p H).
  - exact (log_mean n p H).
  - split; apply multinomial_int.
  - destruct (mvn_int n p H) as (A & B & _). exact (conj A B).
  - destruct (mdn_int n p H) as (A & B & _). exact (conj A B).
  - destruct (mfv_int n p H) as (A & B & _). exact (conj A B).
  - destruct (iso_int n p H) as (A & B & _). exact (conj A B).
  - split; apply mun_int.
  - exact (nb_mean n p H).
  - exact (normal_mean n p H).
  - exact (unit_normal_mean n p).
  - exact (poisson_mean n p).
  - exact (rayleigh_mean n p H).
  - destruct (vmf_int n p H) as (A & B & _). exact (conj A B).
  - exact (weibull_mean n p H).
Qed.
Theorem fam_cm f n p : has_entropy_ep (EP f) = true -> dims_ok (NP f) n = true -> nat_dom f n p -> cm_ok f n p.
Proof.
  intros E D H. destruct f; try discriminate E; cbn [dims_ok] in D.
  - apply bernoulli_int.
  - apply Nat.eqb_eq in D. subst n. exact (beta_cm p H).
  - exact (chi_cm n p H).
  - exact (chisquare_cm n p H).
  - destruct (ccs_int n p H) as (_ & _ & A). exact A.
  - apply cmun_int.
  - destruct (cn_int n p H) as (_ & _ & A). exact A.
  - apply cun_int.
  - destruct (dir_int n p H) as (_ & _ & A). exact A.
  - exact (exponential_cm n p H).
  - exact (gamma_cm n p H).
  - destruct (gdir_int n p H) as (_ & _ & A). exact A.
  - exact (geometric_cm n p H).
  - apply multinomial_int.
  - destruct (mvn_int n p H) as (_ & _ & A). exact A.
  - destruct (mdn_int n p H) as (_ & _ & A). exact A.
  - destruct (mfv_int n p H) as (_ & _ & A). exact A.
  - destruct (iso_int n p H) as (_ & _ & A). exact A.
  - apply mun_int.
  - exact (normal_cm n p H).
  - exact (unit_normal_cm n p).
  - exact (rayleigh_cm n p H).
  - destruct (vmf_int n p H) as (_ & _ & A). exact A.
  - exact (weibull_cm n p H).
Qed.
(** ** entries of the expectation parameters *)
Lemma rsum_pick {A} (h : A -> R) l a : NoDup l -> In a l -> (forall x, In x l -> x <> a -> h x = 0) -> rsum (map h l) = h a.
Proof.
  induction l as [|x l IH]; [intros _ []|]. intros N I Z. inversion N as [|? ? N1 N2]; subst. cbn [map rsum]. destruct I as [->|I].
  - rewrite rsum_zero; [lra|]. intros y Y. apply Z; [now right|]. intros ->. contradiction.
  - rewrite (Z x); [|now left|intros ->; contradiction]. rewrite IH; [lra|assumption..|]. intros y Y. apply Z. now right.
Qed.
Lemma nodup_indices s : NoDup (indices s).
Proof.
  induction s as [|n s IH]; [repeat constructor; intros []|]. cbn [indices]. generalize 0%nat. induction n as [|n IHn]; intros m; cbn [seq flat_map]; [constructor|].
  apply NoDup_app_intro; [apply FinFun.Injective_map_NoDup; [intros x y E; now injection E|exact IH]|apply IHn|].
  intros x X Y. apply in_map_iff in X as (x' & <- & _). apply in_flat_map in Y as (k & K1 & K2). apply in_seq in K1. apply in_map_iff in K2 as (y & E & _). injection E as E _. lia.
Qed.
Lemma in_F2 {A B} (P : A -> B -> Prop) l m y : Forall2 P l m -> In y m -> exists x, In (x, y) (combine l m).
Proof. induction 1 as [|a b l m H _ IH]; intros I; [destruct I|]. destruct I as [->|I]; [exists a; now left|]. destruct (IH I) as (x & X). exists x. now right. Qed.
Definition unit_dir (c : bool) (nm : string) (j : list nat) : point := fun c' nm' j' =>
  if Bool.eqb c c' then if String.eqb nm nm' then if list_eq_dec Nat.eq_dec j j' then (if c then -1 else 1) else 0 else 0 else 0.
Lemma unit_self c nm j : unit_dir c nm j c nm j = if c then -1 else 1.
Proof. unfold unit_dir. rewrite Bool.eqb_reflx, String.eqb_refl. destruct (list_eq_dec Nat.eq_dec j j); [reflexivity|contradiction]. Qed.
Lemma dot_unit f n g c j : In g (var_fields (EP f)) -> In j (indices (supp_shape (fd_support g) n)) -> exists nm, forall w, dotP (NP f) (EP f) n (unit_dir c nm j) w = w c (fd_name g) j.
Proof.
  intros G J. destruct (in_F2 _ _ _ g (pair_kinds f n) G) as (g0 & G0). exists (fd_name g0). destruct (F2_combine _ _ _ _ _ (pair_kinds f n) G0) as [_ Es].
  intros w. unfold dotP. rewrite (rsum_pick _ _ (g0, g)); [| |exact G0|].
  - cbn [fst snd]. rewrite Es. rewrite (rsum_pick _ _ j); [|apply nodup_indices|exact J|].
    + destruct c; unfold unit_dir; cbn [Bool.eqb]; rewrite String.eqb_refl; (destruct (list_eq_dec Nat.eq_dec j j); [lra|contradiction]).
    + intros k _ K. unfold unit_dir. destruct (list_eq_dec Nat.eq_dec j k); [now subst k|]. destruct (String.eqb _ _), c; cbn [Bool.eqb]; ring.
  - assert (N : NoDup (var_fields (NP f))). { unfold var_fields. apply NoDup_filter. eapply NoDup_map_inv. apply nodup_fields. }
    clear -N. revert N. generalize (var_fields (EP f)). induction (var_fields (NP f)) as [|x l IH]; intros m N; [constructor|]. destruct m as [|y m]; [constructor|]. inversion N; subst. cbn [combine]. constructor; [|auto].
    intros I. apply in_combine_l in I. contradiction.
  - intros [h0 h] H Ne. cbn [fst snd]. apply rsum_zero. intros k _. unfold unit_dir. destruct (String.eqb_spec (fd_name g0) (fd_name h0)) as [E|_]; [|destruct (Bool.eqb _ _), (Bool.eqb _ _); ring].
    exfalso. apply Ne. assert (X : forall (a x : field_desc) l m, NoDup (map fd_name l) -> In (a, x) (combine l m) -> forall b y, In (b, y) (combine l m) -> fd_name a = fd_name b -> (b, y) = (a, x)).
    { clear. intros a x l. induction l as [|u l IH]; intros m N I b y J E; [destruct I|]. destruct m as [|v m]; [destruct I|]. inversion N as [|? ? N1 N2]; subst. cbn [combine] in I, J. destruct I as [I|I], J as [J|J].
      - congruence.
      - injection I as -> ->. apply in_combine_l in J. exfalso. apply N1. rewrite E. now apply in_map.
      - injection J as -> ->. apply in_combine_l in I. exfalso. apply N1. rewrite <- E. now apply in_map.
      - eauto. }
    eapply X; [|exact G0|exact H|exact E]. unfold var_fields. clear. pose proof (nodup_fields (NP f)) as N. induction (fields (NP f)) as [|x l IH]; [constructor|]. inversion N as [|? ? N1 N2]; subst. cbn [filter]. destruct (negb _); [|auto]. cbn [map]. constructor; [|auto].
    intros I. apply in_map_iff in I as (y & E & I). apply filter_In in I as [I _]. apply N1. rewrite <- E. now apply in_map.
Qed.
Lemma mean_entry f n p g c j : c = false \/ kind_of (fd_support g) = KC -> norm_ok f n p -> mean_ok f n p -> In g (fields (EP f)) -> In j (indices (supp_shape (fd_support g) n)) ->
  integral_over f n (fun x => dens f n p x * ssR n p x f c (fd_name g) j) (expR n p f c (fd_name g) j).
Proof.
  intros Hc N M G J. destruct (fd_fixed g) eqn:Fg.
  - assert (E : forall x, ssR n p x f c (fd_name g) j = expR n p f c (fd_name g) j).
    { clear -G Fg J Hc. intros x. destruct f; cbn [fields In] in G; repeat (destruct G as [G|G]); try contradiction; subst g; try discriminate Fg; (destruct Hc as [->|Hc]; [|discriminate Hc]); (destruct J as [<-|[]]); reflexivity. }
    eapply integral_to; [|eapply integral_ext; [|exact (integral_scal f n _ _ (expR n p f c (fd_name g) j) N)]]; [ring|]. intros x _. cbv beta. rewrite E. ring.
  - assert (V : In g (var_fields (EP f))). { apply filter_In. now rewrite Fg. }
    destruct (dot_unit f n g c j V J) as (nm & D). specialize (M (unit_dir c nm j)). rewrite D in M. eapply integral_ext; [|exact M]. intros x _. cbv beta. now rewrite D.
Qed.
(** ** observations *)
Lemma observable b i q n xv : inb b i = true -> dims_of q = Ok n -> domain_support (dcls q) <> None -> real_obs (dcls q) n xv -> exists x, observed b i q x xv.
Proof.
  intros Hi D Ds R. destruct (domain_support (dcls q)) as [s|] eqn:E; [|contradiction]. clear Ds. set (sh := (b ++ supp_shape s n)%list).
  assert (T : forall (A : Type) (DA : Dflt A) (g : list nat -> A) j, inb (supp_shape s n) j = true -> tget (tbuild sh (fun k => g (skipn (length b) k))) (i ++ j)%list = g j).
  { intros A DA g j Hj. rewrite tget_tbuild. 2: { unfold sh. rewrite inb_app by now apply inb_length. now rewrite Hi, Hj. } rewrite <- (inb_length _ _ Hi), skipn_app, skipn_all, Nat.sub_diag. reflexivity. }
  destruct (supp_ring s) eqn:K.
  all: try (assert (Z : forall e, inb (supp_shape s n) e = true -> xv true e = 0) by (apply (R s E); intros ? ?; rewrite K; discriminate);
    exists (RA (tbuild sh (fun k => Fin (xv false (skipn (length b) k))))); split;
    [exists n, s; split; [exact D|]; split; [exact E|]; split; [reflexivity|unfold kind_ok; now rewrite K]|];
    intros n' s' j D' E' Hj; (assert (n' = n) by congruence); (assert (s' = s) by congruence); subst n' s'; cbn [entry_c]; rewrite (T xr _ (fun k => Fin (xv false k))) by exact Hj; rewrite (Z j Hj); reflexivity).
  exists (CA (tbuild sh (fun k => XC (Fin (xv false (skipn (length b) k))) (Fin (xv true (skipn (length b) k)))))). split.
  - exists n, s. split; [exact D|]. split; [exact E|]. split; [reflexivity|]. unfold kind_ok. now rewrite K.
  - intros n' s' j D' E' Hj. assert (n' = n) by congruence. assert (s' = s) by congruence. subst n' s'. cbn [entry_c]. rewrite (T xc _ (fun k => XC (Fin (xv false k)) (Fin (xv true k)))) by exact Hj. reflexivity.
Qed.
Section I.
  Variable solve : minimizer -> dist -> nat -> xr.
  Let L := fam_methods solve.
  Lemma observe b i f q n xv : proper b i f q -> dims_of q = Ok n -> real_obs (NP f) n xv -> exists x, observed b i q x xv.
  Proof. intros (C & _ & _ & Hi & _) D R. apply (observable b i q n); [exact Hi|exact D|rewrite C; destruct f; discriminate|now rewrite C]. Qed.
  Lemma density_fun b i q x u v : density L b i q x u -> density L b i q x v -> u = v.
  Proof. intros (t & T1 & _ & T2) (t' & T1' & _ & T2'). congruence. Qed.
  Lemma pdf_val b i f q n P : proper b i f q -> dims_of q = Ok n -> pdf_is L b i f n q P -> forall x, point_ok f n x -> P x = dens f n (point_of q i) x.
  Proof.
    intros Pq D H x [X1 X2]. destruct (observe b i f q n x Pq D X2) as (a & A). eapply density_fun; [exact (H a x A X1)|]. now apply (density_at solve).
  Qed.
  Lemma pdf_dens b i f q n : proper b i f q -> dims_of q = Ok n -> pdf_is L b i f n q (dens f n (point_of q i)).
  Proof. intros Pq D x xv O X. now apply (density_at solve). Qed.
  (** C23 *)
  Lemma normalised b i f q n : proper b i f q -> dims_of q = Ok n -> (exists P, pdf_is L b i f n q P) /\ forall P, pdf_is L b i f n q P -> integral_over f n P 1.
  Proof.
    intros Pq D.
    split; [exists (dens f n (point_of q i)); now apply pdf_dens|]. intros P H. destruct (proper_dims b i f q Pq) as (n' & D1 & _ & D3 & D4 & _). assert (n' = n) by congruence. subst n'.
    eapply integral_ext; [|exact (proj1 (fam_norm_mean f n _ D4 D3))]. intros x X. symmetry. exact (pdf_val b i f q n P Pq D H x X).
  Qed.
  Lemma pdf_positive b i f q n P x xv : proper b i f q -> dims_of q = Ok n -> pdf_is L b i f n q P -> observed b i q x xv -> sample_space f n xv -> 0 < P xv.
  Proof.
    intros Pq D H O X. pose proof (density_at solve b i f q n x xv Pq D O X) as K. rewrite (density_fun _ _ _ _ _ _ (H x xv O X) K). apply exp_pos.
  Qed.
  (** C25 *)
  Lemma mle_at b i f q n x xv : proper b i f q -> dims_of q = Ok n -> observed b i q x xv -> sample_space f n xv ->
    exists est s, create_estimator_from_natural q = Ok est /\ mle_sufficient_statistics L est (Leaf x) = Ok s /\ at_pt b i s (EP f) n (ssR n (point_of q i) xv f).
  Proof.
    intros Pq D O X. pose proof Pq as (C & W & S & Hi & Dm). destruct (proper_dims b i f q Pq) as (n' & D1 & D2 & D3 & D4 & _). assert (n' = n) by congruence. subst n'.
    assert (A : at_pt b i q (NP f) n (point_of q i)) by now apply at_pt_self. destruct (ss_at solve b i q f n _ x xv Hi A D3 O X) as (e & E1 & E2).
    assert (J : is_joint (dcls q) = false) by now rewrite C. pose proof (fam_good solve) as G.
    assert (N : nat_tree q = true). { destruct q as [c m ps subs]. cbn [dcls] in *. subst c. pose proof (wf_inv _ _ _ _ W) as (_ & _ & Hs & _). rewrite (Hs eq_refl). reflexivity. }
    destruct (mle_tree L G b q (Leaf x) W N (shaped_of_leaf _ _ W J S)) as (est & tx & T1 & T2 & T3 & T4 & T5 & T6).
    { destruct q as [c m ps subs]. cbn [dcls obs_matches] in *. rewrite J. exact Logic.I. }
    { intros p l a' Hi' Ha. rewrite leaf_leaves in Hi' by exact J. destruct Hi' as [E|[]]. injection E as <- <-. cbn in Ha. injection Ha as <-. exact (proj1 O). }
    exists est, tx. split; [exact T1|]. split; [exact T2|]. assert (Hl : In ([], q) (leaves [] q)) by (rewrite leaf_leaves by exact J; now left).
    pose proof (T6 [] q f x Hl C eq_refl) as T7. change (leafat tx []) with tx in T7. unfold L in T7. rewrite E1 in T7. injection T7 as <-. exact E2.
  Qed.
  Definition entry_val (g : field_desc) (c : bool) (w : point) (j : list nat) : R := if c then match kind_of (fd_support g) with KR => 0 | KC => w true (fd_name g) j end else w false (fd_name g) j.
  Lemma value_pt b i d f n w g c j : at_pt b i d (EP f) n w -> In g (fields (EP f)) -> inb (supp_shape (fd_support g) n) j = true -> value_at d i c (fd_name g) j (entry_val g c w j).
  Proof.
    intros A G J. destruct (ap_get _ _ _ _ _ _ g A G) as (a & A1 & _). exists a. split; [exact A1|]. rewrite (entry_eq _ _ _ _ _ _ g a j A G A1 J). unfold entry_val. destruct (kind_of (fd_support g)), c; reflexivity.
  Qed.
  Lemma value_fun d i c nm j u v : value_at d i c nm j u -> value_at d i c nm j v -> u = v.
  Proof. intros (a & A1 & A2) (a' & B1 & B2). rewrite A1 in B1. injection B1 as <-. rewrite A2 in B2. now injection B2. Qed.
  Lemma exp_form_at b i f q n : proper b i f q -> dims_of q = Ok n -> not_clipped q i -> exists e, to_exp L q = Ok e /\ at_pt b i e (EP f) n (expR n (point_of q i) f) /\ at_pt b i q (NP f) n (point_of q i) /\ nat_dom f n (point_of q i).
  Proof.
    intros Pq D U. pose proof Pq as (C & W & S & Hi & Dm). destruct (proper_dims b i f q Pq) as (n' & D1 & D2 & D3 & D4 & _). assert (n' = n) by congruence. subst n'.
    assert (A : at_pt b i q (NP f) n (point_of q i)) by now apply at_pt_self. assert (J : is_joint (dcls q) = false) by now rewrite C.
    destruct (exp_at solve b i q f n _ Hi A D3) as (e & E1 & E2). { apply (clip_leaf q i [] q f U); [rewrite leaf_leaves by exact J; now left|exact C]. }
    exists e. split; [|auto]. destruct q as [c m ps subs]. cbn [dcls] in C. subst c. exact E1.
  Qed.
  (** the expected statistics, whatever to_exp does *)
  Lemma stat_mean b i f q n : proper b i f q -> dims_of q = Ok n ->
    forall P g c j, pdf_is L b i f n q P -> In g (fields (EP f)) -> inb (supp_shape (fd_support g) n) j = true ->
      (exists T, statistic_is L b i f n q c (fd_name g) j T) /\
      forall T, statistic_is L b i f n q c (fd_name g) j T -> expected f n P T (entry_val g c (expR n (point_of q i) f) j).
  Proof.
    intros Pq D P g c j HP G J. set (p := point_of q i) in *.
    assert (ST : statistic_is L b i f n q c (fd_name g) j (fun x => entry_val g c (ssR n p x f) j)).
    { intros x xv O X. destruct (mle_at b i f q n x xv Pq D O X) as (est & s & S1 & S2 & S3). exists est, s. split; [exact S1|]. split; [exact S2|]. now apply (value_pt b i s f n). }
    split; [eexists; exact ST|]. intros T HT.
    destruct (proper_dims b i f q Pq) as (n' & D1 & _ & D3 & D4 & _). assert (n' = n) by congruence. subst n'. destruct (fam_norm_mean f n p D4 D3) as [N Mn].
    assert (TE : forall x, point_ok f n x -> T x = entry_val g c (ssR n p x f) j).
    { intros x [X1 X2]. destruct (observe b i f q n x Pq D X2) as (a & O). destruct (HT a x O X1) as (est & s & S1 & S2 & S3). destruct (ST a x O X1) as (est' & s' & S1' & S2' & S3').
      assert (est' = est) by congruence. subst est'. assert (s' = s) by congruence. subst s'. exact (value_fun _ _ _ _ _ _ _ S3 S3'). }
    unfold expected. assert (K : integral_over f n (fun x => dens f n p x * entry_val g c (ssR n p x f) j) (entry_val g c (expR n p f) j)).
    { assert (J' : In j (indices (supp_shape (fd_support g) n))) by now apply in_indices. unfold entry_val. destruct c; [destruct (kind_of (fd_support g)) eqn:Kg|].
      - eapply integral_to; [|eapply integral_ext; [|exact (integral_scal f n _ _ 0 N)]]; [ring|]. intros x _. cbv beta. ring.
      - apply mean_entry; auto.
      - apply mean_entry; auto. }
    eapply integral_ext; [|exact K]. intros x X. cbv beta. rewrite (pdf_val b i f q n P Pq D HP x X), (TE x X). reflexivity.
  Qed.
  Lemma mean_statistics b i f q n : proper b i f q -> dims_of q = Ok n -> not_clipped q i ->
    exists e, to_exp L q = Ok e /\ forall P g c j, pdf_is L b i f n q P -> In g (fields (EP f)) -> inb (supp_shape (fd_support g) n) j = true ->
      (exists T, statistic_is L b i f n q c (fd_name g) j T) /\
      forall T, statistic_is L b i f n q c (fd_name g) j T -> exists v, value_at e i c (fd_name g) j v /\ expected f n P T v.
  Proof.
    intros Pq D U. destruct (exp_form_at b i f q n Pq D U) as (e & E1 & E2 & A & H). exists e. split; [exact E1|]. intros P g c j HP G J.
    destruct (stat_mean b i f q n Pq D P g c j HP G J) as [S1 S2]. split; [exact S1|]. intros T HT. exists (entry_val g c (expR n (point_of q i) f) j). split; [now apply (value_pt b i e f n)|]. now apply S2.
  Qed.
End I.
(** only Logarithmic clips, and it has no entropy *)
Lemma entropy_unclipped b i f q : proper b i f q -> has_entropy_ep (EP f) = true -> not_clipped q i.
Proof.
  intros (C & _) He p l H E. destruct q as [c m ps subs]. cbn [dcls] in C. subst c. cbn in H. destruct H as [H|[]]. injection H as <- <-. cbn in E. injection E as ->. discriminate He.
Qed.
(** ** the expected carrier measure *)
Lemma ecm_val f n p : has_entropy_ep (EP f) = true -> dims_ok (EP f) n = true -> nat_dom f n p -> f <> Chi -> f <> ChiSquare ->
  VR (ctx_of (EP f) n) (expR n p f) (ecm_e f) (Ev []) (fun _ => ecmR n p f).
Proof.
  intros E D H N1 N2. destruct f; try discriminate E; try contradiction; cbn [ecm_e]; cbn [nat_dom] in H; cbn [dims_ok] in D.
  all: try (eapply (VR_zeros _ _ 0 _ []); [first [eapply VR_self; reflexivity | eapply VC_self; reflexivity]|cbn; lia]; fail).
  all: try (eapply (VR_zeros _ _ 2 _ [_; _]); [first [eapply VR_self; reflexivity | eapply VC_self; reflexivity]|cbn; lia]; fail).
  all: try (eapply (VR_zeros _ _ 1 _ [_]); [first [eapply VR_self; reflexivity | eapply VC_self; reflexivity]|cbn; lia]; fail).
  all: vx; jj; pxs; try reflexivity; try lra.
  - change (p false "variance" [] <> 0). lra.
  - change (0 < -1 / p false "eta" [] * (1 / 2)). assert (0 < / - p false "eta" []) by (apply Rinv_0_lt_compat; lra). replace (-1 / p false "eta" []) with (/ - p false "eta" []) by (field; lra). lra.
  - change (p false "concentration" [] <> 0). lra.
  - change (0 < -1 / p false "eta" []). assert (0 < / - p false "eta" []) by (apply Rinv_0_lt_compat; lra). replace (-1 / p false "eta" []) with (/ - p false "eta" []) by (field; lra). lra.
  - change (p false "concentration" [] <> 0). lra.
Qed.
Lemma ecm_val' f n p : f = Chi \/ f = ChiSquare -> nat_dom f n p -> VR (ctx_of (NP f) n) p (ecm_e f) (Ev []) (fun _ => ecmR n p f).
Proof. intros [->| ->] H; cbn [nat_dom] in H; cbn [ecm_e]; vx; jj; pxs; try reflexivity; try lra. Qed.
Section E.
  Variable solve : minimizer -> dist -> nat -> xr.
  Let L := fam_methods solve.
  Lemma ecm_at b i f q e n p : inb b i = true -> has_entropy_ep (EP f) = true -> at_pt b i e (EP f) n (expR n p f) -> dims_ok (NP f) n = true -> nat_dom f n p ->
    (f = Chi \/ f = ChiSquare -> l_to_nat L e = Ok q /\ at_pt b i q (NP f) n p) ->
    exists t, expected_carrier_measure L e = Ok t /\ shp t = b /\ tget t i = Fin (ecmR n p f).
  Proof.
    intros Hi He A K H Hx.
    pose proof A as [C W S D V]. assert (Sub : expected_carrier_measure L e = fam_expected_carrier_measure solve e).
    { destruct e as [c m ps subs]. cbn [dcls] in C. subst c. cbn [expected_carrier_measure]. rewrite He. reflexivity. }
    rewrite Sub. assert (Dec : (f = Chi \/ f = ChiSquare) \/ (f <> Chi /\ f <> ChiSquare)) by (destruct f; auto; right; split; discriminate).
    destruct Dec as [Dec|[N1 N2]].
    - destruct (Hx Dec) as [Q B]. assert (E1 : fam_expected_carrier_measure solve e = eval (dparams q) (ecm_e f)).
      { change (fam_to_nat solve e = Ok q) in Q. unfold fam_expected_carrier_measure. rewrite C. destruct Dec as [->| ->]; cbn iota; rewrite Q; reflexivity. }
      rewrite E1. destruct (pt_dims _ _ _ _ _ _ B) as (_ & HE & _). destruct (eval_at b _ _ i p (ecm_e f) [] (fun _ => Fin (ecmR n p f)) HE Hi (ap_vals _ _ _ _ _ _ B) (ecm_val' f n p Dec H)) as (t & T1 & T2 & T3).
      exists t. rewrite app_nil_r in T2. split; [exact T1|]. split; [exact T2|]. specialize (T3 [] eq_refl). now rewrite app_nil_r in T3.
    - assert (E1 : fam_expected_carrier_measure solve e = eval (dparams e) (ecm_e f)).
      { unfold fam_expected_carrier_measure. rewrite C. destruct f; try reflexivity; contradiction. }
      rewrite E1. destruct (leaf_setup b e f _ W C eq_refl eq_refl S) as (n' & D' & K' & HE & _). assert (n' = n) by congruence. subst n'.
      destruct (eval_at b _ _ i _ (ecm_e f) [] (fun _ => Fin (ecmR n p f)) HE Hi V (ecm_val f n p He K' H N1 N2)) as (t & T1 & T2 & T3).
      exists t. rewrite app_nil_r in T2. split; [exact T1|]. split; [exact T2|]. specialize (T3 [] eq_refl). now rewrite app_nil_r in T3.
  Qed.
End E.
(** C24 *)
Section H.
  Variable solve : minimizer -> dist -> nat -> xr.
  Let L := fam_methods solve.
  Lemma at_pt_to b i q r f n : inb b i = true -> dcls r = NP f -> at_pt b i q (NP f) n (point_of q i) -> same_leaf_at b i q r -> at_pt b i r (NP f) n (point_of q i).
  Proof.
    intros Hi Cr A Sm. pose proof Sm as (_ & (Wq & Wr & Sq & Sr & Dm & _) & E). assert (Dr : dims_of r = Ok n) by (rewrite <- Dm; exact (ap_dims _ _ _ _ _ _ A)).
    assert (B : at_pt b i r (NP f) n (point_of r i)).
    { apply at_pt_self; auto. intros g w j Ig Gw Hj. rewrite Cr in Ig. destruct (ap_get _ _ _ _ _ _ g A Ig) as (v & V1 & V2 & _).
      assert (Iq : In g (fields (dcls q))) by now rewrite (ap_cls _ _ _ _ _ _ A). rewrite <- (E g v w j Iq V1 Gw).
      - exact (at_pt_fin _ _ _ _ _ _ A g v j Iq V1 Hj).
      - rewrite V2, skipn_app, skipn_all, Nat.sub_diag. exact Hj. }
    apply (at_pt_eq _ _ _ _ _ (point_of r i)); [exact B|]. pose proof (same_at_pt b i q r f n Hi A B Sm) as Pe. intros m k s j K J. symmetry. exact (Pe m k s j K J).
  Qed.
  Lemma recovered_at b i f q n e : proper b i f q -> dims_of q = Ok n -> to_exp L q = Ok e -> at_pt b i e (EP f) n (expR n (point_of q i) f) -> recovered L b i q ->
    exists r, to_nat L e = Ok r /\ l_to_nat L e = Ok r /\ at_pt b i r (NP f) n (point_of q i).
  Proof.
    intros Pq D E1 E2 (e' & r & R1 & R2 & R3). assert (e' = e) by congruence. subst e'. exists r. split; [exact R2|]. pose proof Pq as (C & W & S & Hi & Dm).
    destruct (proper_dims b i f q Pq) as (n' & D1 & D2 & D3 & D4 & _). assert (n' = n) by congruence. subst n'. assert (A : at_pt b i q (NP f) n (point_of q i)) by now apply at_pt_self.
    pose proof E2 as [C2 W2 S2 _ _]. assert (Q : l_to_nat L e = Ok r) by (destruct e as [c m ps subs]; cbn [dcls] in C2; subst c; exact R2). split; [exact Q|].
    destruct (g_nat L (fam_good solve) b e f C2 W2 S2) as (r' & Q' & Cr & _). rewrite Q in Q'. injection Q' as <-.
    apply at_pt_to; auto. unfold same_at in R3. rewrite (leaf_leaves q), (leaf_leaves r) in R3 by (rewrite ?C, ?Cr; reflexivity). inversion R3 as [|? ? ? ? [_ X] _]; subst. exact X.
  Qed.
  Lemma point_real b i v c n p g j : at_pt b i v c n p -> In g (fields c) -> kind_of (fd_support g) = KR -> point_of v i true (fd_name g) j = 0.
  Proof. intros A G K. destruct (ap_get _ _ _ _ _ _ g A G) as (x & X1 & _ & X3). rewrite K in X3. unfold point_of. rewrite X1, X3. reflexivity. Qed.
  Lemma dot_same b i f n q r w : inb b i = true -> at_pt b i q (NP f) n (point_of q i) -> at_pt b i r (NP f) n (point_of q i) -> dotP (NP f) (EP f) n (point_of r i) w = dotP (NP f) (EP f) n (point_of q i) w.
  Proof.
    intros Hi A B. pose proof (at_pt_pt b i r (NP f) n _ Hi B) as Pe. unfold dotP. f_equal. apply map_ext_in. intros [g h] Hgh. cbn [fst snd]. apply in_combine_both in Hgh as [Hg _]. cbn [fst] in Hg. apply filter_In in Hg as [Hg _].
    f_equal. apply map_ext_in. intros j Hj. apply in_indices in Hj. rewrite (pt_re (NP f) n _ _ g j Pe Hg Hj). f_equal. f_equal. destruct (kind_of (fd_support g)) eqn:K.
    - rewrite (point_real b i r (NP f) n _ g j B Hg K), (point_real b i q (NP f) n _ g j A Hg K). reflexivity.
    - symmetry. exact (pt_im (NP f) n _ _ g j Pe Hg K Hj).
  Qed.
  Lemma cross_at b i f e q r n : inb b i = true -> at_pt b i e (EP f) n (expR n (point_of q i) f) -> at_pt b i q (NP f) n (point_of q i) -> at_pt b i r (NP f) n (point_of q i) -> nat_dom f n (point_of q i) -> 
    (exists t, expected_carrier_measure L e = Ok t /\ shp t = b /\ tget t i = Fin (ecmR n (point_of q i) f)) ->
    exists t, cross_entropy L e r = Ok t /\ shp t = b /\ tget t i = Fin (- dotP (NP f) (EP f) n (point_of q i) (expR n (point_of q i) f) + lnR n (point_of q i) f - ecmR n (point_of q i) f).
  Proof.
    intros Hi E Aq A H (ec & X1 & X2 & X3). pose proof A as [C W S D V]. pose proof E as [C' W' S' D' V'].
    destruct (leaf_value b r e) as (d & D1 & D2 & D3). { repeat (split; [assumption|]). split; [congruence|]. exists f. rewrite C, C'. auto. }
    destruct (ln_at solve b i r f n _ Hi A H) as (l & L1 & L2 & L3). assert (Ln : log_normalizer L r = Ok l). { destruct r as [c m ps subs]. cbn [dcls] in C. subst c. exact L1. }
    unfold cross_entropy. rewrite D1. cbn [bind]. rewrite Ln. cbn [bind]. rewrite tmap2_same by (cbn; congruence). cbn [bind]. rewrite X1. cbn [bind]. rewrite tmap2_same by (cbn; congruence).
    eexists. split; [reflexivity|]. split; [exact D2|]. assert (Hd : inb (shp d) i = true) by now rewrite D2. cbn [shp tmap tbuild]. rewrite !tget_tbuild by exact Hd. rewrite tget_tmap by exact Hd. specialize (D3 i Hi). rewrite (inner_at b i r e f n (expR n (point_of q i) f) Hi (at_pt_eq _ _ _ _ _ _ _ A (at_pt_pt b i r (NP f) n _ Hi A)) E), (dot_same b i f n q r _ Hi Aq A) in D3.
    rewrite D3, L3, X3. cbn. f_equal.
  Qed.
  Lemma expected_log f n p : has_entropy_ep (EP f) = true -> dims_ok (NP f) n = true -> nat_dom f n p ->
    integral_over f n (fun x => dens f n p x * - lpR n p x f) (- dotP (NP f) (EP f) n p (expR n p f) + lnR n p f - ecmR n p f).
  Proof.
    intros He D H. destruct (fam_norm_mean f n p D H) as [N M]. pose proof (fam_cm f n p He D H) as K. specialize (M p).
    pose proof (integral_plus f n _ _ _ _ (integral_plus f n _ _ _ _ (integral_scal f n _ _ (-1) M) (integral_scal f n _ _ (lnR n p f) N)) (integral_scal f n _ _ (-1) K)) as J.
    eapply integral_to; [|eapply integral_ext; [|exact J]]; [ring|]. intros x _. cbv beta. unfold lpR. ring.
  Qed.
  Lemma log_pdf_lp b i f q n : proper b i f q -> dims_of q = Ok n -> log_pdf_is L b i f n q (fun x => lpR n (point_of q i) x f).
  Proof. intros Pq D x xv O X. now apply (log_density_at solve). Qed.
  Lemma log_pdf_val b i f q n l : proper b i f q -> dims_of q = Ok n -> log_pdf_is L b i f n q l -> forall x, point_ok f n x -> l x = lpR n (point_of q i) x f.
  Proof.
    intros Pq D H x [X1 X2]. destruct (observe b i f q n x Pq D X2) as (a & A). destruct (H a x A X1) as (t & T1 & _ & T2). destruct (log_density_at solve b i f q n a x Pq D A X1) as (t' & T1' & _ & T2'). unfold L in T1. congruence.
  Qed.
  Lemma entropies b i f q n : proper b i f q -> dims_of q = Ok n -> has_entropy_ep (EP f) = true -> (carrier_by_search f = true -> recovered L b i q) ->
    exists e t t' h h', to_exp L q = Ok e /\ entropy_nat L q = Ok t /\ shp t = b /\ tget t i = Fin h /\ expected_carrier_measure L e = Ok t' /\ shp t' = b /\ tget t' i = Fin h' /\
      (exists l, log_pdf_is L b i f n q l) /\ (exists M, carrier_is L b i f n q M) /\
      forall P, pdf_is L b i f n q P -> (forall l, log_pdf_is L b i f n q l -> expected f n P (fun x => - l x) h) /\ (forall M, carrier_is L b i f n q M -> expected f n P M h').
  Proof.
    intros Pq D He R. pose proof (entropy_unclipped b i f q Pq He) as U. pose proof Pq as (_ & _ & _ & Hi & _).
    destruct (exp_form_at solve b i f q n Pq D U) as (e & E1 & E2 & A & H). set (p := point_of q i) in *. fold L in E1.
    destruct (proper_dims b i f q Pq) as (n' & D1 & _ & _ & D4 & _). assert (n' = n) by congruence. subst n'.
    assert (EC : exists t, expected_carrier_measure L e = Ok t /\ shp t = b /\ tget t i = Fin (ecmR n p f)).
    { destruct (carrier_by_search f) eqn:Cs.
      - destruct (recovered_at b i f q n e Pq D E1 E2 (R eq_refl)) as (r & _ & R2 & R3). apply (ecm_at solve b i f r e n p); auto.
      - apply (ecm_at solve b i f q e n p); auto. intros [->| ->]; discriminate Cs. }
    destruct (cross_at b i f e q q n Hi E2 A A H EC) as (t & T1 & T2 & T3). destruct EC as (t' & T1' & T2' & T3').
    exists e, t, t'. do 2 eexists. split; [exact E1|]. split; [unfold entropy_nat; rewrite E1; exact T1|]. split; [exact T2|]. split; [exact T3|]. split; [exact T1'|]. split; [exact T2'|]. split; [exact T3'|].
    assert (CM : carrier_is L b i f n q (fun x => cmR n p x f)).
    { intros x xv O X. destruct (cm_at solve b i q f n p x xv Hi A H O X) as (c & C1 & C2 & C3). exists c. split; [|auto]. destruct q as [cl m ps subs]. pose proof (ap_cls _ _ _ _ _ _ A) as Cq. cbn [dcls] in Cq. subst cl. exact C1. }
    split; [eexists; now apply log_pdf_lp|]. split; [eexists; exact CM|]. intros P HP. pose proof (pdf_val solve b i f q n P Pq D HP) as PV. split.
    - intros l Hl. pose proof (log_pdf_val b i f q n l Pq D Hl) as LV. unfold expected. eapply integral_ext; [|exact (expected_log f n p He D4 H)]. intros x X. cbv beta. rewrite (PV x X), (LV x X). reflexivity.
    - intros m Hm. assert (MV : forall x, point_ok f n x -> m x = cmR n p x f).
      { intros x [X1 X2]. destruct (observe b i f q n x Pq D X2) as (a & O). destruct (Hm a x O X1) as (c & C1 & _ & C2). destruct (CM a x O X1) as (c' & C1' & _ & C2'). congruence. }
      unfold expected. eapply integral_ext; [|exact (fam_cm f n p He D4 H)]. intros x X. cbv beta. rewrite (PV x X), (MV x X). reflexivity.
  Qed.
  Lemma entropy_exp_val b i f q n : proper b i f q -> dims_of q = Ok n -> has_entropy_ep (EP f) = true -> recovered L b i q ->
    exists e t h, to_exp L q = Ok e /\ entropy_exp L e = Ok t /\ shp t = b /\ tget t i = Fin h /\
      forall P l, pdf_is L b i f n q P -> log_pdf_is L b i f n q l -> expected f n P (fun x => - l x) h.
  Proof.
    intros Pq D He R. pose proof (entropy_unclipped b i f q Pq He) as U. pose proof Pq as (_ & _ & _ & Hi & _).
    destruct (exp_form_at solve b i f q n Pq D U) as (e & E1 & E2 & A & H). set (p := point_of q i) in *. fold L in E1.
    destruct (proper_dims b i f q Pq) as (n' & D1 & _ & _ & D4 & _). assert (n' = n) by congruence. subst n'.
    destruct (recovered_at b i f q n e Pq D E1 E2 R) as (r & R1 & R2 & R3).
    pose proof (at_pt_pt b i r (NP f) n p Hi R3) as Pe.
    assert (EC : exists t, expected_carrier_measure L e = Ok t /\ shp t = b /\ tget t i = Fin (ecmR n p f)) by (apply (ecm_at solve b i f r e n p); auto).
    destruct (cross_at b i f e q r n Hi E2 A R3 H EC) as (t & T1 & T2 & T3). exists e, t. eexists. split; [exact E1|]. split; [unfold entropy_exp; rewrite R1; exact T1|]. split; [exact T2|]. split; [exact T3|].
    intros P l HP Hl. pose proof (pdf_val solve b i f q n P Pq D HP) as PV. pose proof (log_pdf_val b i f q n l Pq D Hl) as LV. unfold expected. eapply integral_ext; [|exact (expected_log f n p He D4 H)]. intros x X. cbv beta. rewrite (PV x X), (LV x X). reflexivity.
  Qed.
End H.
Lemma closed_recovered solve b i f q : proper b i f q -> closed_form f = true -> recovered (fam_methods solve) b i q.
Proof.
  intros (C & W & S & Hi & Dm) Cf. assert (J : is_joint (dcls q) = false) by now rewrite C.
  assert (N : nat_tree q = true). { destruct q as [c m ps subs]. cbn [dcls] in *. subst c. pose proof (wf_inv _ _ _ _ W) as (_ & _ & Hs & _). rewrite (Hs eq_refl). reflexivity. }
  destruct (t_nat_exp solve b q i W N (shaped_of_leaf _ _ W J S) Hi) as (e & r & E1 & E2 & _ & _ & E3).
  - intros p l Hl. rewrite leaf_leaves in Hl by exact J. destruct Hl as [Hl|[]]. injection Hl as <- <-. exact Dm.
  - intros p l g Hl Fl. rewrite leaf_leaves in Hl by exact J. destruct Hl as [Hl|[]]. injection Hl as <- <-. rewrite C in Fl. injection Fl as <-. exact Cf.
  - exists e, r. auto.
Qed.
Lemma entropy_exp_thm solve b i f q n : proper b i f q -> dims_of q = Ok n -> has_entropy_ep (EP f) = true ->
  (closed_form f = false -> recovered (fam_methods solve) b i q) ->
  exists e t h, to_exp (fam_methods solve) q = Ok e /\ entropy_exp (fam_methods solve) e = Ok t /\ shp t = b /\ tget t i = Fin h /\
    forall P l, pdf_is (fam_methods solve) b i f n q P -> log_pdf_is (fam_methods solve) b i f n q l -> expected f n P (fun x => - l x) h.
Proof.
  intros Pq D He R. apply entropy_exp_val; auto. destruct (closed_form f) eqn:Cf; [|auto]. exact (closed_recovered solve b i f q Pq Cf).
Qed.
