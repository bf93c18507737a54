(** C72: the average of expectation parameters is the centroid of the divergence. *)
From Coquelicot Require Import Coquelicot.
From Coq Require Import String List Bool Arith Reals Lia Lra.
From Verif Require Import Base XReal Tensor TensorFacts Support Dist DictFacts Iteration Structure Spec StructFacts AssembleFacts ParamFacts ReplaceFacts SumSpec DotSpec Tools ToolThms MappingFacts Joint DotFacts StructThms Laws SumFacts MapFacts
  JointThms JointThms2 DotLaws KlThms SpecFun Expr Fam ExprFacts FamTy FamFacts BatchFacts ConvThms PointSpec PointFacts Val FamR FamVal ConvFacts DerivFacts MatDeriv BregFacts BregThms MatBreg LeafVal DerivThms KlPos IntGen IntFam IntThms JointKl InjThms MleThms
  FisherSpec FisherThms JointIntSpec CovSpec KlSpec GradSpec KlTri CentSpec.
Import ListNotations.
Local Unset Asymmetric Patterns.
Local Open Scope R_scope.

Lemma wsum_cons wp l x xs : wsum (wp :: l) (x :: xs) = fst wp * x + wsum l xs.
Proof. reflexivity. Qed.
Section T.
  Variable solve : minimizer -> dist -> nat -> xr.
  Notation L := (fam_methods solve).
  Notation G := (fam_good solve).
  Variables (b i : list nat).
  Theorem t_compensation wps m x :
    (forall w p, In (w, p) wps -> joint_proper b i p /\ not_clipped p i /\ same_skeleton m p /\ tree_match b m p) ->
    joint_proper b i m -> not_clipped m i -> joint_proper b i x -> same_skeleton m x -> tree_match b m x -> finite_vars m -> finite_vars x -> averages L b i wps m ->
    exists ks ls k, Forall2 (fun wp k => value_is b i (kl_divergence_nat L (snd wp) x) k) wps ks /\ Forall2 (fun wp k => value_is b i (kl_divergence_nat L (snd wp) m) k) wps ls /\
      value_is b i (kl_divergence_nat L m x) k /\ wsum wps ks = wsum wps ls + k.
  Proof.
    intros Hp Pm Um Px Sk T Fm Fx' [W1 Av]. pose proof (tm_refl_l _ _ _ T) as Tm. pose proof (skel_refl m) as Skm.
    set (k := rsum (map (klv i m x) (leaves [] m))). assert (K : value_is b i (kl_divergence_nat L m x) k) by (now apply kl_val).
    set (xm := rsum (map (ip i x m) (leaves [] m))). set (mm := rsum (map (ip i m m) (leaves [] m))).
    assert (Mx : mean_along L b i m x xm) by (now apply ip_val). assert (Mm : mean_along L b i m m mm) by (now apply ip_val).
    assert (Q : exists ks ls xs ms, Forall2 (fun wp k => value_is b i (kl_divergence_nat L (snd wp) x) k) wps ks /\ Forall2 (fun wp k => value_is b i (kl_divergence_nat L (snd wp) m) k) wps ls /\
      Forall2 (fun wp a => mean_along L b i (snd wp) x a) wps xs /\ Forall2 (fun wp a => mean_along L b i (snd wp) m a) wps ms /\
      wsum wps ks = wsum wps ls + rsum (map fst wps) * (k + xm - mm) - wsum wps xs + wsum wps ms).
    { clear W1 Av. revert Hp. induction wps as [|[w p] l IH]; intros Hp.
      { exists [], [], [], []. repeat (split; [constructor|]). cbn. unfold wsum. cbn. lra. }
      destruct (IH (fun w' p' H => Hp w' p' (or_intror H))) as (ks & ls & xs & ms & F1 & F2 & F3 & F4 & E). destruct (Hp w p (or_introl eq_refl)) as (P & U & Skp & Tp).
      destruct (t_three solve b i p m x P Pm Px U Um (skel_sym _ _ Skp) (tm_sym _ _ _ Tp) (skel_trans _ _ _ (skel_sym _ _ Skp) Sk) (tm_trans _ _ _ _ (tm_sym _ _ _ Tp) T))
        as (kpr & kpq & kqr & rq & rp & qq & qp & K1 & K2 & K3 & M1 & M2 & M3 & M4 & E3).
      rewrite <- (value_fun _ _ _ _ _ K K3), <- (mean_fun _ _ _ _ _ _ _ Mx M1), <- (mean_fun _ _ _ _ _ _ _ Mm M3) in E3.
      exists (kpr :: ks), (kpq :: ls), (rp :: xs), (qp :: ms). do 4 (split; [constructor; assumption|]). rewrite !wsum_cons. cbn [fst map]. unfold rsum at 1. cbn [fold_right]. fold (rsum (map fst l)). rewrite E, E3. ring. }
    destruct Q as (ks & ls & xs & ms & F1 & F2 & F3 & F4 & E). exists ks, ls, k. do 3 (split; [assumption|]).
    rewrite W1, <- (Av x xm xs (proj1 Px) T Fx' Mx F3), <- (Av m mm ms (proj1 Pm) Tm Fm Mm F4) in E. lra.
  Qed.
  Theorem t_centroid wps m x :
    (forall w p, In (w, p) wps -> joint_proper b i p /\ not_clipped p i /\ same_skeleton m p /\ tree_match b m p) ->
    joint_proper b i m -> not_clipped m i -> joint_proper b i x -> same_skeleton m x -> tree_match b m x -> same_fixed_at b i m x -> finite_vars m -> finite_vars x -> averages L b i wps m ->
    exists ks ls, Forall2 (fun wp k => value_is b i (kl_divergence_nat L (snd wp) x) k) wps ks /\ Forall2 (fun wp k => value_is b i (kl_divergence_nat L (snd wp) m) k) wps ls /\
      wsum wps ls <= wsum wps ks /\ (wsum wps ls = wsum wps ks <-> same_at b i m x).
  Proof.
    intros Hp Pm Um Px Sk T Fx Fm Fx' Av. destruct (t_compensation wps m x Hp Pm Um Px Sk T Fm Fx' Av) as (ks & ls & k & F1 & F2 & K & E). exists ks, ls. split; [exact F1|]. split; [exact F2|].
    destruct Pm as (Wq & Nq & Sq & Hi & Hq). destruct Px as (Wr & Nr & Sr & _ & Hr).
    destruct (t_kl solve b i m x Wq Wr Nq Sk T Hi Hq Hr Um Fx) as (t & k' & T1 & T2 & T3 & T4 & T5).
    assert (k' = k) by (apply (value_fun b i (kl_divergence_nat L m x)); [exists t; auto|exact K]). subst k'. split; [lra|]. rewrite <- T5. split; intros; lra.
  Qed.
  (** the inner product at batch index i depends only on the entries at i *)
  Lemma inner_same e e' v : same_leaf_at b i e e' -> leaf_inner b i e v = leaf_inner b i e' v.
  Proof.
    intros (C & (W & W' & S & S' & D & g & F1 & F2) & E). unfold leaf_inner. rewrite <- C. f_equal. apply map_ext_in. intros [h h'] Hgh. cbn [fst snd]. apply in_combine_l in Hgh. apply filter_In in Hgh as [Ih _].
    destruct (leaf_dims _ _ S) as (n & Dn & K). assert (Dn' : dims_of e' = Ok n) by congruence. pose proof (fields_in_ctx (dcls e) n h Ih) as X. assert (X' : dget (ctx_of (dcls e') n) (fd_name h) = Some (kind_of (fd_support h), supp_shape (fd_support h) n)) by (rewrite <- C; exact X).
    destruct (leaf_env b e n S Dn _ _ _ X) as (t & T1 & T2). destruct (leaf_env b e' n S' Dn' _ _ _ X') as (t' & T1' & T2'). rewrite T1, T1'. destruct (dget (dparams v) (fd_name h')) as [w|]; [|reflexivity].
    assert (Z : ashape (pack (kind_of (fd_support h)) t) = ashape (pack (kind_of (fd_support h)) t')) by (transitivity (b ++ supp_shape (fd_support h) n)%list; [destruct (kind_of (fd_support h)); exact T2|symmetry; destruct (kind_of (fd_support h)); exact T2']).
    unfold array_inner. rewrite <- Z. f_equal. apply map_ext_in. intros j Hj. apply in_indices in Hj. now rewrite (E h _ _ j Ih T1 T1' Hj).
  Qed.
  Lemma pdp_same e e' v z : inb b i = true -> well_formed e = true -> well_formed e' = true -> well_formed v = true -> tree_match b e v -> same_at b i e e' -> value_is b i (parameter_dot_product v e) z -> value_is b i (parameter_dot_product v e') z.
  Proof.
    intros Hi We We' Wv T Sa (t & V1 & V2 & V3).
    assert (Te : tree_match b e e') by (clear - Sa; unfold tree_match, same_at in *; induction Sa as [|x y l m [H1 (_ & H2 & _)] _ IH]; constructor; auto).
    assert (T' : tree_match b e' v) by exact (tm_trans _ _ _ _ (tm_sym _ _ _ Te) T).
    destruct (dot_sym b e v We Wv T) as (t1 & t1' & S1 & S2 & S3 & S4 & S5). destruct (dot_sym b e' v We' Wv T') as (t2 & t2' & R1 & R2 & R3 & R4 & R5).
    exists t2'. split; [exact R2|]. split; [exact R4|]. rewrite <- (R5 i Hi). rewrite V1 in S2. injection S2 as <-. rewrite <- (S5 i Hi) in V3.
    destruct (dot_value b e v We Wv T) as (u & U1 & U2 & U3). destruct (dot_value b e' v We' Wv T') as (u' & U1' & U2' & U3'). rewrite S1 in U1. injection U1 as <-. rewrite R1 in U1'. injection U1' as <-.
    rewrite (U3' i Hi). rewrite (U3 i Hi) in V3. rewrite <- V3. f_equal. unfold same_at in Sa. generalize (leaves [] v). clear - Sa. induction Sa as [|x y l m [H1 H2] _ IH]; intros lv; [reflexivity|]. destruct lv as [|z lv]; [reflexivity|]. cbn [combine map fst snd]. rewrite (inner_same _ _ (snd z) H2). f_equal. apply IH.
  Qed.
  (** to_exp keeps the names and changes the classes in the same way everywhere *)
  Definition cls_e (c : cls) : cls := match c with NP f => EP f | JointDistributionN => JointDistributionE | c => c end.
  Definition sig_ (g : cls -> cls) (x : dist) : cls * list string := (g (dcls x), map fst (sub_distributions x)).
  Lemma exp_sig d : forall base e, well_formed d = true -> nat_tree d = true ->
    (forall p q f, In (p, q) (leaves base d) -> dcls q = NP f -> exists e, l_to_exp L q = Ok e /\ dcls e = EP f /\ well_formed e = true) ->
    to_exp L d = Ok e -> forall p, option_map (sig_ (fun c => c)) (dist_at e p) = option_map (sig_ cls_e) (dist_at d p).
  Proof.
    induction d as [c m ps subs IH] using dist_rect'. intros base e Hwf Hn Hl E. apply wf_inv in Hwf as (_ & Hj & Hsb & Hsub).
    cbn [nat_tree all_nodes] in Hn. apply andb_prop in Hn as [Hc Hn]. destruct c as [f|f| | | | | | |]; try discriminate Hc.
    - cbn [leaves is_joint to_exp] in *. destruct (Hl base (Dist (NP f) m ps subs) f (or_introl eq_refl) eq_refl) as (e' & E1 & E2 & E3). rewrite E in E1. injection E1 as <-.
      destruct e as [ce me pse subse]. cbn [dcls] in E2. subst ce. pose proof (wf_inv _ _ _ _ E3) as (_ & _ & Hse & _). rewrite (Hse eq_refl). rewrite (Hsb eq_refl). intros [|a p]; reflexivity.
    - rewrite to_exp_unfold_joint in E. cbn [leaves is_joint] in Hl.
      destruct (mapM (fun ns => let* e := to_exp L (snd ns) in Ok (fst ns, e)) subs) as [r|] eqn:R; [|discriminate E]. cbn [bind] in E. injection E as <-.
      assert (Hm : map fst r = map fst subs /\ forall a p, option_map (sig_ (fun c => c)) (match dget r a with Some s => dist_at s p | None => None end) = option_map (sig_ cls_e) (match dget subs a with Some s => dist_at s p | None => None end)).
      { clear Hj Hsb. revert r R. induction subs as [|[n s] subs IHs]; intros r R; [cbn in R; injection R as <-; split; reflexivity|].
        inversion IH; subst. inversion Hsub; subst. cbn [forallb fst snd] in *. apply andb_prop in Hn as [Hn1 Hn2]. cbn [mapM fst snd] in R.
        destruct (to_exp L s) as [e|] eqn:Es; [|discriminate R]. cbn [bind] in R. destruct (mapM (fun ns => let* e := to_exp L (snd ns) in Ok (fst ns, e)) subs) as [r'|] eqn:R'; [|discriminate R]. cbn [bind] in R. injection R as <-.
        destruct (IHs H2 H4 Hn2) with (r := r') as [F1 F2]; [intros p q f Hi; apply (Hl p q f); cbn [flat_map fst snd]; apply in_or_app; now right|reflexivity|].
        split; [cbn; now rewrite F1|]. intros a p. cbn [dget]. destruct (keq a n); [|apply F2]. apply (H1 (base ++ [n])%list e H3 Hn1); [|reflexivity]. intros p' q f Hi. apply (Hl p' q f). cbn [flat_map fst snd]. apply in_or_app. now left. }
      destruct Hm as [M1 M2]. intros [|a p]; [cbn; unfold sig_; cbn; now rewrite M1|]. cbn [dist_at sub_distributions]. apply M2.
  Qed.
  Lemma exp_skel p q ep eq : well_formed p = true -> nat_tree p = true -> shaped b p = true -> well_formed q = true -> nat_tree q = true -> shaped b q = true -> same_skeleton p q -> to_exp L p = Ok ep -> to_exp L q = Ok eq -> same_skeleton ep eq.
  Proof.
    intros W N S Wq Nq Sq Sk E Eq pth.
    assert (X : forall d e, well_formed d = true -> nat_tree d = true -> shaped b d = true -> to_exp L d = Ok e -> option_map (sig_ (fun c => c)) (dist_at e pth) = option_map (sig_ cls_e) (dist_at d pth)).
    { intros d e Wd Nd Sd Ed. apply (exp_sig d [] e Wd Nd); [|exact Ed]. intros x l f Hi Hc. destruct (leaf_wf d [] x l Wd Hi) as [Wl _]. destruct (g_exp L G b l f Hc Wl (shaped_in b d x l Sd Hi)) as (e' & H1 & H2 & H3 & H4 & _). exists e'. destruct H3 as (_ & H3 & _). auto. }
    pose proof (X p ep W N S E) as X1. pose proof (X q eq Wq Nq Sq Eq) as X2. destruct (Sk pth) as [S1 S2].
    destruct (dist_at p pth) as [a|], (dist_at q pth) as [a'|]; try discriminate S1; cbn in S1, S2, X1, X2.
    - destruct (dist_at ep pth) as [c|]; [|discriminate X1]. destruct (dist_at eq pth) as [c'|]; [|discriminate X2]. cbn in *. injection X1 as A1 A2. injection X2 as B1 B2. injection S1 as S1. injection S2 as S2. split; f_equal; congruence.
    - destruct (dist_at ep pth); [discriminate X1|]. destruct (dist_at eq pth); [discriminate X2|]. split; reflexivity.
  Qed.
  Theorem t_average p q m s ep eq em e : joint_proper b i p -> joint_proper b i q -> joint_proper b i m -> same_skeleton m p -> tree_match b m p -> same_skeleton m q -> tree_match b m q ->
    to_exp L p = Ok ep -> to_exp L q = Ok eq -> to_exp L m = Ok em -> finite_vars ep -> finite_vars eq ->
    parameter_map (lin_op (1 - s) s) ep [eq] = Ok e -> same_at b i e em -> averages L b i [(1 - s, p); (s, q)] m.
  Proof.
    intros (Wp & Np & Sp & Hi & Hp) (Wq & Nq & Sq & _ & Hq) (Wm & Nm & Sm & _ & Hm) Skp Tp Skq Tq Ep Eq Em Fp Fq V Sa. split; [cbn; lra|].
    intros v am als Wv Tv Fv MA F. inversion F as [|? ap ? ? Ap F']; subst. inversion F' as [|? aq ? ? Aq F'']; subst. inversion F''; subst. cbn [snd] in *. unfold wsum. cbn. destruct MA as (em' & t & E1 & D1 & D2 & D3).
    rewrite Em in E1. injection E1 as <-. destruct Ap as (ep' & tp & E1 & P1 & P2 & P3). rewrite Ep in E1. injection E1 as <-. destruct Aq as (eq' & tq & E1 & Q1 & Q2 & Q3). rewrite Eq in E1. injection E1 as <-.
    destruct (g_exp_tree L G b p Wp Np Sp) as (x & E1 & Wep & _ & _ & Tep & _). rewrite Ep in E1. injection E1 as <-. destruct (g_exp_tree L G b q Wq Nq Sq) as (x & E1 & Weq & _ & _ & Teq & _). rewrite Eq in E1. injection E1 as <-.
    destruct (g_exp_tree L G b m Wm Nm Sm) as (x & E1 & Wem & _ & _ & Tem & _). rewrite Em in E1. injection E1 as <-.
    assert (Tee : tree_match b ep eq) by (eapply tm_trans; [apply tm_sym; exact Tep|]; eapply tm_trans; [apply tm_sym; exact Tp|]; eapply tm_trans; [exact Tq|exact Teq]).
    assert (Tev : tree_match b ep v) by (eapply tm_trans; [apply tm_sym; exact Tep|]; eapply tm_trans; [apply tm_sym; exact Tp|exact Tv]).
    assert (Tqv : tree_match b eq v) by (exact (tm_trans _ _ _ _ (tm_sym _ _ _ Tee) Tev)).
    assert (Ske : same_skeleton ep eq). { apply (exp_skel p q); auto. exact (skel_trans _ _ _ (skel_sym _ _ Skp) Skq). }
    destruct (dot_lin (lin_op (1 - s) s) (1 - s) s (lin_op_linear (1 - s) s) b ep eq v Wep Weq Wv Ske Tee Tev Fp Fq Fv) as (r & u & s1 & s2 & R1 & R2 & R3 & R4 & (R5 & R6 & R7 & R8)). rewrite V in R1. injection R1 as <-.
    destruct (map_lin_full _ (1 - s) s (lin_op_linear (1 - s) s) b ep eq Wep Weq Ske Tee Fp Fq) as (x & E1 & We & _ & _ & Te & _). rewrite V in E1. injection E1 as <-.
    assert (Tv' : tree_match b e v) by exact (tm_trans _ _ _ _ (tm_sym _ _ _ Te) Tev).
    destruct (R8 i Hi) as (y1 & y2 & Y1 & Y2 & Y3).
    assert (Sym : forall a t z, well_formed a = true -> tree_match b a v -> parameter_dot_product a v = Ok t -> tget t i = Fin z -> value_is b i (parameter_dot_product v a) z).
    { intros a w z Wa Ta P Z. destruct (dot_sym b a v Wa Wv Ta) as (t1 & t1' & S1 & S2 & S3 & S4 & S5). exists t1'. split; [exact S2|]. split; [exact S4|]. rewrite <- (S5 i Hi). rewrite P in S1. injection S1 as <-. exact Z. }
    pose proof (pdp_same e em v _ Hi We Wem Wv Tv' Sa (Sym e u _ We Tv' R2 Y3)) as Vm.
    rewrite (value_fun b i (parameter_dot_product v em) am _ (ex_intro _ t (conj D1 (conj D2 D3))) Vm).
    rewrite (value_fun b i (parameter_dot_product v ep) ap _ (ex_intro _ tp (conj P1 (conj P2 P3))) (Sym ep s1 _ Wep Tev R3 Y1)).
    rewrite (value_fun b i (parameter_dot_product v eq) aq _ (ex_intro _ tq (conj Q1 (conj Q2 Q3))) (Sym eq s2 _ Weq Tqv R4 Y2)). ring.
  Qed.
End T.
