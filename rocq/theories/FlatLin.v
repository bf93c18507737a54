(** unflatten without mapping is linear in the flat array. *)
From Coq Require Import String List Bool Arith Reals Lia Lra.
From Verif Require Import Base XReal Tensor TensorFacts TensorFacts2 Support SupportSpec SupportFacts SupportRt Dist DictFacts Iteration Structure Spec StructFacts AssembleFacts ParamFacts FlattenSpec FlattenFacts RefillFacts FlattenThms ToolThms
  SumSpec DotSpec PointSpec MapFacts.
Import ListNotations.
Local Open Scope nat_scope.

(** ** the nodes of a tree and its infos *)
Lemma walk_nodes d : forall base infos, well_formed d = true -> walk make_info d base = Ok infos ->
  (forall p x, dist_at d p = Some x -> exists i, In i infos /\ i_path i = base ++ p /\ i_type i = dcls x /\ i_subs i = map fst (sub_distributions x)) /\
  (forall i, In i infos -> exists p x, i_path i = base ++ p /\ dist_at d p = Some x /\ i_type i = dcls x /\ i_subs i = map fst (sub_distributions x)).
Proof.
  induction d as [c m ps subs IH] using dist_rect'. intros base infos W Hw. pose proof W as W0. apply wf_inv in W as (_ & Hj & Hs & Hsub). rewrite walk_unfold in Hw.
  apply bind_Ok in Hw as (rest & Hr & Hw). apply bind_Ok in Hw as (i & Hi & Hw). injection Hw as <-. apply make_info_ok in Hi as (I1 & I2 & I3).
  assert (R : forall n s, In (n, s) subs -> exists r, walk make_info s (base ++ [n]) = Ok r /\ incl r (concat rest)).
  { clear - Hr. revert rest Hr. induction subs as [|[n s] subs IHs]; intros rest Hr n' s' Hin; [destruct Hin|]. cbn [mapM fst snd] in Hr. apply bind_Ok in Hr as (r1 & Hr1 & Hr). apply bind_Ok in Hr as (rs & Hrs & Hr). injection Hr as <-.
    destruct Hin as [E|Hin]; [injection E as <- <-; exists r1; split; [exact Hr1|]; cbn [concat]; apply incl_appl, incl_refl|]. destruct (IHs _ Hrs _ _ Hin) as (r & A & B). exists r. split; [exact A|]. cbn [concat]. now apply incl_appr. }
  assert (Q : forall i, In i (concat rest) -> exists n s r, In (n, s) subs /\ walk make_info s (base ++ [n]) = Ok r /\ In i r).
  { clear - Hr. revert rest Hr. induction subs as [|[n s] subs IHs]; intros rest Hr j Hin; cbn [mapM fst snd] in Hr; [injection Hr as <-; destruct Hin|]. apply bind_Ok in Hr as (r1 & Hr1 & Hr). apply bind_Ok in Hr as (rs & Hrs & Hr). injection Hr as <-.
    cbn [concat] in Hin. apply in_app_iff in Hin as [Hin|Hin]; [exists n, s, r1; split; [now left|]; auto|]. destruct (IHs _ Hrs _ Hin) as (n' & s' & r & A & B & C). exists n', s', r. split; [now right|]. auto. }
  assert (ND : NoDup (map fst subs)). { destruct (is_joint c) eqn:E; [exact (proj2 (Hj eq_refl))|rewrite (Hs eq_refl); constructor]. }
  rewrite Forall_forall in IH, Hsub. split.
  - intros [|n p] x Hd; cbn [dist_at sub_distributions] in Hd.
    + injection Hd as <-. exists i. split; [apply in_app_iff; right; now left|]. rewrite app_nil_r. auto.
    + destruct (dget subs n) as [s|] eqn:E; [|discriminate Hd]. apply dget_In in E. destruct (R n s E) as (r & A & B). destruct (IH _ E (base ++ [n]) r (Hsub _ E) A) as [F _]. destruct (F p x Hd) as (j & J1 & J2 & J3).
      exists j. split; [apply in_app_iff; left; now apply B|]. rewrite J2, <- app_assoc. auto.
  - intros j Hin. apply in_app_iff in Hin as [Hin|[<-|[]]].
    + destruct (Q j Hin) as (n & s & r & A & B & C). destruct (IH _ A (base ++ [n]) r (Hsub _ A) B) as [_ F]. destruct (F j C) as (p & x & X1 & X2 & X3). exists (n :: p), x. split; [now rewrite X1, <- app_assoc|]. split; [|exact X3].
      cbn [dist_at sub_distributions]. now rewrite (In_dget _ _ _ ND A).
    + exists [], (Dist c m ps subs). rewrite app_nil_r. auto.
Qed.
Lemma walk_same_skeleton d e infos : well_formed d = true -> well_formed e = true -> create d = Ok infos -> create e = Ok infos -> same_skeleton d e.
Proof.
  intros Wd We Cd Ce. destruct (walk_nodes d [] infos Wd Cd) as [D1 D2]. destruct (walk_nodes e [] infos We Ce) as [E1 E2]. intros p.
  destruct (dist_at d p) as [x|] eqn:Ex.
  - destruct (D1 p x Ex) as (i & I1 & I2 & I3 & I4). destruct (E2 i I1) as (p' & y & P1 & P2 & P3 & P4). cbn [app] in *. assert (Ep : p' = p) by congruence. rewrite Ep in P2. rewrite P2. cbn [option_map]. split; congruence.
  - destruct (dist_at e p) as [y|] eqn:Ey; [|auto]. destruct (E1 p y Ey) as (i & I1 & I2 & I3 & I4). destruct (D2 i I1) as (p' & x & P1 & P2 & P3 & P4). cbn [app] in *. congruence.
Qed.

(** ** supports *)
Definition lin_ring (r : ring) : bool := match r with RealF _ _ _ | ComplexF _ _ => true | _ => false end.
Definition lin_supp (s : support) : bool := match s with ScalarS r | VectorS r | SymS r _ _ _ => lin_ring r | _ => false end.
(** two supports that differ in their bounds only *)
Definition like_ring (r r' : ring) : bool := match r, r' with RealF _ _ _, RealF _ _ _ | ComplexF _ _, ComplexF _ _ => true | _, _ => false end.
Definition like_supp (s s' : support) : bool :=
  match s, s' with ScalarS r, ScalarS r' | VectorS r, VectorS r' => like_ring r r' | SymS r h _ _, SymS r' h' _ _ => like_ring r r' && Bool.eqb h h' | _, _ => false end.
Lemma like_refl s : lin_supp s = true -> like_supp s s = true.
Proof. destruct s as [[]|[]|[]|[] h ? ?|[]|]; cbn; try discriminate; auto; intros _; now rewrite Bool.eqb_reflx. Qed.
Lemma like_un s s' n t : like_supp s s' = true -> supp_unflattened s t n false = supp_unflattened s' t n false.
Proof.
  destruct s as [r|r|r|r h ? ?|r|], s' as [r'|r'|r'|r' h' ? ?|r'|]; cbn [like_supp]; try discriminate; intros H; cbn [supp_unflattened].
  - destruct r, r'; try discriminate H; reflexivity.
  - destruct r, r'; try discriminate H; reflexivity.
  - apply andb_true_iff in H as [H E]. apply eqb_prop in E. subst h'. destruct r, r'; try discriminate H; reflexivity.
Qed.
Lemma np_lin f fd : In fd (variable_fields (NP f)) -> lin_supp (fd_support fd) = true.
Proof. destruct f; cbn; intros H; repeat destruct H as [<-|H]; try reflexivity; contradiction. Qed.
Lemma adjust_like f fd kw s : In fd (variable_fields (NP f)) -> adjust_support (NP f) (fd_name fd) kw = Ok s -> like_supp s (fd_support fd) = true.
Proof.
  intros I E. pose proof (np_lin f fd I) as L. destruct (cls_eq_dec (NP f) (NP ComplexNormal)) as [C|C].
  - injection C as ->. cbn in I. repeat destruct I as [<-|I]; try contradiction; cbn in E.
    + injection E as <-. reflexivity.
    + injection E as <-. reflexivity.
    + apply bind_Ok in E as (x & _ & E). apply bind_Ok in E as (y & _ & E). injection E as <-. reflexivity.
  - rewrite adjust_default in E by (auto using variable_in). injection E as <-. now apply like_refl.
Qed.
(** the flat array t3 is t1 + r t2 at batch index i *)
Definition flat_lin (k : nat) (i : list nat) (r : R) (t1 t2 t3 : tensor xr) : Prop :=
  forall a, a < k -> exists x y, tget t1 (i ++ [a]) = Fin x /\ tget t2 (i ++ [a]) = Fin y /\ tget t3 (i ++ [a]) = Fin (x + r * y).
Definition ent_lin (r : R) (z1 z2 z3 : xc) : Prop := exists a b c d, z1 = XC (Fin a) (Fin b) /\ z2 = XC (Fin c) (Fin d) /\ z3 = XC (Fin (a + r * c)) (Fin (b + r * d)).
Lemma ent_real r x y z1 z2 z3 : z1 = Fin x -> z2 = Fin y -> z3 = Fin (x + r * y) -> ent_lin r (cofr z1) (cofr z2) (cofr z3).
Proof. intros -> -> ->. exists x, 0%R, y, 0%R. unfold cofr. repeat split; f_equal. f_equal. ring. Qed.
Lemma ent_conj r z1 z2 z3 : ent_lin r z1 z2 z3 -> ent_lin r (cconj z1) (cconj z2) (cconj z3).
Proof. intros (a & b & c & d & -> & -> & ->). exists a, (- b)%R, c, (- d)%R. unfold cconj. cbn. repeat split; f_equal. f_equal. ring. Qed.
Lemma ring_lin rg b i r k t1 t2 t3 v1 v2 v3 : lin_ring rg = true -> inb b i = true -> shp t1 = b ++ [ring_num_elements rg k] -> shp t2 = b ++ [ring_num_elements rg k] -> shp t3 = b ++ [ring_num_elements rg k] ->
  ring_unflattened rg false t1 = Ok v1 -> ring_unflattened rg false t2 = Ok v2 -> ring_unflattened rg false t3 = Ok v3 -> flat_lin (ring_num_elements rg k) i r t1 t2 t3 ->
  forall a, a < k -> ent_lin r (entry_c v1 (i ++ [a])) (entry_c v2 (i ++ [a])) (entry_c v3 (i ++ [a])).
Proof.
  intros L Hi S1 S2 S3 E1 E2 E3 F a Ha. destruct rg as [mn mx sc|mn mx| |]; try discriminate L; cbn [ring_num_elements] in *.
  - cbn in E1, E2, E3. injection E1 as <-. injection E2 as <-. injection E3 as <-. destruct (F a Ha) as (x & y & X1 & X2 & X3). cbn [entry_c]. eapply ent_real; eauto.
  - assert (X : forall t v, shp t = b ++ [k * 2] -> ring_unflattened (ComplexF mn mx) false t = Ok v -> entry_c v (i ++ [a]) = XC (tget t (i ++ [a])) (tget t (i ++ [k + a]))).
    { intros t v Hs E. cbn [ring_unflattened] in E. rewrite Hs, last_dim_snoc in E. cbn [opt_err bind] in E. destruct (complex_join b k t Hs) as (c & H1 & H2 & H3 & H4). rewrite Nat.mod_mul, Nat.div_mul in E by lia. cbn [Nat.eqb negb] in E. rewrite H1 in E. cbn [bind] in E. injection E as <-. cbn [entry_c]. now apply H4. }
    rewrite (X t1 v1 S1 E1), (X t2 v2 S2 E2), (X t3 v3 S3 E3). destruct (F a ltac:(lia)) as (x & y & -> & -> & ->). destruct (F (k + a) ltac:(lia)) as (x' & y' & -> & -> & ->). exists x, x', y, y'. auto.
Qed.
Lemma ring_shape rg b k t v : lin_ring rg = true -> shp t = b ++ [ring_num_elements rg k] -> ring_unflattened rg false t = Ok v -> ashape v = b ++ [k].
Proof.
  intros L Hs E. destruct rg as [mn mx sc|mn mx| |]; try discriminate L.
  - destruct (ring_un_ok (RealF mn mx sc) false b k t Hs Logic.I) as (x & X1 & X2 & _). congruence.
  - cbn [ring_unflattened ring_num_elements] in *. rewrite Hs, last_dim_snoc in E. cbn [opt_err bind] in E. destruct (complex_join b k t Hs) as (c & H1 & H2 & _). rewrite Nat.mod_mul, Nat.div_mul in E by lia. cbn [Nat.eqb negb] in E. rewrite H1 in E. cbn [bind] in E. injection E as <-. exact H2.
Qed.
Lemma arr_last_entry b v i : ashape v = b ++ [1] -> inb b i = true -> entry_c (arr_last 0 v) i = entry_c v (i ++ [0]).
Proof.
  intros S Hi. destruct v as [u|u]; cbn [arr_last entry_c ashape] in *.
  - unfold tlast. rewrite S, removelast_snoc, tget_tbuild by exact Hi. reflexivity.
  - unfold tlast. rewrite S, removelast_snoc, tget_tbuild by exact Hi. reflexivity.
Qed.
Lemma pos_lt n k l : k <= l -> l < n -> pos_of (k, l) (triu n) < comb2 n.
Proof. intros H1 H2. rewrite <- length_triu. apply pos_of_nth. apply in_triu. lia. Qed.
Lemma sym_entry h b n x y i k l : ashape x = b ++ [comb2 n] -> arr_sym_unflatten h x = Ok y -> inb b i = true -> k < n -> l < n ->
  (k <= l -> entry_c y (i ++ [k; l]) = entry_c x (i ++ [pos_of (k, l) (triu n)])) /\
  (l < k -> entry_c y (i ++ [k; l]) = (if h then cconj else fun z => z) (entry_c x (i ++ [pos_of (l, k) (triu n)])) \/ (exists u, x = RA u) /\ entry_c y (i ++ [k; l]) = entry_c x (i ++ [pos_of (l, k) (triu n)])).
Proof.
  intros S E Hi Hk Hl. destruct x as [t|t]; cbn [arr_sym_unflatten ashape] in *.
  - destruct (sym_unflatten_ok (Fin 0) (fun v => v) b n t S) as (u & H1 & H2 & H3 & H4). rewrite H1 in E. injection E as <-. cbn [entry_c]. split; intros K; [now rewrite H3|]. right. split; [eauto|]. now rewrite H4.
  - destruct (sym_unflatten_ok (XC (Fin 0) (Fin 0)) (if h then cconj else fun v => v) b n t S) as (u & H1 & H2 & H3 & H4). rewrite H1 in E. injection E as <-. cbn [entry_c]. split; intros K; [now rewrite H3|]. left. now rewrite H4.
Qed.
Lemma supp_lin s b i r n t1 t2 t3 v1 v2 v3 : lin_supp s = true -> inb b i = true -> shp t1 = b ++ [supp_num_elements s n] -> shp t2 = b ++ [supp_num_elements s n] -> shp t3 = b ++ [supp_num_elements s n] ->
  supp_unflattened s t1 n false = Ok v1 -> supp_unflattened s t2 n false = Ok v2 -> supp_unflattened s t3 n false = Ok v3 -> flat_lin (supp_num_elements s n) i r t1 t2 t3 ->
  forall j, inb (supp_shape s n) j = true -> ent_lin r (entry_c v1 (i ++ j)) (entry_c v2 (i ++ j)) (entry_c v3 (i ++ j)).
Proof.
  intros L Hi S1 S2 S3 E1 E2 E3 F j Hj. destruct s as [rg|rg|rg|rg h psd nsd|rg|]; try discriminate L; cbn [lin_supp supp_num_elements supp_shape supp_unflattened] in *.
  - destruct j; [|discriminate Hj]. rewrite app_nil_r. apply bind_Ok in E1 as (x1 & X1 & E1). apply bind_Ok in E2 as (x2 & X2 & E2). apply bind_Ok in E3 as (x3 & X3 & E3).
    pose proof (ring_shape rg b 1 _ _ L S1 X1) as A1. pose proof (ring_shape rg b 1 _ _ L S2 X2) as A2. pose proof (ring_shape rg b 1 _ _ L S3 X3) as A3.
    rewrite A1, last_dim_snoc in E1. rewrite A2, last_dim_snoc in E2. rewrite A3, last_dim_snoc in E3. cbn in E1, E2, E3. injection E1 as <-. injection E2 as <-. injection E3 as <-.
    rewrite !(arr_last_entry b) by assumption. exact (ring_lin rg b i r 1 _ _ _ _ _ _ L Hi S1 S2 S3 X1 X2 X3 F 0 (le_n 1)).
  - apply bind_Ok in E1 as (x1 & X1 & E1). apply bind_Ok in E2 as (x2 & X2 & E2). apply bind_Ok in E3 as (x3 & X3 & E3).
    pose proof (ring_shape rg b n _ _ L S1 X1) as A1. pose proof (ring_shape rg b n _ _ L S2 X2) as A2. pose proof (ring_shape rg b n _ _ L S3 X3) as A3.
    rewrite A1, last_dim_snoc in E1. rewrite A2, last_dim_snoc in E2. rewrite A3, last_dim_snoc in E3. cbn [opt_err bind] in E1, E2, E3. rewrite Nat.eqb_refl in E1, E2, E3. injection E1 as <-. injection E2 as <-. injection E3 as <-.
    destruct j as [|k [|? ?]]; [discriminate Hj| |cbn in Hj; rewrite andb_false_r in Hj; discriminate Hj]. cbn -[Nat.ltb] in Hj. rewrite andb_true_r in Hj. apply Nat.ltb_lt in Hj.
    exact (ring_lin rg b i r n _ _ _ _ _ _ L Hi S1 S2 S3 X1 X2 X3 F k Hj).
  - apply bind_Ok in E1 as (x1 & X1 & E1). apply bind_Ok in E2 as (x2 & X2 & E2). apply bind_Ok in E3 as (x3 & X3 & E3).
    pose proof (ring_shape rg b _ _ _ L S1 X1) as A1. pose proof (ring_shape rg b _ _ _ L S2 X2) as A2. pose proof (ring_shape rg b _ _ _ L S3 X3) as A3.
    destruct j as [|k [|l [|? ?]]]; try (cbn in Hj; rewrite ?andb_false_r in Hj; discriminate Hj). cbn -[Nat.ltb] in Hj. rewrite andb_true_r in Hj. apply andb_true_iff in Hj as [Hk Hl]. apply Nat.ltb_lt in Hk, Hl.
    destruct (sym_entry h b n x1 v1 i k l A1 E1 Hi Hk Hl) as [P1 Q1]. destruct (sym_entry h b n x2 v2 i k l A2 E2 Hi Hk Hl) as [P2 Q2]. destruct (sym_entry h b n x3 v3 i k l A3 E3 Hi Hk Hl) as [P3 Q3].
    destruct (Nat.le_gt_cases k l) as [K|K].
    + rewrite P1, P2, P3 by exact K. exact (ring_lin rg b i r _ _ _ _ _ _ _ L Hi S1 S2 S3 X1 X2 X3 F _ (pos_lt n k l K Hl)).
    + pose proof (ring_lin rg b i r _ _ _ _ _ _ _ L Hi S1 S2 S3 X1 X2 X3 F _ (pos_lt n l k (Nat.lt_le_incl _ _ K) Hk)) as Z.
      destruct rg as [mn mx sc|mn mx| |]; try discriminate L.
      * cbn in X1, X2, X3. injection X1 as <-. injection X2 as <-. injection X3 as <-. assert (C : forall u : tensor xr, forall w, cconj (entry_c (RA u) w) = XC (tget u w) (xneg (Fin 0))) by reflexivity.
        assert (Y : forall t v a, entry_c v a = (if h then cconj else fun z => z) (entry_c (RA t) (i ++ [pos_of (l, k) (triu n)])) \/ (exists u, RA t = RA u) /\ entry_c v a = entry_c (RA t) (i ++ [pos_of (l, k) (triu n)]) -> entry_c v a = entry_c (RA t) (i ++ [pos_of (l, k) (triu n)])).
        { intros t v a [E|[_ E]]; [|exact E]. rewrite E. destruct h; [|reflexivity]. cbn [entry_c]. unfold cofr, cconj. cbn. do 2 f_equal. ring. }
        rewrite (Y _ _ _ (Q1 K)), (Y _ _ _ (Q2 K)), (Y _ _ _ (Q3 K)). exact Z.
      * assert (Y : forall t x v a, ring_unflattened (ComplexF mn mx) false t = Ok x -> entry_c v a = (if h then cconj else fun z => z) (entry_c x (i ++ [pos_of (l, k) (triu n)])) \/ (exists u, x = RA u) /\ entry_c v a = entry_c x (i ++ [pos_of (l, k) (triu n)]) -> entry_c v a = (if h then cconj else fun z => z) (entry_c x (i ++ [pos_of (l, k) (triu n)]))).
        { intros t x v a X [E|[[u ->] E]]; [exact E|]. exfalso. cbn in X. apply bind_Ok in X as (q & _ & X). destruct (negb _) in X; [discriminate X|]. apply bind_Ok in X as (c & _ & X). discriminate X. }
        rewrite (Y _ _ _ _ X1 (Q1 K)), (Y _ _ _ _ X2 (Q2 K)), (Y _ _ _ _ X3 (Q3 K)). destruct h; [now apply ent_conj|exact Z].
Qed.

(** ** leaves *)
Definition gval (q : dist) (f : field_desc) : arr := match dget (dparams q) (fd_name f) with Some v => v | None => RA (tbuild [] (fun _ => NaN)) end.
Lemma own_fields q : well_formed q = true -> own_list (Some false) q = map (fun f => (fd_name f, (gval q f, fd_support f))) (variable_fields (dcls q)).
Proof.
  intros W. destruct q as [c mm ps subs]. apply wf_inv in W as (Hps & _). unfold own_list, gval. cbn [dcls dparams]. rewrite variable_fields_eq.
  assert (Hg : forall fs, incl fs (fields c) -> flat_map (fun f => match dget ps (fd_name f) with Some a => [(fd_name f, (a, fd_support f))] | None => [] end) fs
    = map (fun f => (fd_name f, (match dget ps (fd_name f) with Some v => v | None => RA (tbuild [] (fun _ => NaN)) end, fd_support f))) fs).
  { induction fs as [|f fs IHf]; intros Hi; [reflexivity|]. cbn [flat_map map]. destruct (dget_combine_ok ps (fd_name f)) as [v Hv].
    { rewrite Hps. apply in_map, Hi. now left. }
    rewrite Hv. cbn [app]. now rewrite IHf by (intros x Hx; apply Hi; now right). }
  apply Hg. intros x Hx. now apply variable_in.
Qed.
Lemma flat_lin_slice b N i r off k t1 t2 t3 : inb b i = true -> shp t1 = b ++ [N] -> shp t2 = b ++ [N] -> shp t3 = b ++ [N] -> off + k <= N -> flat_lin N i r t1 t2 t3 ->
  flat_lin k i r (tslice off (off + k) t1) (tslice off (off + k) t2) (tslice off (off + k) t3).
Proof. intros Hi S1 S2 S3 H F a Ha. destruct (F (off + a) ltac:(lia)) as (x & y & X). exists x, y. rewrite !(tget_tslice b N) by (auto; lia). exact X. Qed.
Section Lin.
  Variables (b i : list nat) (r : R) (N : nat) (t1 t2 t3 : tensor xr).
  Hypotheses (Hi : inb b i = true) (S1 : shp t1 = b ++ [N]) (S2 : shp t2 = b ++ [N]) (S3 : shp t3 = b ++ [N]) (F : flat_lin N i r t1 t2 t3).
  Lemma own_lin fl n f (g1 g2 g3 : field_desc -> arr) fs : forall kw1 kw2 kw3 ts1 ts2 ts3 off, incl fs (variable_fields (NP f)) ->
    own_rt fl false b n (NP f) kw1 (map (fun f => (fd_name f, (g1 f, fd_support f))) fs) ts1 -> own_rt fl false b n (NP f) kw2 (map (fun f => (fd_name f, (g2 f, fd_support f))) fs) ts2 -> own_rt fl false b n (NP f) kw3 (map (fun f => (fd_name f, (g3 f, fd_support f))) fs) ts3 ->
    holds_at b t1 off ts1 -> holds_at b t2 off ts2 -> holds_at b t3 off ts3 -> off + total ts1 <= N ->
    total ts1 = total ts2 /\ total ts1 = total ts3 /\ forall fd, In fd fs -> forall j, inb (supp_shape (fd_support fd) n) j = true -> ent_lin r (entry_c (g1 fd) (i ++ j)) (entry_c (g2 fd) (i ++ j)) (entry_c (g3 fd) (i ++ j)).
  Proof.
    induction fs as [|fd fs IH]; intros kw1 kw2 kw3 [|[u1 k1] ts1] [|[u2 k2] ts2] [|[u3 k3] ts3] off Hin O1 O2 O3 H1 H2 H3 HN; cbn [map] in *; try contradiction; [split; [reflexivity|]; split; [reflexivity|]; intros ? []|].
    cbn [own_rt] in O1, O2, O3. destruct O1 as [(s1 & A1 & B1 & C1 & D1 & E1 & _) O1]. destruct O2 as [(s2 & A2 & B2 & C2 & D2 & E2 & _) O2]. destruct O3 as [(s3 & A3 & B3 & C3 & D3 & E3 & _) O3].
    cbn [holds_at] in H1, H2, H3. destruct H1 as (_ & G1 & H1). destruct H2 as (_ & G2 & H2). destruct H3 as (_ & G3 & H3). rewrite !total_cons in *.
    assert (I : In fd (variable_fields (NP f))) by (apply Hin; now left). assert (K2 : k2 = k1) by congruence. assert (K3 : k3 = k1) by congruence. rewrite K2 in *. rewrite K3 in *. clear K2 K3 k2 k3.
    destruct (IH _ _ _ ts1 ts2 ts3 (off + k1) (fun x Hx => Hin x (or_intror Hx)) O1 O2 O3 H1 H2 H3 ltac:(lia)) as (T1 & T2 & Z). split; [lia|]. split; [lia|]. intros fd' [<-|I'] j Hj; [|now apply Z].
    rewrite (like_un _ _ _ _ (adjust_like f fd _ _ I A1)) in E1. rewrite (like_un _ _ _ _ (adjust_like f fd _ _ I A2)) in E2. rewrite (like_un _ _ _ _ (adjust_like f fd _ _ I A3)) in E3.
    apply (supp_lin (fd_support fd) b i r n u1 u2 u3 _ _ _ (np_lin f fd I) Hi); try assumption; try (rewrite <- C1; assumption).
    rewrite <- C1, <- G1, <- G2, <- G3. apply (flat_lin_slice b N); auto. lia.
  Qed.
  Lemma leaves_lin fl l0 : forall l1 l2 l3 tss1 tss2 tss3 off,
    Forall (fun pq => exists f, dcls (snd pq) = NP f) l0 ->
    Forall2 (fun x y => fst x = fst y /\ dcls (snd x) = dcls (snd y) /\ dims_of (snd x) = dims_of (snd y)) l1 l0 -> Forall2 (fun x y => fst x = fst y /\ dcls (snd x) = dcls (snd y) /\ dims_of (snd x) = dims_of (snd y)) l2 l0 ->
    Forall2 (fun x y => fst x = fst y /\ dcls (snd x) = dcls (snd y) /\ dims_of (snd x) = dims_of (snd y)) l3 l0 ->
    Forall (fun pq => well_formed (snd pq) = true) l1 -> Forall (fun pq => well_formed (snd pq) = true) l2 -> Forall (fun pq => well_formed (snd pq) = true) l3 ->
    Forall2 (tree_rt fl false b) l1 tss1 -> Forall2 (tree_rt fl false b) l2 tss2 -> Forall2 (tree_rt fl false b) l3 tss3 ->
    holds_at b t1 off (concat tss1) -> holds_at b t2 off (concat tss2) -> holds_at b t3 off (concat tss3) -> off + total (concat tss1) <= N ->
    forall p q, In (p, q) l0 -> exists q1 q2 q3, In (p, q1) l1 /\ In (p, q2) l2 /\ In (p, q3) l3 /\
      forall fd n, In fd (variable_fields (dcls q)) -> dims_of q = Ok n -> forall j, inb (supp_shape (fd_support fd) n) j = true -> ent_lin r (entry_c (gval q1 fd) (i ++ j)) (entry_c (gval q2 fd) (i ++ j)) (entry_c (gval q3 fd) (i ++ j)).
  Proof.
    induction l0 as [|[p0 q0] l0 IH]; intros l1 l2 l3 tss1 tss2 tss3 off K L1 L2 L3 W1 W2 W3 T1 T2 T3 H1 H2 H3 HN p q I; [destruct I|].
    inversion L1 as [|x1 ? l1' ? M1 L1']; inversion L2 as [|x2 ? l2' ? M2 L2']; inversion L3 as [|x3 ? l3' ? M3 L3']; subst. inversion W1 as [|? ? w1 W1']; inversion W2 as [|? ? w2 W2']; inversion W3 as [|? ? w3 W3']; subst.
    inversion T1 as [|? ts1 ? tss1' R1 T1']; inversion T2 as [|? ts2 ? tss2' R2 T2']; inversion T3 as [|? ts3 ? tss3' R3 T3']; subst. inversion K as [|? ? [f Hf] K']; subst.
    destruct x1 as [p1 q1], x2 as [p2 q2], x3 as [p3 q3]. cbn [fst snd] in *. destruct M1 as (-> & C1 & D1). destruct M2 as (-> & C2 & D2). destruct M3 as (-> & C3 & D3).
    cbn [concat] in *. apply holds_at_app in H1 as [H1 H1']. apply holds_at_app in H2 as [H2 H2']. apply holds_at_app in H3 as [H3 H3'].
    destruct R1 as (n & N1 & O1). destruct R2 as (n2 & N2 & O2). destruct R3 as (n3 & N3 & O3). cbn [snd] in *. assert (n2 = n) by congruence. assert (n3 = n) by congruence. subst n2 n3.
    rewrite (own_fields q1 w1) in O1. rewrite (own_fields q2 w2) in O2. rewrite (own_fields q3 w3) in O3. rewrite C1, Hf in O1. rewrite C2, Hf in O2. rewrite C3, Hf in O3.
    assert (Tt : total (ts1 ++ concat tss1') = total ts1 + total (concat tss1')) by (unfold total; now rewrite map_app, list_sum_app). rewrite Tt in HN.
    destruct (own_lin fl n f _ _ _ _ _ _ _ _ _ _ off (incl_refl _) O1 O2 O3 H1 H2 H3 ltac:(lia)) as (E2 & E3 & Z).
    destruct I as [E|I].
    - injection E as <- <-. exists q1, q2, q3. split; [now left|]. split; [now left|]. split; [now left|]. intros fd m If Dm j Hj. rewrite Hf in If. apply Z; [exact If|]. congruence.
    - rewrite <- E2 in H2'. rewrite <- E3 in H3'. destruct (IH l1' l2' l3' tss1' tss2' tss3' (off + total ts1) K' L1' L2' L3' W1' W2' W3' T1' T2' T3' H1' H2' H3' ltac:(lia) p q I) as (y1 & y2 & y3 & Y1 & Y2 & Y3 & Y).
      exists y1, y2, y3. split; [now right|]. split; [now right|]. split; [now right|]. exact Y.
  Qed.
End Lin.
(** ** the flat array of finite parameters is finite *)
Lemma cofr_fin z : finite_entry (cofr z) -> exists x, z = Fin x.
Proof. intros (a & c & E). unfold cofr, cfin in E. injection E as -> _. eauto. Qed.
Lemma ring_fin rg b i k t v : lin_ring rg = true -> inb b i = true -> shp t = b ++ [ring_num_elements rg k] -> ring_unflattened rg false t = Ok v ->
  (forall a, a < k -> finite_entry (entry_c v (i ++ [a]))) -> forall a, a < ring_num_elements rg k -> exists x, tget t (i ++ [a]) = Fin x.
Proof.
  intros L Hi S E F a Ha. destruct rg as [mn mx sc|mn mx| |]; try discriminate L; cbn [ring_num_elements] in *.
  - cbn in E. injection E as <-. apply cofr_fin. exact (F a Ha).
  - assert (X : forall a, a < k -> entry_c v (i ++ [a]) = XC (tget t (i ++ [a])) (tget t (i ++ [k + a]))).
    { cbn [ring_unflattened] in E. rewrite S, last_dim_snoc in E. cbn [opt_err bind] in E. destruct (complex_join b k t S) as (c & H1 & H2 & H3 & H4). rewrite Nat.mod_mul, Nat.div_mul in E by lia. cbn [Nat.eqb negb] in E. rewrite H1 in E. cbn [bind] in E. injection E as <-. intros a' Ha'. cbn [entry_c]. now apply H4. }
    destruct (Nat.lt_ge_cases a k) as [K|K].
    + destruct (F a K) as (x & y & E'). rewrite (X a K) in E'. injection E' as -> _. eauto.
    + destruct (F (a - k) ltac:(lia)) as (x & y & E'). rewrite (X (a - k) ltac:(lia)) in E'. replace (k + (a - k)) with a in E' by lia. injection E' as _ ->. eauto.
Qed.
Lemma pos_of_nth_nodup l : NoDup l -> forall c, c < length l -> pos_of (nth c l (0, 0)) l = c.
Proof. intros N c Hc. destruct (pos_of_nth (nth c l (0, 0)) l (nth_In _ _ Hc)) as [H1 H2]. exact (proj1 (NoDup_nth l (0, 0)) N _ _ H1 Hc H2). Qed.
Lemma supp_fin s b i n t v : lin_supp s = true -> inb b i = true -> shp t = b ++ [supp_num_elements s n] -> supp_unflattened s t n false = Ok v ->
  (forall j, inb (supp_shape s n) j = true -> finite_entry (entry_c v (i ++ j))) -> forall a, a < supp_num_elements s n -> exists x, tget t (i ++ [a]) = Fin x.
Proof.
  intros L Hi S E F a Ha. destruct s as [rg|rg|rg|rg h psd nsd|rg|]; try discriminate L; cbn [lin_supp supp_num_elements supp_shape supp_unflattened] in *.
  - apply bind_Ok in E as (x1 & X1 & E). pose proof (ring_shape rg b 1 _ _ L S X1) as A1. rewrite A1, last_dim_snoc in E. cbn in E. injection E as <-.
    apply (ring_fin rg b i 1 t x1 L Hi S X1); [|exact Ha]. intros a' Ha'. assert (a' = 0) as -> by lia. specialize (F [] eq_refl). rewrite app_nil_r, (arr_last_entry b) in F by assumption. exact F.
  - apply bind_Ok in E as (x1 & X1 & E). pose proof (ring_shape rg b n _ _ L S X1) as A1. rewrite A1, last_dim_snoc in E. cbn [opt_err bind] in E. rewrite Nat.eqb_refl in E. injection E as <-.
    apply (ring_fin rg b i n t x1 L Hi S X1); [|exact Ha]. intros a' Ha'. apply F. cbn -[Nat.ltb]. rewrite andb_true_r. now apply Nat.ltb_lt.
  - apply bind_Ok in E as (x1 & X1 & E). pose proof (ring_shape rg b _ _ _ L S X1) as A1. apply (ring_fin rg b i (comb2 n) t x1 L Hi S X1); [|exact Ha]. intros c Hc. rewrite <- length_triu in Hc.
    destruct (nth c (triu n) (0, 0)) as [k l] eqn:Ekl. assert (I : In (k, l) (triu n)) by (rewrite <- Ekl; now apply nth_In). apply in_triu in I as [I1 I2].
    destruct (sym_entry h b n x1 v i k l A1 E Hi ltac:(lia) I2) as [P _]. specialize (P I1). assert (Ec : pos_of (k, l) (triu n) = c). { rewrite <- Ekl. apply pos_of_nth_nodup; [unfold triu; apply NoDup_filter, NoDup_prod; apply seq_NoDup|exact Hc]. }
    rewrite Ec in P. rewrite <- P. apply F. cbn -[Nat.ltb]. rewrite andb_true_r. apply andb_true_iff. split; apply Nat.ltb_lt; lia.
Qed.
Section Fin.
  Variables (b i : list nat) (N : nat) (t : tensor xr).
  Hypotheses (Hi : inb b i = true) (S1 : shp t = b ++ [N]).
  Lemma own_fin fl n f (g : field_desc -> arr) fs : forall kw ts off, incl fs (variable_fields (NP f)) -> own_rt fl false b n (NP f) kw (map (fun f => (fd_name f, (g f, fd_support f))) fs) ts ->
    holds_at b t off ts -> off + total ts <= N -> (forall fd, In fd fs -> forall j, inb (supp_shape (fd_support fd) n) j = true -> finite_entry (entry_c (g fd) (i ++ j))) ->
    forall a, off <= a < off + total ts -> exists x, tget t (i ++ [a]) = Fin x.
  Proof.
    induction fs as [|fd fs IH]; intros kw [|[u k] ts] off Hin O H HN F a Ha; cbn [map] in *; try contradiction; [unfold total in Ha; cbn in Ha; lia|].
    cbn [own_rt] in O. destruct O as [(s & A & B & C & D & E & _) O]. cbn [holds_at] in H. destruct H as (_ & G & H). rewrite total_cons in *. assert (I : In fd (variable_fields (NP f))) by (apply Hin; now left).
    destruct (Nat.lt_ge_cases a (off + k)) as [K|K].
    - rewrite (like_un _ _ _ _ (adjust_like f fd _ _ I A)) in E. assert (D' : shp u = b ++ [supp_num_elements (fd_support fd) n]) by (rewrite <- C; assumption).
      destruct (supp_fin (fd_support fd) b i n u _ (np_lin f fd I) Hi D' E (F fd (or_introl eq_refl)) (a - off) ltac:(rewrite <- C; lia)) as [x X]. exists x. rewrite <- G, (tget_tslice b N) in X by (auto; lia). replace (off + (a - off)) with a in X by lia. exact X.
    - apply (IH _ ts (off + k) (fun x Hx => Hin x (or_intror Hx)) O H ltac:(lia)); [intros; now apply F; [right|]|lia].
  Qed.
  Lemma leaves_fin fl l0 : forall tss off, Forall (fun pq => exists f, dcls (snd pq) = NP f) l0 -> Forall (fun pq => well_formed (snd pq) = true) l0 -> Forall2 (tree_rt fl false b) l0 tss -> holds_at b t off (concat tss) -> off + total (concat tss) <= N ->
    (forall p q, In (p, q) l0 -> exists n, dims_of q = Ok n /\ forall fd, In fd (variable_fields (dcls q)) -> forall j, inb (supp_shape (fd_support fd) n) j = true -> finite_entry (entry_c (gval q fd) (i ++ j))) ->
    forall a, off <= a < off + total (concat tss) -> exists x, tget t (i ++ [a]) = Fin x.
  Proof.
    induction l0 as [|[p0 q0] l0 IH]; intros tss off K W T H HN F a Ha; inversion T as [|? ts ? tss' R T']; subst; [unfold total in Ha; cbn in Ha; lia|].
    inversion K as [|? ? [f Hf] K']; inversion W as [|? ? w W']; subst. cbn [snd] in *. destruct R as (n & D & O). cbn [snd] in *. cbn [concat] in *. apply holds_at_app in H as [H1 H2]. assert (Tt : total (ts ++ concat tss') = total ts + total (concat tss')) by (unfold total; now rewrite map_app, list_sum_app). rewrite Tt in HN, Ha.
    destruct (Nat.lt_ge_cases a (off + total ts)) as [Z|Z].
    - destruct (F p0 q0 (or_introl eq_refl)) as (n' & D' & F'). assert (n' = n) by congruence. subst n'. rewrite (own_fields q0 w), Hf in O. rewrite Hf in F'. apply (own_fin fl n f (gval q0) _ [] ts off (incl_refl _) O H1 ltac:(lia) F'). lia.
    - apply (IH tss' (off + total ts)); auto; try lia. intros p q I. apply (F p q). now right.
  Qed.
End Fin.
Lemma plane_false b N (t : tensor xr) l : shp t = b ++ [N] -> forall off, off + fields_size l <= N -> Forall (fun sn => lin_supp (fst sn) = true) l -> plane_list false b t off l.
Proof.
  intros S. induction l as [|[s n] l IH]; intros off H K; [exact I|]. inversion K as [|? ? K1 K2]; subst. rewrite fields_size_cons in H. cbn [plane_list fst] in *. split; [|apply IH; [lia|exact K2]].
  assert (Z : shp (tslice off (off + supp_num_elements s n) t) = b ++ [supp_num_elements s n]) by (rewrite (shp_tslice b N) by (auto; lia); do 2 f_equal; lia).
  destruct s as [r|r|r|r h ? ?|r|]; try discriminate K1; cbn [supp_plane supp_num_elements] in *; (split; [exact Z|]); destruct r; try discriminate K1; discriminate.
Qed.
Lemma fixed_items q : well_formed q = true -> forall p f v, In f (fields (dcls q)) -> fd_fixed f = true -> dget (dparams q) (fd_name f) = Some v -> In (p ++ [fd_name f], (v, fd_support f)) (leaf_items (Some true) (p, q)).
Proof.
  intros W p f v I Fx E. unfold leaf_items. cbn [fst snd]. apply in_map_iff. exists (fd_name f, (v, fd_support f)). split; [reflexivity|]. destruct q as [c mm ps subs]. unfold own_list. cbn [dcls dparams] in *.
  apply in_flat_map. exists f. split; [apply filter_In; split; [exact I|cbn; now rewrite Fx]|]. rewrite E. now left.
Qed.
Lemma items_fixed q : forall p k v s, In (k, (v, s)) (leaf_items (Some true) (p, q)) -> exists nm, k = p ++ [nm] /\ dget (dparams q) nm = Some v.
Proof.
  intros p k v s I. unfold leaf_items in I. cbn [fst snd] in I. apply in_map_iff in I as ([nm [v' s']] & E & I). cbn [fst snd] in E. injection E as <- -> ->. exists nm. split; [reflexivity|].
  destruct q as [c mm ps subs]. unfold own_list in I. cbn [dcls dparams] in *. apply in_flat_map in I as (f & _ & I). destruct (dget ps (fd_name f)) eqn:E; [|destruct I]. destruct I as [I|[]]. injection I as <- <- <-. exact E.
Qed.

Lemma F2_fst {A B} (R : B -> B -> Prop) : forall l m : list (A * B), Forall2 (fun x y => fst x = fst y /\ R (snd x) (snd y)) l m -> map fst l = map fst m.
Proof. induction 1 as [|x y l m [E _] _ IH]; cbn; congruence. Qed.
Lemma F2_at {R : dist -> dist -> Prop} x y : well_formed x = true -> well_formed y = true -> Forall2 (fun a b => fst a = fst b /\ R (snd a) (snd b)) (leaves [] x) (leaves [] y) ->
  forall p q, In (p, q) (leaves [] x) -> R q (leafat y p) /\ In (p, leafat y p) (leaves [] y).
Proof.
  intros Wx Wy H p q Hi. pose proof (F2_fst _ _ _ H) as E. rewrite (leaves_by_path x y Wy E) in H |- *.
  split; [|apply in_map_iff; exists (p, q); auto].
  revert Hi H. generalize (leaves [] x). induction l as [|a l IH]; [intros []|]. intros [->|Hi] H; inversion H; subst; [now destruct H3|auto].
Qed.

Section Rep.
  Variables (b : list nat) (q : dist) (infos : list info) (fixed : dict path arr).
  Hypotheses (W : well_formed q = true) (NT : forall p l, In (p, l) (leaves [] q) -> exists f, dcls l = NP f) (S : shaped b q = true) (C : create q = Ok infos) (Fx : parameters q (Some true) = Ok fixed).
  (** d is the object that the flat array t stands for *)
  Definition Rep (d : dist) (t : tensor xr) : Prop := shp t = b ++ [flat_size q] /\ well_formed d = true /\ create d = Ok infos /\ dist_vals false b d /\
    flat_map (leaf_items (Some true)) (leaves [] d) = flat_map (leaf_items (Some true)) (leaves [] q) /\
    Forall2 (fun x y => fst x = fst y /\ leaf_like b (snd x) (snd y)) (leaves [] d) (leaves [] q) /\
    exists tss, Forall2 (tree_rt true false b) (leaves [] d) tss /\ holds_at b t 0 (concat tss) /\ total (concat tss) = flat_size q.
  Lemma fields_lin : Forall (fun sn => lin_supp (fst sn) = true) (flat_fields q).
  Proof.
    unfold flat_fields. apply Forall_forall. intros [s n] I. apply in_flat_map in I as ([p l] & I1 & I2). cbn [fst snd] in *. destruct (NT p l I1) as [f Hf]. unfold leaf_fields in I2. destruct (dims_of l) as [m|]; [|destruct I2].
    apply in_map_iff in I2 as (fd & E & I2). injection E as <- <-. rewrite Hf in I2. now apply (np_lin f).
  Qed.
  Lemma rep_any t : shp t = b ++ [flat_size q] -> exists d, unflatten (Flattener infos fixed false) t = Ok d /\ Rep d t.
  Proof.
    intros Hs. pose proof (plane_false b _ t (flat_fields q) Hs 0 (le_n _) fields_lin) as P.
    destruct (refill true false b t (flat_size q) q [] 0 infos W C Hs (le_n _) (fun _ => P)) as (d' & tss & A1 & A2 & A3 & A4 & A5 & A6 & A7 & A8 & A9 & A10 & A11). specialize (A11 eq_refl).
    pose proof Fx as Hp. rewrite parameters_ok in Hp by exact W. injection Hp as <-.
    exists d'. split.
    { erewrite (unflatten_of_tree true false b d' infos tss); [now rewrite default_minimizers_id|exact A1|exact A5|reflexivity|reflexivity| |exact A7| |exact A8].
      - cbn [f_fixed]. now rewrite A6.
      - now rewrite A9. }
    split; [exact Hs|]. split; [exact A1|]. split; [exact A5|]. split; [intros p l I; rewrite Forall_forall in A11; exact (A11 _ I)|]. split; [exact A6|].
    split; [eapply F2_impl; [|exact A10]; intros x y (E1 & E2 & E3 & E4); split; [exact E1|]; split; [exact E2|]; split; assumption|]. exists tss. auto.
  Qed.
  Lemma rep_self : dist_vals false b q -> exists x, flatten q false = Ok (Flattener infos fixed false, x) /\ Rep q x.
  Proof.
    intros V. assert (Hrt : exists tss, Forall2 (tree_rt true false b) (leaves [] q) tss).
    { pose proof (leaves_simple q [] W) as Hsi. unfold dist_vals in V. clear - Hsi V. induction (leaves [] q) as [|[p l] ls IH]; [exists []; constructor|].
      inversion Hsi as [|? ? [Hj Hq] Hsi']; subst. cbn [snd] in *. destruct IH as [tss Ht]; [intros p' q' Hi; apply (V p'); now right|exact Hsi'|].
      destruct (V p l (or_introl eq_refl)) as (n & Hn & Hvn). destruct (leaf_rt false b l n Hq Hj Hn) as [ts Hts]; [exists n; auto|]. exists (ts :: tss). constructor; [|exact Ht]. exists n. auto. }
    destruct Hrt as [tss Hrt]. destruct (flatten_of_tree false b q infos tss W C Hrt) as (fx & t & P1 & P2 & P3 & P4). rewrite Fx in P1. injection P1 as <-. exists t. split; [exact P2|].
    pose proof (tree_total true false b q tss W Hrt) as Tt. split; [now rewrite P3, Tt|]. split; [exact W|]. split; [exact C|]. split; [exact V|]. split; [reflexivity|]. split; [|exists tss; auto].
    assert (Z : forall p l, In (p, l) (leaves [] q) -> leaf_like b l l).
    { intros p l I. split; [reflexivity|]. split; [reflexivity|]. destruct (V p l I) as (n & D & K). intros f If. destruct (K f If) as (v & s & V1 & _ & _). exists v, n. split; [exact D|]. split; [exact V1|].
      pose proof (shaped_leaves b q [] S) as Sl. rewrite Forall_forall in Sl. specialize (Sl _ I). cbn [snd] in Sl. unfold leaf_shaped in Sl. rewrite D in Sl. apply andb_true_iff in Sl as [_ Sl]. rewrite forallb_forall in Sl. specialize (Sl f (variable_in _ _ If)). rewrite V1 in Sl.
      apply andb_true_iff in Sl as [S1 S2]. split; [now apply shape_eqb_eq|exact S2]. }
    clear - Z. induction (leaves [] q) as [|[p l] ls IH]; constructor; [split; [reflexivity|apply (Z p); now left]|]. apply IH. intros p' l' I. apply (Z p'). now right.
  Qed.
  Lemma rep_leaf d t p l : Rep d t -> In (p, l) (leaves [] q) -> In (p, leafat d p) (leaves [] d) /\ leaf_like b (leafat d p) l /\ leaf_shaped b (leafat d p) = true /\
    forall f, In f (fields (dcls l)) -> fd_fixed f = true -> dget (dparams (leafat d p)) (fd_name f) = dget (dparams l) (fd_name f).
  Proof.
    intros (Hs & Wd & Cd & V & Fi & Li & _) I.
    assert (Li' : Forall2 (fun x y => fst x = fst y /\ leaf_like b (snd y) (snd x)) (leaves [] q) (leaves [] d)).
    { clear - Li. induction Li as [|x y l l' (E & K) _ IH]; constructor; [split; [now symmetry|exact K]|exact IH]. }
    destruct (@F2_at (fun x y => leaf_like b y x) q d W Wd Li' p l I) as [K I']. split; [exact I'|]. split; [exact K|].
    assert (X : forall f, In f (fields (dcls l)) -> fd_fixed f = true -> dget (dparams (leafat d p)) (fd_name f) = dget (dparams l) (fd_name f)).
    { intros f If Ff. pose proof (leaves_simple q [] W) as Hl. rewrite Forall_forall in Hl. destruct (Hl _ I) as [_ Wl]. cbn [snd] in Wl. destruct l as [c mm ps subs]. pose proof (wf_inv _ _ _ _ Wl) as (Hps & _). cbn [dcls dparams] in *.
      destruct (dget_combine_ok ps (fd_name f)) as [v Hv]. { rewrite Hps. now apply in_map. }
      pose proof (fixed_items (Dist c mm ps subs) Wl p f v If Ff Hv) as It. assert (It' : In (p ++ [fd_name f], (v, fd_support f)) (flat_map (leaf_items (Some true)) (leaves [] d))). { rewrite Fi. apply in_flat_map. eauto. }
      apply in_flat_map in It' as ([p' l'] & J1 & J2). destruct (items_fixed l' p' _ _ _ J2) as (nm & E & G). apply app_inj_tail in E as [<- <-]. rewrite Hv. apply (leaf_in d p l' Wd) in J1 as [J1 _]. unfold leafat. now rewrite J1. }
    split; [|exact X]. pose proof (shaped_leaves b q [] S) as Sl. rewrite Forall_forall in Sl. specialize (Sl _ I). cbn [snd] in Sl. unfold leaf_shaped in *. destruct K as (K1 & K2 & K3). rewrite K2, K1. destruct (dims_of l) as [n|] eqn:D; [|discriminate Sl].
    apply andb_true_iff in Sl as [S0 Sl]. rewrite S0. cbn [andb]. rewrite forallb_forall in *. intros f If. destruct (fd_fixed f) eqn:Ff; [rewrite (X f If Ff); exact (Sl f If)|].
    destruct (K3 f) as (v & n' & N1 & N2 & N3 & N4); [rewrite K1; apply filter_In; now rewrite Ff|]. rewrite N2. assert (n' = n) by congruence. subst n'. rewrite N3, N4. rewrite (proj2 (shape_eqb_eq _ _) eq_refl). reflexivity.
  Qed.
  Lemma rep_skel d t : Rep d t -> same_skeleton q d.
  Proof. intros (_ & Wd & Cd & _). exact (walk_same_skeleton q d infos W Wd C Cd). Qed.
  Lemma rep_lin i r d1 t1 d2 t2 d3 t3 : inb b i = true -> Rep d1 t1 -> Rep d2 t2 -> Rep d3 t3 -> flat_lin (flat_size q) i r t1 t2 t3 ->
    forall p l, In (p, l) (leaves [] q) -> forall fd n, In fd (variable_fields (dcls l)) -> dims_of l = Ok n -> forall j, inb (supp_shape (fd_support fd) n) j = true ->
      ent_lin r (entry_c (gval (leafat d1 p) fd) (i ++ j)) (entry_c (gval (leafat d2 p) fd) (i ++ j)) (entry_c (gval (leafat d3 p) fd) (i ++ j)).
  Proof.
    intros Hi (S1 & W1 & _ & _ & _ & L1 & tss1 & T1 & H1 & N1) (S2 & W2 & _ & _ & _ & L2 & tss2 & T2 & H2 & N2) (S3 & W3 & _ & _ & _ & L3 & tss3 & T3 & H3 & N3) F p l I fd n If D j Hj.
    assert (Q : forall d, Forall2 (fun x y => fst x = fst y /\ leaf_like b (snd x) (snd y)) (leaves [] d) (leaves [] q) -> Forall2 (fun x y => fst x = fst y /\ dcls (snd x) = dcls (snd y) /\ dims_of (snd x) = dims_of (snd y)) (leaves [] d) (leaves [] q)).
    { intros d. apply F2_impl. intros x y (E & K1 & K2 & _). auto. }
    assert (Wf : forall d, well_formed d = true -> Forall (fun pq => well_formed (snd pq) = true) (leaves [] d)).
    { intros d Wd. pose proof (leaves_simple d [] Wd) as Hl. eapply Forall_impl; [|exact Hl]. intros a [_ K]. exact K. }
    destruct (leaves_lin b i r (flat_size q) t1 t2 t3 Hi S1 S2 S3 F true (leaves [] q) (leaves [] d1) (leaves [] d2) (leaves [] d3) tss1 tss2 tss3 0) with (p := p) (q := l) as (q1 & q2 & q3 & I1 & I2 & I3 & Z); auto.
    { apply Forall_forall. intros [p' l'] I'. exact (NT p' l' I'). }
    { rewrite N1. apply le_n. }
    assert (G : forall d q', well_formed d = true -> In (p, q') (leaves [] d) -> leafat d p = q'). { intros d q' Wd I'. apply (leaf_in d p q' Wd) in I' as [E _]. unfold leafat. now rewrite E. }
    rewrite (G d1 q1 W1 I1), (G d2 q2 W2 I2), (G d3 q3 W3 I3). exact (Z fd n If D j Hj).
  Qed.
  Lemma rep_fin d t i : inb b i = true -> Rep d t -> (forall p l, In (p, l) (leaves [] d) -> exists n, dims_of l = Ok n /\ forall fd, In fd (variable_fields (dcls l)) -> forall j, inb (supp_shape (fd_support fd) n) j = true -> finite_entry (entry_c (gval l fd) (i ++ j))) ->
    forall a, a < flat_size q -> exists x, tget t (i ++ [a]) = Fin x.
  Proof.
    intros Hi (S1 & W1 & _ & _ & _ & L1 & tss1 & T1 & H1 & N1) F a Ha. apply (leaves_fin b i (flat_size q) t Hi S1 true (leaves [] d) tss1 0); auto; [| |rewrite N1; apply le_n|lia].
    - clear - L1 NT. assert (G : forall l l', Forall2 (fun x y : path * dist => fst x = fst y /\ leaf_like b (snd x) (snd y)) l l' -> (forall p q, In (p, q) l' -> exists f, dcls q = NP f) -> Forall (fun pq => exists f, dcls (snd pq) = NP f) l).
      { induction 1 as [|x [p y] l l' (E & K & _) _ IH]; intros H; [constructor|]. constructor; [|apply IH; intros p' q' I'; apply (H p'); now right]. cbn [snd] in K. rewrite K. apply (H p). now left. }
      apply (G _ _ L1 NT).
    - pose proof (leaves_simple d [] W1) as Hl. eapply Forall_impl; [|exact Hl]. intros x [_ K]. exact K.
  Qed.
End Rep.
