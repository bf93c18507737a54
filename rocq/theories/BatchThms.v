(** C27: every method acts on each batch element of a distribution tree separately. *)
From Coq Require Import FinFun String List Bool Arith Reals Lia.
From Verif Require Import Base XReal Tensor TensorFacts Support Dist DictFacts Iteration Structure Spec StructFacts AssembleFacts ParamFacts ReplaceFacts FlattenThms Tools ToolThms
  Joint SpecFun Expr Fam ExprFacts FamTy FamFacts SearchFacts DotFacts StructThms Laws SumSpec SumFacts MapFacts JointThms JointThms2 LogPdfThms DotSpec DotLaws KlThms StructProofs BatchFacts BroadcastFacts.
Import ListNotations.
Local Open Scope list_scope.

Fixpoint stree (i : list nat) (d : dist) : dist :=
  let '(Dist c m ps subs) := d in Dist c m (slice i ps) (map (fun ns : string * dist => (fst ns, stree i (snd ns))) subs).
Lemma dget_stree i (subs : list (string * dist)) n : dget (map (fun ns : string * dist => (fst ns, stree i (snd ns))) subs) n = option_map (stree i) (dget subs n).
Proof. induction subs as [|[k s] l IH]; [reflexivity|]. cbn [map fst snd dget]. destruct (keq n k); [reflexivity|exact IH]. Qed.
Lemma stree_names i (subs : list (string * dist)) : map fst (map (fun ns : string * dist => (fst ns, stree i (snd ns))) subs) = map fst subs.
Proof. rewrite map_map. reflexivity. Qed.
Lemma dcls_stree i d : dcls (stree i d) = dcls d. Proof. destruct d; reflexivity. Qed.
Lemma stree_all i P d : all_nodes P (stree i d) = all_nodes P d.
Proof.
  induction d as [c m ps subs IH] using dist_rect'. cbn [stree all_nodes]. f_equal. induction IH as [|[n s] l H _ IHl]; [reflexivity|]. cbn [map forallb fst snd] in *. now rewrite H, IHl.
Qed.
Lemma stree_default i d : no_custom_minimizer (stree i d) = no_custom_minimizer d.
Proof.
  induction d as [c m ps subs IH] using dist_rect'. cbn [stree no_custom_minimizer]. f_equal. induction IH as [|[n s] l H _ IHl]; [reflexivity|]. cbn [map forallb fst snd] in *. now rewrite H, IHl.
Qed.
Lemma stree_wf i d : well_formed (stree i d) = well_formed d.
Proof.
  induction d as [c m ps subs IH] using dist_rect'. cbn [stree well_formed]. rewrite stree_names, slice_names.
  assert (E : null (map (fun ns : string * dist => (fst ns, stree i (snd ns))) subs) = null subs) by (destruct subs; reflexivity). rewrite E. f_equal.
  induction IH as [|[n s] l H _ IHl]; [reflexivity|]. cbn [map forallb fst snd] in *. rewrite H, IHl; [reflexivity|]. now destruct l.
Qed.
Lemma stree_dist_at i p : forall d, dist_at (stree i d) p = option_map (stree i) (dist_at d p).
Proof.
  induction p as [|n p IH]; intros d; [reflexivity|]. cbn [dist_at]. destruct d as [c m ps subs]. cbn [stree sub_distributions]. rewrite dget_stree. destruct (dget subs n) as [s|]; [|reflexivity]. apply IH.
Qed.
Lemma stree_skel i d : same_skeleton d (stree i d).
Proof.
  intros p. rewrite stree_dist_at. destruct (dist_at d p) as [[c m ps subs]|]; [|split; reflexivity]. cbn [option_map dcls stree sub_distributions]. now rewrite stree_names.
Qed.
Lemma stree_param i p : forall d, param_at (stree i d) p = option_map (asub i) (param_at d p).
Proof.
  induction p as [|n p IH]; intros d; [reflexivity|]. destruct d as [c m ps subs]. destruct p as [|n' p].
  - cbn [param_at stree dparams]. apply dget_slice.
  - change (match dget (map (fun ns : string * dist => (fst ns, stree i (snd ns))) subs) n with Some s => param_at s (n' :: p) | None => None end = option_map (asub i) (match dget subs n with Some s => param_at s (n' :: p) | None => None end)).
    rewrite dget_stree. destruct (dget subs n) as [s|]; [|reflexivity]. apply IH.
Qed.
Lemma stree_leaf i q : well_formed q = true -> is_joint (dcls q) = false -> stree i q = sliced i q.
Proof. destruct q as [c m ps subs]. intros W J. pose proof (wf_inv _ _ _ _ W) as (_ & _ & Hs & _). cbn [dcls] in J. rewrite (Hs J). reflexivity. Qed.
Definition slice_leaf (i : list nat) (pq : path * dist) : path * dist := (fst pq, sliced i (snd pq)).
Lemma stree_leaves i d : forall base, well_formed d = true -> leaves base (stree i d) = map (slice_leaf i) (leaves base d).
Proof.
  induction d as [c m ps subs IH] using dist_rect'. intros base W. pose proof (wf_inv _ _ _ _ W) as (_ & _ & Hs & Hsub). cbn [stree leaves]. destruct (is_joint c) eqn:J.
  - clear W Hs. induction subs as [|[n s] l IHl]; [reflexivity|]. inversion IH as [|? ? I1 I2]. inversion Hsub as [|? ? W1 W2]. subst. cbn [map flat_map fst snd] in *. rewrite map_app. rewrite (I1 _ W1). f_equal. now apply IHl.
  - rewrite (Hs eq_refl). reflexivity.
Qed.
Lemma leaf_slice_match b i q r : is_joint (dcls q) = false -> is_joint (dcls r) = false -> leaf_match b q r -> inb b i = true -> leaf_match [] (sliced i q) (sliced i r).
Proof.
  intros Jq Jr (W1 & W2 & S1 & S2 & D & F) Hi. destruct (leaf_dims b q S1) as (n & D1 & _). assert (D2 : dims_of r = Ok n) by congruence.
  destruct (sliced_shaped b q n i W1 Jq S1 D1 Hi) as [A1 A2]. destruct (sliced_shaped b r n i W2 Jr S2 D2 Hi) as [B1 B2].
  split; [now apply sliced_wf|]. split; [now apply sliced_wf|]. split; [exact A2|]. split; [exact B2|]. split; [congruence|exact F].
Qed.
Lemma stree_shaped b i d : well_formed d = true -> shaped b d = true -> inb b i = true -> shaped [] (stree i d) = true.
Proof.
  intros W S Hi. apply (shaped_of_leaves [] (stree i d) []); [now rewrite stree_wf|]. intros p q. rewrite stree_leaves by exact W. intros H. apply in_map_iff in H as ([p' q'] & E & H). injection E as <- <-.
  destruct (leaf_wf d [] p' q' W H) as [Wq J]. pose proof (shaped_in b d p' q' S H) as Sq. destruct (leaf_dims b q' Sq) as (n & D & _). now destruct (sliced_shaped b q' n i Wq J Sq D Hi).
Qed.
Lemma stree_match b i x y : well_formed x = true -> well_formed y = true -> tree_match b x y -> inb b i = true -> tree_match [] (stree i x) (stree i y).
Proof.
  intros Wx Wy T Hi. unfold tree_match. rewrite !stree_leaves by assumption.
  assert (Jx : forall a, In a (leaves [] x) -> is_joint (dcls (snd a)) = false) by (intros [p q] H; now destruct (leaf_wf x [] p q Wx H)).
  assert (Jy : forall a, In a (leaves [] y) -> is_joint (dcls (snd a)) = false) by (intros [p q] H; now destruct (leaf_wf y [] p q Wy H)).
  unfold tree_match in T. induction T as [|a c l m [E M] _ IH]; cbn [map]; constructor; [|apply IH; intros; [apply Jx|apply Jy]; now right].
  split; [exact E|]. cbn [slice_leaf snd]. apply (leaf_slice_match b); auto; [apply Jx|apply Jy]; now left.
Qed.
(** ** d[i] *)
Lemma shaped_param b d p v : well_formed d = true -> shaped b d = true -> param_at d p = Some v -> exists s, ashape v = b ++ s.
Proof.
  intros W S H. destruct (param_leaf d p v W H) as (p' & n & q & -> & Hq & J). rewrite (dist_at_app d p' q n Hq) in H.
  assert (Hi : In (p', q) (leaves [] d)) by (apply (leaf_in d p' q W); auto). pose proof (shaped_in b d p' q S Hi) as Sq. destruct (leaf_wf d [] p' q W Hi) as [Wq _].
  unfold leaf_shaped in Sq. destruct (dims_of q) as [m|]; [|discriminate]. apply andb_prop in Sq as [_ Sq]. rewrite forallb_forall in Sq.
  assert (Hn : In n (map fd_name (fields (dcls q)))). { destruct q as [c mm ps subs]. apply wf_inv in Wq as (Hps & _). cbn [dcls dparams] in *. rewrite <- Hps. apply dget_In, (in_map fst) in H. exact H. }
  apply in_map_iff in Hn as (f & <- & Hf). specialize (Sq f Hf). rewrite H in Sq. apply andb_prop in Sq as [Sq _]. apply shape_eqb_eq in Sq. eauto.
Qed.
Lemma getitem_stree b i d : well_formed d = true -> shaped b d = true -> no_custom_minimizer d = true -> inb b i = true -> getitem d i = Ok (stree i d).
Proof.
  intros W S M Hi. destruct (create_shaped b d W S) as [infos Hc].
  assert (K : forall p v, param_at d p = Some v -> arr_getitem i v = Ok (asub i v)).
  { intros p v Hv. destruct (shaped_param b d p v W S Hv) as (s & Hs). unfold arr_getitem. rewrite Hs, firstn_app. pose proof (inb_length _ _ Hi) as Hl. rewrite Hl, Nat.sub_diag, firstn_all, firstn_O, app_nil_r, Hi. reflexivity. }
  destruct (getitem_ok d i infos W Hc) as (r & R1 & R2 & R3 & R4 & R5); [intros p v Hv; rewrite (K p v Hv); eauto|]. rewrite R1. f_equal. apply tree_ext; auto.
  - now rewrite stree_wf.
  - now rewrite stree_default.
  - eapply skel_trans; [apply skel_sym; exact R4|apply stree_skel].
  - intros p. rewrite R5, stree_param. destruct (param_at d p) as [v|] eqn:E; [|reflexivity]. now rewrite (K p v E).
Qed.
(** ** arrays built from batch elements *)
Lemma tsub_scalar b (t : tensor xr) i : shp t = b -> inb b i = true -> shp (tsub t i) = [] /\ tget (tsub t i) [] = tget t i.
Proof.
  intros S Hi. unfold tsub. assert (E : skipn (length i) (shp t) = []) by (rewrite S, (inb_length _ _ Hi); apply skipn_all). rewrite E. split; [reflexivity|]. rewrite tget_tbuild by reflexivity. now rewrite app_nil_r.
Qed.
Lemma scalar_ext (u v : tensor xr) : shp u = [] -> shp v = [] -> tget u [] = tget v [] -> u = v.
Proof. intros A B E. apply tensor_ext; [congruence|]. rewrite A. intros [|? ?] Hi; [exact E|discriminate Hi]. Qed.
Lemma yields_of b F r t : r = Ok t -> shp t = b -> (forall i, inb b i = true -> exists u, F i = Ok u /\ shp u = [] /\ tget u [] = tget t i) -> yields b F r.
Proof.
  intros H S K. exists t. split; [exact H|]. split; [exact S|]. intros i Hi. destruct (K i Hi) as (u & -> & U1 & U2). f_equal. destruct (tsub_scalar b t i S Hi) as [V1 V2]. apply scalar_ext; congruence.
Qed.
Lemma yields_get b F r : yields b F r -> exists t, r = Ok t /\ shp t = b /\ forall i, inb b i = true -> exists u, F i = Ok u /\ shp u = [] /\ tget u [] = tget t i.
Proof. intros (t & T1 & T2 & T3). exists t. split; [exact T1|]. split; [exact T2|]. intros i Hi. exists (tsub t i). split; [now apply T3|]. now apply (tsub_scalar b). Qed.
Lemma yields_ext b F F' r : (forall i, inb b i = true -> F i = F' i) -> yields b F r -> yields b F' r.
Proof. intros E (t & T1 & T2 & T3). exists t. split; [exact T1|]. split; [exact T2|]. intros i Hi. rewrite <- E by exact Hi. now apply T3. Qed.
Lemma yields_op2 b (op : xr -> xr -> xr) F G r s : yields b F r -> yields b G s ->
  yields b (fun i => let* x := F i in let* y := G i in tmap2 op x y) (let* x := r in let* y := s in tmap2 op x y).
Proof.
  intros A B. destruct (yields_get _ _ _ A) as (t & -> & T2 & T3). destruct (yields_get _ _ _ B) as (u & -> & U2 & U3). cbn [bind]. destruct (tmap2_all op t u b T2 U2) as (v & V1 & V2 & V3).
  apply (yields_of b _ _ v V1 V2). intros i Hi. destruct (T3 i Hi) as (x & -> & X1 & X2). destruct (U3 i Hi) as (y & -> & Y1 & Y2). cbn [bind].
  destruct (tmap2_all op x y [] X1 Y1) as (z & Z1 & Z2 & Z3). exists z. split; [exact Z1|]. split; [exact Z2|]. rewrite (Z3 [] eq_refl), (V3 i Hi). congruence.
Qed.
Lemma yields_op1 b (op : xr -> xr) F r : yields b F r -> yields b (fun i => let* x := F i in Ok (tmap op x)) (let* x := r in Ok (tmap op x)).
Proof.
  intros A. destruct (yields_get _ _ _ A) as (t & -> & T2 & T3). cbn [bind]. apply (yields_of b _ _ (tmap op t) eq_refl T2). intros i Hi. destruct (T3 i Hi) as (x & -> & X1 & X2). cbn [bind].
  exists (tmap op x). split; [reflexivity|]. split; [exact X1|]. unfold tmap. rewrite !tget_tbuild; [congruence|now rewrite T2|now rewrite X1].
Qed.
Lemma sums_map {A B} (k : A -> B) (h : B -> result (tensor xr)) b l r : sums_to h b (map k l) r -> sums_to (fun a => h (k a)) b l r.
Proof.
  intros [H1 (t & T1 & T2 & T3)]. split; [intros a Ha; apply H1; now apply in_map|]. exists t. split; [exact T1|]. split; [exact T2|]. intros i Hi. rewrite (T3 i Hi), map_map. reflexivity.
Qed.
Lemma sums_yields {A} (g : A -> result (tensor xr)) (g' : list nat -> A -> result (tensor xr)) b ls r F : sums_to g b ls r ->
  (forall i, inb b i = true -> sums_to (g' i) [] ls (F i)) -> (forall a, In a ls -> yields b (fun i => g' i a) (g a)) -> yields b F r.
Proof.
  intros [_ (t & T1 & T2 & T3)] H K. apply (yields_of b F r t T1 T2). intros i Hi. destruct (H i Hi) as [_ (u & U1 & U2 & U3)]. exists u. split; [exact U1|]. split; [exact U2|].
  rewrite (U3 [] eq_refl), (T3 i Hi). f_equal. apply map_ext_in. intros a Ha. destruct (yields_get _ _ _ (K a Ha)) as (v & -> & _ & V). destruct (V i Hi) as (w & -> & _ & W). exact W.
Qed.

(** ** the dot product *)
Lemma array_slice b i s v w : ashape v = b ++ s -> ashape w = b ++ s -> inb b i = true -> array_inner [] [] (asub i v) (asub i w) = array_inner b i v w.
Proof.
  intros Sv Sw Hi. pose proof (inb_length _ _ Hi) as Hl.
  assert (K : forall u, ashape u = b ++ s -> ashape (asub i u) = s /\ forall j, inb s j = true -> entry_c (asub i u) j = entry_c u (i ++ j)).
  { intros u Su. assert (E : skipn (length i) (ashape u) = s) by (rewrite Su, Hl; apply skipn_app_exact || (rewrite skipn_app, skipn_all, Nat.sub_diag; reflexivity)).
    destruct u as [t|t]; cbn [asub ashape entry_c] in *; unfold tsub; rewrite E; (split; [reflexivity|]); intros j Hj; now rewrite tget_tbuild. }
  destruct (K v Sv) as [V1 V2]. destruct (K w Sw) as [W1 W2]. unfold array_inner. cbn [length skipn]. rewrite V1.
  assert (E : skipn (length b) (ashape v) = s) by (rewrite Sv, skipn_app, skipn_all, Nat.sub_diag; reflexivity). rewrite E. f_equal. apply map_ext_in. intros j Hj. apply in_indices in Hj. cbn [app]. now rewrite V2, W2.
Qed.
Lemma inner_slice b i q r : leaf_match b q r -> inb b i = true -> leaf_inner [] [] (sliced i q) (sliced i r) = leaf_inner b i q r.
Proof.
  intros M Hi. unfold leaf_inner. cbn [sliced dcls dparams]. f_equal. apply map_ext_in. intros [f g] Hfg. cbn [fst snd]. destruct (pair_fields b q r f g M Hfg) as (e & S1 & S2).
  pose proof (in_combine_both _ _ _ Hfg) as [Hf Hg]. cbn [fst snd] in Hf, Hg. destruct M as (W1 & W2 & _). rewrite !dget_slice, (leaf_has q f W1 Hf), (leaf_has r g W2 Hg). cbn [option_map]. now apply (array_slice b i e).
Qed.
Lemma dot_yields b x y : well_formed x = true -> well_formed y = true -> tree_match b x y ->
  yields b (fun i => parameter_dot_product (stree i x) (stree i y)) (parameter_dot_product x y).
Proof.
  intros Wx Wy T. destruct (dot_value b x y Wx Wy T) as (t & T1 & T2 & T3). apply (yields_of b _ _ t T1 T2). intros i Hi.
  destruct (dot_value [] (stree i x) (stree i y)) as (u & U1 & U2 & U3); [now rewrite stree_wf|now rewrite stree_wf|now apply (stree_match b)|]. exists u. split; [exact U1|]. split; [exact U2|].
  rewrite (U3 [] eq_refl), (T3 i Hi). f_equal. rewrite !stree_leaves, combine_map_both, map_map by assumption. unfold tree_match in T. clear -T Hi. induction T as [|p q l m [_ M] _ IH]; [reflexivity|].
  cbn [combine map fst snd slice_leaf]. f_equal; [|exact IH]. now apply inner_slice.
Qed.
(** ** parameter_map with subtraction *)
Lemma sub_slice b i s v w u : like v w -> ashape v = b ++ s -> inb b i = true -> sub_op [v; w] = Ok u -> sub_op [asub i v; asub i w] = Ok (asub i u).
Proof.
  intros [Ls Lk] Sv Hi H. assert (Sw : ashape w = b ++ s) by congruence. cbn [sub_op] in *. destruct v as [v|v], w as [w|w]; try destruct Lk; cbn [arr_sub asub as_complex ashape] in *.
  - rewrite tmap2_same in H by congruence. cbn in H. injection H as <-. rewrite tmap2_same by (rewrite !(shp_tsub b s) by assumption; reflexivity). cbn [rmap asub]. do 2 f_equal.
    apply tensor_ext; [cbn [shp tbuild]; rewrite (shp_tsub b s) by assumption; unfold tsub; cbn [shp tbuild]; now rewrite Sv, skipn_app_len by now apply inb_length|].
    intros j Hj. cbn [shp tbuild] in Hj. rewrite (shp_tsub b s) in Hj by assumption. rewrite tget_tbuild by now rewrite (shp_tsub b s). rewrite !(get_tsub b s) by assumption.
    rewrite tget_tbuild by (rewrite Sv; apply (inb_app_intro b s); assumption). reflexivity.
  - rewrite tmap2_same in H by congruence. cbn in H. injection H as <-. rewrite tmap2_same by (rewrite !(shp_tsub b s) by assumption; reflexivity). cbn [rmap asub]. do 2 f_equal.
    apply tensor_ext; [cbn [shp tbuild]; rewrite (shp_tsub b s) by assumption; unfold tsub; cbn [shp tbuild]; now rewrite Sv, skipn_app_len by now apply inb_length|].
    intros j Hj. cbn [shp tbuild] in Hj. rewrite (shp_tsub b s) in Hj by assumption. rewrite tget_tbuild by now rewrite (shp_tsub b s). rewrite !(get_tsub b s) by assumption.
    rewrite tget_tbuild by (rewrite Sv; apply (inb_app_intro b s); assumption). reflexivity.
Qed.
Lemma tm_like b x y p v : well_formed x = true -> well_formed y = true -> same_skeleton x y -> tree_match b x y -> param_at x p = Some v ->
  exists w, param_at y p = Some w /\ like v w.
Proof.
  intros Wx Wy Sy Ty Hv. destruct (param_leaf x p v Wx Hv) as (p' & n & q & -> & Hq & Jq). rewrite (param_at_dist x p' q n Hq) in Hv.
  assert (Hql : In (p', q) (leaves [] x)) by (apply leaf_in; auto). destruct (tm_leaf b x y p' q Wx Wy Ty Hql) as [M _].
  destruct (skel_leafat x y p' q Sy Hq) as [C D]. rewrite (param_at_dist y p' _ n D).
  assert (Hif : exists f, In f (fields (dcls q)) /\ fd_name f = n).
  { assert (Wq : well_formed q = true) by exact (dist_at_wf x p' q Wx Hq). destruct q as [c m ps subs]. apply wf_inv in Wq as (E & _). cbn [dparams dcls] in *.
    apply dget_In in Hv. apply (in_map fst) in Hv. cbn in Hv. rewrite E in Hv. apply in_map_iff in Hv as (g & Hg & Hgi). eauto. }
  destruct Hif as (g & Hg & <-). destruct (match_like b q _ g M C Hg) as (v' & w' & E1 & E2 & Lk). exists w'. split; [exact E2|]. congruence.
Qed.
Lemma map_sub_slice b i x y : well_formed x = true -> well_formed y = true -> same_skeleton x y -> tree_match b x y -> tree_match b x x -> inb b i = true ->
  exists r, parameter_map sub_op x [y] = Ok r /\ well_formed r = true /\ same_skeleton x r /\ tree_match b x r /\ parameter_map sub_op (stree i x) [stree i y] = Ok (stree i r).
Proof.
  intros Wx Wy Sk T Txx Hi.
  assert (Hop : forall ys : list dist, length ys = 1 -> forall v ws, length ws = length ys -> Forall (like v) ws -> exists u, sub_op (v :: ws) = Ok u /\ like v u).
  { intros ys Hy v [|w [|? ?]] Hl Hf; try (rewrite Hy in Hl; discriminate). inversion Hf; subst. now apply arr_sub_like. }
  destruct (map_match sub_op b x [y] Wx) as (r & R1 & R2 & R3 & R4 & R5 & _ & R7); auto. { intros z [<-|[]]. auto. } { exact (Hop [y] eq_refl). }
  assert (Wx' : well_formed (stree i x) = true) by now rewrite stree_wf. assert (Wy' : well_formed (stree i y) = true) by now rewrite stree_wf.
  assert (Sk' : same_skeleton (stree i x) (stree i y)). { eapply skel_trans; [apply skel_sym, stree_skel|]. eapply skel_trans; [exact Sk|apply stree_skel]. }
  destruct (map_match sub_op [] (stree i x) [stree i y] Wx') as (r' & R1' & R2' & R3' & R4' & R5' & _ & R7'); auto.
  { intros z [<-|[]]. split; [exact Wy'|]. split; [exact Sk'|]. now apply (stree_match b). } { now apply (stree_match b). } { exact (Hop [stree i y] eq_refl). }
  exists r. split; [exact R1|]. split; [exact R2|]. split; [exact R4|]. split; [exact R5|]. rewrite R1'. f_equal. apply tree_ext; auto.
  - now rewrite stree_wf.
  - now rewrite stree_default.
  - eapply skel_trans; [apply skel_sym; exact R4'|]. eapply skel_trans; [apply skel_sym, stree_skel|]. eapply skel_trans; [exact R4|apply stree_skel].
  - intros p. rewrite stree_param. destruct (param_at x p) as [v|] eqn:Hv.
    + destruct (param_field x p v Wx Hv) as [f Hf]. destruct (tm_like b x y p v Wx Wy Sk T Hv) as (w & Hw & Lk).
      assert (Hf' : field_at (stree i x) p = Some f) by (rewrite (skeleton_field (stree i x) x p); [exact Hf|apply skel_sym, stree_skel]).
      specialize (R7 p f v [w] Hf Hv (Forall2_cons _ _ Hw (Forall2_nil _))).
      assert (Hv' : param_at (stree i x) p = Some (asub i v)) by (rewrite stree_param, Hv; reflexivity). assert (Hw' : param_at (stree i y) p = Some (asub i w)) by (rewrite stree_param, Hw; reflexivity).
      specialize (R7' p f _ [asub i w] Hf' Hv' (Forall2_cons _ _ Hw' (Forall2_nil _))). destruct (fd_fixed f).
      * rewrite R7, R7'. reflexivity.
      * destruct R7 as (u & U1 & U2). destruct R7' as (u' & U1' & U2'). rewrite U2, U2'. cbn [option_map]. f_equal.
        destruct (tm_shaped b x y Wx Wy T) as [Sx _]. destruct (shaped_param b x p v Wx Sx Hv) as (s & Hs). rewrite (sub_slice b i s v w u Lk Hs Hi U1) in U1'. congruence.
    + assert (K : forall z, well_formed z = true -> same_skeleton x z -> param_at z p = None).
      { intros z Wz Sz. destruct (param_at z p) as [u|] eqn:Hz; [|reflexivity]. destruct (param_field z p u Wz Hz) as [f Hf]. rewrite (skeleton_field z x p (skel_sym _ _ Sz)) in Hf. destruct (field_param x p f Wx Hf) as [? ?]. congruence. }
      rewrite (K r R2 R4), (K r' R2'); [reflexivity|]. eapply skel_trans; [apply stree_skel|exact R4'].
Qed.

Section Thms.
  Variable solve : minimizer -> dist -> nat -> xr.
  Notation L := (fam_methods solve).
  Notation G := (fam_good solve).

  Lemma mapM_stree (F : dist -> result dist) i (subs : list (string * dist)) r :
    Forall (fun ns : string * dist => forall e, F (snd ns) = Ok e -> F (stree i (snd ns)) = Ok (stree i e)) subs ->
    mapM (fun ns : string * dist => let* e := F (snd ns) in Ok (fst ns, e)) subs = Ok r ->
    mapM (fun ns : string * dist => let* e := F (snd ns) in Ok (fst ns, e)) (map (fun ns : string * dist => (fst ns, stree i (snd ns))) subs) = Ok (map (fun ns : string * dist => (fst ns, stree i (snd ns))) r).
  Proof.
    intros H. revert r. induction H as [|[n s] l H _ IH]; intros r E; [injection E as <-; reflexivity|]. cbn [mapM map fst snd] in *.
    destruct (F s) as [e|] eqn:Fe; [|discriminate]. cbn [bind] in E. destruct (mapM _ l) as [r'|] eqn:El; [|discriminate]. cbn [bind] in E. injection E as <-.
    rewrite (H e eq_refl). cbn [bind]. rewrite (IH r' eq_refl). reflexivity.
  Qed.
  Lemma to_exp_slice b i d : forall e, well_formed d = true -> nat_tree d = true -> shaped b d = true -> inb b i = true -> to_exp L d = Ok e -> to_exp L (stree i d) = Ok (stree i e).
  Proof.
    induction d as [c m ps subs IH] using dist_rect'. intros e W N S Hi E. pose proof (wf_inv _ _ _ _ W) as (_ & _ & Hs & Hsub). destruct c as [f| | | | | | | |]; try discriminate E.
    - rewrite (Hs eq_refl) in *. clear IH. assert (Sl : leaf_shaped b (Dist (NP f) m ps []) = true) by (apply (shaped_in b _ [] _ S); now left). destruct (leaf_dims b _ Sl) as (n & D & _).
      destruct (exp_builds solve b (Dist (NP f) m ps []) f n eq_refl W Sl D) as (qs & P1 & _ & _ & _ & P5). change (l_to_exp L (Dist (NP f) m ps []) = Ok e) in E. rewrite E in P1. injection P1 as ->.
      exact (P5 i Hi).
    - cbn [stree]. rewrite to_exp_unfold_joint in E |- *. destruct (mapM _ subs) as [r|] eqn:M; [|discriminate]. cbn [bind] in E. injection E as <-.
      rewrite (mapM_stree (to_exp L) i subs r); [reflexivity| |exact M]. apply Forall_forall. intros [n s] Hin es Es. rewrite Forall_forall in IH, Hsub. cbn in N, S. rewrite forallb_forall in N, S.
      apply (IH _ Hin); [exact (Hsub _ Hin)|exact (N _ Hin)|exact (S _ Hin)|exact Hi|exact Es].
  Qed.
  Lemma to_nat_slice b i d : forall e, well_formed d = true -> exp_tree d = true -> shaped b d = true -> inb b i = true -> to_nat L d = Ok e -> to_nat L (stree i d) = Ok (stree i e).
  Proof.
    induction d as [c m ps subs IH] using dist_rect'. intros e W N S Hi E. pose proof (wf_inv _ _ _ _ W) as (_ & _ & Hs & Hsub). destruct c as [|f| | | | | | |]; try discriminate E.
    - rewrite (Hs eq_refl) in *. clear IH. assert (Sl : leaf_shaped b (Dist (EP f) m ps []) = true) by (apply (shaped_in b _ [] _ S); now left). destruct (leaf_dims b _ Sl) as (n & D & _).
      destruct (nat_builds solve b (Dist (EP f) m ps []) f n eq_refl W Sl D) as (qs & P1 & _ & _ & _ & P5). change (l_to_nat L (Dist (EP f) m ps []) = Ok e) in E. rewrite E in P1. injection P1 as ->.
      exact (P5 i Hi).
    - cbn [stree]. rewrite to_nat_unfold_joint in E |- *. destruct (mapM _ subs) as [r|] eqn:M; [|discriminate]. cbn [bind] in E. injection E as <-.
      rewrite (mapM_stree (to_nat L) i subs r); [reflexivity| |exact M]. apply Forall_forall. intros [n s] Hin es Es. rewrite Forall_forall in IH, Hsub. cbn in N, S. rewrite forallb_forall in N, S.
      apply (IH _ Hin); [exact (Hsub _ Hin)|exact (N _ Hin)|exact (S _ Hin)|exact Hi|exact Es].
  Qed.

  Lemma is_leaf_nat d p q : well_formed d = true -> nat_tree d = true -> In (p, q) (leaves [] d) -> exists f, dcls q = NP f /\ log_normalizer L q = l_log_normalizer L q /\ forall i, log_normalizer L (sliced i q) = l_log_normalizer L (sliced i q).
  Proof. intros W N Hi. destruct (nat_leaf d [] p q W N Hi) as [f Hf]. exists f. split; [exact Hf|]. destruct q as [c m ps subs]. cbn [dcls] in Hf. subst c. split; reflexivity. Qed.
  Lemma ln_tree_yields b d : well_formed d = true -> nat_tree d = true -> shaped b d = true -> yields b (fun i => log_normalizer L (stree i d)) (log_normalizer L d).
  Proof.
    intros W N S. apply (sums_yields _ (fun i (pq : path * dist) => log_normalizer L (sliced i (snd pq))) b (leaves [] d) _ _ (ln_sum L G b d W N S)).
    - intros i Hi. assert (A : sums_to (fun pq : path * dist => log_normalizer L (snd pq)) [] (leaves [] (stree i d)) (log_normalizer L (stree i d))).
      { apply (ln_sum L G); [now rewrite stree_wf|unfold nat_tree; now rewrite stree_all|now apply (stree_shaped b)]. }
      rewrite stree_leaves in A by exact W. exact (sums_map (slice_leaf i) _ _ _ _ A).
    - intros [p q] Hq. cbn [snd]. destruct (is_leaf_nat d p q W N Hq) as (f & Hf & E1 & E2). rewrite E1. apply (yields_ext b (fun i => l_log_normalizer L (sliced i q))); [intros i _; now rewrite E2|].
      destruct (leaf_wf d [] p q W Hq) as [Wq _]. exact (ln_yields solve b q f Hf Wq (shaped_in b d p q S Hq)).
  Qed.
  Lemma ecm_tree_yields b d : well_formed d = true -> all_nodes has_entropy_ep d = true -> shaped b d = true -> yields b (fun i => expected_carrier_measure L (stree i d)) (expected_carrier_measure L d).
  Proof.
    intros W N S. apply (sums_yields _ (fun i (pq : path * dist) => expected_carrier_measure L (sliced i (snd pq))) b (leaves [] d) _ _ (ecm_sum_tree L G b d W N S)).
    - intros i Hi. assert (A : sums_to (fun pq : path * dist => expected_carrier_measure L (snd pq)) [] (leaves [] (stree i d)) (expected_carrier_measure L (stree i d))).
      { apply (ecm_sum_tree L G); [now rewrite stree_wf|now rewrite stree_all|now apply (stree_shaped b)]. }
      rewrite stree_leaves in A by exact W. exact (sums_map (slice_leaf i) _ _ _ _ A).
    - intros [p q] Hq. cbn [snd]. pose proof (all_nodes_leaves _ d [] N p q Hq) as Hc. destruct (leaf_wf d [] p q W Hq) as [Wq Hj].
      assert (Hf : exists f, dcls q = EP f) by (destruct (dcls q); try discriminate; eauto). destruct Hf as [f Hf]. rewrite Hf in Hc.
      assert (E1 : expected_carrier_measure L q = l_expected_carrier_measure L q) by (destruct q as [c m ps subs]; cbn [dcls] in Hf; subst c; cbn [expected_carrier_measure]; now rewrite Hc).
      assert (E2 : forall i, expected_carrier_measure L (sliced i q) = l_expected_carrier_measure L (sliced i q)) by (intros i; destruct q as [c m ps subs]; cbn [dcls] in Hf; subst c; cbn [sliced expected_carrier_measure dcls]; now rewrite Hc).
      rewrite E1. apply (yields_ext b (fun i => l_expected_carrier_measure L (sliced i q))); [intros i _; now rewrite E2|].
      exact (ecm_yields solve b q f Hf Hc Wq (shaped_in b d p q S Hq)).
  Qed.

  (** ** divergence and entropies *)
  Definition kl_form (r e q p : dist) : result (tensor xr) :=
    let* x := (let* a := parameter_dot_product r e in let* b := log_normalizer L q in tmap2 xadd a b) in let* c := log_normalizer L p in tmap2 xsub x c.
  Lemma kl_form_yields b r e q p : well_formed r = true -> well_formed e = true -> well_formed q = true -> well_formed p = true -> tree_match b r e ->
    nat_tree q = true -> nat_tree p = true -> shaped b q = true -> shaped b p = true -> yields b (fun i => kl_form (stree i r) (stree i e) (stree i q) (stree i p)) (kl_form r e q p).
  Proof.
    intros Wr We Wq Wp T Nq Np Sq Sp. unfold kl_form. apply (yields_op2 b xsub (fun i => let* a := parameter_dot_product (stree i r) (stree i e) in let* b := log_normalizer L (stree i q) in tmap2 xadd a b)); [|now apply ln_tree_yields].
    apply (yields_op2 b xadd (fun i => parameter_dot_product (stree i r) (stree i e))); [now apply dot_yields|now apply ln_tree_yields].
  Qed.
  Lemma kl_yields b p q : well_formed p = true -> well_formed q = true -> nat_tree p = true -> nat_tree q = true -> same_skeleton p q -> tree_match b p q ->
    yields b (fun i => kl_divergence_nat L (stree i p) (stree i q)) (kl_divergence_nat L p q).
  Proof.
    intros Wp Wq Np Nq Sk T. destruct (tm_shaped b p q Wp Wq T) as [Sp Sq]. destruct (g_exp_tree L G b p Wp Np Sp) as (e & E1 & E2 & E3 & E4 & E5 & E6).
    pose proof (nat_tm_self b p Wp (or_introl Np) Sp) as Tpp.
    destruct (map_match sub_op b p [q] Wp) as (r & R1 & R2 & R3 & R4 & R5 & _); auto.
    { intros y [<-|[]]. auto. }
    { intros v [|w [|? ?]] Hl Hf; try discriminate. inversion Hf; subst. now apply arr_sub_like. }
    assert (Et : kl_divergence_nat L p q = kl_form r e q p) by (unfold kl_divergence_nat, kl_divergence_exp; rewrite E1; cbn [bind]; rewrite R1; cbn [bind]; apply bind3).
    rewrite Et. apply (yields_ext b (fun i => kl_form (stree i r) (stree i e) (stree i q) (stree i p))).
    - intros i Hi. unfold kl_divergence_nat, kl_divergence_exp. rewrite (to_exp_slice b i p e) by assumption. cbn [bind].
      destruct (map_sub_slice b i p q Wp Wq Sk T Tpp Hi) as (r' & R1' & _ & _ & _ & R5'). rewrite R1 in R1'. injection R1' as <-. rewrite R5'. cbn [bind]. symmetry. apply bind3.
    - apply kl_form_yields; auto. eapply tm_trans; [apply tm_sym; exact R5|exact E5].
  Qed.
  Lemma kl_exp_yields b p q n : well_formed p = true -> well_formed q = true -> exp_tree p = true -> nat_tree q = true -> to_nat L p = Ok n -> same_skeleton n q -> tree_match b p q ->
    yields b (fun i => kl_divergence_exp L (stree i p) (stree i q) None) (kl_divergence_exp L p q None).
  Proof.
    intros Wp Wq Np Nq Hn Sk T. destruct (tm_shaped b p q Wp Wq T) as [Sp Sq]. destruct (g_nat_tree L G b p Wp Np Sp) as (e & E1 & E2 & E3 & E4 & E5 & E6).
    rewrite Hn in E1. injection E1 as <-. destruct (tm_shaped b p n Wp E2 E5) as [_ Sn].
    pose proof (nat_tm_self b n E2 (or_introl E3) Sn) as Tnn. assert (Tnq : tree_match b n q) by (eapply tm_trans; [apply tm_sym; exact E5|exact T]).
    destruct (map_match sub_op b n [q] E2) as (r & R1 & R2 & R3 & R4 & R5 & _); auto.
    { intros y [<-|[]]. auto. }
    { intros v [|w [|? ?]] Hl Hf; try discriminate. inversion Hf; subst. now apply arr_sub_like. }
    assert (Et : kl_divergence_exp L p q None = kl_form r p q n) by (unfold kl_divergence_exp; rewrite Hn; cbn [bind]; rewrite R1; cbn [bind]; apply bind3).
    rewrite Et. apply (yields_ext b (fun i => kl_form (stree i r) (stree i p) (stree i q) (stree i n))).
    - intros i Hi. unfold kl_divergence_exp. rewrite (to_nat_slice b i p n) by assumption. cbn [bind].
      destruct (map_sub_slice b i n q E2 Wq Sk Tnq Tnn Hi) as (r' & R1' & _ & _ & _ & R5'). rewrite R1 in R1'. injection R1' as <-. rewrite R5'. cbn [bind]. symmetry. apply bind3.
    - apply kl_form_yields; auto. eapply tm_trans; [apply tm_sym; exact R5|apply tm_sym; exact E5].
  Qed.
  Lemma ce_form (p q : dist) : cross_entropy L p q = (let* a := (let* x := (let* dp := parameter_dot_product q p in Ok (tmap xneg dp)) in let* lq := log_normalizer L q in tmap2 xadd x lq) in
      let* ecm := expected_carrier_measure L p in tmap2 xsub a ecm).
  Proof. unfold cross_entropy. rewrite !bind_assoc. apply bind_ext. intros a _. cbn [bind]. now rewrite bind_assoc. Qed.
  Lemma ce_yields b p q : well_formed p = true -> well_formed q = true -> all_nodes has_entropy_ep p = true -> nat_tree q = true -> tree_match b p q ->
    yields b (fun i => cross_entropy L (stree i p) (stree i q)) (cross_entropy L p q).
  Proof.
    intros Wp Wq Hp Nq T. destruct (tm_shaped b p q Wp Wq T) as [Sp Sq]. rewrite ce_form. eapply yields_ext; [intros i _; symmetry; apply ce_form|].
    apply (yields_op2 b xsub (fun i => let* x := (let* dp := parameter_dot_product (stree i q) (stree i p) in Ok (tmap xneg dp)) in let* lq := log_normalizer L (stree i q) in tmap2 xadd x lq)); [|now apply ecm_tree_yields].
    apply (yields_op2 b xadd (fun i => let* dp := parameter_dot_product (stree i q) (stree i p) in Ok (tmap xneg dp))); [|now apply ln_tree_yields].
    apply (yields_op1 b xneg (fun i => parameter_dot_product (stree i q) (stree i p))). apply dot_yields; auto. now apply tm_sym.
  Qed.
  Lemma entropy_nat_yields b q : well_formed q = true -> nat_tree q = true -> shaped b q = true ->
    (forall p l f, In (p, l) (leaves [] q) -> dcls l = NP f -> has_entropy_ep (EP f) = true) -> yields b (fun i => entropy_nat L (stree i q)) (entropy_nat L q).
  Proof.
    intros Wq Nq Sq He. destruct (g_exp_tree L G b q Wq Nq Sq) as (e & E1 & E2 & E3 & E4 & E5 & E6). unfold entropy_nat. rewrite E1. cbn [bind].
    apply (yields_ext b (fun i => cross_entropy L (stree i e) (stree i q))); [intros i Hi; now rewrite (to_exp_slice b i q e) by assumption|].
    apply ce_yields; auto; [now apply (has_entropy_tree b q e)|now apply tm_sym].
  Qed.
  Lemma ent_exp_tree p : all_nodes has_entropy_ep p = true -> exp_tree p = true.
  Proof.
    induction p as [c m ps subs IH] using dist_rect'. intros H. cbn in *. apply andb_prop in H as [H1 H2]. apply andb_true_intro. split; [destruct c; try discriminate; reflexivity|].
    rewrite forallb_forall in *. rewrite Forall_forall in IH. intros x Hx. apply IH; auto.
  Qed.
  Lemma entropy_exp_yields b p : well_formed p = true -> all_nodes has_entropy_ep p = true -> shaped b p = true -> yields b (fun i => entropy_exp L (stree i p)) (entropy_exp L p).
  Proof.
    intros Wp Hp Sp. pose proof (ent_exp_tree p Hp) as Np. destruct (g_nat_tree L G b p Wp Np Sp) as (n & E1 & E2 & E3 & E4 & E5 & E6). unfold entropy_exp. rewrite E1. cbn [bind].
    apply (yields_ext b (fun i => cross_entropy L (stree i p) (stree i n))); [intros i Hi; now rewrite (to_nat_slice b i p n) by assumption|].
    now apply ce_yields.
  Qed.

  (** ** observations *)
  Lemma log_pdf_leaf_yields b q f a : well_formed q = true -> dcls q = NP f -> leaf_shaped b q = true -> obs_leaf b q a ->
    yields b (fun i => log_pdf L (sliced i q) (Leaf (asub i a))) (log_pdf L q (Leaf a)).
  Proof.
    intros W Hf S O. destruct (leaf_dims b q S) as (n & D & _). assert (J : is_joint (dcls q) = false) by now rewrite Hf.
    destruct (ss_builds solve b q f a n Hf W S O D) as (ps & P1 & P2 & P3 & P4 & P5). rewrite (log_pdf_leaf L G b q f a W Hf S O), P1. cbn [bind].
    set (t := Dist (EP f) DefaultMinimizer ps []) in *.
    apply (yields_ext b (fun i => let* x := (let* dp := parameter_dot_product (stree i q) (stree i t) in let* ln := log_normalizer L (stree i q) in tmap2 xsub dp ln) in
      let* cm := l_carrier_measure L (sliced i q) (asub i a) in tmap2 xadd x cm)).
    - intros i Hi. rewrite (stree_leaf i q W J). rewrite (log_pdf_leaf L G [] (sliced i q) f (asub i a)).
      + rewrite (P5 i Hi). reflexivity.
      + now apply sliced_wf.
      + exact Hf.
      + now destruct (sliced_shaped b q n i W J S D Hi).
      + destruct O as (n' & s & O1 & O2 & O3 & O4). exists n', s. destruct (sliced_shaped b q n i W J S D Hi) as [D' _]. split; [congruence|]. split; [exact O2|]. split.
        * destruct a as [u|u]; cbn [asub ashape] in *; cbn [app]; now apply (shp_tsub b).
        * unfold kind_ok in *. destruct (supp_ring s), a; exact O4.
    - assert (M : leaf_match b q t). { unfold leaf_match. split; [exact W|]. split; [exact P2|]. split; [exact S|]. split; [exact P3|]. split; [congruence|]. exists f. now rewrite Hf. }
      assert (N : nat_tree q = true). { destruct q as [c m qs subs]. cbn [dcls] in *. subst c. pose proof (wf_inv _ _ _ _ W) as (_ & _ & Hs & _). rewrite (Hs eq_refl). reflexivity. }
      assert (Sl : shaped b q = true) by now apply shaped_of_leaf.
      apply (yields_op2 b xadd (fun i => let* dp := parameter_dot_product (stree i q) (stree i t) in let* ln := log_normalizer L (stree i q) in tmap2 xsub dp ln)); [|now apply (cm_yields solve b q f a)].
      apply (yields_op2 b xsub (fun i => parameter_dot_product (stree i q) (stree i t))); [|now apply ln_tree_yields]. apply dot_yields; auto. now apply leaf_tm.
  Qed.
  Lemma sums_index {A} (g g' : A -> result (tensor xr)) b i ls r F : inb b i = true -> sums_to g b ls r -> sums_to g' [] ls F ->
    (forall a, In a ls -> exists t, g a = Ok t /\ shp t = b /\ g' a = Ok (tsub t i)) -> exists t, r = Ok t /\ shp t = b /\ F = Ok (tsub t i).
  Proof.
    intros Hi [_ (t & T1 & T2 & T3)] [_ (u & U1 & U2 & U3)] K. exists t. split; [exact T1|]. split; [exact T2|]. rewrite U1. f_equal. destruct (tsub_scalar b t i T2 Hi) as [V1 V2]. apply scalar_ext; [exact U2|exact V1|].
    rewrite V2, (T3 i Hi), (U3 [] eq_refl). f_equal. apply map_ext_in. intros a Ha. destruct (K a Ha) as (v & -> & Sv & ->). cbn [entry]. now destruct (tsub_scalar b v i Sv Hi).
  Qed.
  (** the observation x at batch index i *)
  Definition obs_index (i : list nat) (x xi : nested arr) : Prop := forall p a, nested_get x p = Some a -> exists ai, arr_getitem i a = Ok ai /\ nested_get xi p = Some ai.
  Lemma stree_obs i d : forall x, obs_matches d x -> obs_matches (stree i d) x.
  Proof.
    induction d as [c m ps subs IH] using dist_rect'. intros x H. cbn [stree obs_matches] in *. destruct (is_joint c); [|exact H]. destruct x as [|kvs]; [exact H|]. destruct H as (H1 & H2 & H3). split; [exact H1|]. rewrite stree_names. split; [exact H2|].
    clear H2. induction IH as [|[n s] l I _ IHl]; [exact I|]. cbn [map fst snd] in *. destruct H3 as [H3 H4]. split; [|now apply IHl]. destruct (dget kvs n); [now apply I|exact H3].
  Qed.
  Lemma getitem_leaf b q a i ai : obs_leaf b q a -> inb b i = true -> arr_getitem i a = Ok ai -> ai = asub i a.
  Proof.
    intros (n & s & _ & _ & Sa & _) Hi H. unfold arr_getitem in H. destruct (inb (firstn (length i) (ashape a)) i); [|discriminate]. injection H as <-. reflexivity.
  Qed.
  Lemma sliced_obs b q a i : well_formed q = true -> is_joint (dcls q) = false -> leaf_shaped b q = true -> obs_leaf b q a -> inb b i = true -> obs_leaf [] (sliced i q) (asub i a).
  Proof.
    intros W J S (n & s & O1 & O2 & O3 & O4) Hi. exists n, s. destruct (sliced_shaped b q n i W J S O1 Hi) as [D' _]. split; [exact D'|]. split; [exact O2|]. split.
    - destruct a as [u|u]; cbn [asub ashape] in *; cbn [app]; now apply (shp_tsub b).
    - unfold kind_ok in *. destruct (supp_ring s), a; exact O4.
  Qed.
  Section Obs.
    Variables (b i : list nat) (q : dist) (x xi : nested arr).
    Hypotheses (W : well_formed q = true) (N : nat_tree q = true) (S : shaped b q = true) (O : obs_matches q x) (Os : obs_shaped b q x)
      (Oi : obs_matches q xi) (Ox : obs_index i x xi) (Hi : inb b i = true).
    Lemma obs_leaf_at p l : In (p, l) (leaves [] q) -> exists a, nested_get x p = Some a /\ obs_leaf b l a /\ nested_get xi p = Some (asub i a).
    Proof.
      intros Hl. destruct (obs_get q x [] p l W O Hl) as (r & a & E & Ha). cbn [app] in E. subst r. exists a. split; [exact Ha|]. pose proof (Os p l a Hl Ha) as Ol. split; [exact Ol|].
      destruct (Ox p a Ha) as (ai & A1 & A2). now rewrite <- (getitem_leaf b l a i ai Ol Hi A1).
    Qed.
    Lemma obs_shaped_i : obs_shaped [] (stree i q) xi.
    Proof.
      intros p l a Hl Ha. rewrite stree_leaves in Hl by exact W. apply in_map_iff in Hl as ([p' l'] & E & Hl). injection E as <- <-. destruct (obs_leaf_at p' l' Hl) as (a' & A1 & A2 & A3). rewrite A3 in Ha. injection Ha as <-.
      destruct (leaf_wf q [] p' l' W Hl) as [Wl Jl]. apply (sliced_obs b); auto. exact (shaped_in b q p' l' S Hl).
    Qed.
    Lemma log_pdf_index : exists t, log_pdf L q x = Ok t /\ shp t = b /\ log_pdf L (stree i q) xi = Ok (tsub t i).
    Proof.
      pose proof (log_pdf_sum L G b q x W N S O Os) as A.
      assert (B : sums_to (obs_at xi (fun l a => log_pdf L l (Leaf a))) [] (leaves [] (stree i q)) (log_pdf L (stree i q) xi)).
      { apply (log_pdf_sum L G); [now rewrite stree_wf|unfold nat_tree; now rewrite stree_all|now apply (stree_shaped b)|now apply stree_obs|exact obs_shaped_i]. }
      rewrite stree_leaves in B by exact W. apply sums_map in B. apply (sums_index _ _ b i _ _ _ Hi A B). intros [p l] Hl. unfold obs_at. cbn [slice_leaf fst snd].
      destruct (obs_leaf_at p l Hl) as (a & A1 & A2 & A3). rewrite A1, A3. destruct (nat_leaf q [] p l W N Hl) as [f Hf]. destruct (leaf_wf q [] p l W Hl) as [Wl _].
      destruct (log_pdf_leaf_yields b l f a Wl Hf (shaped_in b q p l S Hl) A2) as (t & T1 & T2 & T3). exists t. auto.
    Qed.
    Lemma carrier_index : exists t, carrier_measure L q x = Ok t /\ shp t = b /\ carrier_measure L (stree i q) xi = Ok (tsub t i).
    Proof.
      pose proof (carrier_sum L G b q x W N S O Os) as A.
      assert (B : sums_to (obs_at xi (l_carrier_measure L)) [] (leaves [] (stree i q)) (carrier_measure L (stree i q) xi)).
      { apply (carrier_sum L G); [now rewrite stree_wf|unfold nat_tree; now rewrite stree_all|now apply (stree_shaped b)|now apply stree_obs|exact obs_shaped_i]. }
      rewrite stree_leaves in B by exact W. apply sums_map in B. apply (sums_index _ _ b i _ _ _ Hi A B). intros [p l] Hl. unfold obs_at. cbn [slice_leaf fst snd].
      destruct (obs_leaf_at p l Hl) as (a & A1 & A2 & A3). rewrite A1, A3. destruct (nat_leaf q [] p l W N Hl) as [f Hf]. destruct (leaf_wf q [] p l W Hl) as [Wl _].
      destruct (cm_yields solve b l f a Hf Wl (shaped_in b q p l S Hl) A2) as (t & T1 & T2 & T3). exists t. auto.
    Qed.
  End Obs.
End Thms.
