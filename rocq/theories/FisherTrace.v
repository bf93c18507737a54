(** C29 for unbounded parameters, and C42: fisher_information_trace. *)
From Coq Require Import String List Bool Arith Reals Lia Lra.
From Verif Require Import Base XReal Tensor TensorFacts TensorFacts2 Support SupportSpec Dist DictFacts Iteration Structure Spec StructFacts AssembleFacts ParamFacts FlattenSpec FlattenFacts FlattenThms StructProofs ToolThms
  Fisher FisherSpec FisherDiag TraceSpec.
Import ListNotations.
Local Open Scope nat_scope.

Lemma xsum_fin (l : list R) : xsum (map Fin l) = Fin (fold_right Rplus 0%R l).
Proof. induction l as [|a l IH]; [reflexivity|]. cbn [map xsum fold_right] in *. change (xadd (Fin a) (xsum (map Fin l)) = Fin (a + fold_right Rplus 0%R l)). rewrite IH. reflexivity. Qed.

Definition entries (t : tensor xr) : list xr := map (tget t) (indices (shp t)).

Lemma sum_filter {A} (P : A -> bool) (f : A -> xr) l : (forall x, In x l -> exists v, f x = Fin v) ->
  xsum (map (fun x => if P x then f x else Fin 0) l) = xsum (map f (filter P l)).
Proof.
  induction l as [|x l IH]; intros H; [reflexivity|]. cbn [map filter]. change (xadd (if P x then f x else Fin 0) (xsum (map (fun x => if P x then f x else Fin 0) l)) = xsum (map f (if P x then x :: filter P l else filter P l))).
  rewrite IH by (intros y Hy; apply H; now right). destruct (P x); [reflexivity|].
  assert (K : exists w, xsum (map f (filter P l)) = Fin w).
  { assert (G : forall y, In y (filter P l) -> exists v, f y = Fin v) by (intros y Hy; apply filter_In in Hy as [Hy _]; apply H; now right). revert G. generalize (filter P l). clear. induction l as [|y l IH]; intros G; [now exists 0%R|].
    destruct IH as [w E]; [intros z Hz; apply G; now right|]. destruct (G y (or_introl eq_refl)) as [v Ev]. exists (v + w)%R. change (xadd (f y) (xsum (map f l)) = Fin (v + w)). rewrite Ev, E. reflexivity. }
  destruct K as [w ->]. cbn. f_equal. lra.
Qed.
Lemma tbuild_nil (f : index -> xr) x : f [] = x -> tbuild [] f = tscalar x.
Proof. intros <-. apply tensor_ext; [reflexivity|]. intros i Hi. destruct i; [|discriminate Hi]. unfold tscalar, tfull. now rewrite !tget_tbuild. Qed.
Lemma indices_2 n m : indices [n; m] = map (fun p => [fst p; snd p]) (list_prod (seq 0 n) (seq 0 m)).
Proof.
  change (indices [n; m]) with (flat_map (fun k => map (cons k) (flat_map (fun k => map (cons k) [[]]) (seq 0 m))) (seq 0 n)).
  generalize (seq 0 n). intros l. induction l as [|k l IH]; [reflexivity|]. cbn [flat_map list_prod]. rewrite map_app, IH. f_equal.
  rewrite map_map. cbn [fst snd]. generalize (seq 0 m). clear. induction l as [|j l IH]; [reflexivity|]. cbn in *. now rewrite IH.
Qed.
Lemma indices_1 n : indices [n] = map (fun k => [k]) (seq 0 n).
Proof. cbn. generalize (seq 0 n). clear. induction l as [|j l IH]; [reflexivity|]. cbn in *. now rewrite IH. Qed.

Lemma inb_2 n m a c : a < n -> c < m -> inb [n; m] [a; c] = true.
Proof. intros H1 H2. cbn -[Nat.ltb]. rewrite (proj2 (Nat.ltb_lt a n) H1), (proj2 (Nat.ltb_lt c m) H2). reflexivity. Qed.
Lemma inb_1 n a : a < n -> inb [n] [a] = true.
Proof. intros H1. cbn -[Nat.ltb]. rewrite (proj2 (Nat.ltb_lt a n) H1). reflexivity. Qed.

(** the reduction of an unbounded parameter is the sum of its flattened elements *)
Lemma trace_flat s n v t m : unbounded_real s -> ashape v = supp_shape s n -> supp_flattened s m v = Ok t -> fin_tensor t -> (forall u, v = RA u -> fin_tensor u) ->
  trace_value s v = Ok (RA (tscalar (xsum (entries t)))).
Proof.
  intros U S Fl Fi Fu. assert (M : forall u : tensor xr, (if m then tmap (real_to_plane None None) u else u) = u).
  { intros u. destruct m; [|reflexivity]. apply tensor_ext; [reflexivity|]. intros i Hi. unfold tmap. now rewrite tget_tbuild. }
  destruct U as [sc [->|[->|(h & psd & nsd & ->)]]]; destruct v as [u|u]; cbn [ashape supp_shape] in S.
  - cbn [trace_value supp_axes]. cbn [supp_flattened ring_flattened arr_newaxis as_real bind] in Fl. rewrite M in Fl. injection Fl as <-. f_equal. f_equal.
    apply tensor_ext; [exact S|]. intros i Hi. rewrite S in Hi. destruct i; [|discriminate Hi]. unfold tscalar, tfull. rewrite tget_tbuild by reflexivity. unfold entries. change (shp (tnewaxis u)) with (shp u ++ [1]). rewrite S. cbn [app]. rewrite indices_1. cbn [seq map].
    assert (E : tget (tnewaxis u) [0] = tget u []) by (unfold tnewaxis; rewrite S, tget_tbuild by reflexivity; reflexivity).
    rewrite E. destruct (Fu u eq_refl []) as [x ->]; [now rewrite S|]. cbn. f_equal. lra.
  - discriminate Fl.
  - cbn [trace_value supp_axes]. cbn [supp_flattened ring_flattened as_real bind] in Fl. rewrite M in Fl. injection Fl as <-. do 2 f_equal. unfold tfold_axes, rank, entries. rewrite S. cbn [length Nat.sub firstn skipn]. apply tbuild_nil. reflexivity.
  - discriminate Fl.
  - cbn [trace_value supp_axes]. cbn [supp_flattened ashape] in Fl. rewrite S in Fl. cbn [rev app] in Fl. rewrite Nat.eqb_refl in Fl. cbn [arr_gather_triu ring_flattened as_real bind] in Fl. rewrite M in Fl. injection Fl as <-. do 2 f_equal.
    unfold tfold_axes, rank. cbn [jtriu shp tbuild]. rewrite S. cbn [length Nat.sub firstn skipn app]. apply tbuild_nil. unfold entries. change (shp (gather_triu n u)) with (removelast (removelast (shp u)) ++ [length (triu n)]). rewrite S. cbn [removelast app].
    rewrite indices_1, indices_2, !map_map.
    transitivity (xsum (map (fun p => if fst p <=? snd p then tget u [fst p; snd p] else Fin 0) (list_prod (seq 0 n) (seq 0 n)))).
    { f_equal. apply map_ext_in. intros [a c] Hp. apply in_prod_iff in Hp as [Ha Hc]. apply in_seq in Ha, Hc. unfold jtriu. rewrite S. cbn [fst snd app]. rewrite tget_tbuild by (apply inb_2; lia). reflexivity. }
    rewrite (sum_filter (fun p => fst p <=? snd p) (fun p => tget u [fst p; snd p])).
    2:{ intros [a c] Hp. apply in_prod_iff in Hp as [Ha Hc]. apply in_seq in Ha, Hc. apply (Fu u eq_refl). rewrite S. cbn [fst snd]. apply inb_2; lia. }
    fold (triu n). f_equal. symmetry.
    assert (G : forall k, k < length (triu n) -> tget (gather_triu n u) [k] = (fun p => tget u [fst p; snd p]) (nth k (triu n) (0, 0))).
    { intros k Hk. unfold gather_triu. rewrite S. cbn [removelast app]. rewrite tget_tbuild; [reflexivity|]. apply inb_1; lia. }
    transitivity (map (fun k => (fun p => tget u [fst p; snd p]) (nth k (triu n) (0, 0))) (seq 0 (length (triu n)))).
    { apply map_ext_in. intros k Hk. apply in_seq in Hk. now apply G. }
    clear. rewrite <- (map_map (fun k => nth k (triu n) (0, 0)) (fun p => tget u [fst p; snd p])). f_equal. apply nth_ext with (0, 0) (0, 0); [now rewrite map_length, seq_length|]. intros k Hk. rewrite map_length, seq_length in Hk.
    rewrite (nth_indep _ (0,0) ((fun k => nth k (triu n) (0, 0)) 0)) by (now rewrite map_length, seq_length). rewrite (map_nth (fun k => nth k (triu n) (0, 0))), seq_nth by exact Hk. reflexivity.
  - cbn [supp_flattened ashape] in Fl. rewrite S in Fl. cbn [rev app] in Fl. rewrite Nat.eqb_refl in Fl. discriminate Fl.
Qed.

(** entries of a slice of the diagonal *)
Lemma block_entries F K off k diag : shp F = [K; K] -> shp diag = [K] -> (forall a, a < K -> tget diag [a] = tget F [a; a]) -> fin_tensor diag -> off + k <= K ->
  exists x, block_trace F off k x /\ xsum (entries (tslice off (off + k) diag)) = Fin x.
Proof.
  intros SF Sd E Fi Hk. assert (L : exists l, length l = k /\ forall a, a < k -> tget F [off + a; off + a] = Fin (nth a l 0%R)).
  { clear -SF Sd E Fi Hk. induction k as [|k IH]; [exists []; split; [reflexivity|lia]|]. destruct IH as (l & L1 & L2); [lia|].
    destruct (Fi [off + k]) as [v Ev]. { rewrite Sd. apply inb_1; lia. }
    exists (l ++ [v]). rewrite app_length. cbn [length]. split; [lia|]. intros a Ha. destruct (Nat.eq_dec a k) as [->|Hne].
    - rewrite app_nth2, L1, Nat.sub_diag by lia. rewrite <- E by lia. exact Ev.
    - rewrite app_nth1 by lia. apply L2. lia. }
  destruct L as (l & L1 & L2). exists (fold_right Rplus 0%R l). split; [exists l; auto|]. rewrite <- xsum_fin. f_equal. unfold entries.
  pose proof (shp_tslice [] K off (off + k) diag Sd) as Ss. rewrite Ss by lia. cbn [app]. replace (off + k - off) with k by lia. rewrite indices_1, map_map. apply nth_ext with NaN NaN; [now rewrite !map_length, seq_length|].
  intros a Ha. rewrite map_length, seq_length in Ha. rewrite (nth_indep _ NaN ((fun x => tget (tslice off (off + k) diag) [x]) 0)) by (now rewrite map_length, seq_length). rewrite (map_nth (fun x => tget (tslice off (off + k) diag) [x])), seq_nth by exact Ha.
  rewrite (nth_indep _ NaN (Fin 0)) by (now rewrite map_length, L1). rewrite (map_nth Fin), <- L2 by exact Ha. cbn [plus].
  pose proof (tget_tslice [] K off (off + k) diag [] a Sd) as T. cbn [app] in T. rewrite T; [apply E; lia|lia|reflexivity|lia].
Qed.

(** ** sections *)
Lemma sections_app l1 : forall off l2, sections_from off (l1 ++ l2) = sections_from off l1 ++ sections_from (off + list_sum (map snd l1)) l2.
Proof.
  induction l1 as [|[p k] l1 IH]; intros off l2; cbn [app sections_from map]; [cbn; now rewrite Nat.add_0_r|].
  rewrite IH. cbn [snd]. change (list_sum (k :: map snd l1)) with (k + list_sum (map snd l1)). now rewrite Nat.add_assoc.
Qed.
Lemma own_sections n c p0 (diag : tensor xr) own : forall kw ts off p o k, own_rt true true [] n c kw own ts -> holds_at [] diag off ts ->
  In (p, (o, k)) (sections_from off (map (fun nv : string * (arr * support) => (p0 ++ [fst nv], supp_num_elements (snd (snd nv)) n)) own)) ->
  exists nm v s0 s kw', In (nm, (v, s0)) own /\ p = p0 ++ [nm] /\ adjust_support c nm kw' = Ok s /\ supp_flattened s true v = Ok (tslice o (o + k) diag) /\ fin_tensor (tslice o (o + k) diag).
Proof.
  induction own as [|[nm [v s0]] own IH]; intros kw [|[t k0] ts] off p o k H Hh Hi; try contradiction.
  destruct H as [(s & H1 & H2 & H2' & H3 & H4 & H5) H]. destruct Hh as (_ & Hs & Hh). cbn [map sections_from fst snd] in Hi. rewrite <- H2' in Hi. destruct Hi as [E|Hi].
  - injection E as <- <- <-. destruct (H5 eq_refl) as [H6 H7]. exists nm, v, s0, s, kw. rewrite Hs. split; [now left|]. split; [reflexivity|]. split; [exact H1|]. split; [exact H6|]. now apply H7.
  - destruct (IH _ _ _ _ _ _ H Hh Hi) as (nm' & v' & s' & s2 & kw' & I1 & I2 & I3 & I4 & I5). exists nm', v', s', s2, kw'. split; [now right|]. auto.
Qed.
Lemma leaf_sizes_own p q n : well_formed q = true -> dims_of q = Ok n ->
  leaf_sizes (p, q) = map (fun nv : string * (arr * support) => (p ++ [fst nv], supp_num_elements (snd (snd nv)) n)) (own_list (Some false) q).
Proof.
  intros W D. unfold leaf_sizes. cbn [fst snd]. rewrite D. destruct q as [c mm ps subs]. apply wf_inv in W as (Hps & _). unfold own_list. cbn [dcls dparams]. rewrite variable_fields_eq.
  assert (Hg : forall fs, incl fs (fields c) -> map (fun nv : string * (arr * support) => (p ++ [fst nv], supp_num_elements (snd (snd nv)) n)) (flat_map (fun f => match dget ps (fd_name f) with
     | Some a => [(fd_name f, (a, fd_support f))] | None => [] end) fs) = map (fun f => (p ++ [fd_name f], supp_num_elements (fd_support f) n)) fs).
  { induction fs as [|f fs IHf]; intros Hi; [reflexivity|]. cbn [flat_map map]. destruct (dget_combine_ok ps (fd_name f)) as [v Hv].
    { rewrite Hps. apply in_map, Hi. now left. }
    rewrite Hv. cbn [app map snd fst]. rewrite IHf; [reflexivity|]. intros x Hx; apply Hi; now right. }
  symmetry. apply Hg. intros x Hx. now apply variable_in.
Qed.
Lemma own_rt_sizes fl m b n c (p : path) own : forall kw ts, own_rt fl m b n c kw own ts -> total ts = list_sum (map snd (map (fun nv : string * (arr * support) => (p ++ [fst nv], supp_num_elements (snd (snd nv)) n)) own)).
Proof.
  induction own as [|[nm [v s0]] own IH]; intros kw [|[t k0] ts] H; try contradiction; [reflexivity|]. destruct H as [(s & H1 & H2 & H2' & _) H]. rewrite total_cons. cbn [map snd fst]. rewrite <- H2'.
  match goal with |- _ = list_sum (k0 :: ?l) => change (list_sum (k0 :: l)) with (k0 + list_sum l) end. f_equal. exact (IH _ _ H).
Qed.
Lemma sections_hold (diag : tensor xr) l tss : Forall2 (tree_rt true true []) l tss -> Forall (fun pl => well_formed (snd pl) = true) l ->
  forall off p o k, holds_at [] diag off (concat tss) -> In (p, (o, k)) (sections_from off (flat_map leaf_sizes l)) ->
  exists p0 q nm v s0 s kw', In (p0, q) l /\ In (nm, (v, s0)) (own_list (Some false) q) /\ p = p0 ++ [nm] /\ adjust_support (dcls q) nm kw' = Ok s /\ supp_flattened s true v = Ok (tslice o (o + k) diag) /\
    fin_tensor (tslice o (o + k) diag).
Proof.
  intros H. induction H as [|[p0 q] ts l tss (n & Hn & Ho) _ IH]; intros W off p o k Hh Hi; [contradiction|]. inversion W as [|? ? Wq Wl]; subst. cbn [fst snd] in *.
  cbn [concat] in Hh. apply holds_at_app in Hh as [Hh1 Hh2]. cbn [flat_map] in Hi. rewrite sections_app, (leaf_sizes_own p0 q n Wq Hn) in Hi. apply in_app_or in Hi as [Hi|Hi].
  - destruct (own_sections _ _ _ _ _ _ _ _ _ _ _ Ho Hh1 Hi) as (nm & v & s0 & s & kw' & I1 & I2 & I3 & I4). exists p0, q, nm, v, s0, s, kw'. split; [now left|]. auto.
  - rewrite <- (own_rt_sizes _ _ _ _ _ p0 _ _ _ Ho) in Hi. destruct (IH Wl _ _ _ _ Hh2 Hi) as (p1 & q1 & nm & v & s0 & s & kw' & I1 & I2). exists p1, q1, nm, v, s0, s, kw'. split; [now right|]. exact I2.
Qed.
Lemma sections_bound l : forall off p o k, In (p, (o, k)) (sections_from off l) -> off <= o /\ o + k <= off + list_sum (map snd l).
Proof.
  induction l as [|[q j] l IH]; intros off p o k H; [contradiction|]. cbn [sections_from map snd] in *. change (list_sum (j :: map snd l)) with (j + list_sum (map snd l)). destruct H as [E|H]; [injection E as <- <- <-; lia|]. apply IH in H. lia.
Qed.
Lemma sections_path l : forall off p o k, In (p, (o, k)) (sections_from off l) -> In (p, k) l.
Proof. induction l as [|[q j] l IH]; intros off p o k H; [contradiction|]. destruct H as [E|H]; [injection E as <- <- <-; now left|]. right. eauto. Qed.

(** ** flattening to the plane changes nothing *)
Lemma unb_flat s v m : unbounded_real s -> supp_flattened s m v = supp_flattened s false v.
Proof.
  assert (M : forall u : tensor xr, (if m then tmap (real_to_plane None None) u else u) = u).
  { intros u. destruct m; [|reflexivity]. apply tensor_ext; [reflexivity|]. intros i Hi. unfold tmap. now rewrite tget_tbuild. }
  intros [sc [->|[->|(h & psd & nsd & ->)]]].
  - unfold supp_flattened, ring_flattened. destruct (as_real _); [|reflexivity]. cbn [bind]. now rewrite M.
  - unfold supp_flattened, ring_flattened. destruct (as_real _); [|reflexivity]. cbn [bind]. now rewrite M.
  - unfold supp_flattened, ring_flattened. destruct (rev (ashape v)) as [|a [|b l]]; [reflexivity|reflexivity|]. destruct (b =? a); [|reflexivity]. destruct (as_real _); [|reflexivity]. cbn [bind]. now rewrite M.
Qed.
Lemma unb_unflat s t n m : unbounded_real s -> supp_unflattened s t n m = supp_unflattened s t n false.
Proof.
  assert (M : forall u : tensor xr, (if m then tmap (real_from_plane None None) u else u) = u).
  { intros u. destruct m; [|reflexivity]. apply tensor_ext; [reflexivity|]. intros i Hi. unfold tmap. now rewrite tget_tbuild. }
  intros [sc [->|[->|(h & psd & nsd & ->)]]]; unfold supp_unflattened, ring_unflattened; now rewrite M.
Qed.
Lemma unb_class c : is_joint c = false -> (forall f, In f (variable_fields c) -> unbounded_real (fd_support f)) -> c <> NP ComplexNormal.
Proof. intros _ H ->. destruct (H _ (or_introl eq_refl)) as [sc [E|[E|(h & psd & nsd & E)]]]; discriminate E. Qed.
Lemma own_list_field fx q nm v s : In (nm, (v, s)) (own_list fx q) -> exists f, In f (filter (fixed_ok fx) (fields (dcls q))) /\ fd_name f = nm /\ fd_support f = s /\ dget (dparams q) nm = Some v.
Proof.
  unfold own_list. intros H. apply in_flat_map in H as (f & Hf & Hi). exists f. destruct (dget (dparams q) (fd_name f)) eqn:E; [|contradiction]. destruct Hi as [He|[]]. injection He as <- <- <-. auto.
Qed.
Lemma own_rt_false b n c own : (forall nm v s0, In (nm, (v, s0)) own -> exists f, In f (fields c) /\ fd_name f = nm /\ unbounded_real (fd_support f)) -> c <> NP ComplexNormal ->
  forall kw ts, own_rt true true b n c kw own ts -> own_rt true false b n c kw own ts.
Proof.
  intros Hf Hc. induction own as [|[nm [v s0]] own IH]; intros kw [|[t k0] ts] H; try contradiction; [exact I|]. destruct H as [(s & H1 & H2 & H2' & H3 & H4 & H5) H]. split.
  - exists s. destruct (Hf nm v s0 (or_introl eq_refl)) as (f & F1 & <- & F3). rewrite (adjust_default c f kw Hc F1) in H1. injection H1 as <-. rewrite (adjust_default c f kw Hc F1).
    do 4 (split; [first [reflexivity|assumption]|]). rewrite unb_unflat in H4 by exact F3. split; [exact H4|]. intros _. split; [|discriminate]. destruct (H5 eq_refl) as [H6 _]. now rewrite unb_flat in H6 by exact F3.
  - apply IH; [|exact H]. intros nm' v' s' Hi. eapply Hf. right. exact Hi.
Qed.
Lemma trees m b d : well_formed d = true -> dist_vals m b d -> exists tss, Forall2 (tree_rt true m b) (leaves [] d) tss.
Proof.
  intros Hwf Hv. pose proof (leaves_simple d [] Hwf) as Hsi. unfold dist_vals in Hv. induction (leaves [] d) as [|[p q] l IH]; [exists []; constructor|].
  inversion Hsi as [|? ? [Hj Hq] Hsi']; subst. cbn [snd] in *. destruct IH as [tss Ht]; [intros p' q' Hi; apply (Hv p'); now right|exact Hsi'|].
  destruct (Hv p q (or_introl eq_refl)) as (n & Hn & Hvn). destruct (leaf_rt m b q n Hq Hj Hn) as [ts Hts]; [exists n; auto|]. exists (ts :: tss). constructor; [|exact Ht]. exists n. auto.
Qed.
Lemma trees_false b d tss : well_formed d = true -> unbounded d -> Forall2 (tree_rt true true b) (leaves [] d) tss -> Forall2 (tree_rt true false b) (leaves [] d) tss.
Proof.
  intros W U H. pose proof (leaves_simple d [] W) as Hsi. unfold unbounded in U. induction H as [|[p q] ts l l' (n & Hn & Ho) _ IH]; [constructor|]. inversion Hsi as [|? ? [Hj Hq] Hsi']; subst. cbn [snd] in *.
  assert (Uq : forall f, In f (variable_fields (dcls q)) -> unbounded_real (fd_support f)) by (intros f Hf; exact (U p q f (or_introl eq_refl) Hf)).
  constructor; [|apply IH; [intros p' q' f Hi; apply (U p' q' f); now right|exact Hsi']]. exists n. split; [exact Hn|]. cbn [snd]. apply own_rt_false; [|now apply unb_class|exact Ho].
  intros nm v s0 Hi. apply own_list_field in Hi as (f & Hf & E1 & E2 & _). rewrite variable_fields_eq in Hf. exists f. split; [now apply variable_in|]. split; [exact E1|]. now apply Uq.
Qed.

(** ** the diagonal *)
Definition diag_of (K : nat) (F : tensor xr) : tensor xr := tbuild [min K K] (fun i => tget F (last i 0 :: last i 0 :: removelast i)).
Lemma diag_shape K F : shp (diag_of K F) = [K].
Proof. cbn. now rewrite Nat.min_id. Qed.
Lemma diag_get K F a : a < K -> tget (diag_of K F) [a] = tget F [a; a].
Proof. intros H. unfold diag_of. rewrite Nat.min_id, tget_tbuild by now apply inb_1. reflexivity. Qed.
Lemma unb_fields d : unbounded d -> Forall (fun sn => unbounded_real (fst sn)) (flat_fields d).
Proof.
  intros U. apply Forall_forall. intros [s n] H. unfold flat_fields in H. apply in_flat_map in H as ([p q] & Hl & H). unfold leaf_fields in H. cbn [snd] in H. destruct (dims_of q); [|contradiction].
  apply in_map_iff in H as (f & E & Hf). injection E as <- <-. exact (U p q f Hl Hf).
Qed.
Lemma unb_plane K (t : tensor xr) l : shp t = [K] -> fin_tensor t -> Forall (fun sn => unbounded_real (fst sn)) l -> forall off, off + fields_size l <= K -> plane_list true [] t off l.
Proof.
  intros S Fi H. induction H as [|[s n] l Hs _ IH]; intros off Ho; [exact I|]. cbn [fst] in Hs. change (fields_size ((s, n) :: l)) with (supp_num_elements s n + fields_size l) in Ho. cbn [plane_list]. split; [|apply IH; lia].
  set (k := supp_num_elements s n) in *. assert (Sh : shp (tslice off (off + k) t) = [k]).
  { pose proof (shp_tslice [] K off (off + k) t S) as E. cbn [app] in E. rewrite E by lia. f_equal. lia. }
  assert (Ft : forall i, inb (shp (tslice off (off + k) t)) i = true -> exists v, tget (tslice off (off + k) t) i = Fin v).
  { intros i Hi. rewrite Sh in Hi. destruct i as [|a [|? ?]]; [discriminate Hi| |cbn in Hi; rewrite andb_false_r in Hi; discriminate Hi]. cbn -[Nat.ltb] in Hi. rewrite andb_true_r in Hi. apply Nat.ltb_lt in Hi.
    pose proof (tget_tslice [] K off (off + k) t [] a S) as T. cbn [app] in T. rewrite T; [|lia|reflexivity|lia]. apply Fi. rewrite S. apply inb_1. lia. }
  destruct Hs as [sc [->|[->|(h & psd & nsd & ->)]]]; cbn [supp_plane supp_num_elements ring_num_elements ring_plane app] in *; (split; [exact Sh|]); intros _; (split; [exact Logic.I|exact Ft]).
Qed.

(** ** the loop of fisher_information_trace *)
Lemma trace_total s v : exists w, trace_value s v = Ok w.
Proof. unfold trace_value. destruct s; cbn [supp_axes]; eexists; reflexivity. Qed.
Lemma trace_loop (l : list (path * (arr * support))) : NoDup (keys l) -> forall acc : dict path arr,
  exists D, foldM (fun (acc : dict path arr) kv => let* v := trace_value (snd (snd kv)) (fst (snd kv)) in Ok (dset acc (fst kv) v)) acc l = Ok D /\
    (forall p v s, In (p, (v, s)) l -> exists w, trace_value s v = Ok w /\ dget D p = Some w) /\ (forall p, ~ In p (keys l) -> dget D p = dget acc p) /\ forall p, dget acc p <> None -> dget D p <> None.
Proof.
  induction l as [|[p [v s]] l IH]; intros Hn acc; [exists acc; split; [reflexivity|]; split; [intros ? ? ? []|auto]|]. cbn [keys map fst] in Hn. inversion Hn as [|? ? Hni Hn']; subst. cbn [foldM fst snd]. destruct (trace_total s v) as [w Ew]. rewrite Ew. cbn [bind].
  destruct (IH Hn' (dset acc p w)) as (D & E1 & E2 & E3 & E4). exists D. split; [exact E1|]. split; [|split].
  - intros p' v' s' [E|Hi]; [|now apply E2]. injection E as <- <- <-. exists w. split; [exact Ew|]. rewrite E3 by exact Hni. apply dget_dset_eq.
  - intros p' Hp. cbn [keys map fst] in Hp. rewrite E3 by (intros Hq; apply Hp; now right). apply dget_dset_ne. intros ->. apply Hp. now left.
  - intros p' Hp. apply E4. destruct (list_eq_dec string_dec p' p) as [->|Hne]; [rewrite dget_dset_eq; discriminate|]. now rewrite dget_dset_ne by exact Hne.
Qed.

Lemma sizes_total d : list_sum (map snd (sizes d)) = flat_size d.
Proof.
  unfold sizes, flat_size, flat_fields. induction (leaves [] d) as [|[p q] l IH]; [reflexivity|]. cbn [flat_map]. rewrite map_app, list_sum_app, fields_size_app, IH. f_equal. unfold leaf_sizes, leaf_fields, fields_size. cbn [fst snd]. destruct (dims_of q) as [n|]; [|reflexivity]. now rewrite !map_map.
Qed.
Lemma items_transfer fx (l1 l2 : list (path * dist)) p v s : Forall2 (fun a c : path * dist => fst a = fst c /\ leaf_like [] (snd a) (snd c)) l1 l2 -> Forall (fun pl => well_formed (snd pl) = true) l2 ->
  In (p, (v, s)) (flat_map (leaf_items fx) l1) -> exists v', In (p, (v', s)) (flat_map (leaf_items fx) l2).
Proof.
  intros H W. revert p v s. induction H as [|[p1 q1] [p2 q2] l1 l2 (E1 & E2 & _) _ IH]; intros p v s Hi; [contradiction|]. inversion W as [|? ? W2 Wl]; subst. cbn [fst snd flat_map] in *. subst p2. apply in_app_or in Hi as [Hi|Hi].
  - unfold leaf_items in Hi. cbn [fst snd] in Hi. apply in_map_iff in Hi as ([nm [v0 s0]] & E & Hi). injection E as <- <- <-. apply own_list_field in Hi as (f & J1 & J2 & J3 & _). rewrite E2 in J1. cbn [fst].
    destruct (dget_combine_ok (dparams q2) (fd_name f)) as [v' Hv]. { destruct q2 as [c mm ps subs]. apply wf_inv in W2 as (Hps & _). cbn [dparams dcls] in *. rewrite Hps. apply in_map. now apply filter_In in J1. }
    exists v'. apply in_or_app. left. unfold leaf_items. cbn [fst snd]. apply in_map_iff. exists (nm, (v', s0)). split; [reflexivity|]. unfold own_list. apply in_flat_map. exists f. split; [exact J1|]. rewrite Hv, J2, J3. now left.
  - destruct (IH Wl _ _ _ Hi) as [v' Hv]. exists v'. apply in_or_app. now right.
Qed.

Theorem t_trace d F : well_formed d = true -> dist_vals true [] d -> unbounded d -> shp F = [flat_size d; flat_size d] -> (forall a, a < flat_size d -> exists v, tget F [a; a] = Fin v) ->
  exists dg r fl t diag, fisher_information_diagonal (fun _ => Ok F) d = Ok dg /\ flatten d false = Ok (fl, t) /\ flatten dg false = Ok (fl, diag) /\ shp diag = [flat_size d] /\
    (forall a, a < flat_size d -> tget diag [a] = tget F [a; a]) /\
    fisher_information_trace (fun _ => Ok F) d = Ok r /\ same_skeleton d r /\
    (forall p f, field_at d p = Some f -> fd_fixed f = true -> supp_axes (fd_support f) = 0 -> param_at r p = param_at d p) /\
    forall p off k, In (p, (off, k)) (sections d) -> exists x, block_trace F off k x /\ param_at r p = Some (RA (tscalar (Fin x))).
Proof.
  intros W V U SF FF. set (K := flat_size d) in *. set (diag := diag_of K F). pose proof (diag_shape K F) as Sd. fold diag in Sd.
  assert (Fd : fin_tensor diag).
  { intros i Hi. rewrite Sd in Hi. destruct i as [|a [|? ?]]; [discriminate Hi| |cbn in Hi; rewrite andb_false_r in Hi; discriminate Hi]. cbn -[Nat.ltb] in Hi. rewrite andb_true_r in Hi. apply Nat.ltb_lt in Hi. unfold diag. rewrite diag_get by exact Hi. auto. }
  destruct (trees true [] d W V) as [tss Htr].
  assert (Hc : exists infos, create d = Ok infos).
  { apply create_ok_of; [exact W|]. apply Forall_forall. intros [p q] Hi. destruct (V p q Hi) as (n & Hn & _). eauto. }
  destruct Hc as [infos Hc]. destruct (flatten_of_tree true [] d infos tss W Hc Htr) as (fixed & t & Hp & Hf & Hs & Hh).
  destruct (flatten_of_tree false [] d infos tss W Hc (trees_false [] d tss W U Htr)) as (fixed' & t' & Hp' & Hf' & _). rewrite Hp in Hp'. injection Hp' as <-.
  assert (PL : plane_list true [] diag 0 (flat_fields d)) by (apply (unb_plane K); [exact Sd|exact Fd|now apply unb_fields|apply le_n]).
  destruct (unflatten_any true true [] d diag infos fixed W Hc Hp Sd (fun _ => PL)) as (dg & D1 & D2 & D3 & D4 & D5 & D6 & D7). destruct (D7 eq_refl) as [D8 D9]. clear D7.
  assert (Ed : fisher_information_diagonal (fun _ => Ok F) d = Ok dg).
  { unfold fisher_information_diagonal. rewrite Hf. cbn [bind]. unfold jdiagonal. rewrite SF. cbn [app bind]. exact D1. }
  assert (Ug : unbounded dg).
  { intros p q f Hl Hq. clear -D6 U Hl Hq. unfold unbounded in U. revert Hl. induction D6 as [|[p1 q1] [p2 q2] l1 l2 (E1 & E2 & _) _ IH]; [intros []|]. cbn [fst snd] in *. intros [E|Hl].
    - injection E as -> ->. apply (U p2 q2 f); [now left|]. now rewrite <- E2.
    - apply IH; [intros p' q' f' Hi; apply (U p' q' f'); now right|exact Hl]. }
  destruct (trees true [] dg D2 D8) as [tsg Htg].
  destruct (flatten_of_tree true [] dg infos tsg D2 D3 Htg) as (fx1 & u1 & P1 & F1 & S1 & H1). rewrite F1 in D9. assert (u1 = diag) by (injection D9; auto). subst u1. clear D9.
  destruct (flatten_of_tree false [] dg infos tsg D2 D3 (trees_false [] dg tsg D2 Ug Htg)) as (fx2 & u2 & P2 & F2 & S2 & H2). assert (u2 = diag) by (apply (holds_at_inj [] (concat tsg)); assumption). subst u2. rewrite D4 in P2. injection P2 as <-.
  assert (Wd : Forall (fun pl => well_formed (snd pl) = true) (leaves [] d)) by (eapply Forall_impl; [|exact (leaves_simple d [] W)]; intros ? [_ ?]; assumption).
  pose proof (parameters_s_ok dg None D2) as Ps. set (items := flat_map (leaf_items None) (leaves [] dg)) in *.
  destruct (params_support_listed dg None items D2 Ps) as [Nd Li].
  destruct (params_total d None W) as [P HP]. destruct (params_listed d None P W HP) as [NoP LP].
  destruct (trace_loop items Nd P) as (D & T1 & T2 & T3 & T4).
  assert (GP : forall p v, param_at d p = Some v -> dget P p = Some v).
  { intros p v Hv. apply In_dget; [exact NoP|]. apply LP. split; [exact Hv|]. destruct (param_field d p v W Hv) as [f Hf2]. exists f. auto. }
  destruct (assemble_dict d infos D W Hc) as (r & R1 & R2 & R3 & R4 & R5).
  { intros p f Hf2. destruct (field_param d p f W Hf2) as [v Hv]. assert (dget D p <> None) by (apply T4; rewrite (GP p v Hv); discriminate). destruct (dget D p); [eauto|congruence]. }
  exists dg, r, (Flattener infos fixed false), t', diag. split; [exact Ed|]. split; [exact Hf'|]. split; [exact F2|]. split; [exact Sd|]. split; [intros a Ha; now apply diag_get|]. split.
  { unfold fisher_information_trace. rewrite Ed. cbn [bind]. rewrite Hc. cbn [bind]. rewrite HP. cbn [bind]. rewrite Ps. cbn [bind]. rewrite T1. cbn [bind]. exact R1. }
  split; [exact R4|]. split.
  - intros p f Hf2 Hx Ha. rewrite R5. destruct (param_at d p) as [v|] eqn:Ev; [|reflexivity].
    destruct (params_listed d (Some true) fixed W Hp) as [_ Lf]. destruct (params_listed dg (Some true) fixed D2 D4) as [_ Lg].
    assert (Hi : In (p, v) fixed) by (apply Lf; split; [exact Ev|]; exists f; split; [exact Hf2|]; cbn; now rewrite Hx).
    assert (Hi2 := Hi). apply Lg in Hi2 as (G1 & g & G2 & G3).
    assert (Hs' : exists s, supp_axes s = 0 /\ In (p, (v, s)) items).
    { rewrite parameters_ok in Hp by exact W. rewrite parameters_ok in D4 by exact D2. exists (fd_support g). split; [|apply Li; split; [exact G1|]; exists g; auto].
      assert (Eq : exists g', field_at d p = Some g' /\ fd_support g' = fd_support g).
      { assert (Hit : In (p, (v, fd_support g)) (flat_map (leaf_items (Some true)) (leaves [] dg))) by (apply (leaf_items_iff (Some true) dg [] p v (fd_support g) D2); split; [exact G1|]; exists g; auto).
        destruct (items_transfer (Some true) _ _ _ _ _ D6 Wd Hit) as [v' Hit']. apply (leaf_items_iff (Some true) d [] p v' (fd_support g) W) in Hit' as (_ & g' & K1 & _ & K2). eauto. }
      destruct Eq as (g' & K1 & K2). rewrite Hf2 in K1. injection K1 as <-. now rewrite <- K2. }
    destruct Hs' as (s & Hax & Hit). destruct (T2 p v s Hit) as (w & Ew & ->). unfold trace_value in Ew. rewrite Hax in Ew. now injection Ew as <-.
  - intros p off k Hsec.
    assert (Sz : sizes dg = sizes d).
    { unfold sizes. clear -D6. induction D6 as [|[p1 q1] [p2 q2] l1 l2 (E1 & E2 & E3 & _) _ IH]; [reflexivity|]. cbn [fst snd flat_map] in *. rewrite IH. f_equal. unfold leaf_sizes. cbn [fst snd]. now rewrite E1, E2, E3. }
    unfold sections in Hsec. rewrite <- Sz in Hsec.
    assert (Wl : Forall (fun pl => well_formed (snd pl) = true) (leaves [] dg)) by (eapply Forall_impl; [|exact (leaves_simple dg [] D2)]; intros ? [_ ?]; assumption).
    destruct (sections_hold diag _ _ Htg Wl 0 p off k H1 Hsec) as (p0 & q & nm & v & s0 & s & kw' & I1 & I2 & I3 & I4 & I5 & I6).
    assert (Bd : off + k <= K).
    { pose proof (sections_bound _ _ _ _ _ Hsec) as [_ B]. cbn [plus] in B. etransitivity; [exact B|]. fold (sizes dg). rewrite Sz, sizes_total. apply le_n. }
    destruct (block_entries F K off k diag SF Sd (fun a Ha => diag_get K F a Ha) Fd Bd) as (x & X1 & X2). exists x. split; [exact X1|].
    apply own_list_field in I2 as (f & J1 & J2 & J3 & J4). rewrite variable_fields_eq in J1.
    assert (Uf : unbounded_real (fd_support f)) by exact (Ug p0 q f I1 J1).
    assert (Hcn : dcls q <> NP ComplexNormal).
    { apply unb_class; [|intros g Hg; exact (Ug p0 q g I1 Hg)]. pose proof (leaves_simple dg [] D2) as Ls. rewrite Forall_forall in Ls. exact (proj1 (Ls _ I1)). }
    rewrite <- J2 in I4. rewrite (adjust_default (dcls q) f kw' Hcn (variable_in _ _ J1)) in I4. injection I4 as <-.
    destruct (D8 p0 q I1) as (n & N1 & N2). destruct (N2 f J1) as (v' & s' & V1 & V2 & V3). rewrite J2, J4 in V1. injection V1 as <-. rewrite (adjust_default (dcls q) f _ Hcn (variable_in _ _ J1)) in V2. injection V2 as <-. destruct V3 as [V3 V4]. cbn [app] in V3.
    assert (Tr : trace_value (fd_support f) v = Ok (RA (tscalar (Fin x)))).
    { rewrite <- X2. apply (trace_flat (fd_support f) n v _ true Uf V3 I5 I6). intros u ->. destruct Uf as [sc [E|[E|(h & psd & nsd & E)]]]; rewrite E in V4; cbn [ring_vals] in V4; intros i Hi; first [destruct (V4 eq_refl i Hi) as (y & -> & _)|destruct V4 as [V4 _]; destruct (V4 eq_refl i Hi) as (y & -> & _)]; eauto. }
    assert (Hit : In (p, (v, fd_support f)) items).
    { unfold items. apply in_flat_map. exists (p0, q). split; [exact I1|]. unfold leaf_items. cbn [fst snd]. apply in_map_iff. exists (nm, (v, fd_support f)). split; [now rewrite I3|]. unfold own_list. apply in_flat_map. exists f. split; [apply filter_In; split; [now apply variable_in|reflexivity]|]. rewrite J2, J4. now left. }
    destruct (T2 p v (fd_support f) Hit) as (w & Ew & Dw). rewrite Tr in Ew. injection Ew as <-. rewrite R5. destruct (param_at d p) as [v0|] eqn:Ev; [exact Dw|]. exfalso.
    destruct (items_transfer None _ _ _ _ _ D6 Wd Hit) as [v' Hit']. apply (leaf_items_iff None d [] p v' (fd_support f) W) in Hit' as (Hx & _). congruence.
Qed.
Lemma p_diagonal d F : well_formed d = true -> dist_vals true [] d -> unbounded d -> shp F = [flat_size d; flat_size d] -> (forall a, a < flat_size d -> exists v, tget F [a; a] = Fin v) ->
  exists dg fl t diag, fisher_information_diagonal (fun _ => Ok F) d = Ok dg /\ flatten d false = Ok (fl, t) /\ flatten dg false = Ok (fl, diag) /\
    shp diag = [flat_size d] /\ forall a, a < flat_size d -> tget diag [a] = tget F [a; a].
Proof. intros A B C D E. destruct (t_trace d F A B C D E) as (dg & r & fl & t & diag & H1 & H2 & H3 & H4 & H5 & _). exists dg, fl, t, diag. auto. Qed.
Lemma p_trace d F : well_formed d = true -> dist_vals true [] d -> unbounded d -> shp F = [flat_size d; flat_size d] -> (forall a, a < flat_size d -> exists v, tget F [a; a] = Fin v) ->
  exists r, fisher_information_trace (fun _ => Ok F) d = Ok r /\ same_skeleton d r /\
    (forall p f, field_at d p = Some f -> fd_fixed f = true -> supp_axes (fd_support f) = 0 -> param_at r p = param_at d p) /\
    forall p off k, In (p, (off, k)) (sections d) -> exists x, block_trace F off k x /\ param_at r p = Some (RA (tscalar (Fin x))).
Proof. intros A B C D E. destruct (t_trace d F A B C D E) as (dg & r & fl & t & diag & H1 & H2 & H3 & H4 & H5 & H6 & H7 & H8 & H9). exists r. auto. Qed.
