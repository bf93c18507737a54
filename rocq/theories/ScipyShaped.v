(** Facts about ShapedDistribution and ScipyJointDistribution (C57). *)
From Coq Require Import FinFun String List Bool Arith Lia Reals.
From Coquelicot Require Import Complex.
From Verif Require Import Base Tensor TensorFacts BroadcastFacts Dist DictFacts Tools MappingFacts Laws LogPdfThms TextSpec Scipy.
Import ListNotations.

Section T.
  Context {A : Type} {DA : Dflt A}.
  Lemma tstore_same s (t : tensor A) : shp t = s -> tstore s t = Ok t.
  Proof.
    intros <-. unfold tstore. rewrite Nat.sub_diag. cbn [firstn forallb skipn repeat app]. unfold tbroadcast_to. rewrite shp_tbuild, bshape_same.
    destruct (list_eq_dec Nat.eq_dec (shp t) (shp t)); [|contradiction]. f_equal. apply tensor_ext; [reflexivity|]. intros i Hi. rewrite shp_tbuild in Hi.
    rewrite tget_tbuild by exact Hi. rewrite bidx_id by exact Hi. now rewrite tget_tbuild.
  Qed.
  Lemma tget_gather b s (vs : list (tensor A)) i j : inb b i = true -> inb s j = true -> tget (gather b s vs) (i ++ j) = tget (nth (ravel b i) vs (tfull s dflt)) j.
  Proof.
    intros Hi Hj. unfold gather. rewrite tget_tbuild by now apply inb_app_intro. pose proof (inb_length _ _ Hi) as L. rewrite <- L.
    rewrite firstn_app, skipn_app, Nat.sub_diag, firstn_all, skipn_all. cbn [firstn skipn app]. now rewrite app_nil_r.
  Qed.
  Lemma shp_gather b s (vs : list (tensor A)) : shp (gather b s vs) = b ++ s. Proof. reflexivity. Qed.
  Lemma tindex_ok b s (t : tensor A) i : shp t = b ++ s -> inb b i = true -> tindex t i = Ok (tsub t i) /\ shp (tsub t i) = s /\ forall j, inb s j = true -> tget (tsub t i) j = tget t (i ++ j).
  Proof.
    intros E Hi. pose proof (inb_length _ _ Hi) as L. unfold tindex, tsub. rewrite E, L, app_length. rewrite (proj2 (Nat.leb_le _ _)) by lia.
    rewrite firstn_app, skipn_app, Nat.sub_diag, firstn_all, skipn_all. cbn [firstn skipn app]. rewrite app_nil_r, Hi. split; [reflexivity|]. split; [reflexivity|]. intros j Hj. now rewrite tget_tbuild.
  Qed.
  Lemma tensor0 (t : tensor A) : shp t = [] -> t = tscalar (tget t []).
  Proof. intros E. apply tensor_ext; [exact E|]. intros i Hi. rewrite E in Hi. destruct i; [|discriminate]. reflexivity. Qed.
  Lemma tindex_full b (t : tensor A) i : shp t = b -> inb b i = true -> tindex t i = Ok (tscalar (tget t i)).
  Proof. intros E Hi. destruct (tindex_ok b [] t i) as (T1 & T2 & T3); [now rewrite app_nil_r|exact Hi|]. rewrite T1. f_equal. rewrite (tensor0 _ T2). f_equal. rewrite T3 by reflexivity. now rewrite app_nil_r. Qed.
End T.
Lemma nth_mapM {X Y} (f : X -> result Y) l r k d d' : mapM f l = Ok r -> k < length l -> f (nth k l d) = Ok (nth k r d').
Proof.
  intros H. apply mapM_Forall2 in H. revert k. induction H as [|a b l r H1 H2 IH]; intros k Hk; [cbn in Hk; lia|]. destruct k; [exact H1|]. cbn in *. apply IH. lia.
Qed.

Section Shaped.
  Context {G : Type}.
  Local Existing Instance Scipy.Dflt_C.
  Local Existing Instance Scipy.Dflt_R.
  (** the k-th call of rvs gets the state the call before it left *)
  Lemma loop_spec (d : sdist G) size l : forall g, (forall i h, In i l -> exists v h', o_rvs (sd_objects d i) size h = Ok (v, h') /\ shp v = size ++ sd_rvs_shape d) ->
    exists vs (st : nat -> G), rvs_loop d size l g = Ok (vs, st (length l)) /\ st 0 = g /\ length vs = length l /\
      forall k, k < length l -> exists v, o_rvs (sd_objects d (nth k l [])) size (st k) = Ok (v, st (S k)) /\ nth k vs (tfull (size ++ sd_rvs_shape d) dflt) = tmap (cast (sd_real d)) v.
  Proof.
    induction l as [|i l IH]; intros g H.
    - exists [], (fun _ => g). split; [reflexivity|]. split; [reflexivity|]. split; [reflexivity|]. intros k Hk. cbn in Hk. lia.
    - destruct (H i g (or_introl eq_refl)) as (v & h & E & Sv). destruct (IH h) as (vs & st & L1 & L2 & L3 & L4); [intros; apply H; now right|].
      exists (tmap (cast (sd_real d)) v :: vs), (fun k => match k with 0 => g | S k' => st k' end). split; [|split; [reflexivity|split; [cbn; now rewrite L3|]]].
      + cbn [rvs_loop]. rewrite E. cbn [bind fst snd]. rewrite tstore_same by exact Sv. cbn [bind]. rewrite L1. reflexivity.
      + intros [|k] Hk; [exists v; cbn [nth]; rewrite L2; split; [exact E|reflexivity]|]. cbn in Hk. destruct (L4 k ltac:(lia)) as (w & W1 & W2). exists w. split; [exact W1|exact W2].
  Qed.
  Theorem rvs_spec (d : sdist G) a g : (forall i h, inb (sd_shape d) i = true -> exists v h', o_rvs (sd_objects d i) (size_of a) h = Ok (v, h') /\ shp v = size_of a ++ sd_rvs_shape d) ->
    exists r (st : nat -> G), sd_rvs d a g = Ok (r, st (prods (sd_shape d))) /\ st 0 = g /\ shp r = sd_shape d ++ size_of a ++ sd_rvs_shape d /\
      forall i, inb (sd_shape d) i = true -> exists v, o_rvs (sd_objects d i) (size_of a) (st (ravel (sd_shape d) i)) = Ok (v, st (S (ravel (sd_shape d) i))) /\
        forall j, inb (size_of a ++ sd_rvs_shape d) j = true -> tget r (i ++ j) = cast (sd_real d) (tget v j).
  Proof.
    intros H. destruct (loop_spec d (size_of a) (indices (sd_shape d)) g) as (vs & st & L1 & L2 & L3 & L4); [intros i h Hi; apply H; now apply in_indices|].
    exists (gather (sd_shape d) (size_of a ++ sd_rvs_shape d) vs), st. unfold sd_rvs. rewrite L1. cbn [bind fst snd]. rewrite length_indices. split; [reflexivity|]. split; [exact L2|]. split; [reflexivity|].
    intros i Hi. destruct (L4 (ravel (sd_shape d) i)) as (v & V1 & V2); [rewrite length_indices; now apply ravel_lt|]. rewrite (nth_indices _ i [] Hi) in V1. exists v. split; [exact V1|]. intros j Hj. rewrite tget_gather by assumption. rewrite V2.
    unfold tmap. rewrite tget_tbuild; [reflexivity|]. destruct (H i (st (ravel (sd_shape d) i)) Hi) as (v' & h' & E & Sv). rewrite V1 in E. injection E as <- _. now rewrite Sv.
  Qed.
  (** ** pdf *)
  Theorem pdf_scalar (d : sdist G) x : sd_shape d = [] -> sd_pdf d x = o_pdf (sd_objects d []) x.
  Proof.
    intros E. unfold sd_pdf. rewrite E. destruct (tindex_ok [] (shp x) x [] eq_refl eq_refl) as (T1 & T2 & T3). rewrite T1. cbn [bind]. f_equal.
    apply tensor_ext; [exact T2|]. intros i Hi. rewrite T2 in Hi. exact (T3 i Hi).
  Qed.
  Lemma pdf_unfold (d : sdist G) x : sd_shape d <> [] -> sd_pdf d x = let* vs := mapM (fun i => let* xi := tindex x i in let* v := o_pdf (sd_objects d i) xi in tstore [] v) (indices (sd_shape d)) in Ok (gather (sd_shape d) [] vs).
  Proof. intros N. unfold sd_pdf. destruct (sd_shape d); [contradiction|reflexivity]. Qed.
  Theorem pdf_spec (d : sdist G) x ev : shp x = sd_shape d ++ ev -> (forall i, inb (sd_shape d) i = true -> exists v, o_pdf (sd_objects d i) (tsub x i) = Ok v /\ shp v = []) ->
    exists r, sd_pdf d x = Ok r /\ shp r = sd_shape d /\ forall i, inb (sd_shape d) i = true -> o_pdf (sd_objects d i) (tsub x i) = Ok (tscalar (tget r i)).
  Proof.
    intros E H. destruct (list_eq_dec Nat.eq_dec (sd_shape d) []) as [Z|N].
    - destruct (H []) as (v & V1 & V2); [now rewrite Z|]. assert (X : tsub x [] = x). { apply tensor_ext; [reflexivity|]. intros i Hi. unfold tsub. rewrite tget_tbuild; [reflexivity|exact Hi]. }
      exists v. rewrite pdf_scalar by exact Z. rewrite X in V1. split; [exact V1|]. split; [now rewrite Z|]. intros i Hi. rewrite Z in Hi. destruct i; [|discriminate]. rewrite X, V1. f_equal. now apply tensor0.
    - rewrite pdf_unfold by exact N. set (f := fun i => let* xi := tindex x i in let* v := o_pdf (sd_objects d i) xi in tstore [] v). assert (F : forall i, inb (sd_shape d) i = true -> exists v, f i = Ok v /\ shp v = [] /\ o_pdf (sd_objects d i) (tsub x i) = Ok v).
      { intros i Hi. destruct (H i Hi) as (v & V1 & V2). exists v. unfold f. destruct (tindex_ok _ _ x i E Hi) as (T1 & _). rewrite T1. cbn [bind]. rewrite V1. cbn [bind]. split; [now apply tstore_same|]. split; [exact V2|reflexivity]. }
      destruct (StructFacts.mapM_exists f (indices (sd_shape d))) as (vs & M); [intros i Hi; apply in_indices in Hi; destruct (F i Hi) as (v & V & _); eauto|]. rewrite M. cbn [bind].
      eexists. split; [reflexivity|]. split; [rewrite shp_gather; apply app_nil_r|]. intros i Hi. destruct (F i Hi) as (v & V1 & V2 & V3). rewrite V3. f_equal. rewrite (tensor0 v V2). f_equal.
      rewrite <- (app_nil_r i). rewrite tget_gather by (exact Hi || reflexivity). f_equal.
      pose proof (nth_mapM f _ _ (ravel (sd_shape d) i) [] (tfull [] dflt) M ltac:(rewrite length_indices; now apply ravel_lt)) as Q. rewrite (nth_indices _ i [] Hi), V1 in Q. now injection Q.
  Qed.
  Theorem entropy_spec (d : sdist G) : (forall i, inb (sd_shape d) i = true -> exists v, o_entropy (sd_objects d i) = Ok v /\ shp v = []) ->
    exists r, sd_entropy d = Ok r /\ shp r = sd_shape d /\ forall i, inb (sd_shape d) i = true -> o_entropy (sd_objects d i) = Ok (tscalar (tget r i)).
  Proof.
    intros H. unfold sd_entropy. set (f := fun i => let* v := o_entropy (sd_objects d i) in tstore [] v). assert (F : forall i, inb (sd_shape d) i = true -> exists v, f i = Ok v /\ shp v = [] /\ o_entropy (sd_objects d i) = Ok v).
    { intros i Hi. destruct (H i Hi) as (v & V1 & V2). exists v. unfold f. rewrite V1. cbn [bind]. split; [now apply tstore_same|]. split; [exact V2|reflexivity]. }
    destruct (StructFacts.mapM_exists f (indices (sd_shape d))) as (vs & M); [intros i Hi; apply in_indices in Hi; destruct (F i Hi) as (v & V & _); eauto|]. rewrite M. cbn [bind].
    eexists. split; [reflexivity|]. split; [rewrite shp_gather; apply app_nil_r|]. intros i Hi. destruct (F i Hi) as (v & V1 & V2 & V3). rewrite V3. f_equal. rewrite (tensor0 v V2). f_equal.
    rewrite <- (app_nil_r i). rewrite tget_gather by (exact Hi || reflexivity). f_equal.
    pose proof (nth_mapM f _ _ (ravel (sd_shape d) i) [] (tfull [] dflt) M ltac:(rewrite length_indices; now apply ravel_lt)) as Q. rewrite (nth_indices _ i [] Hi), V1 in Q. now injection Q.
  Qed.

  (** ** joint *)
  Lemma dget_map_l {V W} (f : V -> W) (l : dict string V) k : dget (map (fun kv => (fst kv, f (snd kv))) l) k = option_map f (dget l k).
  Proof. induction l as [|[n s] l IH]; [reflexivity|]. cbn [map dget fst snd]. destruct (keq k n); [reflexivity|exact IH]. Qed.
  Definition jfm (subs : dict string (sjobj G)) (z : dict string (tensor cplx)) : dict string (dict string (@jval G)) :=
    [("sub", map (fun kv => (fst kv, JDist (snd kv))) subs); ("z", map (fun kv => (fst kv, JObs (snd kv))) z)]%string.
  Lemma jfm_get subs z : NoDup (map fst subs) -> NoDup (map fst z) -> forall k, dget (join_mappings (jfm subs z)) k = match inner_of (jfm subs z) k with [] => None | d => Some d end.
  Proof.
    intros Hs Hz. apply join_spec; [repeat constructor; cbn; intuition discriminate|]. repeat constructor; cbn [snd]; unfold keys; rewrite map_map; assumption.
  Qed.
  Lemma jfm_inner subs z k : inner_of (jfm subs z) k = (match dget subs k with Some d => [("sub"%string, JDist d)] | None => [] end) ++ (match dget z k with Some x => [("z"%string, JObs x)] | None => [] end).
  Proof. unfold inner_of, jfm. cbn [flat_map fst snd]. rewrite !dget_map_l. destruct (dget subs k), (dget z k); reflexivity. Qed.
  Lemma jfm_keys subs z : keys (join_mappings (jfm subs z)) = firsts (map fst subs ++ map fst z).
  Proof. rewrite keys_join_firsts. unfold jfm. cbn [flat_map snd]. unfold keys. rewrite !map_map, app_nil_r. reflexivity. Qed.
  Lemma joined_same subs z : NoDup (map fst subs) -> NoDup (map fst z) -> (forall n, In n (map fst z) <-> In n (map fst subs)) -> forall X : string -> tensor cplx, (forall k, In k (map fst subs) -> dget z k = Some (X k)) ->
    join_mappings (jfm subs z) = map (fun kv => (fst kv, [("sub", JDist (snd kv)); ("z", JObs (X (fst kv)))]%string)) subs.
  Proof.
    intros Hs Hz Hin X HX. assert (Hk : keys (join_mappings (jfm subs z)) = map fst subs) by (rewrite jfm_keys; apply firsts_sub; [exact Hs|intros a Ha; now apply Hin]).
    apply dict_ext; [unfold keys at 2; rewrite map_map; exact Hk|now rewrite Hk|]. intros k. rewrite jfm_get, jfm_inner by assumption.
    assert (E : forall l : dict string (sjobj G), dget (map (fun kv => (fst kv, [("sub", JDist (snd kv)); ("z", JObs (X (fst kv)))]%string)) l) k = option_map (fun d => [("sub", JDist d); ("z", JObs (X k))]%string) (dget l k)).
    { clear. induction l as [|[n s] l IH]; [reflexivity|]. cbn [map dget fst snd]. destruct (keq k n) as [->|]; [reflexivity|exact IH]. }
    rewrite E. destruct (dget subs k) as [s|] eqn:D.
    - rewrite (HX k); [reflexivity|]. apply dget_In in D. now apply (in_map fst) in D.
    - assert (Dz : dget z k = None). { apply dget_None. intros Hx. apply Hin in Hx. apply dget_None in D. contradiction. } now rewrite Dz.
  Qed.
  Definition prod_of (l : list R) : R := fold_right Rmult 1%R l.
  Lemma fold_prod b (l : list (string * sjobj G)) (X : string -> tensor cplx) (v : string -> tensor R) : (forall k d, In (k, d) l -> j_pdf d (X k) = Ok (v k) /\ shp (v k) = b) ->
    forall acc : tensor R, (shp acc = b \/ shp acc = []) -> exists r, foldM (fun acc kv => let* s := dindex (snd kv) "sub"%string in let* x := dindex (snd kv) "z"%string in
             match s, x with JDist d, JObs y => let* v := j_pdf d y in tmap2 Rmult acc v | _, _ => Err AttributeErr end) acc
        (map (fun kv => (fst kv, [("sub", JDist (snd kv)); ("z", JObs (X (fst kv)))]%string)) l) = Ok r /\ (shp r = b \/ (shp r = [] /\ l = [])) /\
      forall i, inb b i = true -> tget r (if list_eq_dec Nat.eq_dec (shp r) b then i else []) = (tget acc (if list_eq_dec Nat.eq_dec (shp acc) b then i else []) * prod_of (map (fun kv => tget (v (fst kv)) i) l))%R.
  Proof.
    induction l as [|[k d] l IH]; intros H acc Ha.
    - exists acc. split; [reflexivity|]. split; [destruct Ha; [now left|right; now split]|]. intros i Hi. cbn. ring.
    - destruct (H k d (or_introl eq_refl)) as [H1 H2]. cbn [map foldM fst snd]. cbn [dindex dget opt_err bind]. unfold dindex. cbn [dget]. destruct (keq "sub" "sub")%string as [_|]; [|contradiction]. cbn [opt_err bind].
      destruct (keq "z" "sub")%string as [K|_]; [discriminate K|]. destruct (keq "z" "z")%string as [_|]; [|contradiction]. cbn [opt_err bind]. rewrite H1. cbn [bind].
      assert (M : exists w, tmap2 Rmult acc (v k) = Ok w /\ shp w = b /\ forall i, inb b i = true -> tget w i = (tget acc (if list_eq_dec Nat.eq_dec (shp acc) b then i else []) * tget (v k) i)%R).
      { destruct Ha as [Ha|Ha].
        - rewrite tmap2_same by now rewrite Ha. eexists. split; [reflexivity|]. split; [exact Ha|]. intros i Hi. rewrite tget_tbuild by now rewrite Ha. destruct (list_eq_dec Nat.eq_dec (shp acc) b); [reflexivity|contradiction].
        - unfold tmap2. rewrite Ha, bshape_nil_l. eexists. split; [reflexivity|]. split; [exact H2|]. intros i Hi. rewrite tget_tbuild by now rewrite H2. rewrite bidx_nil, bidx_id by now rewrite H2. destruct (list_eq_dec Nat.eq_dec [] b) as [<-|]; [|reflexivity].
          destruct i; [reflexivity|discriminate]. }
      destruct M as (w & M1 & M2 & M3). rewrite M1. cbn [bind]. destruct (IH (fun k' d' Hi => H k' d' (or_intror Hi)) w (or_introl M2)) as (r & R1 & R2 & R3). exists r. split; [exact R1|]. split.
      { left. destruct R2 as [R2|[R2 R4]]; [exact R2|]. subst l. cbn in R1. injection R1 as <-. exact M2. }
      intros i Hi. rewrite (R3 i Hi). destruct (list_eq_dec Nat.eq_dec (shp w) b); [|contradiction]. rewrite (M3 i Hi). cbn [map prod_of fold_right fst]. fold (prod_of (map (fun kv => tget (v (fst kv)) i) l)). ring.
  Qed.
  Theorem joint_pdf_spec b (subs : dict string (sjobj G)) z (v : string -> tensor R) : NoDup (map fst subs) -> NoDup (map fst z) -> (forall n, In n (map fst z) <-> In n (map fst subs)) -> subs <> [] ->
    (forall k d x, In (k, d) subs -> In (k, x) z -> j_pdf d x = Ok (v k) /\ shp (v k) = b) ->
    exists r, sj_pdf subs z = Ok r /\ shp r = b /\ forall i, inb b i = true -> tget r i = prod_of (map (fun kv => tget (v (fst kv)) i) subs).
  Proof.
    intros Hs Hz Hin Ne H. set (X := fun k => match dget z k with Some x => x | None => tscalar dflt end).
    assert (HX : forall k, In k (map fst subs) -> dget z k = Some (X k)). { intros k Hk. apply Hin in Hk. unfold X. destruct (dget z k) eqn:D; [reflexivity|]. apply dget_None in D. contradiction. }
    unfold sj_pdf. change (join_mappings _) with (join_mappings (jfm subs z)). rewrite (joined_same subs z Hs Hz Hin X HX).
    destruct (fold_prod b subs X v) with (acc := tscalar 1%R) as (r & R1 & R2 & R3).
    - intros k d Hi. apply (H k d (X k) Hi). apply dget_In. apply HX. now apply (in_map fst) in Hi.
    - now right.
    - exists r. split; [exact R1|]. destruct R2 as [R2|[_ R2]]; [|contradiction]. split; [exact R2|]. intros i Hi. specialize (R3 i Hi). destruct (list_eq_dec Nat.eq_dec (shp r) b); [|contradiction]. rewrite R3.
      assert (O : forall j, tget (tscalar 1%R) j = 1%R) by (intros [|]; reflexivity). rewrite O. ring.
  Qed.
  (** a name without a distribution, or without an observation *)
  Lemma fold_missing (l : list (string * dict string (@jval G))) k inner : In (k, inner) l -> dget inner "sub"%string = None \/ dget inner "z"%string = None ->
    forall acc r, foldM (fun acc kv => let* s := dindex (snd kv) "sub"%string in let* x := dindex (snd kv) "z"%string in
             match s, x with JDist d, JObs y => let* v := j_pdf d y in tmap2 Rmult acc v | _, _ => Err AttributeErr end) acc l <> Ok r.
  Proof.
    induction l as [|[k' inner'] l IH]; intros Hi Hn acc r; [destruct Hi|]. cbn [foldM snd]. destruct Hi as [E|Hi].
    - injection E as -> ->. unfold dindex. destruct Hn as [-> | ->]; [discriminate|]. destruct (dget inner "sub"%string); discriminate.
    - destruct (bind (dindex inner' "sub"%string) _) as [acc'|]; [exact (IH Hi Hn acc' r)|discriminate].
  Qed.
  Theorem joint_pdf_missing (subs : dict string (sjobj G)) z k : NoDup (map fst subs) -> NoDup (map fst z) -> ~ (In k (map fst z) <-> In k (map fst subs)) -> forall r, sj_pdf subs z <> Ok r.
  Proof.
    intros Hs Hz Hk r. unfold sj_pdf. change (join_mappings _) with (join_mappings (jfm subs z)). pose proof (jfm_get subs z Hs Hz k) as Gk. rewrite jfm_inner in Gk.
    destruct (dget subs k) as [d|] eqn:D1, (dget z k) as [x|] eqn:D2; cbn [app] in Gk.
    - exfalso. apply Hk. apply dget_In in D1, D2. apply (in_map fst) in D1, D2. tauto.
    - apply dget_In in Gk. exact (fold_missing _ k _ Gk (or_intror eq_refl) _ r).
    - apply dget_In in Gk. exact (fold_missing _ k _ Gk (or_introl eq_refl) _ r).
    - exfalso. apply Hk. apply dget_None in D1, D2. unfold keys in *. tauto.
  Qed.
  Definition sum_of (l : list R) : R := fold_right Rplus 0%R l.
  Theorem joint_entropy_spec b (subs : dict string (sjobj G)) (v : string -> tensor R) : subs <> [] -> (forall k d, In (k, d) subs -> j_entropy d = Ok (v k) /\ shp (v k) = b) ->
    exists r, sj_entropy subs = Ok r /\ shp r = b /\ forall i, inb b i = true -> tget r i = sum_of (map (fun kv => tget (v (fst kv)) i) subs).
  Proof.
    intros Ne H. unfold sj_entropy. assert (M : mapM (fun kv : string * sjobj G => j_entropy (snd kv)) subs = Ok (map (fun kv => v (fst kv)) subs)).
    { apply (mapM_Ok (fun kv : string * sjobj G => j_entropy (snd kv)) (fun kv => v (fst kv))). intros [k d] Hi. apply (H k d Hi). }
    rewrite M. cbn [bind]. destruct subs as [|[k d] l]; [contradiction|]. cbn [map fst]. destruct (H k d (or_introl eq_refl)) as [_ Hb]. rewrite Hb.
    assert (F : forallb (fun e' : tensor R => if list_eq_dec Nat.eq_dec (shp e') b then true else false) (v k :: map (fun kv => v (fst kv)) l) = true).
    { apply forallb_forall. intros e He. assert (shp e = b). { destruct He as [<-|He]; [exact Hb|]. apply in_map_iff in He as ([k' d'] & <- & Hi). apply (H k' d'). now right. } destruct (list_eq_dec Nat.eq_dec (shp e) b); [reflexivity|contradiction]. }
    rewrite F. eexists. split; [reflexivity|]. split; [reflexivity|]. intros i Hi. rewrite tget_tbuild by exact Hi. unfold sum_of. cbn [map fst fold_right]. now rewrite !map_map.
  Qed.
  (** names of the samples *)
  Theorem joint_rvs_spec a (subs : dict string (sjobj G)) : forall g r g', sj_rvs subs a g = Ok (r, g') -> map fst r = map fst subs /\
    exists st : nat -> G, st 0 = g /\ st (length subs) = g' /\ forall k n d, nth_error subs k = Some (n, d) -> exists v, nth_error r k = Some (n, v) /\ j_rvs d a (st k) = Ok (v, st (S k)).
  Proof.
    induction subs as [|[n d] l IH]; intros g r g' E.
    - cbn in E. injection E as <- <-. split; [reflexivity|]. exists (fun _ => g). split; [reflexivity|]. split; [reflexivity|]. intros [|k] m e H; discriminate.
    - cbn [sj_rvs] in E. destruct (j_rvs d a g) as [[v h]|] eqn:Ev; [|discriminate]. cbn [bind snd fst] in E. destruct (sj_rvs l a h) as [[r' h']|] eqn:El; [|discriminate]. cbn [bind snd fst] in E. injection E as <- <-.
      destruct (IH h r' h' El) as (I1 & st & S0 & S1 & S2). split; [cbn; now rewrite I1|]. exists (fun k => match k with 0 => g | S k' => st k' end). split; [reflexivity|]. split; [exact S1|].
      intros [|k] m e Hk; [cbn in Hk; injection Hk as <- <-; exists v; rewrite S0; split; [reflexivity|exact Ev]|]. cbn in Hk. destruct (S2 k m e Hk) as (w & W1 & W2). exists w. split; [exact W1|exact W2].
  Qed.
End Shaped.
