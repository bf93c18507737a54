(** The ExpToNat mixin: flattening, solving and unflattening act on each batch element alone. *)
From Coq Require Import String List Bool Arith Reals Lia.
From Verif Require Import Base XReal Tensor TensorFacts TensorFacts2 Support Dist DictFacts Iteration Structure Spec StructFacts AssembleFacts SumSpec Tools
  ToolThms Joint StructThms MapFacts FlattenSpec FlattenThms SpecFun Expr Fam ExprFacts FamTy FamFacts.
Import ListNotations.
Local Unset Asymmetric Patterns.
Local Open Scope string_scope.
Local Open Scope list_scope.
Local Open Scope nat_scope.

Definition e2n (f : family) : bool :=
  match f with Beta | Dirichlet | Logarithmic | VonMisesFisher | Gamma | ChiSquare | GeneralizedDirichlet => true | _ => false end.
Definition to_plane_r (r : ring) : xr -> xr := match r with RealF mn mx _ => real_to_plane mn mx | _ => fun x => x end.
Definition from_plane_r (r : ring) : xr -> xr := match r with RealF mn mx _ => real_from_plane mn mx | _ => fun x => x end.
Definition circ_e (radius : R) (x : aexp KR) : aexp KR :=
  let magnitude := ENewaxis (jnorm x) in
  let cm := r1 (fun m => xlogit (xadd (xmul (xdiv m (Fin radius)) (Fin (1/2))) (Fin (1/2)))) magnitude in
  ediv (emul x cm) magnitude.
Definition flat_supp (s : support) (n : string) : aexp KR :=
  match s with
  | ScalarS r => r1 (to_plane_r r) (ENewaxis (self n))
  | CircS radius => circ_e radius (self n)
  | _ => r1 (to_plane_r (supp_ring s)) (self n)
  end.
Definition flat_e (c : cls) : aexp KR :=
  match fields c with
  | [g] => flat_supp (fd_support g) (fd_name g)
  | [g; h] => jappend (flat_supp (fd_support g) (fd_name g)) (flat_supp (fd_support h) (fd_name h))
  | _ => ENum 0
  end.
Lemma flat_ty f n : e2n f = true -> dims_ok (EP f) n = true ->
  exists k d, ty (ctx_of (EP f) n) KR (flat_e (EP f)) (Ev [k]) d /\ forall m ps, map fst ps = map fd_name (fields (EP f)) -> dims_of (Dist (EP f) m ps []) = Ok n -> flat_size (Dist (EP f) m ps []) = k.
Proof.
  intros E D. destruct f; try discriminate E; cbn in D; do 2 eexists; (split; [eapply T_eq; [ty1|cbn; reflexivity]|]);
    intros m ps _ Hd; unfold flat_size, flat_fields; cbn [leaves is_joint flat_map snd fst]; unfold leaf_fields; rewrite ?Hd; cbn; try lia.
Qed.
(** the expressions compute what the Support methods compute *)
Lemma norm_eq b n (t : tensor xr) : shp t = b ++ [n] -> gu_apply (g_red (k1 := KR) (k2 := KR) xnorm) t = Ok (tfold_last (fun l => xsqrt (xsum (map xsquare l))) t).
Proof.
  intros S. unfold gu_apply, rank. cbn [elt g_rank g_red g_ok g_out g_fun]. rewrite S. replace (length (b ++ [n]) - 1) with (length b) by (rewrite app_length; cbn; lia).
  assert (L : (1 <=? length (b ++ [n])) = true) by (apply Nat.leb_le; rewrite app_length; cbn; lia). rewrite L. cbn [andb]. f_equal. unfold tfold_last. rewrite S.
  rewrite firstn_app_len, skipn_app_len by reflexivity. rewrite removelast_last, last_last, app_nil_r. apply tbuild_ext. intros i Hi. unfold xnorm. rewrite firstn_all2 by (rewrite (inb_length _ _ Hi); lia).
  do 2 f_equal. rewrite !map_map. cbn [indices]. rewrite flat_map_concat_map. cbn [map]. 
  induction (seq 0 n) as [|a l IH]; [reflexivity|]. cbn [map concat app]. now f_equal.
Qed.
Lemma append_eq b m n (t u : tensor xr) : shp t = b ++ [m] -> shp u = b ++ [n] ->
  forall env (e1 e2 : aexp KR), eval env e1 = Ok t -> eval env e2 = Ok u -> eval env (jappend e1 e2) = tappend t u.
Proof.
  intros St Su env e1 e2 E1 E2. rewrite (tappend_ok b m n t u St Su). unfold jappend. cbn [eval]. rewrite E1, E2. cbn [bind]. unfold gu2_apply, rank. cbn [elt h_rank1 h_rank2 h_ok h_out h_fun]. rewrite St, Su.
  replace (length (b ++ [m]) - 1) with (length b) by (rewrite app_length; cbn; lia). replace (length (b ++ [n]) - 1) with (length b) by (rewrite app_length; cbn; lia).
  assert (L1 : (1 <=? length (b ++ [m])) = true) by (apply Nat.leb_le; rewrite app_length; cbn; lia). assert (L2 : (1 <=? length (b ++ [n])) = true) by (apply Nat.leb_le; rewrite app_length; cbn; lia).
  rewrite L1, L2, !firstn_app_len, !skipn_app_len by reflexivity. cbn [andb hd]. destruct (list_eq_dec Nat.eq_dec b b) as [_|N]; [|now destruct N]. f_equal. apply tbuild_ext.
  intros i Hi. destruct (inb_snoc _ _ _ Hi) as (j & k & -> & Hj & Hk). rewrite firstn_app_len, skipn_app_len by (symmetry; now apply inb_length). rewrite last_last, removelast_last. cbn [hd].
  assert (F : forall (v : tensor xr) p, map (fun q : list nat => tget v (j ++ q)) (indices [p]) = map (fun q => tget v (j ++ [q])) (seq 0 p)).
  { intros v p. cbn [indices map]. rewrite flat_map_concat_map. induction (seq 0 p) as [|a l IH]; [reflexivity|]. cbn [map concat app]. now f_equal. }
  rewrite !F. destruct (Nat.ltb_spec k m) as [Hm|Hm].
  - rewrite app_nth1 by (now rewrite map_length, seq_length). rewrite nth_indep with (d' := (fun q => tget t (j ++ [q])) 0) by now rewrite map_length, seq_length.
    rewrite (map_nth (fun q => tget t (j ++ [q]))), seq_nth by assumption. reflexivity.
  - rewrite app_nth2 by (now rewrite map_length, seq_length). rewrite map_length, seq_length. rewrite nth_indep with (d' := (fun q => tget u (j ++ [q])) 0) by (rewrite map_length, seq_length; lia).
    rewrite (map_nth (fun q => tget u (j ++ [q]))), seq_nth by lia. reflexivity.
Qed.
Definition real_ring (r : ring) : bool := match r with RealF _ _ _ => true | _ => false end.
Definition real_supp (s : support) : bool := match s with ScalarS r | VectorS r => real_ring r | CircS _ => true | _ => false end.
Lemma flat_supp_eval s b n (t : tensor xr) env nm : real_supp s = true -> dget env nm = Some (RA t) -> shp t = b ++ supp_shape s n -> supp_flattened s true (RA t) = eval env (flat_supp s nm).
Proof.
  intros R E S. destruct s as [r|r|r|r ? ? ?|r|radius]; try discriminate R; try (destruct r; try discriminate R; cbn [supp_flattened flat_supp to_plane_r supp_ring]; unfold self; cbn [eval]; rewrite E; reflexivity).
  cbn [supp_flattened as_real bind flat_supp]. unfold circ_e, circ_to_plane, ediv, emul, jnorm, self. cbn [eval]. rewrite E. cbn [opt_err bind get_kind as_real]. rewrite (norm_eq b n t S). reflexivity.
Qed.
Lemma names_inv1 {A} (ps : dict string A) a : map fst ps = [a] -> exists v, ps = [(a, v)].
Proof. destruct ps as [|[n v] [|]]; try discriminate. cbn. intros H. injection H as <-. eauto. Qed.
Lemma names_inv2 {A} (ps : dict string A) a c : map fst ps = [a; c] -> exists v w, ps = [(a, v); (c, w)].
Proof. destruct ps as [|[n v] [|[n' w] [|]]]; try discriminate. cbn. intros H. injection H as <- <-. eauto. Qed.
Definition search_flattener (f : family) (n : nat) : flattener := Flattener [Info [] (EP f) n []] [] true.
Lemma supp_flat_ok s b n (u : tensor xr) : (match s with CircS _ => false | _ => real_supp s end) = true -> shp u = b ++ supp_shape s n ->
  exists t, supp_flattened s true (RA u) = Ok t /\ shp t = b ++ [supp_num_elements s n].
Proof.
  intros R U. destruct s as [r|r|r|r ? ? ?|r|radius]; try discriminate R; destruct r; try discriminate R; cbn; eexists; (split; [reflexivity|]); cbn in *; rewrite U; cbn; now rewrite ?app_nil_r.
Qed.
Lemma flatten_leaf f b m ps n t : e2n f = true -> map fst ps = map fd_name (fields (EP f)) -> leaf_shaped b (Dist (EP f) m ps []) = true ->
  dims_of (Dist (EP f) m ps []) = Ok n -> eval ps (flat_e (EP f)) = Ok t -> flatten (Dist (EP f) m ps []) true = Ok (search_flattener f n, t).
Proof.
  intros E N S D V. pose proof (leaf_env _ _ _ S D) as HE. cbn [dcls dparams] in HE.
  destruct f; try discriminate E; cbn in N; unfold flat_e in V; cbn [fields] in V;
  try (destruct (names_inv1 ps _ N) as (v & ->);
    match type of N with _ = [?nm] => destruct (HE nm KR _ eq_refl) as (u & U1 & U2); cbn in U1; injection U1 as -> end;
    match type of V with eval ?env (flat_supp ?s ?nm) = _ => rewrite <- (flat_supp_eval s b n u env nm eq_refl eq_refl U2) in V end;
    unfold flatten, create; cbn [walk is_joint dcls]; unfold make_flat; cbn -[supp_flattened dims_of flat_supp search_flattener eval];
    cbn [fd_support var] in V; rewrite V; cbn [bind concat app reduceM]; unfold make_info; rewrite D; reflexivity);
  destruct (names_inv2 ps _ _ N) as (v & w & ->);
    match type of N with _ = [?nm; ?nm'] => destruct (HE nm KR _ eq_refl) as (u & U1 & U2); destruct (HE nm' KR _ eq_refl) as (u' & U1' & U2') end; cbn in U1, U1'; injection U1 as ->; injection U1' as ->;
    match type of V with eval ?env (jappend (flat_supp ?s ?nm) (flat_supp ?s' ?nm')) = _ => 
      pose proof (flat_supp_eval s b n u env nm eq_refl eq_refl U2) as V1; pose proof (flat_supp_eval s' b n u' env nm' eq_refl eq_refl U2') as V2 end.
  all: match type of V1 with supp_flattened ?s _ _ = _ => destruct (supp_flat_ok s b n u eq_refl U2) as (t1 & A1 & B1) end;
    match type of V2 with supp_flattened ?s _ _ = _ => destruct (supp_flat_ok s b n u' eq_refl U2') as (t2 & A2 & B2) end;
    rewrite A1 in V1; rewrite A2 in V2; symmetry in V1, V2; rewrite (append_eq b _ _ t1 t2 B1 B2 _ _ _ V1 V2) in V;
    unfold flatten, create; cbn [walk is_joint dcls]; unfold make_flat; cbn -[supp_flattened dims_of flat_supp search_flattener eval tappend];
    cbn [fd_support var] in A1, A2; rewrite A1; cbn [bind]; rewrite A2; cbn [bind concat app reduceM snd];
    unfold make_info; rewrite D; cbn [foldM bind]; rewrite V; reflexivity.
Qed.
Section Search.
  Variable solve : minimizer -> dist -> nat -> xr.

  Definition sliced (i : list nat) (q : dist) : dist := Dist (dcls q) (dmin q) (slice i (dparams q)) [].
  Lemma slice_names i ps : map fst (slice i ps) = map fst ps.
  Proof. unfold slice. now rewrite map_map. Qed.
  Lemma sliced_wf i q : well_formed q = true -> is_joint (dcls q) = false -> well_formed (sliced i q) = true.
  Proof. destruct q as [c m ps subs]. intros W J. apply wf_inv in W as (Hn & _). cbn [dcls] in J. apply wf_leaf; [exact J|]. cbn [dparams]. now rewrite slice_names. Qed.
  Lemma sliced_shaped b q n i : well_formed q = true -> is_joint (dcls q) = false -> leaf_shaped b q = true -> dims_of q = Ok n -> inb b i = true ->
    dims_of (sliced i q) = Ok n /\ leaf_shaped [] (sliced i q) = true.
  Proof.
    intros W J S D Hi. destruct (leaf_dims b q S) as (n' & D' & K). assert (n' = n) by congruence. subst n'. apply ctx_shaped; [| |exact K].
    - pose proof (slice_env b _ _ i (leaf_env b q n S D) Hi) as HE. destruct q as [c m ps subs]. cbn [dcls dparams] in *. apply wf_inv in W as (Hn & _).
      assert (Hn' : map fst (slice i ps) = map fd_name (fields c)) by now rewrite slice_names.
      assert (N : NoDup (map fd_name (fields c))) by apply nodup_fields.
      unfold params_hold. assert (HE' : forall f, In f (fields c) -> exists t, dget (slice i ps) (fd_name f) = Some (pack (kind_of (fd_support f)) t) /\ shp t = [] ++ supp_shape (fd_support f) n).
      { intros f I. apply HE. unfold ctx_of. clear -I N. revert I N. induction (fields c) as [|g gs IH]; [intros []|]. intros [->|I] N; cbn [map dget fd_ctx].
        - destruct (keq (fd_name f) (fd_name f)) as [_|X]; [reflexivity|now destruct X].
        - inversion N; subst. destruct (keq (fd_name f) (fd_name g)) as [X|_]; [|now apply IH]. destruct H1. rewrite <- X. now apply in_map. }
      clear HE. revert Hn' HE'. unfold ctx_of. generalize (slice i ps) as l. revert N. generalize (fields c) as fs. induction fs as [|f fs IH]; intros N [|[m0 a] l] E H; try discriminate; [constructor|].
      cbn [map fst] in E. injection E as -> E. cbn [map] in *. inversion N as [|? ? N1 N2]; subst. constructor.
      + cbn. split; [reflexivity|]. destruct (H f (or_introl eq_refl)) as (t & T1 & T2). cbn [dget] in T1. destruct (keq (fd_name f) (fd_name f)) as [_|X]; [|now destruct X]. injection T1 as ->. eauto.
      + apply IH; [exact N2|exact E|]. intros g Hg. destruct (H g (or_intror Hg)) as (t & T1 & T2). cbn [dget] in T1. destruct (keq (fd_name g) (fd_name f)) as [X|_]; [|eauto]. destruct N1. rewrite <- X. now apply in_map.
    - intros Df. unfold dims_of in D. rewrite Df in D. now injection D.
  Qed.
  Lemma create_leaf f m ps n : dims_of (Dist (EP f) m ps []) = Ok n -> create (Dist (EP f) m ps []) = Ok [Info [] (EP f) n []].
  Proof. intros D. unfold create. cbn [walk]. destruct (is_joint (EP f)) eqn:J; cbn [mapM bind concat sub_distributions]; unfold make_info; rewrite D; cbn; reflexivity. Qed.
  Lemma search_ok f b m ps n : e2n f = true -> map fst ps = map fd_name (fields (EP f)) -> leaf_shaped b (Dist (EP f) m ps []) = true ->
    dims_of (Dist (EP f) m ps []) = Ok n -> exists sp sz, search_parameters solve (Dist (EP f) m ps []) f = Ok sp /\ shp sp = b ++ [sz] /\ 
     sz = search_size f (tbuild [flat_size (Dist (EP f) m ps [])] (fun _ => NaN)) /\
     forall i, inb b i = true -> search_parameters solve (Dist (EP f) m (slice i ps) []) f = Ok (tsub sp i).
  Proof.
    intros E N S D. set (q := Dist (EP f) m ps []) in *. assert (J : is_joint (EP f) = false) by (destruct f; try discriminate E; reflexivity).
    assert (W : well_formed q = true) by now apply wf_leaf. destruct (leaf_dims _ _ S) as (n' & D' & K). assert (n' = n) by congruence. subst n'. cbn [q dcls] in K.
    destruct (flat_ty f n E K) as (k & d & T & Fs). pose proof (leaf_env _ _ _ S D) as HE. cbn [q dcls dparams] in HE.
    destruct (ty_sound b _ _ HE _ _ _ _ T) as (t & T1 & T2 & _). cbn [full] in T2. cbn [elt] in t, T1, T2.
    pose proof (flatten_leaf f b m ps n t E N S D T1) as HF. fold q in HF.
    assert (U : forall i, inb b i = true -> exists x, unflatten (search_flattener f n) (tsub t i) = Ok x).
    { intros i Hi. destruct (unflatten_any false true [] q (tsub t i) [Info [] (EP f) n []] [] W (create_leaf f m ps n D)) as (x & X & _); [|..|exists x; exact X].
      - unfold q. destruct f; try discriminate E; reflexivity.
      - rewrite (shp_tsub b [k]); [|exact Hi|exact T2]. cbn. f_equal. symmetry. now apply Fs.
      - discriminate. }
    unfold search_parameters. rewrite HF. cbn [bind]. rewrite T2, removelast_last.
    destruct (mapM_exists (fun i => unflatten (search_flattener f n) (tsub t i)) (indices b)) as (xs & X).
    { intros i Hi. apply U. now apply in_indices. }
    rewrite X. cbn [bind]. eexists _, _. split; [reflexivity|]. split; [reflexivity|]. split.
    { unfold q. rewrite (Fs m ps N D). unfold search_size. cbn [shp tbuild]. rewrite T2. now rewrite last_last. }
    intros i Hi. destruct (sliced_shaped b q n i W J S D Hi) as [D2 S2]. cbn [sliced q dcls dmin dparams] in D2, S2.
    destruct (slice_eval b _ _ i _ _ _ _ HE Hi T) as (t' & T1' & _ & T3). rewrite T1 in T1'. injection T1' as <-. change (eval (slice i ps) (flat_e (EP f)) = Ok (@tsub xr _ t i)) in T3.
    rewrite (flatten_leaf f [] m (slice i ps) n (@tsub xr _ t i) E (eq_trans (slice_names i ps) N) S2 D2 T3). cbn [bind].
    assert (St : shp (tsub t i) = [k]) by now apply (shp_tsub b). cbn [elt]. rewrite St. cbn [removelast indices mapM].
    assert (TT : tsub (tsub t i) [] = tsub t i). { apply tensor_ext; [reflexivity|]. intros j Hj. apply (get_tsub [] [k]); [reflexivity|exact St|]. cbn [tsub tbuild shp length skipn] in Hj. now rewrite <- St. }
    destruct (U i Hi) as (x & Hx). rewrite TT, Hx. cbn [bind ravel nth]. f_equal.
    apply mapM_Forall2 in X.
    assert (Xi : forall d0, nth (ravel b i) xs d0 = x).
    { intros d0. pose proof (nth_indices b i [] Hi) as Ni. pose proof (ravel_lt b i Hi) as Li.
      assert (Ln : ravel b i < length (indices b)). { rewrite <- (map_length (ravel b)), ravel_indices, seq_length. exact Li. }
      clear -X Ni Hx Ln. revert Ni Ln. generalize (ravel b i) as r. induction X as [|a y l l' H _ IH]; intros [|r] Ni Ln; cbn in *; try lia; [|now apply IH; [|lia]]. subst a. congruence. }
    assert (Sz : search_size f t = search_size f (@tsub xr _ t i)). { unfold search_size. rewrite T2, St, last_last. destruct f; reflexivity. }
    rewrite <- Sz. symmetry. unfold tsub at 1. cbn [shp tbuild]. rewrite skipn_app_len by now apply inb_length. apply tbuild_ext. intros j Hj.
    destruct (inb_snoc [] _ _ Hj) as (j0 & kk & -> & Hj0 & Hk). destruct j0; [|discriminate]. cbn [app last].
    rewrite tget_tbuild by (apply inb_snoc_intro; assumption). rewrite removelast_last, last_last, Xi. reflexivity.
  Qed.
End Search.
Lemma at_eq b n k (t : tensor xr) : shp t = b ++ [n] -> k < n -> gu_apply (@Gufunc KR KR 1 (fun s => k <? hd 0 s) (fun _ => []) (fun _ l _ => nth k l NaN)) t = Ok (tlast k t).
Proof.
  intros S Hk. unfold gu_apply, rank. cbn [elt g_rank g_ok g_out g_fun]. rewrite S. replace (length (b ++ [n]) - 1) with (length b) by (rewrite app_length; cbn; lia).
  assert (L : (1 <=? length (b ++ [n])) = true) by (apply Nat.leb_le; rewrite app_length; cbn; lia). rewrite L, skipn_app_len by reflexivity. cbn [hd andb].
  apply Nat.ltb_lt in Hk as Hk'. rewrite Hk'. f_equal. unfold tlast. rewrite S, firstn_app_len, removelast_last, app_nil_r by reflexivity. apply tbuild_ext. intros i Hi.
  rewrite firstn_all2 by (rewrite (inb_length _ _ Hi); lia). cbn [indices].
  assert (F : map (fun q : list nat => tget t (i ++ q)) (flat_map (fun i0 : nat => map (cons i0) [[]]) (seq 0 n)) = map (fun q => tget t (i ++ [q])) (seq 0 n)).
  { rewrite flat_map_concat_map. cbn [map]. induction (seq 0 n) as [|a l IH]; [reflexivity|]. cbn [map concat app]. now f_equal. }
  match goal with |- nth k ?l _ = _ => replace l with (map (fun q => tget t (i ++ [q])) (seq 0 n)) by (symmetry; exact F) end. rewrite nth_indep with (d' := (fun q => tget t (i ++ [q])) 0) by now rewrite map_length, seq_length. rewrite (map_nth (fun q => tget t (i ++ [q]))), seq_nth by assumption. reflexivity.
Qed.
(** search_to_natural as constructor arguments *)
Definition search_l (f : family) : list arg :=
  match search_args f with
  | Some l => l
  | None => map (fun g => ra (fd_name g) (match fd_support g with ScalarS r => jat 0 (r1 (from_plane_r r) (self "search")) | s => r1 (from_plane_r (supp_ring s)) (self "search") end)) (fields (NP f))
  end.
Definition search_dim (f : family) (n : nat) : nat := match f with Beta | Dirichlet => n | GeneralizedDirichlet => 2 * n | _ => 1 end.
Lemma search_ty f n : e2n f = true -> dims_ok (EP f) n = true -> args_ty (("search"%string, (KR, [search_dim f n])) :: ctx_of (EP f) n) (search_l f) (ctx_of (NP f) n).
Proof.
  intros E D. destruct f; try discriminate E; cbn in D; unfold args_ty, search_l, ctx_of; cbn [map fields search_args]; argsr.
  all: do 2 f_equal; lia.
Qed.
Lemma search_size_eq f m ps n : e2n f = true -> map fst ps = map fd_name (fields (EP f)) -> dims_of (Dist (EP f) m ps []) = Ok n -> dims_ok (EP f) n = true ->
   search_size f (tbuild [flat_size (Dist (EP f) m ps [])] (fun _ => NaN)) = search_dim f n.
Proof.
  intros E N D K. destruct f; try discriminate E; try reflexivity; cbn [search_size search_dim tbuild shp last]; unfold flat_size, flat_fields; cbn [leaves is_joint flat_map snd fst]; unfold leaf_fields; rewrite ?D; cbn; lia.
Qed.
Lemma vec_unflat r b n (t : tensor xr) : real_ring r = true -> shp t = b ++ [n] -> supp_unflattened (VectorS r) t n true = Ok (RA (tmap (from_plane_r r) t)).
Proof. intros R S. destruct r as [mn mx sc| | |]; try discriminate R. cbn. change (shp (tmap (real_from_plane mn mx) t)) with (shp t). rewrite S, last_dim_snoc. cbn. now rewrite Nat.eqb_refl. Qed.
Lemma sca_unflat r b n (t : tensor xr) : real_ring r = true -> shp t = b ++ [1] -> supp_unflattened (ScalarS r) t n true = Ok (RA (tlast 0 (tmap (from_plane_r r) t))).
Proof. intros R S. destruct r as [mn mx sc| | |]; try discriminate R. cbn. change (shp (tmap (real_from_plane mn mx) t)) with (shp t). rewrite S, last_dim_snoc. reflexivity. Qed.
Lemma eval_search g (sp : tensor xr) env : dget env "search" = Some (RA sp) -> eval env (r1 g (self "search")) = Ok (tmap g sp).
Proof. intros H. unfold self. cbn [eval]. rewrite H. reflexivity. Qed.
Lemma eval_search_at b g (sp : tensor xr) env : dget env "search" = Some (RA sp) -> shp sp = b ++ [1] -> eval env (jat 0 (r1 g (self "search"))) = Ok (tlast 0 (tmap g sp)).
Proof. intros H S. unfold jat. transitivity (let* t := eval env (r1 g (self "search")) in gu_apply (@Gufunc KR KR 1 (fun s => 0 <? hd 0 s) (fun _ => []) (fun _ l _ => nth 0 l NaN)) t); [reflexivity|]. rewrite (eval_search g sp env H). cbn [bind]. apply (at_eq b 1 0); [exact S|lia]. Qed.
Lemma s2n_eq f b m ps n sp : e2n f = true -> map fst ps = map fd_name (fields (EP f)) -> dims_of (Dist (EP f) m ps []) = Ok n -> shp sp = b ++ [search_dim f n] ->
  search_to_natural (Dist (EP f) m ps []) f sp = make (NP f) (("search"%string, RA sp) :: ps) (search_l f).
Proof.
  intros E N D S. unfold search_to_natural, search_l. destruct (search_args f) as [l|] eqn:A; [reflexivity|].
  unfold create_flattener. cbn [sub_distributions]. unfold make_info. rewrite D. cbn [bind dcls i_path i_dims i_subs sub_distributions map].
  destruct f; try discriminate E; try discriminate A; cbn in N; destruct (names_inv1 ps _ N) as (v & ->); cbn [parameters walk is_joint]; cbn -[unflatten make];
    unfold unflatten; rewrite S; cbn [shp]; rewrite ?last_dim_snoc; cbn [opt_err bind f_infos foldM search_dim]; unfold unflatten_step, unflatten_params; cbn -[supp_unflattened tslice supp_num_elements Nat.ltb Nat.eqb make].
  all: cbn [search_dim] in S.
  all: try (match goal with |- context [supp_num_elements (VectorS ?r) ?n] => change (supp_num_elements (VectorS r) n) with n; rewrite Nat.ltb_irrefl, (tslice_full b n sp S), (vec_unflat r b n sp eq_refl S) end).
  all: try (match goal with |- context [supp_num_elements (ScalarS ?r) ?n] => change (supp_num_elements (ScalarS r) n) with 1; change (1 <? 1) with false; rewrite (tslice_full b 1 sp S), (sca_unflat r b n sp eq_refl S) end).
  all: cbn [bind]; unfold make, evals; cbn [mapM projT1 projT2 snd fst ra].
  all: match goal with |- context [eval ?env (jat 0 (r1 ?g _))] => rewrite (eval_search_at b g sp env eq_refl S) | |- context [eval ?env (r1 ?g _)] => rewrite (eval_search g sp env eq_refl) end.
  all: cbn [bind pack from_plane_r].
  all: match goal with |- context [construct ?c ?a None] => destruct (construct c a None) eqn:X end; cbn in X; try discriminate X; injection X as <-; cbn [bind]; rewrite ?Nat.eqb_refl; cbn [negb bind]; try reflexivity.
Qed.
Lemma dims_ok_np_ep f n : dims_ok (NP f) n = dims_ok (EP f) n.
Proof. destruct f; reflexivity. Qed.
Lemma dims_np f : dimensions_field (NP f) = None <-> dimensions_field (EP f) = None.
Proof. destruct f; cbn; split; congruence. Qed.
Lemma dims_none q n : dims_of q = Ok n -> dimensions_field (dcls q) = None -> n = 1.
Proof. unfold dims_of. intros H E. rewrite E in H. now injection H. Qed.
(** what a method building an object of class c from a simple distribution should do *)
Definition builds (b : list nat) (c : cls) (n : nat) (F : list nat -> result dist) (r : result dist) : Prop :=
  exists ps, r = Ok (Dist c DefaultMinimizer ps []) /\ well_formed (Dist c DefaultMinimizer ps []) = true /\ leaf_shaped b (Dist c DefaultMinimizer ps []) = true /\
    dims_of (Dist c DefaultMinimizer ps []) = Ok n /\ forall i, inb b i = true -> F i = Ok (Dist c DefaultMinimizer (slice i ps) []).
Section Search2.
  Variable solve : minimizer -> dist -> nat -> xr.
  Lemma exp_to_nat_ok f b m ps n : e2n f = true -> map fst ps = map fd_name (fields (EP f)) -> leaf_shaped b (Dist (EP f) m ps []) = true -> dims_of (Dist (EP f) m ps []) = Ok n ->
    builds b (NP f) n (fun i => exp_to_nat solve (Dist (EP f) m (slice i ps) []) f) (exp_to_nat solve (Dist (EP f) m ps []) f).
  Proof.
    intros E N S D. assert (J : is_joint (EP f) = false) by (destruct f; try discriminate E; reflexivity).
    destruct (leaf_dims _ _ S) as (n' & D' & K). assert (n' = n) by congruence. subst n'. cbn [dcls] in K.
    destruct (search_ok solve f b m ps n E N S D) as (sp & sz & P1 & P2 & P3 & P4). rewrite (search_size_eq f m ps n E N D K) in P3. subst sz.
    unfold exp_to_nat. rewrite P1. cbn [bind]. rewrite (s2n_eq f b m ps n sp E N D P2).
    pose proof (env_cons b _ _ "search" KR [search_dim f n] sp (leaf_env _ _ _ S D) P2) as HE. cbn [dcls dparams pack] in HE.
    destruct (make_ok b _ _ _ (NP f) n HE (search_ty f n E K)) as (qs & Q1 & Q2 & Q3 & Q4 & Q5 & _).
    { destruct f; try discriminate E; reflexivity. }
    { intros X. apply dims_np in X. exact (dims_none _ _ D X). }
    { now rewrite dims_ok_np_ep. }
    exists qs. repeat (split; [assumption|]). intros i Hi. rewrite (P4 i Hi). cbn [bind].
    assert (W : well_formed (Dist (EP f) m ps []) = true) by now apply wf_leaf.
    destruct (sliced_shaped b _ n i W J S D Hi) as [D2 S2]. cbn [sliced dcls dmin dparams] in D2, S2.
    rewrite (s2n_eq f [] m (slice i ps) n (tsub sp i) E (eq_trans (slice_names i ps) N) D2); [exact (Q5 i Hi)|]. now apply (shp_tsub b).
  Qed.
  Lemma leaf_inv q : well_formed q = true -> is_joint (dcls q) = false -> q = Dist (dcls q) (dmin q) (dparams q) [] /\ map fst (dparams q) = map fd_name (fields (dcls q)).
  Proof. destruct q as [c m ps subs]. intros W J. apply wf_inv in W as (Hn & _ & Hs & _). cbn [dcls dmin dparams] in *. now rewrite (Hs J). Qed.
  Lemma mk_slices b c n q l G : env_ok b G (dparams q) -> args_ty G l (ctx_of c n) -> is_joint c = false -> (dimensions_field c = None -> n = 1) -> dims_ok c n = true ->
    builds b c n (fun i => make c (dparams (sliced i q)) l) (make c (dparams q) l).
  Proof. intros H T J D1 D2. destruct (make_ok b G _ l c n H T J D1 D2) as (ps & P1 & P2 & P3 & P4 & P5 & _). exists ps. auto. Qed.
  Theorem to_nat_builds f b q n : well_formed q = true -> dcls q = EP f -> leaf_shaped b q = true -> dims_of q = Ok n ->
    builds b (NP f) n (fun i => fam_to_nat solve (sliced i q)) (fam_to_nat solve q).
  Proof.
    intros W C S D. assert (J : is_joint (dcls q) = false) by (rewrite C; reflexivity). destruct (leaf_inv q W J) as [Q N].
    destruct (leaf_dims _ _ S) as (n' & D' & K). assert (n' = n) by congruence. subst n'. rewrite C in K.
    assert (D1 : dimensions_field (NP f) = None -> n = 1). { intros X. apply dims_np in X. rewrite <- C in X. exact (dims_none _ _ D X). }
    assert (K' : dims_ok (NP f) n = true) by now rewrite dims_ok_np_ep.
    pose proof (leaf_env b q n S D) as HE. rewrite C in HE, N.
    unfold fam_to_nat. cbn [sliced dcls]. rewrite C. destruct (nat_args f) as [l|] eqn:A.
    { apply (mk_slices b (NP f) n q l (ctx_of (EP f) n)); auto. now apply nat_ty. }
    assert (EE : e2n f = true -> builds b (NP f) n (fun i => exp_to_nat solve (sliced i q) f) (exp_to_nat solve q f)).
    { intros E. rewrite Q, C in S, D |- *. exact (exp_to_nat_ok f b (dmin q) (dparams q) n E N S D). }
    destruct f; try discriminate A; try (apply EE; reflexivity).
    - (* Chi *) 
      cbn [fields map fd_name var] in N. destruct (names_inv1 _ _ N) as (v & V). destruct (HE "mean_log" KR _ eq_refl) as (u & U1 & U2). rewrite V in U1. cbn in U1. injection U1 as ->.
      cbn in U2. rewrite app_nil_r in U2.
      assert (n = 1) by now apply D1. subst n.
      assert (PH : params_hold b [("mean_log", RA u)] (ctx_of (EP ChiSquare) 1)). { repeat constructor. cbn. exists u. split; [reflexivity|]. now rewrite app_nil_r. }
      destruct (ctx_shaped b (EP ChiSquare) DefaultMinimizer _ 1 PH (fun _ => eq_refl) eq_refl) as [D3 S3].
      destruct (exp_to_nat_ok ChiSquare b DefaultMinimizer [("mean_log", RA u)] 1 eq_refl eq_refl S3 D3) as (ps & P1 & P2 & P3 & P4 & P5).
      assert (Np : map fst ps = ["k_over_two_minus_one"]). { apply wf_inv in P2 as (P2 & _). exact P2. }
      destruct (names_inv1 _ _ Np) as (k & ->).
      exists [("k_over_two_minus_one", k)]. unfold attr. rewrite V. cbn [dget]. change (keq "mean_log" "mean_log") with (@left ("mean_log" = "mean_log") ("mean_log" <> "mean_log") eq_refl).
      cbn [opt_err bind]. rewrite P1. cbn. split; [reflexivity|]. split; [reflexivity|]. 
      pose proof (leaf_env _ _ _ P3 P4) as HK. destruct (HK "k_over_two_minus_one" KR _ eq_refl) as (w & W1 & W2). cbn in W1. injection W1 as ->. cbn in W2.
      assert (PH' : params_hold b [("k_over_two_minus_one", RA w)] (ctx_of (NP Chi) 1)). { repeat constructor. cbn. exists w. split; [reflexivity|]. exact W2. }
      destruct (ctx_shaped b (NP Chi) DefaultMinimizer _ 1 PH' (fun _ => eq_refl) eq_refl) as [D4 S4].
      split; [exact S4|]. split; [reflexivity|]. intros i Hi. specialize (P5 i Hi). cbn [slice map fst snd asub] in P5. rewrite V. cbn [slice map dget fst snd asub]. change (keq "mean_log" "mean_log") with (@left ("mean_log" = "mean_log") ("mean_log" <> "mean_log") eq_refl). cbn [opt_err bind]. etransitivity; [apply (f_equal (fun r => let* z := r in _) P5)|]. reflexivity.
    - (* Logarithmic *)
      destruct (EE eq_refl) as (ps & P1 & P2 & P3 & P4 & P5). rewrite P1. cbn [bind].
      assert (Np : map fst ps = ["log_probability"]). { apply wf_inv in P2 as (P2 & _). exact P2. }
      destruct (names_inv1 _ _ Np) as (k & ->). unfold attr. cbn [dparams dget]. change (keq "log_probability" "log_probability") with (@left ("log_probability" = "log_probability") ("log_probability" <> "log_probability") eq_refl).
      cbn [opt_err bind]. pose proof (leaf_env _ _ _ P3 P4) as HK. destruct (HK "log_probability" KR _ eq_refl) as (w & W1 & W2). cbn in W1. injection W1 as ->. cbn [dcls] in W2.
      pose proof (env_cons b _ _ "z" KR _ w HE W2) as HE2. cbn [pack] in HE2.
      match goal with |- builds _ _ _ _ (make _ _ ?l) => assert (T : args_ty (("z", (KR, supp_shape (fd_support (var "log_probability" (ScalarS negative_support))) n)) :: ctx_of (EP Logarithmic) n) l (ctx_of (NP Logarithmic) n)) end.
      { unfold args_ty, ctx_of; cbn [map fields]; argsr. }
      destruct (make_ok b _ _ _ (NP Logarithmic) n HE2 T eq_refl D1 K') as (qs & Q1 & Q2 & Q3 & Q4 & Q5 & _).
      exists qs. repeat (split; [assumption|]). intros i Hi. rewrite (P5 i Hi). cbn [bind]. exact (Q5 i Hi).
  Qed.
End Search2.
