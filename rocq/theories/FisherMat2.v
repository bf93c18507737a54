(** C46: the Fisher information matrix of a tree of distributions, and the Jeffreys prior. *)
From Coquelicot Require Import Coquelicot.
From Coq Require Import String List Bool Arith Reals Lia Lra.
From Verif Require Import Base XReal Tensor TensorFacts TensorFacts2 Support SupportSpec Dist DictFacts Iteration Structure Spec StructFacts AssembleFacts SumSpec DotSpec Tools FlattenSpec FlattenFacts RefillFacts
  ToolThms Joint StructThms FlattenThms MapFacts SumFacts JointThms JointThms2 SpecFun GammaFn Expr Fam ExprFacts FamTy FamFacts SearchFacts DotFacts Laws DotLaws BatchFacts PointSpec PointFacts Val MatFacts MatVal FamR FamVal ConvFacts LeafVal ConvThms DerivFacts MatDeriv MatHess MatBreg DerivThms
  KlPos InjThms HessFacts PlaneFacts MleThms Fisher FisherSpec FisherThms FlatLin Jeffreys FisherMat.
Import ListNotations.
Local Unset Asymmetric Patterns.
Local Open Scope string_scope.
Local Open Scope R_scope.

Lemma supp_vals_false s fs b n x : like_supp s fs = true -> lin_supp fs = true -> ashape x = (b ++ supp_shape fs n)%list -> kind_ok fs x = true ->
  (forall r h u v, fs = SymS r h u v -> arr_symmetric h b n x) -> supp_vals s false b n x.
Proof.
  intros L Li Sh K Sy. destruct s as [r|r|r|r h ? ?|r|], fs as [r'|r'|r'|r' h' ? ?|r'|]; cbn [like_supp] in L; try discriminate L; (split; [exact Sh|]); unfold kind_ok in K; cbn [supp_ring] in K.
  - destruct r, r'; try discriminate L; destruct x; try discriminate K; cbn; discriminate.
  - destruct r, r'; try discriminate L; destruct x; try discriminate K; cbn; discriminate.
  - apply andb_prop in L as [L E]. apply eqb_prop in E. subst h'. split; [|eapply Sy; reflexivity]. destruct r, r'; try discriminate L; destruct x; try discriminate K; cbn; discriminate.
Qed.
Lemma snoc_neq (i : list nat) a c : a <> c -> (i ++ [a])%list <> (i ++ [c])%list.
Proof. intros N E. apply app_inv_head in E. congruence. Qed.

Section M.
  Variable solve : minimizer -> dist -> nat -> xr.
  Notation L := (fam_methods solve).
  Notation G := (fam_good solve).
  Variables (b : list nat) (q : dist).
  Hypotheses (W : well_formed q = true) (N : nat_tree q = true) (Sq : shaped b q = true) (Hd : forall i, inb b i = true -> tree_in_domain q i)
    (NC : forall p l, In (p, l) (leaves [] q) -> dcls l <> NP ComplexCircularlySymmetricNormal).
  Lemma NT : forall p l, In (p, l) (leaves [] q) -> exists f, dcls l = NP f.
  Proof. intros p l. exact (nat_leaf q [] p l W N). Qed.
  Lemma leaf_m i p l : inb b i = true -> In (p, l) (leaves [] q) -> exists f n, dcls l = NP f /\ f <> ComplexCircularlySymmetricNormal /\ fam_n l = Some (f, n) /\ dims_of l = Ok n /\ at_pt b i l (NP f) n (point_of l i) /\ nat_dom f n (point_of l i).
  Proof.
    intros Hi I. destruct (NT p l I) as [f Hf]. destruct (leaf_wf q [] p l W I) as [Wl _]. pose proof (shaped_in b q p l Sq I) as Sl.
    destruct (nat_dom_at b i l f Hi Hf Wl Sl (Hd i Hi p l I)) as (n & A & K). exists f, n. split; [exact Hf|]. split; [intros ->; exact (NC p l I Hf)|]. split; [unfold fam_n; now rewrite Hf, (ap_dims _ _ _ _ _ _ A)|].
    split; [exact (ap_dims _ _ _ _ _ _ A)|]. split; [exact A|exact K].
  Qed.
  Lemma vals_q : dist_vals false b q.
  Proof.
    intros p l I. destruct (NT p l I) as [f Hf]. destruct (leaf_wf q [] p l W I) as [Wl _]. pose proof (shaped_in b q p l Sq I) as Sl. unfold leaf_shaped in Sl. destruct (dims_of l) as [n|] eqn:D; [|discriminate Sl].
    apply andb_prop in Sl as [_ Sl]. rewrite forallb_forall in Sl. exists n. split; [exact D|]. intros fd If. pose proof (Sl fd (variable_in _ _ If)) as Sf. destruct (dget (dparams l) (fd_name fd)) as [v|] eqn:E; [|discriminate Sf].
    apply andb_prop in Sf as [S1 S2]. apply StructFacts.shape_eqb_eq in S1.
    assert (A : exists s, adjust_support (dcls l) (fd_name fd) (dparams l) = Ok s).
    { destruct (cls_eq_dec (dcls l) (NP ComplexNormal)) as [C|C]; [|eexists; apply adjust_default; [exact C|now apply variable_in]]. rewrite C in If, Sl |- *. cbn in If. repeat destruct If as [<-|If]; try contradiction; cbn; [eauto|eauto|].
      specialize (Sl (var "negative_precision" (ScalarS negative_support)) ltac:(cbn; auto)). cbn [fd_name var] in Sl. unfold dindex. destruct (dget (dparams l) "negative_precision") as [y|]; [|discriminate Sl]. cbn [opt_err bind]. apply andb_prop in Sl as [_ Sl]. destruct y; [cbn; eauto|discriminate Sl]. }
    destruct A as [s A]. exists v, s. split; [reflexivity|]. split; [exact A|]. rewrite Hf in A, If. apply (supp_vals_false s (fd_support fd)); [exact (adjust_like f fd _ s If A)|exact (np_lin f fd If)|exact S1|exact S2|].
    intros r h u w Es. assert (Z : f = MultivariateNormal /\ fd = var "negative_half_precision" (SymS real_field false false true)).
    { pose proof (NC p l I) as Nc. rewrite Hf in Nc. destruct f; try (now destruct Nc); cbn in If; repeat destruct If as [<-|If]; try contradiction; try discriminate Es. split; reflexivity. }
    destruct Z as [-> ->]. cbn [fd_support var] in Es. injection Es as <- <- <- <-. cbn [fd_name var fd_support supp_shape] in *. destruct v as [t|t]; [|discriminate S2]. cbn [arr_symmetric ashape] in *.
    intros j k l' Hj Hk Hl. destruct (Hd j Hj p l I) as (n' & D' & F & K). assert (n' = n) by congruence. subst n'. rewrite Hf in K. cbn [nat_dom] in K.
    pose proof (proj1 K k l' ltac:(lia) Hl) as Sy. cbv beta in Sy. unfold point_of in Sy. rewrite E in Sy. cbn [entry_c comp cofr xre] in Sy.
    assert (Ft : forall a c, (a < n)%nat -> (c < n)%nat -> exists x, tget t (j ++ [a; c])%list = Fin x).
    { intros a c Ha Hc. apply cofr_fin. change (finite_entry (entry_c (RA t) (j ++ [a; c])%list)). eapply (F (var "negative_half_precision" (SymS real_field false false true)) (RA t)); [rewrite Hf; cbn; auto|exact E|]. cbn -[Nat.ltb]. rewrite andb_true_r. apply andb_true_iff. split; apply Nat.ltb_lt; assumption. }
    destruct (Ft k l' ltac:(lia) Hl) as [x Ex]. destruct (Ft l' k Hl ltac:(lia)) as [y Ey]. rewrite Ex, Ey in Sy |- *. cbn in Sy. f_equal. lra.
  Qed.
  Variables (infos : list info) (fixed : dict path arr) (x : tensor xr).
  Hypotheses (C : create q = Ok infos) (Fx : parameters q (Some true) = Ok fixed) (Rq : Rep b q infos q x).
  Notation fl := (Flattener infos fixed false).
  Notation k := (flat_size q).
  Lemma x_fin i : inb b i = true -> forall a, (a < k)%nat -> exists z, tget x (i ++ [a])%list = Fin z.
  Proof.
    intros Hi. apply (rep_fin b q infos NT q x i Hi Rq). intros p l I. destruct (leaf_m i p l Hi I) as (f & n & Cf & _ & _ & D & A & _). exists n. split; [exact D|]. intros fd If j Hj. unfold gval. rewrite Cf in If.
    destruct (ap_get _ _ _ _ _ _ fd A (variable_in _ _ If)) as (v & V1 & _). rewrite V1. destruct (Hd i Hi p l I) as (n' & D' & F & _). assert (n' = n) by congruence. subst n'. apply (F fd v j); [rewrite Cf; now apply variable_in|exact V1|exact Hj].
  Qed.
  Section I.
  Variable i : list nat.
  Hypothesis Hi : inb b i = true.
  (** the unit vector at batch index i and position a *)
  Definition unit_at (a : nat) : tensor xr := tbuild (b ++ [k]) (fun j => if list_eq_dec Nat.eq_dec j (i ++ [a]) then Fin 1 else Fin 0).
  Definition dir (a : nat) : dist := match unflatten fl (unit_at a) with Ok d => d | Err _ => q end.
  Definition vp (a : nat) (p : path) : point := point_of (leafat (dir a) p) i.
  Lemma rep_dir a : Rep b q infos (dir a) (unit_at a).
  Proof. destruct (rep_any b q infos fixed W NT C Fx (unit_at a) eq_refl) as (d & D & R). unfold dir. rewrite D. exact R. Qed.
  Lemma unit_get a c : (c < k)%nat -> tget (unit_at a) (i ++ [c])%list = Fin (if Nat.eq_dec c a then 1 else 0).
  Proof.
    intros Hc. unfold unit_at. rewrite tget_tbuild by (now apply inb_snoc_intro). destruct (Nat.eq_dec c a) as [->|Ne]; [now destruct (list_eq_dec Nat.eq_dec (i ++ [a]) (i ++ [a])) as [_|X]|].
    destruct (list_eq_dec Nat.eq_dec (i ++ [c]) (i ++ [a])) as [X|_]; [destruct (snoc_neq i c a Ne X)|reflexivity].
  Qed.
  Lemma bump_lin y a s : shp y = (b ++ [k])%list -> (forall c, (c < k)%nat -> exists z, tget y (i ++ [c])%list = Fin z) -> flat_lin k i s y (unit_at a) (bump y i a s).
  Proof.
    intros Sy F c Hc. destruct (F c Hc) as [z Z]. exists z, (if Nat.eq_dec c a then 1 else 0). split; [exact Z|]. split; [now apply unit_get|]. unfold bump. rewrite Sy, tget_tbuild by (now apply inb_snoc_intro).
    destruct (Nat.eq_dec c a) as [->|Ne]; [destruct (list_eq_dec Nat.eq_dec (i ++ [a]) (i ++ [a])) as [_|X]; [|now destruct X]; rewrite Z; cbn; f_equal; ring|].
    destruct (list_eq_dec Nat.eq_dec (i ++ [c]) (i ++ [a])) as [X|_]; [destruct (snoc_neq i c a Ne X)|]. rewrite Z. f_equal. ring.
  Qed.
  Lemma sym_vp a p l f n : In (p, l) (leaves [] q) -> dcls l = NP f -> dims_of l = Ok n -> sym_dir f n (vp a p) /\ real_im (NP f) (vp a p).
  Proof.
    intros I Hf D. pose proof (rep_dir a) as Rd. destruct (rep_leaf b q infos W Sq (dir a) _ p l Rd I) as (I' & (K1 & K2 & K3) & Sl & _). pose proof Rd as (_ & Wd & _ & Vd & _). destruct (Vd p _ I') as (n' & D' & V). rewrite K2, D in D'. injection D' as <-.
    assert (Kr : forall g v, In g (fields (NP f)) -> dget (dparams (leafat (dir a) p)) (fd_name g) = Some v -> kind_of (fd_support g) = KR -> exists t, v = RA t).
    { intros g v Ig Ev Kg. destruct (leaf_env b (leafat (dir a) p) n Sl (eq_trans K2 D) (fd_name g) (kind_of (fd_support g)) (supp_shape (fd_support g) n)) as (t & T1 & _); [rewrite K1, Hf; now apply fields_in_ctx|]. rewrite T1 in Ev. clear T1. destruct (kind_of (fd_support g)); [|discriminate Kg]. injection Ev as <-. cbn. eauto. }
    split.
    - pose proof (NC p l I) as Nc. rewrite Hf in Nc. destruct f; try exact Logic.I; [now destruct Nc|]. cbn [sym_dir]. intros c d Hc Hdd.
      destruct (V (var "negative_half_precision" (SymS real_field false false true))) as (v & s & V1 & V2 & V3); [rewrite K1, Hf; cbn; auto|]. rewrite K1, Hf in V2. cbn in V2. injection V2 as <-. destruct V3 as (_ & _ & Sy). cbn [fd_name var] in V1.
      destruct (Kr (var "negative_half_precision" (SymS real_field false false true)) v ltac:(cbn; auto) V1 eq_refl) as [t ->]. cbn [arr_symmetric] in Sy. unfold vp, point_of. rewrite V1. cbn [entry_c comp cofr xre].
      destruct (Nat.lt_trichotomy c d) as [Z|[->|Z]]; [|reflexivity|]; [rewrite (Sy i c d Hi Z Hdd)|rewrite (Sy i d c Hi Z Hc)]; reflexivity.
    - intros g j Ig Kg. unfold vp, point_of. destruct (dget (dparams (leafat (dir a) p)) (fd_name g)) as [v|] eqn:Ev; [|reflexivity]. destruct (Kr g v Ig Ev Kg) as [t ->]. reflexivity.
  Qed.
  (** the leaves of the object whose flat parameters are x + s e_a + t e_c *)
  Definition gg (a c : nat) (pq : path * dist) (s t : R) : R := match fam_n (snd pq) with Some (f, n) => lnR n (padd (NP f) (padd (NP f) (point_of (snd pq) i) (vp a (fst pq)) s) (vp c (fst pq)) t) f | None => 0 end.
  Definition g1 (a c : nat) (pq : path * dist) (s : R) : R := match fam_n (snd pq) with Some (f, n) => dotP (NP f) (EP f) n (vp c (fst pq)) (expR n (padd (NP f) (point_of (snd pq) i) (vp a (fst pq)) s) f) | None => 0 end.
  Definition g2 (a c : nat) (pq : path * dist) : R := match fam_n (snd pq) with Some (f, n) => hL f n (point_of (snd pq) i) (vp c (fst pq)) (vp a (fst pq)) | None => 0 end.
  Definition fisher (a c : nat) : R := rsum (map (g2 a c) (leaves [] q)).
  Lemma rep_step d y a s : Rep b q infos d y -> (forall c, (c < k)%nat -> exists z, tget y (i ++ [c])%list = Fin z) -> exists d', unflatten fl (bump y i a s) = Ok d' /\ Rep b q infos d' (bump y i a s) /\ (forall c, (c < k)%nat -> exists z, tget (bump y i a s) (i ++ [c])%list = Fin z) /\
    forall p l f n P, In (p, l) (leaves [] q) -> dcls l = NP f -> at_pt b i (leafat d p) (NP f) n P -> at_pt b i (leafat d' p) (NP f) n (padd (NP f) P (vp a p) s).
  Proof.
    intros Rd F. pose proof Rd as (Sy & _). assert (Sb : shp (bump y i a s) = (b ++ [k])%list) by exact Sy. destruct (rep_any b q infos fixed W NT C Fx _ Sb) as (d' & U & R'). exists d'. split; [exact U|]. split; [exact R'|].
    pose proof (bump_lin y a s Sy F) as Bl. split. { intros c Hc. destruct (Bl c Hc) as (z & z' & _ & _ & E). eauto. }
    intros p l f n P I Hf A. destruct (rep_leaf b q infos W Sq d y p l Rd I) as (_ & (K1 & K2 & _) & _ & X1). destruct (rep_leaf b q infos W Sq d' _ p l R' I) as (I' & (J1 & J2 & _) & Sl & X2). pose proof R' as (_ & Wd' & _). destruct (leaf_wf d' [] p _ Wd' I') as [Wl _].
    pose proof (ap_dims _ _ _ _ _ _ A) as D. apply (lin_at b i (NP f) n (leafat d p) (leafat (dir a) p) (leafat d' p) s P Hi A); [congruence|exact Wl|exact Sl|congruence| |].
    - intros fd If j Hj. assert (Dl : dims_of l = Ok n) by congruence. rewrite <- Hf in If. exact (rep_lin b q infos NT i s d y (dir a) (unit_at a) d' _ Hi Rd (rep_dir a) R' Bl p l I fd n If Dl j Hj).
    - intros fd If Ff. rewrite <- Hf in If. now rewrite (X2 fd If Ff), (X1 fd If Ff).
  Qed.
  Lemma ln_rep d y a c s t : Rep b q infos d y -> (forall p l, In (p, l) (leaves [] q) -> exists f n, fam_n l = Some (f, n) /\ at_pt b i (leafat d p) (NP f) n (padd (NP f) (padd (NP f) (point_of l i) (vp a p) s) (vp c p) t) /\ nat_dom f n (padd (NP f) (padd (NP f) (point_of l i) (vp a p) s) (vp c p) t)) ->
    exists u, log_normalizer L d = Ok u /\ tget u i = Fin (rsum (map (fun pq => gg a c pq s t) (leaves [] q))).
  Proof.
    intros Rd Q. pose proof Rd as (_ & Wd & _ & _ & _ & Li & _). pose proof (rep_skel b q infos W C d y Rd) as Sk. assert (Nd : nat_tree d = true) by (now apply (skel_all is_nat q d)).
    assert (Pq : map fst (leaves [] q) = map fst (leaves [] d)). { clear - Li. induction Li as [|u v l l' (E & _) _ IH]; cbn; congruence. }
    assert (Sd : shaped b d = true). { apply (shaped_of_leaves b d [] Wd). intros p l' I'. rewrite (leaves_by_path q d Wd Pq) in I'. apply in_map_iff in I' as ([p0 l0] & E & I0). cbn [fst] in E. injection E as <- <-. now destruct (rep_leaf b q infos W Sq d y p0 l0 Rd I0) as (_ & _ & Sl & _). }
    destruct (ln_sum L G b d Wd Nd Sd) as (_ & u & T1 & T2 & T3). exists u. split; [exact T1|]. rewrite (T3 i Hi), (leaves_by_path q d Wd Pq), map_map.
    apply xsum_ext_Fin. intros [p l] I. cbn [fst snd]. destruct (Q p l I) as (f & n & Fn & A & K). destruct (ln_at solve b i _ f n _ Hi A K) as (w & U1 & U2 & U3).
    assert (E : log_normalizer L (leafat d p) = Ok w). { pose proof (ap_cls _ _ _ _ _ _ A) as Cl. destruct (leafat d p) as [c' m ps subs]. cbn [dcls] in Cl. subst c'. exact U1. }
    rewrite E. cbn [entry]. rewrite U3. unfold gg. cbn [fst snd]. now rewrite Fn.
  Qed.
  Lemma leafat_self p l : In (p, l) (leaves [] q) -> leafat q p = l.
  Proof. intros I. apply (leaf_in q p l W) in I as [E _]. unfold leafat. now rewrite E. Qed.
  Lemma fisher_entry a c : exists eps, 0 < eps /\
    (forall s t, Rabs s < eps -> Rabs t < eps -> exists d y, unflatten fl (bump (bump x i a s) i c t) = Ok d /\ log_normalizer L d = Ok y /\ tget y i = Fin (rsum (map (fun pq => gg a c pq s t) (leaves [] q)))) /\
    (forall s, Rabs s < eps -> is_derive (fun t => rsum (map (fun pq => gg a c pq s t) (leaves [] q))) 0 (rsum (map (fun pq => g1 a c pq s) (leaves [] q)))) /\
    is_derive (fun s => rsum (map (fun pq => g1 a c pq s) (leaves [] q))) 0 (fisher a c).
  Proof.
    destruct (eps_list (leaves [] q) (fun pq s t => match fam_n (snd pq) with Some (f, n) => nat_dom f n (padd (NP f) (padd (NP f) (point_of (snd pq) i) (vp a (fst pq)) s) (vp c (fst pq)) t) | None => False end)) as (eps & E0 & Ep).
    { intros [p l] I. destruct (leaf_m i p l Hi I) as (f & n & Cf & Nf & Fn & D & A & K). cbn [fst snd]. rewrite Fn. apply box; [exact (proj1 (sym_vp a p l f n I Cf D))|exact (proj1 (sym_vp c p l f n I Cf D))|exact K]. }
    exists eps. split; [exact E0|]. split; [|split].
    - intros s t Hs Ht. destruct (rep_step q x a s Rq (x_fin i Hi)) as (d1 & U1 & R1 & F1 & A1). destruct (rep_step d1 _ c t R1 F1) as (d2 & U2 & R2 & F2 & A2).
      destruct (ln_rep d2 _ a c s t R2) as (u & L1 & L2); [|exists d2, u; auto]. intros p l I. destruct (leaf_m i p l Hi I) as (f & n & Cf & Nf & Fn & D & A & K). exists f, n. split; [exact Fn|].
      specialize (Ep s t Hs Ht _ I). cbn [fst snd] in Ep. rewrite Fn in Ep. split; [|exact Ep]. apply (A2 p l f n _ I Cf), (A1 p l f n _ I Cf). rewrite (leafat_self p l I). exact A.
    - intros s Hs. assert (X : forall pq, In pq (leaves [] q) -> is_derive (fun t => gg a c pq s t) 0 (g1 a c pq s)).
      { intros [p l] I. destruct (leaf_m i p l Hi I) as (f & n & Cf & Nf & Fn & D & A & K). specialize (Ep s 0 Hs). rewrite Rabs_R0 in Ep. specialize (Ep E0 _ I). unfold gg, g1. cbn [fst snd] in *. rewrite Fn in *. 
        assert (E : forall P v, padd (NP f) P v 0 = P). { intros P v. unfold padd. do 3 (apply FunctionalExtensionality.functional_extensionality; intro). destruct (existsb _ _); [reflexivity|ring]. }
        pose proof (line_derive f n _ (vp c p) 0 Ep) as Dv. rewrite E in Dv. exact Dv. }
      clear - X. revert X. induction (leaves [] q) as [|pq l IH]; intros X; cbn [map rsum]; [exact (is_derive_const 0 0)|]. apply @is_derive_plus; [exact (X pq (or_introl eq_refl))|]. apply IH. intros a' Ha. apply X. now right.
    - unfold fisher. assert (X : forall pq, In pq (leaves [] q) -> is_derive (fun s => g1 a c pq s) 0 (g2 a c pq)).
      { intros [p l] I. destruct (leaf_m i p l Hi I) as (f & n & Cf & Nf & Fn & D & A & K). unfold g1, g2. cbn [fst snd]. rewrite Fn. apply hL_derive; [exact K|exact (proj1 (sym_vp c p l f n I Cf D))|exact (proj1 (sym_vp a p l f n I Cf D))]. }
      revert X. generalize (leaves [] q). induction l as [|pq l IH]; intros X; cbn [map rsum]; [exact (is_derive_const 0 0)|]. apply @is_derive_plus; [exact (X pq (or_introl eq_refl))|]. apply IH. intros a' Ha. apply X. now right.
  Qed.
  Lemma fisher_sym a c : fisher a c = fisher c a.
  Proof.
    unfold fisher. apply rsum_ext. intros [p l] I. destruct (leaf_m i p l Hi I) as (f & n & Cf & Nf & Fn & D & A & K). unfold g2. cbn [fst snd]. rewrite Fn. apply hL_sym; [exact K|exact (proj1 (sym_vp c p l f n I Cf D))|exact (proj1 (sym_vp a p l f n I Cf D))].
  Qed.
  Lemma fisher_psd z : 0 <= qform k fisher z.
  Proof.
    assert (E : qform k fisher z = rsum (map (fun pq => sumR k (fun a => sumR k (fun c => z a * g2 a c pq * z c))) (leaves [] q))).
    { unfold qform, fisher. rewrite <- (sumR_rsum k (fun pq a => sumR k (fun c => z a * g2 a c pq * z c))). apply sumR_ext. intros a Ha. rewrite <- (sumR_rsum k (fun pq c => z a * g2 a c pq * z c)). apply sumR_ext. intros c Hc.
      generalize (leaves [] q). induction l as [|pq l IH]; cbn [map rsum]; [ring|]. rewrite <- IH. ring. }
    rewrite E. assert (X : forall pq, In pq (leaves [] q) -> 0 <= sumR k (fun a => sumR k (fun c => z a * g2 a c pq * z c))).
    { intros [p l] I. destruct (leaf_m i p l Hi I) as (f & n & Cf & Nf & Fn & D & A & K). unfold g2. cbn [fst snd]. rewrite Fn. apply (hL_psd f n (point_of l i) k z (fun a => vp a p) K). intros a Ha. exact (sym_vp a p l f n I Cf D). }
    revert X. generalize (leaves [] q). induction l as [|pq l IH]; intros X; cbn [map rsum]; [lra|]. pose proof (X pq (or_introl eq_refl)). assert (0 <= rsum (map (fun pq => sumR k (fun a => sumR k (fun c => z a * g2 a c pq * z c))) l)) by (apply IH; intros; apply X; now right). lra.
  Qed.
  End I.
End M.

Lemma loc_abs (P : R -> Prop) eps : 0 < eps -> (forall s, Rabs s < eps -> P s) -> locally 0 P.
Proof.
  intros E H. exists (mkposreal eps E). intros s Hs. apply H. unfold ball in Hs; cbn in Hs; unfold AbsRing_ball, abs, minus, plus, opp in Hs; cbn in Hs. now rewrite Ropp_0, Rplus_0_r in Hs.
Qed.
Section Thms.
  Variable solve : minimizer -> dist -> nat -> xr.
  Notation L := (fam_methods solve).
  Variables (b : list nat) (q : dist).
  Hypotheses (W : well_formed q = true) (N : nat_tree q = true) (Sq : shaped b q = true) (Hd : forall i, inb b i = true -> tree_in_domain q i)
    (NC : forall p l, In (p, l) (leaves [] q) -> dcls l <> NP ComplexCircularlySymmetricNormal).
  Lemma setup : exists infos fixed x, create q = Ok infos /\ parameters q (Some true) = Ok fixed /\ flatten q false = Ok (Flattener infos fixed false, x) /\ Rep b q infos q x.
  Proof.
    destruct (create_shaped b q W Sq) as [infos C]. pose proof (parameters_ok q (Some true) W) as P. eexists infos, _. destruct (rep_self b q infos _ W Sq C P (vals_q b q W N Sq Hd NC)) as (x & F & R). exists x. eauto.
  Qed.
  Theorem t_exists : exists F, fisher_matrix_of L q F.
  Proof.
    destruct setup as (infos & fixed & x & C & P & F & R). set (k := flat_size q). set (m := length b).
    exists (tbuild (b ++ [k; k]) (fun j => Fin (fisher b q infos fixed (firstn m j) (nth m j 0%nat) (nth (Datatypes.S m) j 0%nat)))).
    exists (Flattener infos fixed false), x, b, k. split; [exact F|]. split; [exact (proj1 R)|]. split; [reflexivity|]. intros i a c Hi Ha Hc.
    destruct (fisher_entry solve b q W N Sq Hd NC infos fixed x C P R i Hi a c) as (eps & E0 & E1 & E2 & E3). eexists _, _, _, eps. split; [exact E0|]. split; [exact E1|]. split; [intros s Hs; apply is_derive_Reals; exact (E2 s Hs)|]. split; [apply is_derive_Reals; exact E3|].
    rewrite tget_tbuild. 2:{ rewrite inb_app by (now apply inb_length). rewrite Hi. cbn -[Nat.ltb]. rewrite andb_true_r. apply andb_true_iff. split; apply Nat.ltb_lt; assumption. }
    assert (Li : length i = m) by (now apply inb_length). rewrite firstn_app, Li, Nat.sub_diag, <- Li, firstn_all, firstn_O, app_nil_r. rewrite !app_nth2 by lia. rewrite Nat.sub_diag. replace (Datatypes.S (length i) - length i)%nat with 1%nat by lia. reflexivity.
  Qed.
  Lemma t_psd_fisher F infos fixed x : create q = Ok infos -> parameters q (Some true) = Ok fixed -> flatten q false = Ok (Flattener infos fixed false, x) -> Rep b q infos q x -> fisher_matrix_of L q F ->
    shp F = (b ++ [flat_size q; flat_size q])%list /\ forall i a c, inb b i = true -> (a < flat_size q)%nat -> (c < flat_size q)%nat -> tget F (i ++ [a; c])%list = Fin (fisher b q infos fixed i a c).
  Proof.
    intros C P F' R (fl & x' & b' & k & Fl & Sx & SF & Ent). rewrite F' in Fl. injection Fl as <- <-. pose proof (proj1 R) as Sx'. rewrite Sx in Sx'. apply app_inj_tail in Sx' as [-> ->].
    split; [exact SF|]. intros i a c Hi Ha Hc.
    destruct (Ent i a c Hi Ha Hc) as (Gf & G1 & D & e1 & P1 & A1 & A2 & A3 & A4). destruct (fisher_entry solve b q W N Sq Hd NC infos fixed x C P R i Hi a c) as (eps & E0 & E1 & E2 & E3). rewrite A4. f_equal.
    set (e := Rmin e1 eps). assert (Pe : 0 < e) by (now apply Rmin_glb_lt). assert (L1 : e <= e1) by apply Rmin_l. assert (L2 : e <= eps) by apply Rmin_r.
    assert (Q : forall s t, Rabs s < e -> Rabs t < e -> Gf s t = rsum (map (fun pq => gg b q infos fixed i a c pq s t) (leaves [] q))).
    { intros s t Hs Ht. destruct (A1 s t ltac:(lra) ltac:(lra)) as (d & y & U1 & U2 & U3). destruct (E1 s t ltac:(lra) ltac:(lra)) as (d' & y' & V1 & V2 & V3). rewrite U1 in V1. injection V1 as <-. rewrite U2 in V2. injection V2 as <-. rewrite U3 in V3. now injection V3. }
    assert (Q1 : forall s, Rabs s < e -> rsum (map (fun pq => g1 b q infos fixed i a c pq s) (leaves [] q)) = G1 s).
    { intros s Hs. pose proof (proj2 (is_derive_Reals _ _ _) (A2 s ltac:(lra))) as X. pose proof (E2 s ltac:(lra)) as Y. apply is_derive_unique in X. rewrite <- X. symmetry. apply is_derive_unique. eapply is_derive_ext_loc; [|exact Y]. apply (loc_abs _ e Pe). intros t Ht. symmetry. now apply Q. }
    apply is_derive_Reals in A3. apply is_derive_unique in A3. rewrite <- A3. apply is_derive_unique. eapply is_derive_ext_loc; [|exact E3]. apply (loc_abs _ e Pe). exact Q1.
  Qed.
  Theorem t_psd F : fisher_matrix_of L q F -> shp F = (b ++ [flat_size q; flat_size q])%list /\ forall i, inb b i = true -> exists M : nat -> nat -> R,
    (forall a c, (a < flat_size q)%nat -> (c < flat_size q)%nat -> tget F (i ++ [a; c])%list = Fin (M a c) /\ M a c = M c a) /\ forall z : nat -> R, 0 <= sumR (flat_size q) (fun a => sumR (flat_size q) (fun c => z a * M a c * z c)).
  Proof.
    intros HF. destruct setup as (infos & fixed & x & C & P & F' & R). destruct (t_psd_fisher F infos fixed x C P F' R HF) as [SF E].
    split; [exact SF|]. intros i Hi. exists (fisher b q infos fixed i). split; [|exact (fisher_psd b q W N Sq Hd NC infos fixed C P i Hi)].
    intros a c Ha Hc. split; [now apply E|exact (fisher_sym b q W N Sq Hd NC infos fixed C P i Hi a c)].
  Qed.
  Lemma jdet_val F k i M : shp F = (b ++ [k; k])%list -> inb b i = true -> (forall a c, (a < k)%nat -> (c < k)%nat -> tget F (i ++ [a; c])%list = Fin (M a c)) -> exists t, jdet F = Ok t /\ shp t = b /\ tget t i = Fin (rdet k M).
  Proof.
    intros SF Hi E. unfold jdet. rewrite SF, rev_app_distr. cbn [rev app]. rewrite Nat.eqb_refl, rev_involutive. eexists. split; [reflexivity|]. split; [reflexivity|]. rewrite tget_tbuild by exact Hi. unfold xdet.
    rewrite (map_ext_in _ (fun j => Fin (M (nth 0 j 0%nat) (nth 1 j 0%nat)))). 2:{ intros j Hj. apply in_indices in Hj. destruct (inb2 _ _ _ Hj) as (a & c & -> & Ha & Hc). cbn [nth]. now apply E. }
    rewrite (entries_R k (fun j => M (nth 0 j 0%nat) (nth 1 j 0%nat))). f_equal. apply rdet_ext. intros a c Ha Hc. unfold entries. now rewrite nth_mat.
  Qed.
  Theorem t_jeffreys fisher_matrix F : fisher_matrix q = Ok F -> fisher_matrix_of L q F -> exists t, jeffreys_prior fisher_matrix q = Ok t /\ shp t = b /\ forall i, inb b i = true -> exists r (M : nat -> nat -> R),
    tget t i = Fin r /\ 0 <= r /\ r * r = rdet (flat_size q) M /\ forall a c, (a < flat_size q)%nat -> (c < flat_size q)%nat -> tget F (i ++ [a; c])%list = Fin (M a c).
  Proof.
    intros E HF. destruct (t_psd F HF) as [SF X]. unfold jeffreys_prior. rewrite E. cbn [bind]. set (k := flat_size q) in *.
    assert (J : exists t, jdet F = Ok t /\ shp t = b). { unfold jdet. rewrite SF, rev_app_distr. cbn [rev app]. rewrite Nat.eqb_refl, rev_involutive. eauto. }
    destruct J as (t & J1 & J2). rewrite J1. cbn [bind]. eexists. split; [reflexivity|]. split; [rewrite shp_tmap; exact J2|]. intros i Hi. destruct (X i Hi) as (M & M1 & M2).
    destruct (jdet_val F k i M SF Hi (fun a c Ha Hc => proj1 (M1 a c Ha Hc))) as (t' & T1 & T2 & T3). rewrite J1 in T1. injection T1 as <-. pose proof (psd_det k M (fun a c Ha Hc => proj2 (M1 a c Ha Hc)) M2) as P.
    exists (sqrt (rdet k M)), M. rewrite tget_tmap by (now rewrite J2). rewrite T3, xsqrt_Fin by exact P. split; [reflexivity|]. split; [apply sqrt_pos|]. split; [now apply sqrt_sqrt|]. intros a c Ha Hc. exact (proj1 (M1 a c Ha Hc)).
  Qed.
End Thms.
