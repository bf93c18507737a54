(** C51: the Fisher information matrix is the covariance matrix of the sufficient statistics. *)
From Coquelicot Require Import Coquelicot.
From Coq Require Import String List Bool Arith Reals Lia Lra.
From Verif Require Import Base XReal Tensor TensorFacts TensorFacts2 Support SupportSpec Dist DictFacts Iteration Structure Spec StructFacts AssembleFacts SumSpec DotSpec Tools FlattenSpec FlattenFacts RefillFacts
  ToolThms Joint StructThms FlattenThms MappingFacts MapFacts SumFacts JointThms JointThms2 SpecFun GammaFn Expr Fam ExprFacts FamTy FamFacts SearchFacts DotFacts Laws DotLaws BatchFacts PointSpec PointFacts Val MatFacts MatVal FamR FamVal ConvFacts LeafVal ConvThms DerivFacts MatDeriv MatHess MatBreg DerivThms
  KlPos InjThms HessFacts PlaneFacts MleThms Fisher FisherSpec FisherThms FlatLin Jeffreys FisherMat FisherMat2 GenThms DensSpec SampleSpec IntSpec IntFacts IntThms JointIntSpec JointInt DomConv DomConv2 Moments CovSpec Covar Covar2 FisherCovSpec.
Import ListNotations.
Local Unset Asymmetric Patterns.
Local Open Scope string_scope.
Local Open Scope R_scope.

Section D.
  Variable solve : minimizer -> dist -> nat -> xr.
  Let L := fam_methods solve.
  Variables (b : list nat) (q : dist).
  Hypotheses (W : well_formed q = true) (N : nat_tree q = true) (Sq : shaped b q = true) (Hd : forall i, inb b i = true -> tree_in_domain q i)
    (NC : forall p l, In (p, l) (leaves [] q) -> dcls l <> NP ComplexCircularlySymmetricNormal).
  Variables (infos : list info) (fixed : dict path arr) (i : list nat).
  Hypotheses (C : create q = Ok infos) (Fx : parameters q (Some true) = Ok fixed) (Hi : inb b i = true).
  Notation k := (flat_size q).
  Notation u := (dir b q infos fixed i).
  Let NTq := NT q W N.
  Let Ru a : Rep b q infos (u a) (unit_at b q i a) := rep_dir b q W N infos fixed C Fx i a.
  Lemma unit_ents a i' p l fd n : inb b i' = true -> In (p, l) (leaves [] q) -> In fd (variable_fields (dcls l)) -> dims_of l = Ok n -> forall j, inb (supp_shape (fd_support fd) n) j = true ->
    finite_entry (entry_c (gval (leafat (u a) p) fd) (i' ++ j)%list).
  Proof.
    intros Hi' I If D j Hj. pose proof (Ru a) as R. destruct (rep_lin b q infos NTq i' 0 _ _ _ _ _ _ Hi' R R R) with (p := p) (l := l) (fd := fd) (n := n) (j := j) as (x & y & z & w & E1 & _); auto.
    - intros c Hc. unfold unit_at. rewrite tget_tbuild by (now apply inb_snoc_intro). destruct (list_eq_dec Nat.eq_dec (i' ++ [c]) (i ++ [a])) as [E|E]; eexists _, _; (split; [reflexivity|]; split; [reflexivity|]; f_equal; ring).
    - rewrite E1. exists x, y. reflexivity.
  Qed.
  Lemma leaf_back a p l' : In (p, l') (leaves [] (u a)) -> exists l, In (p, l) (leaves [] q) /\ l' = leafat (u a) p.
  Proof.
    intros I. pose proof (Ru a) as (_ & Wu & _ & _ & _ & Li & _). destruct (F2_in _ _ _ _ Li I) as ([p' l] & I' & E & _). cbn [fst] in E. subst p'. exists l. split; [exact I'|]. apply (leaf_in _ p l' Wu) in I as [E _]. unfold leafat. now rewrite E.
  Qed.
  Lemma unit_direction a : direction b i q (u a).
  Proof.
    pose proof (Ru a) as R. pose proof R as (_ & Wu & _ & _ & _ & Li & _). pose proof (rep_skel b q infos W C _ _ R) as Sk. split; [exact Wu|]. split; [exact Sk|].
    assert (Q : forall p l, In (p, l) (leaves [] q) -> exists f n, dcls l = NP f /\ dims_of l = Ok n /\ at_pt b i l (NP f) n (point_of l i) /\ finite_at l n i).
    { intros p l I. destruct (leaf_m b q W N Sq Hd NC i p l Hi I) as (f & n & Cf & _ & _ & D & A & _). destruct (Hd i Hi p l I) as (n' & D' & F & _). assert (n' = n) by congruence. subst n'. eauto 6. }
    split; [|split; [|split]].
    - unfold tree_match. assert (Lq : forall p l, In (p, l) (leaves [] q) -> well_formed l = true /\ leaf_shaped b l = true) by (intros p l I; split; [now destruct (leaf_wf q [] p l W I)|exact (shaped_in b q p l Sq I)]).
      assert (Lu : forall p l', In (p, l') (leaves [] (u a)) -> well_formed l' = true /\ leaf_shaped b l' = true).
      { intros p l' I. destruct (leaf_back a p l' I) as (l & I' & ->). split; [now destruct (leaf_wf (u a) [] p _ Wu I)|]. now destruct (rep_leaf b q infos W Sq (u a) _ p l R I') as (_ & _ & Sl & _). }
      revert Lq Lu. generalize NTq. clear - Li. induction Li as [|[p x] [p' y] l l' (E & K1 & K2 & _) _ IH]; intros T Lq Lu; constructor.
      + cbn [fst snd] in *. split; [now symmetry|]. destruct (Lq p' y (or_introl eq_refl)), (Lu p x (or_introl eq_refl)). destruct (T p' y (or_introl eq_refl)) as [f Hf]. repeat split; auto. exists f. rewrite K1, Hf. split; reflexivity.
      + apply IH; intros; [eapply T|eapply Lq|eapply Lu]; right; eassumption.
    - intros P f v j Pf Ff Pv Hj. destruct (field_leaf (u a) P f Wu Pf) as (p & l' & nm & -> & Dl & Jl & If & <-). assert (I : In (p, l') (leaves [] (u a))) by (now apply leaf_in). destruct (leaf_back a p l' I) as (l & I' & El).
      destruct (Q p l I') as (g & n & Cg & D & _). destruct (rep_leaf b q infos W Sq (u a) _ p l R I') as (_ & (K1 & K2 & K3) & _ & _). rewrite <- El in K1, K2, K3.
      destruct (K3 f) as (v' & n' & N1 & N2 & N3 & _); [apply filter_In; now rewrite Ff|]. assert (n' = n) by congruence. subst n'. rewrite (param_at_dist (u a) p l' _ Dl) in Pv. assert (v' = v). { destruct l' as [c m ps subs]. cbn in N2, Pv. congruence. } subst v'.
      rewrite N3 in Hj. assert (Hj' := Hj). assert (Lj : (length b <= length j)%nat). { apply inb_length in Hj. rewrite app_length in Hj. lia. }
      rewrite <- (firstn_skipn (length b) j) in Hj'. rewrite inb_app in Hj' by (rewrite firstn_length; lia). apply andb_prop in Hj' as [H1 H2].
      pose proof (unit_ents a _ p l f n H1 I') as Z. rewrite firstn_skipn in Z || idtac. specialize (Z ltac:(rewrite <- K1; apply filter_In; now rewrite Ff) D _ H2). rewrite firstn_skipn, <- El in Z. unfold gval in Z. now rewrite N2 in Z.
    - intros p l' I. destruct (leaf_back a p l' I) as (l & I' & El). destruct (Q p l I') as (g & n & Cg & D & _ & Fl). destruct (rep_leaf b q infos W Sq (u a) _ p l R I') as (_ & (K1 & K2 & K3) & _ & X). rewrite <- El in K1, K2, K3, X. exists n. split; [congruence|].
      intros f v j If Ev Hj. destruct (fd_fixed f) eqn:Ff.
      + rewrite K1 in If. rewrite (X f If Ff) in Ev. exact (Fl f v j If Ev Hj).
      + pose proof (unit_ents a i p l f n Hi I' ltac:(rewrite <- K1; apply filter_In; now rewrite Ff) D j Hj) as Z. rewrite <- El in Z. unfold gval in Z. now rewrite Ev in Z.
    - intros p l' I n D x y Hx Hy. destruct (leaf_back a p l' I) as (l & I' & El). destruct (Q p l I') as (g & n' & Cg & D' & _). destruct (rep_leaf b q infos W Sq (u a) _ p l R I') as (_ & (K1 & K2 & _) & _). rewrite <- El in K1, K2. assert (n' = n) by congruence. subst n'.
      destruct (sym_vp b q W N Sq NC infos fixed C Fx i Hi a p l g n I' Cg D') as [Sy _]. split; intros Cl.
      + assert (g = MultivariateNormal) by congruence. subst g. rewrite El. exact (Sy x y Hx Hy).
      + exfalso. apply (NC p l I'). congruence.
  Qed.
  Hypothesis JP : joint_proper b i q.
  Lemma fisher_Qd a c : fisher b q infos fixed i a c = Qd i q (dp i (u a)) (dp i (u c)).
  Proof.
    unfold Qd, fisher. rewrite (over_leaves b i q JP (fun p f n => hL f n (point_of (leafat q p) i) (dp i (u c) p) (dp i (u a) p))). apply rsum_ext. intros [p l] I. destruct (leaf_all b i q JP p l I) as (f & n & _ & E & _ & Fd & Fn & _). unfold g2. cbn [fst snd]. now rewrite Fd, Fn, E.
  Qed.
End D.

Section T.
  Variable solve : minimizer -> dist -> nat -> xr.
  Let L := fam_methods solve.
  Variables (b : list nat) (q : dist).
  Hypotheses (W : well_formed q = true) (N : nat_tree q = true) (Sq : shaped b q = true) (Hd : forall i, inb b i = true -> tree_in_domain q i)
    (NC : forall p l, In (p, l) (leaves [] q) -> dcls l <> NP ComplexCircularlySymmetricNormal).
  Theorem t_fisher_cov F : fisher_matrix_of L q F -> shp F = (b ++ [flat_size q; flat_size q])%list /\ forall i, inb b i = true ->
    (exists P, joint_pdf_is L b i q P) /\ (forall a, (a < flat_size q)%nat -> exists X, flat_statistic L b i q a X) /\
    forall P X Y a c, (a < flat_size q)%nat -> (c < flat_size q)%nat -> joint_pdf_is L b i q P -> flat_statistic L b i q a X -> flat_statistic L b i q c Y ->
      exists m m' D, integral_joint q (fun x => P x * X x) m /\ integral_joint q (fun x => P x * Y x) m' /\ integral_joint q (fun x => P x * ((X x - m) * (Y x - m'))) D /\ tget F (i ++ [a; c])%list = Fin D.
  Proof.
    intros HF. destruct (setup b q W N Sq Hd NC) as (infos & fixed & x & C & P & Fl & R).
    destruct (t_psd_fisher solve b q W N Sq Hd NC F infos fixed x C P Fl R HF) as [SF E]. split; [exact SF|]. intros i Hi. assert (JP : joint_proper b i q) by (repeat split; auto).
    pose proof (unit_direction b q W N Sq Hd NC infos fixed i C P Hi) as Du. set (u := dir b q infos fixed i) in *.
    assert (Ux : forall a, unflatten (Flattener infos fixed false) (one_hot (shp x) (i ++ [a])) = Ok (u a)).
    { intros a. rewrite (proj1 R). destruct (rep_any b q infos fixed W (NT q W N) C P (unit_at b q i a) eq_refl) as (d & D & _). change (one_hot (b ++ [flat_size q]) (i ++ [a])) with (unit_at b q i a). unfold u, dir. now rewrite D. }
    split; [exact (proj1 (joint_normalised solve b i q JP))|]. split. { intros a Ha. eexists. exists (Flattener infos fixed false), x, (u a). split; [exact Fl|]. split; [exact (Ux a)|]. apply (projection solve b i q JP (u a) (Du a)). }
    intros Pd X Y a c Ha Hc HP (fl1 & x1 & u1 & A1 & A2 & A3) (fl2 & x2 & u2 & B1 & B2 & B3). rewrite Fl in A1, B1. injection A1 as <- <-. injection B1 as <- <-. rewrite Ux in A2, B2. injection A2 as <-. injection B2 as <-.
    pose proof (spaces_nodup b i q JP) as Nd. pose proof (dir_ok b i q JP _ (Du a)) as Oa. pose proof (dir_ok b i q JP _ (Du c)) as Oc.
    exists (Hs i q (dp i (u a)) (dp i (u a)) 0), (Hs i q (dp i (u c)) (dp i (u c)) 0), (Qd i q (dp i (u c)) (dp i (u a))). unfold integral_joint. split; [|split; [|split]].
    - eapply joint_ext; [exact Nd| |exact (proj1 (moments b i q JP _ Oa))]. intros xv O. cbv beta. apply spaces_good in O. now rewrite (joint_p_val solve b i q JP Pd HP xv O), (projection_val solve b i q JP _ X (Du a) A3 xv O).
    - eapply joint_ext; [exact Nd| |exact (proj1 (moments b i q JP _ Oc))]. intros xv O. cbv beta. apply spaces_good in O. now rewrite (joint_p_val solve b i q JP Pd HP xv O), (projection_val solve b i q JP _ Y (Du c) B3 xv O).
    - eapply joint_ext; [exact Nd| |exact (covariance0 solve b i q JP _ _ Oa Oc)]. intros xv O. cbv beta. apply spaces_good in O. now rewrite (joint_p_val solve b i q JP Pd HP xv O), (projection_val solve b i q JP _ X (Du a) A3 xv O), (projection_val solve b i q JP _ Y (Du c) B3 xv O).
    - rewrite (E i a c Hi Ha Hc). f_equal. rewrite (fisher_sym b q W N Sq Hd NC infos fixed C P i Hi a c). exact (fisher_Qd b q infos fixed i JP c a).
  Qed.
End T.
