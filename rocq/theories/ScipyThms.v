(** ScipyComplexNormal and ScipyComplexMultivariateNormal as arrays of distributions, and their agreement with the exponential families (C58, C60). *)
From Coquelicot Require Import Coquelicot.
From Coq Require Import String List Bool Arith ZArith Reals Lra Lia.
From Verif Require Import Base XReal Tensor TensorFacts BroadcastFacts DictFacts Support Dist Iteration Structure Tools Joint Spec SumSpec DotSpec PointSpec PointFacts DensSpec SpecFun Val Fam FamR FamVal DerivFacts DensVal DensThms ConvFacts LeafVal ConvThms IntSpec IntFacts IntFam
  DotFacts DotLaws MatFacts MatVal MatDeriv IntMat DetInv TextSpec TextFacts TextVec TextMat TextThms IntThms SampleThms BlockDet Scipy ScipyShaped ScipyFacts.
Import ListNotations.
Local Unset Asymmetric Patterns.
Local Open Scope string_scope.
Local Open Scope R_scope.
Local Notation C := Complex.C (only parsing).
Local Existing Instance Scipy.Dflt_C.
Local Existing Instance Scipy.Dflt_R.

Lemma mapM_ok {X Y} (f : X -> result Y) (g : X -> Y) l : (forall x, In x l -> f x = Ok (g x)) -> mapM f l = Ok (map g l).
Proof. induction l as [|x l IH]; intros H; [reflexivity|]. cbn [mapM map]. rewrite H by now left. cbn [bind]. rewrite IH by (intros; apply H; now right). reflexivity. Qed.
Lemma mapM_err {X Y} (f : X -> result Y) (g : X -> Y) l x0 e : (forall x, In x l -> f x = Ok (g x) \/ f x = Err e) -> In x0 l -> f x0 = Err e -> mapM f l = Err e.
Proof.
  induction l as [|x l IH]; intros H Hi E; [destruct Hi|]. cbn [mapM]. destruct (H x (or_introl eq_refl)) as [K|K]; rewrite K; [|reflexivity]. cbn [bind]. destruct Hi as [->|Hi]; [congruence|]. rewrite IH; auto. intros; apply H; now right.
Qed.

Lemma indices_lt s i : inb s i = true -> (ravel s i < length (indices s))%nat.
Proof. intros Hi. pose proof (ravel_lt s i Hi) as H. pose proof (f_equal (@length nat) (ravel_indices s)) as L. rewrite map_length, seq_length in L. now rewrite L. Qed.
(** ** ScipyComplexNormal(mean, variance, pseudo_variance) *)
Section CN.
  Variables (b : list nat) (m v u : tensor C) (rm ru : bool).
  Hypotheses (Em : shp m = b) (Ev : shp v = b) (Eu : shp u = b).
  Let f i := let* mi := tindex m i in let* vi := tindex v i in let* ui := tindex u i in cn_init mi true vi ui.
  Hypothesis real_v : forall i, inb b i = true -> snd (tget v i) = 0.
  Let obj i := CNormal (tget m i) (fst (tget v i)) (tget u i).
  Lemma cn_entry i : inb b i = true -> f i = if Rlt_dec (fst (tget v i)) (Cmod (tget u i)) then Err ValueError else Ok (obj i).
  Proof.
    intros Hi. unfold f. rewrite !(tindex_full b) by assumption. cbn [bind]. replace (tget v i) with (RtoC (fst (tget v i))) at 1 by (pose proof (real_v i Hi) as R; destruct (tget v i); cbn in *; now rewrite R). rewrite cn_init_scalar. reflexivity.
  Qed.
  Lemma cn_array_ok : (forall i, inb b i = true -> Cmod (tget u i) <= fst (tget v i)) ->
    exists c, cn_array (Some (NArr rm m)) (Some (NArr true v)) (Some (NArr ru u)) = Ok c /\ ca_shape c = b /\ ca_real c = (rm && ru)%bool /\ forall i, inb b i = true -> ca_at c i = obj i.
  Proof.
    intros H. unfold cn_array. cbn [na_val na_real]. rewrite Em. cbn [bind]. fold f. rewrite (mapM_ok f obj).
    - eexists. split; [reflexivity|]. cbn [ca_shape ca_real]. split; [reflexivity|]. split; [destruct rm; cbn; [now rewrite andb_true_r|reflexivity]|]. intros i Hi. unfold ca_at. cbn [ca_shape ca_objects].
      rewrite (nth_indep _ _ (obj [])) by (rewrite map_length; now apply indices_lt). rewrite map_nth, nth_indices by exact Hi. reflexivity.
    - intros i Hi. apply in_indices in Hi. rewrite cn_entry by exact Hi. specialize (H i Hi). destruct (Rlt_dec _ _); [lra|reflexivity].
  Qed.
  Lemma cn_array_reject i : inb b i = true -> fst (tget v i) < Cmod (tget u i) -> cn_array (Some (NArr rm m)) (Some (NArr true v)) (Some (NArr ru u)) = Err ValueError.
  Proof.
    intros Hi H. unfold cn_array. cbn [na_val na_real]. rewrite Em. cbn [bind]. fold f. rewrite (mapM_err f obj _ i ValueError); [reflexivity| | |].
    - intros j Hj. apply in_indices in Hj. rewrite cn_entry by exact Hj. destruct (Rlt_dec _ _); [now right|now left].
    - now apply in_indices.
    - rewrite cn_entry by exact Hi. destruct (Rlt_dec _ _); [reflexivity|contradiction].
  Qed.
End CN.

Section Arrays.
  Context {G : Type} (gen : @gen_mvn_t G).
  Lemma cn_array_pdf c x (m : list nat -> C) (v : list nat -> R) (u : list nat -> C) : shp x = ca_shape c -> (forall i, inb (ca_shape c) i = true -> ca_at c i = CNormal (m i) (v i) (u i) /\ Cmod (u i) < v i) ->
    exists r, sd_pdf (cn_dist gen c) x = Ok r /\ shp r = ca_shape c /\ forall i, inb (ca_shape c) i = true -> tget r i = complex_normal_pdf (m i) (v i) (u i) (tget x i).
  Proof.
    intros Ex H. set (D := cn_dist gen c).
    assert (K : forall i, inb (ca_shape c) i = true -> exists w, o_pdf (sd_objects D i) (tsub x i) = Ok w /\ shp w = [] /\ tget w [] = complex_normal_pdf (m i) (v i) (u i) (tget x i)).
    { intros i Hi. destruct (H i Hi) as [E L]. cbn [D cn_dist sd_objects]. rewrite E. destruct (tindex_ok (ca_shape c) [] x i) as (_ & T2 & T3); [now rewrite app_nil_r|exact Hi|].
      destruct (cn_pdf_ok gen (m i) (v i) (u i) (tsub x i) L) as (r & R1 & R2 & R3). exists r. split; [exact R1|]. rewrite T2 in *. split; [exact R2|]. rewrite R3, T3, app_nil_r by reflexivity. reflexivity. }
    destruct (pdf_spec D x []) as (r & P1 & P2 & P3).
    - cbn. now rewrite app_nil_r.
    - intros i Hi. destruct (K i Hi) as (w & W1 & W2 & _). eauto.
    - exists r. split; [exact P1|]. split; [exact P2|]. intros i Hi. destruct (K i Hi) as (w & W1 & W2 & W3). specialize (P3 i Hi). rewrite W1 in P3. injection P3 as ->. rewrite <- W3. reflexivity.
  Qed.
  Lemma cm_array_pdf c x (m : list nat -> nat -> C) (V U : list nat -> nat -> nat -> C) : let n := cma_dims c in shp x = (cma_shape c ++ [n])%list ->
    (forall i, inb (cma_shape c) i = true -> cma_at c i = CMNormal n (m i) (V i) (U i) /\ hpdC n (V i) /\ forall a b, (a < n)%nat -> (b < n)%nat -> U i a b = RtoC 0) ->
    exists r, sd_pdf (cm_dist gen c) x = Ok r /\ shp r = cma_shape c /\ forall i, inb (cma_shape c) i = true -> tget r i = circularly_symmetric_pdf n (V i) (offset (fun k => tget x (i ++ [k])%list) (m i)).
  Proof.
    intros n Ex H. set (D := cm_dist gen c).
    assert (K : forall i, inb (cma_shape c) i = true -> exists w, o_pdf (sd_objects D i) (tsub x i) = Ok w /\ shp w = [] /\ tget w [] = circularly_symmetric_pdf n (V i) (offset (fun k => tget x (i ++ [k])%list) (m i))).
    { intros i Hi. destruct (H i Hi) as (E & L & Z). cbn [D cm_dist sd_objects]. rewrite E. destruct (tindex_ok (cma_shape c) [n] x i Ex Hi) as (_ & T2 & T3).
      destruct (cm_pdf_ok gen n (m i) (V i) (U i) (tsub x i) L Z) as (r & R1 & R2 & R3); [rewrite T2; discriminate|now rewrite T2|]. exists r. split; [exact R1|]. rewrite T2 in *. split; [exact R2|]. rewrite R3 by reflexivity.
      unfold circularly_symmetric_pdf. f_equal. f_equal. f_equal. apply sumR_exti. intros a Ha. apply sumR_exti. intros b Hb. unfold offset. cbn [app]. rewrite !T3 by (cbn; now apply andb_true_intro; split; [apply Nat.ltb_lt|]). reflexivity. }
    destruct (pdf_spec D x [n] Ex) as (r & P1 & P2 & P3).
    - intros i Hi. destruct (K i Hi) as (w & W1 & W2 & _). eauto.
    - exists r. split; [exact P1|]. split; [exact P2|]. intros i Hi. destruct (K i Hi) as (w & W1 & W2 & W3). specialize (P3 i Hi). rewrite W1 in P3. injection P3 as ->. rewrite <- W3. reflexivity.
  Qed.
End Arrays.

(** ** ScipyComplexMultivariateNormal *)
Section CM.
  Variables (b : list nat) (n : nat) (m v u : tensor C).
  Hypotheses (Em : shp m = (b ++ [n])%list) (Ev : shp v = (b ++ [n; n])%list) (Eu : shp u = (b ++ [n; n])%list).
  Let f i := let* mi := tindex m i in let* vi := tindex v i in let* ui := tindex u i in cm_init mi vi ui.
  Hypothesis HV : forall i, inb b i = true -> hpdC n (fun x y => tget v (i ++ [x; y])%list).
  Hypothesis HU : forall i x y, inb b i = true -> (x < n)%nat -> (y < n)%nat -> tget u (i ++ [x; y])%list = RtoC 0.
  Let obj i := CMNormal n (fun k => tget (tsub m i) [k]) (fun x y => tget (tsub v i) [x; y]) (fun x y => tget (tsub u i) [x; y]).
  Lemma in1 k : (k < n)%nat -> inb [n] [k] = true. Proof. intros H. now apply (inb_snoc_intro [] n [] k). Qed.
  Lemma in2 x y : (x < n)%nat -> (y < n)%nat -> inb [n; n] [x; y] = true. Proof. intros H H'. apply (inb_snoc_intro [n] n [x] y); [now apply in1|exact H']. Qed.
  Lemma cm_entry i : inb b i = true -> f i = Ok (obj i) /\ hpdC n (cm_variance (obj i)) /\ (forall x y, (x < n)%nat -> (y < n)%nat -> cm_pseudo (obj i) x y = RtoC 0) /\ forall k, (k < n)%nat -> cm_mean (obj i) k = tget m (i ++ [k])%list.
  Proof.
    intros Hi. destruct (tindex_ok b [n] m i Em Hi) as (M1 & M2 & M3). destruct (tindex_ok b [n; n] v i Ev Hi) as (V1 & V2 & V3). destruct (tindex_ok b [n; n] u i Eu Hi) as (U1 & U2 & U3).
    assert (HV' : hpdC n (fun x y => tget (tsub v i) [x; y])). { apply (hpd_ext n (fun x y => tget v (i ++ [x; y])%list)); [|exact (HV i Hi)]. intros x y Hx Hy. symmetry. apply V3. now apply in2. }
    assert (HU' : forall x y, (x < n)%nat -> (y < n)%nat -> tget (tsub u i) [x; y] = RtoC 0). { intros x y Hx Hy. rewrite U3 by now apply in2. now apply HU. }
    unfold f. rewrite M1, V1, U1. cbn [bind]. split; [|split; [exact HV'|split; [exact HU'|intros k Hk; apply M3; now apply in1]]]. apply cm_init_ok; auto. intros x y Hx Hy. now rewrite !HU'.
  Qed.
  Lemma cm_objects : exists os, mapM f (indices b) = Ok os /\ forall r c, c = CMArr b n r os -> forall i, inb b i = true -> cma_at c i = obj i.
  Proof.
    exists (map obj (indices b)). split; [apply mapM_ok; intros i Hi; apply cm_entry; now apply in_indices|]. intros r c -> i Hi. unfold cma_at. cbn [cma_shape cma_objects]. rewrite (nth_indep _ _ (obj [])) by (rewrite map_length; now apply indices_lt). rewrite map_nth, nth_indices by exact Hi. reflexivity.
  Qed.
End CM.
