(** Concrete cases for C57 to C60. *)
From Coquelicot Require Import Coquelicot.
From Coq Require Import String List Bool Arith Reals Lra Lia.
From Verif Require Import Base XReal Tensor TensorFacts BroadcastFacts DictFacts Support Dist Iteration Structure Spec Tools Joint SpecFun FamTy Val Fam FamR FamVal SumSpec DotSpec PointSpec PointFacts ConvEx Examples KlThms StructThms DensSpec DensEx LeafVal BroadcastFacts VarThms DensVal DensThms MatEx TextSpec TextThms TextEx
  Scipy ScipyShaped ScipyFacts ScipyThms ScipyAgree ScipyRest ScipyDir ScipyRvs.
Import ListNotations.
Local Unset Asymmetric Patterns.
Local Open Scope string_scope.
Local Open Scope R_scope.
Local Notation C := Complex.C (only parsing).
Local Existing Instance Scipy.Dflt_C.
Local Existing Instance Scipy.Dflt_R.

(** ** C57: two objects with known densities, draws and entropies, in an array of shape (2,) *)
Definition so (k : R) : sobj nat := SObj (fun x => Ok (tscalar (k + fst (tget x [])))) (fun size g => Ok (tfull size (INR g, k), S g)) (Ok (tscalar (2 * k))).
Definition sd : sdist nat := SDist [2]%nat [] false (fun i => so (INR (hd 0%nat i))).
Definition sx : tensor C := mkT [2]%nat [RtoC 5; RtoC 7] eq_refl.
Lemma sd_pdf_ok : exists r, sd_pdf sd sx = Ok r /\ shp r = [2]%nat /\ tget r [0]%nat = 0 + 5 /\ tget r [1]%nat = 1 + 7.
Proof.
  destruct (pdf_spec sd sx []) as (r & R1 & R2 & R3); [reflexivity|intros i Hi; eexists; split; reflexivity|]. exists r. split; [exact R1|]. split; [exact R2|]. split.
  - specialize (R3 [0]%nat eq_refl). cbn [sd sd_objects so o_pdf hd] in R3. injection R3 as E. rewrite <- E. cbn. ring.
  - specialize (R3 [1]%nat eq_refl). cbn [sd sd_objects so o_pdf hd] in R3. injection R3 as E. rewrite <- E. cbn. ring.
Qed.
Lemma sd_rvs_ok : exists r, sd_rvs sd (SizeInt 3) 0%nat = Ok (r, 2%nat) /\ shp r = [2; 3]%nat /\ tget r [0; 2]%nat = (0, 0) /\ tget r [1; 0]%nat = (1, 1).
Proof. eexists. split; [reflexivity|]. split; [reflexivity|]. split; reflexivity. Qed.
Definition sjoint : dict string (sjobj nat) := [("a", of_shaped sd); ("b", of_shaped sd)].
Lemma sjoint_pdf : exists r, sj_pdf sjoint [("b", sx); ("a", sx)] = Ok r /\ shp r = [2]%nat.
Proof.
  destruct sd_pdf_ok as (t & T1 & T2 & _). destruct (joint_pdf_spec [2]%nat sjoint [("b", sx); ("a", sx)] (fun _ => t)) as (r & R1 & R2 & _).
  - repeat constructor; cbn; intuition discriminate.
  - repeat constructor; cbn; intuition discriminate.
  - intros n. cbn. tauto.
  - discriminate.
  - intros k d x I1 I2. cbn in I1, I2. destruct I1 as [I1|[I1|[]]], I2 as [I2|[I2|[]]]; injection I1 as <- <-; try discriminate I2; injection I2 as <-; now split.
  - eauto.
Qed.

(** ** C58 *)
Section S.
  Context {G : Type} (gen : @gen_mvn_t G) (solve : minimizer -> dist -> nat -> xr).
  Lemma has_exp b f q i : unclipped f = (fun _ => True) -> inb b i = true -> proper b i f q -> exists e, to_exp (fam_methods solve) q = Ok e.
  Proof.
    intros U Hi Pq. destruct (proper_dims b i f q Pq) as (n & D1 & D2 & D3 & D4 & _). destruct Pq as (C & W & Sh & _ & _). rewrite (api_exp_leaf _ q f C).
    destruct (exp_at solve b i q f n (point_of q i) Hi ltac:(now apply at_pt_self) D3) as (e & E & _); [now rewrite U|]. eauto.
  Qed.
  Definition cn_agrees b q x : Prop := exists m v u c r, cn_array (Some (NArr false m)) (Some (NArr true v)) (Some (NArr false u)) = Ok c /\ sd_pdf (cn_dist gen c) x = Ok r /\ shp r = b /\
      forall i xe, inb b i = true -> observed b i q xe (obs_at x i) -> density (fam_methods solve) b i q xe (tget r i).
  Lemma dx_cn_agrees z : cn_agrees [] dx_cn (tscalar z).
  Proof.
    destruct (has_exp [] ComplexNormal dx_cn [] eq_refl eq_refl dx_cn_proper) as (e & E). set (m := cpar e [] "mean" []).
    destruct (agree_cn gen solve [] dx_cn e 1 eq_refl E (tscalar m) (tscalar (RtoC (par e [] "second_moment" [] - Cmod m ^ 2))) (tscalar (cpar e [] "pseudo_second_moment" [] - m * m)%C) (tscalar z)) as (c & r & H).
    - intros i Hi. destruct i; [exact dx_cn_proper|discriminate].
    - reflexivity.
    - reflexivity.
    - reflexivity.
    - intros i Hi. destruct i; [|discriminate]. cbn. auto.
    - reflexivity.
    - exists (tscalar m), (tscalar (RtoC (par e [] "second_moment" [] - Cmod m ^ 2))), (tscalar (cpar e [] "pseudo_second_moment" [] - m * m)%C), c, r. exact H.
  Qed.
  Definition ex_cu : dist := Dist (NP ComplexUnitNormal) DefaultMinimizer [("two_mean_conjugate", cvec [(1, 4)]%R [] eq_refl)] [].
  Lemma ex_cu_proper : proper [] [] ComplexUnitNormal ex_cu.
  Proof. do 4 (split; [reflexivity|]). exists 1%nat. split; [reflexivity|]. split; [finc_|]. cbn. exact Logic.I. Qed.
  Lemma ex_cu_agrees z : cn_agrees [] ex_cu (tscalar z).
  Proof.
    destruct (has_exp [] ComplexUnitNormal ex_cu [] eq_refl eq_refl ex_cu_proper) as (e & E). set (m := cpar e [] "mean" []).
    destruct (agree_cu gen solve [] ex_cu e 1 eq_refl E (tscalar m) (tscalar (RtoC 1)) (tscalar (RtoC 0)) (tscalar z)) as (c & r & H).
    - intros i Hi. destruct i; [exact ex_cu_proper|discriminate].
    - reflexivity.
    - reflexivity.
    - reflexivity.
    - intros i Hi. destruct i; [|discriminate]. cbn. auto.
    - reflexivity.
    - exists (tscalar m), (tscalar (RtoC 1)), (tscalar (RtoC 0)), c, r. exact H.
  Qed.
  Definition ex_cmu : dist := Dist (NP ComplexMultivariateUnitNormal) DefaultMinimizer [("two_mean_conjugate", cvec [(1, 4); (0, 2)]%R [2]%nat eq_refl)] [].
  Lemma ex_cmu_proper : proper [] [] ComplexMultivariateUnitNormal ex_cmu.
  Proof. do 4 (split; [reflexivity|]). exists 2%nat. split; [reflexivity|]. split; [finc_|]. cbn. exact Logic.I. Qed.
  Lemma ex_cmu_agrees (x : tensor C) : shp x = [2]%nat -> exists m c r, cm_array (Some (NArr false m)) None None = Ok c /\ sd_pdf (cm_dist gen c) x = Ok r /\ shp r = [] /\
      forall i xe, inb [] i = true -> observed [] i ex_cmu xe (obs_at x i) -> density (fam_methods solve) [] i ex_cmu xe (tget r i).
  Proof.
    intros Ex. destruct (has_exp [] ComplexMultivariateUnitNormal ex_cmu [] eq_refl eq_refl ex_cmu_proper) as (e & E). set (m := tbuild [2]%nat (fun j => cpar e [] "mean" j)).
    destruct (agree_cmu gen solve [] ex_cmu e 2 eq_refl E m x) as (c & r & H).
    - intros i Hi. destruct i; [exact ex_cmu_proper|discriminate].
    - reflexivity.
    - intros i k Hi Hk. destruct i; [|discriminate]. cbn [app]. unfold m. now rewrite tget_tbuild by now apply in1.
    - exact Ex.
    - exists m, c, r. exact H.
  Qed.
  Lemma ex_ccs_proper i : inb [2]%nat i = true -> proper [2]%nat i ComplexCircularlySymmetricNormal ex_ccs.
  Proof.
    intros Hi. destruct i as [|[|[|k]] [|? ?]]; try discriminate Hi; do 3 (split; [reflexivity|]); split; [reflexivity| |reflexivity|].
    - exists 2%nat. split; [reflexivity|]. split; [finc_|]. apply hpd2; cbn; lra.
    - exists 2%nat. split; [reflexivity|]. split; [finc_|]. apply hpd2; cbn; lra.
  Qed.
  Lemma ex_ccs_agrees (x : tensor C) : shp x = [2; 2]%nat -> exists v c r, cm_array None (Some (NArr false v)) None = Ok c /\ sd_pdf (cm_dist gen c) x = Ok r /\ shp r = [2]%nat /\
      forall i xe, inb [2]%nat i = true -> observed [2]%nat i ex_ccs xe (obs_at x i) -> density (fam_methods solve) [2]%nat i ex_ccs xe (tget r i).
  Proof.
    intros Ex. destruct (has_exp [2]%nat ComplexCircularlySymmetricNormal ex_ccs [0]%nat eq_refl eq_refl (ex_ccs_proper [0]%nat eq_refl)) as (e & E). set (v := tbuild [2; 2; 2]%nat (fun j => cpar e (firstn 1 j) "variance" (skipn 1 j))).
    destruct (agree_ccs gen solve [2]%nat ex_ccs e 2 eq_refl E v x) as (c & r & H).
    - exact ex_ccs_proper.
    - reflexivity.
    - intros i a c Hi Ha Hc. destruct i as [|k [|? ?]]; try (cbn in Hi; try rewrite andb_false_r in Hi; discriminate Hi). unfold v. rewrite tget_tbuild; [reflexivity|]. apply (inb_app_intro [2]%nat [2; 2]%nat [k] [a; c] Hi). now apply in2.
    - exact Ex.
    - exists v, c, r. exact H.
  Qed.
End S.

(** ** C59 *)
Definition ex_gd : dist := Dist (NP GeneralizedDirichlet) DefaultMinimizer [("alpha_minus_one", vec [1; 2]%R [2]%nat eq_refl); ("gamma", vec [1; 3]%R [2]%nat eq_refl)] [].
Lemma ex_gd_proper : proper [] [] GeneralizedDirichlet ex_gd.
Proof. proper_ 2%nat. ks. Qed.
Definition gd_a (k : nat) : R := match k with 0%nat => 2 | _ => 3 end.
Definition gd_c (k : nat) : R := match k with 0%nat => 8 | _ => 4 end.
Definition gd_x (k : nat) : R := match k with 0%nat => 1 / 2 | _ => 1 / 4 end.
Lemma ex_gd_obs : observed [] [] ex_gd (vec [1 / 2; 1 / 4]%R [2]%nat eq_refl) (fun im j => if im then 0 else gd_x (nth 0 j 0%nat)).
Proof. observed_. destruct j as [|[|[|j]] [|? ?]]; try discriminate; reflexivity. Qed.
Lemma ex_gd_agrees solve : density (fam_methods solve) [] [] ex_gd (vec [1 / 2; 1 / 4]%R [2]%nat eq_refl) (gd_pdf 2 gd_a gd_c gd_x).
Proof.
  apply (agree_gd solve [] [] ex_gd 2 gd_x _ gd_a gd_c ex_gd_proper eq_refl).
  - intros [|[|k]] Hk; [| |lia]; cbn; split; lra.
  - exact ex_gd_obs.
  - intros [|[|k]] Hk; [| |lia]; cbn; lra.
  - unfold sumR. cbn. lra.
Qed.
Definition dir_x : tensor C := mkT [2]%nat [RtoC (1 / 3); RtoC (2 / 3)] eq_refl.
Lemma ex_dir_agrees {G} (draw : list nat -> shape -> G -> tensor R * G) solve : exists d r, dirichlet_dist (mkT [2]%nat [2; 3] eq_refl) draw = Ok d /\ dirichlet_dist_pdf d dir_x = Ok r /\ shp r = [] /\
  density (fam_methods solve) [] [] ex_dir (vec [1 / 3]%R [1]%nat eq_refl) (tget r []).
Proof.
  destruct (agree_dirichlet solve [] ex_dir 2 (mkT [2]%nat [2; 3] eq_refl) draw dir_x) as (d & r & R1 & R2 & R3 & R4).
  - intros i Hi. destruct i; [exact ex_dir_proper|discriminate].
  - reflexivity.
  - reflexivity.
  - intros i k Hi Hk. destruct i; [|discriminate]. destruct k as [|[|k]]; [| |lia]; cbn; lra.
  - reflexivity.
  - intros i Hi. destruct i; [|discriminate]. split; [intros [|[|k]] Hk; [| |lia]; cbn; lra|]. unfold sumR. cbn. lra.
  - exists d, r. split; [exact R1|]. split; [exact R2|]. split; [exact R3|]. apply R4; [reflexivity|]. observed_. destruct j as [|[|j] [|? ?]]; try discriminate; reflexivity.
Qed.

(** ** C60: a generator of shaped draws *)
Definition gen1 : @gen_mvn_t nat := fun n _ _ size g => (tbuild (size ++ [n])%list (fun i => INR (last i 0%nat) + 1), S g).
Lemma gen1_shaped : gen_shaped gen1. Proof. intros n m S size g. reflexivity. Qed.
Definition real1 : narr := NArr true (tscalar (RtoC 1)).
Definition real0 : narr := NArr true (tscalar (RtoC 0)).
Lemma ex_real : exists c, cn_array (Some real0) (Some real1) (Some real0) = Ok c /\ cn_mv_cov (ca_at c []) 1%nat 1%nat = 1 / 2 /\ tget (fst (gen1 2%nat (cn_mv_mean (ca_at c [])) (cn_mv_cov (ca_at c [])) [] 0%nat)) [1]%nat = 2 /\
  exists t, sd_rvs (cn_dist gen1 c) SizeNone 0%nat = Ok (t, 1%nat) /\ snd (tget t []) = 0.
Proof.
  destruct (cn_array_ok [] (tscalar (RtoC 0)) (tscalar (RtoC 1)) (tscalar (RtoC 0)) true true eq_refl eq_refl eq_refl) as (c & C1 & C2 & C3 & C4).
  - intros i Hi. destruct i; [reflexivity|discriminate].
  - intros i Hi. destruct i; [|discriminate]. cbn. rewrite Cmod_0. lra.
  - exists c. split; [exact C1|]. rewrite (C4 [] eq_refl). split; [unfold cn_mv_cov; cbn; field|]. split; [cbn; ring|].
    destruct (cn_rvs gen1 gen1_shaped c SizeNone 0%nat) as (r & st & R1 & R2 & R3 & R4). rewrite C2 in *. exists r. split.
    + rewrite R1. f_equal. f_equal. change (prods []) with 1%nat. destruct (R4 [] eq_refl) as [S1 _]. change (ravel [] []) with 0%nat in S1. rewrite S1, R2. reflexivity.
    + apply (cn_rvs_real gen1 _ _ _ c SizeNone 0%nat r _ [] [] C1 R1); [now rewrite C2|reflexivity].
Qed.
