(** The scipy replacements of the von Mises and geometric distributions have the density of the natural parametrization (C61). *)
From Coquelicot Require Import Coquelicot.
From Coq Require Import String List Bool Arith ZArith Reals Lra Lia.
From Verif Require Import Base XReal Tensor TensorFacts BroadcastFacts DictFacts Support Dist Iteration Structure Tools Joint Spec SumSpec DotSpec PointSpec PointFacts DensSpec SpecFun Expr FamTy Val Fam FamR FamVal DerivFacts DensVal DensThms ConvFacts LeafVal ConvThms IntSpec IntFacts IntFam
  DotFacts DotLaws MatFacts MatVal MatDeriv IntMat DetInv TextSpec TextFacts TextVec TextMat TextThms IntThms SampleThms VarThms MethodSpec Kappa KappaThms BesselFn Law2 BlockDet Scipy ScipyShaped ScipyFacts ScipyThms ScipyAgree ScipyRest ScipyDir ScipyMv ScipyMvFacts.
Import ListNotations.
Local Unset Asymmetric Patterns.
Local Open Scope string_scope.
Local Open Scope R_scope.
Local Notation C := Complex.C (only parsing).
Local Existing Instance Scipy.Dflt_C.
Local Existing Instance Scipy.Dflt_R.

(** ** geometric *)
Lemma trials_S k : trials (INR (S k)) = Some k.
Proof. unfold trials. rewrite Int_part_INR. replace (Z.to_nat (Z.of_nat (S k) - 1)) with k by lia. now destruct (Req_EM_T _ _). Qed.
Lemma trials_none z : (forall k, z <> INR (S k)) -> trials z = None.
Proof. intros H. unfold trials. destruct (Req_EM_T z (INR (S (Z.to_nat (Int_part z - 1))))) as [E|]; [|reflexivity]. now apply H in E. Qed.
Lemma in_dat b (p : tensor R) v : shp p = b -> In v (dat p) -> exists i, inb b i = true /\ v = tget p i.
Proof.
  intros E I. rewrite <- (tbuild_eta p) in I. cbn in I. apply in_map_iff in I as (i & <- & Hi). apply in_indices in Hi. rewrite E in Hi. eauto.
Qed.
Theorem geometric_pmf_spec b (p z : tensor R) : shp p = b -> shp z = b -> (forall i, inb b i = true -> 0 < tget p i <= 1) ->
  exists r, scipy_geometric_pmf p z = Ok r /\ shp r = b /\ forall i, inb b i = true -> (forall k, tget z i = INR (S k) -> tget r i = geometric_pmf (tget p i) k) /\ ((forall k, tget z i <> INR (S k)) -> tget r i = 0).
Proof.
  intros Ep Ez H. unfold scipy_geometric_pmf. rewrite (proj2 (forallb_forall _ _)).
  - rewrite tmap2_same by congruence. eexists. split; [reflexivity|]. split; [exact Ep|]. intros i Hi. rewrite tget_tbuild by now rewrite Ep. unfold geom_pmf. split.
    + intros k E. rewrite E, trials_S. unfold geometric_pmf. ring.
    + intros N. now rewrite trials_none.
  - intros v Hv. destruct (in_dat b p v Ep Hv) as (i & Hi & ->). specialize (H i Hi). destruct (Rlt_dec 0 (tget p i)); [|lra]. destruct (Rle_dec (tget p i) 1); [reflexivity|lra].
Qed.
Theorem agree_geometric solve b q e (p z : tensor R) : to_exp (fam_methods solve) q = Ok e -> (forall i, inb b i = true -> proper b i Geometric q) -> shp p = b -> shp z = b ->
  (forall i, inb b i = true -> tget p i = 1 / (1 + par e i "mean" [])) ->
  exists r, scipy_geometric_pmf p z = Ok r /\ shp r = b /\
    forall i xe xv, inb b i = true -> observed b i q xe xv -> sample_space Geometric 0 xv -> tget z i = xv false [] + 1 -> density (fam_methods solve) b i q xe (tget r i).
Proof.
  intros E Pq Ep Ez Hp.
  assert (P : forall i, inb b i = true -> nat_dom Geometric 0 (point_of q i) /\ tget p i = 1 - exp (par q i "log_not_p" [])).
  { intros i Hi. destruct (proper_dims b i Geometric q (Pq i Hi)) as (n & Dn & _ & Hd & _). destruct (exp_params solve b Geometric q n e eq_refl Pq Dn E i Hi) as (P & _ & _). split; [exact Hd|]. cbn [nat_dom] in Hd. rewrite (Hp i Hi).
    assert (Em : par e i "mean" [] = 1 / (exp (- par q i "log_not_p" []) - 1)) by exact (par_exp Geometric n _ e i (var "mean" (ScalarS positive_support)) [] P ltac:(cbn; tauto) eq_refl).
    rewrite Em. change (point_of q i false "log_not_p" []) with (par q i "log_not_p" []) in Hd. rewrite exp_Ropp. set (u := exp (par q i "log_not_p" [])). assert (U : 0 < u < 1) by (destruct (exp_lt1 _ Hd); split; assumption). field. repeat split; lra. }
  destruct (geometric_pmf_spec b p z Ep Ez) as (r & R1 & R2 & R3).
  - intros i Hi. destruct (P i Hi) as [Hd ->]. cbn [nat_dom] in Hd. destruct (exp_lt1 _ Hd) as [E1 E2]. unfold par. lra.
  - exists r. split; [exact R1|]. split; [exact R2|]. intros i xe xv Hi O Sx Hz. destruct (P i Hi) as [Hd Hpi]. destruct (proper_dims b i Geometric q (Pq i Hi)) as (n & Dn & _ & _ & Dk & _). cbn [nat_dom] in Hd. destruct (exp_lt1 _ Hd) as [E1 E2].
    destruct Sx as (k & Hk). cbn zeta in Hk. assert (Z : tget z i = INR (S k)) by (rewrite S_INR; lra). rewrite (proj1 (R3 i Hi) k Z). apply (density_eq (fam_methods solve) b i q xe (geometric_pmf (tget p i) (knat (xv false [])))); [|now rewrite Hk, knat_INR].
    refine (textbook solve b i Geometric q n xe xv (fun x => geometric_pmf (tget p i) (knat (x false []))) (Pq i Hi) Dn O _ _).
    + now exists k.
    + exists (tget p i). split; [rewrite Hpi; unfold par; lra|]. split; [rewrite Hpi; unfold par; replace (1 - (1 - exp (point_of q i false "log_not_p" []))) with (exp (point_of q i false "log_not_p" [])) by ring; symmetry; apply ln_exp|]. intros x m Em. now rewrite Em, knat_INR.
Qed.

(** ** von Mises *)
Lemma bcast_same {A} `{Dflt A} (t : tensor A) s : shp t = s -> tbroadcast_to s t = Ok t.
Proof.
  intros E. unfold tbroadcast_to. rewrite E, bshape_same. destruct (list_eq_dec Nat.eq_dec s s) as [_|N]; [|congruence]. f_equal. transitivity (tbuild (shp t) (tget t)); [|apply tbuild_eta]. rewrite E. apply tbuild_ext. intros i Hi. now rewrite bidx_id.
Qed.
Section Vm.
  Context {G : Type} (draw : list nat -> shape -> G -> tensor R * G).
  Theorem vm_pdf b (kappa loc : tensor R) (x : tensor C) : shp kappa = b -> shp loc = b -> (forall i, inb b i = true -> 0 < tget kappa i) -> shp x = b ->
    exists d r, vm_dist kappa (Some loc) draw = Ok d /\ sd_pdf d x = Ok r /\ shp r = b /\ forall i, inb b i = true -> tget r i = vonmises_pdf (tget kappa i) (tget loc i) (fst (tget x i)).
  Proof.
    intros Ek El H Ex. unfold vm_dist. rewrite Ek, El, bshape_same. rewrite (bcast_same kappa b Ek), (bcast_same loc b El). cbn [bind].
    match goal with |- exists d r, Ok ?w = Ok d /\ _ => set (D := w); exists D end. assert (Ex' : shp x = (b ++ [])%list) by now rewrite app_nil_r.
    assert (K : forall i, inb b i = true -> exists w, o_pdf (sd_objects D i) (tsub x i) = Ok w /\ shp w = [] /\ tget w [] = vonmises_pdf (tget kappa i) (tget loc i) (fst (tget x i))).
    { intros i Hi. cbn [D sd_objects vm_obj o_pdf]. destruct (Rlt_dec 0 (tget kappa i)) as [_|N]; [|now specialize (H i Hi)]. destruct (tindex_ok b [] x i Ex' Hi) as (_ & T2 & T3). eexists. split; [reflexivity|]. rewrite T2. split; [reflexivity|]. rewrite tget_tbuild by reflexivity. rewrite T3 by reflexivity. now rewrite app_nil_r. }
    destruct (pdf_spec D x [] Ex') as (r & P1 & P2 & P3).
    - intros i Hi. destruct (K i Hi) as (w & W1 & W2 & _). eauto.
    - exists r. split; [reflexivity|]. split; [exact P1|]. split; [exact P2|]. intros i Hi. destruct (K i Hi) as (w & W1 & W2 & W3). specialize (P3 i Hi). rewrite W1 in P3. injection P3 as ->. rewrite <- W3. reflexivity.
  Qed.
  Lemma vm_default b kappa : shp kappa = b -> vm_dist kappa None draw = vm_dist kappa (Some (tfull b 0)) draw.
  Proof. now intros <-. Qed.
  Lemma vonmises_fisher2 kappa loc t : 0 < kappa -> vonmises_pdf kappa loc t = von_mises_fisher_pdf 2 kappa (fun k => match k with O => cos loc | _ => sin loc end) (fun k => match k with O => cos t | _ => sin t end).
  Proof.
    intros Hk. pose proof PI_RGT_0. unfold vonmises_pdf, von_mises_fisher_pdf. replace (INR 2 / 2 - 1) with 0 by (cbn; field). replace (INR 2 / 2) with 1 by (cbn; field). rewrite Rpower_O by lra. rewrite Rpower_1 by lra. rewrite !sumR_S, sumR_0, Rplus_0_l, cos_minus.
    replace (cos loc * cos t + sin loc * sin t) with (cos t * cos loc + sin t * sin loc) by ring. field. split; [apply Rgt_not_eq, bessel_pos; lra|lra].
  Qed.
  Theorem agree_von_mises solve b q (kappa loc : tensor R) (x : tensor C) : dims_of q = Ok 2%nat -> (forall i, inb b i = true -> proper b i VonMisesFisher q) -> shp kappa = b -> shp loc = b ->
    (forall i, inb b i = true -> 0 <= tget kappa i /\ tget kappa i * cos (tget loc i) = par q i "mean_times_concentration" [0%nat] /\ tget kappa i * sin (tget loc i) = par q i "mean_times_concentration" [1%nat]) -> shp x = b ->
    exists d r, vm_dist kappa (Some loc) draw = Ok d /\ sd_pdf d x = Ok r /\ shp r = b /\
      forall i xe xv, inb b i = true -> observed b i q xe xv -> xv false [0%nat] = cos (fst (tget x i)) -> xv false [1%nat] = sin (fst (tget x i)) -> density (fam_methods solve) b i q xe (tget r i).
  Proof.
    intros D Pq Ek El H Ex.
    assert (Kp : forall i, inb b i = true -> 0 < tget kappa i).
    { intros i Hi. destruct (H i Hi) as (K0 & K1 & K2). destruct (proper_dims b i VonMisesFisher q (Pq i Hi)) as (n & Dn & _ & (k0 & Hk & Nk) & _). assert (n = 2%nat) by congruence. subst n. destruct (Req_dec (tget kappa i) 0) as [Z|]; [|lra]. exfalso. apply Nk. rewrite Z in *. unfold par in *.
      assert (k0 = 0%nat \/ k0 = 1%nat) as [-> | ->] by lia; [rewrite <- K1|rewrite <- K2]; ring. }
    destruct (vm_pdf b kappa loc x Ek El Kp Ex) as (d & r & R1 & R2 & R3 & R4). exists d, r. split; [exact R1|]. split; [exact R2|]. split; [exact R3|]. intros i xe xv Hi O X0 X1. rewrite (R4 i Hi). destruct (H i Hi) as (_ & K1 & K2). pose proof (Kp i Hi) as K0.
    apply (density_eq (fam_methods solve) b i q xe (von_mises_fisher_pdf 2 (tget kappa i) (fun k => match k with 0%nat => cos (tget loc i) | _ => sin (tget loc i) end) (fun k => xv false [k]))).
    - refine (textbook solve b i VonMisesFisher q 2 xe xv (fun x => von_mises_fisher_pdf 2 _ _ (fun k => x false [k])) (Pq i Hi) D O _ _).
      + cbn [sample_space]. cbv zeta. rewrite !sumR_S, sumR_0, X0, X1. pose proof (sin2_cos2 (fst (tget x i))) as E. unfold Rsqr in E. lra.
      + exists (tget kappa i), (fun k => match k with 0%nat => cos (tget loc i) | _ => sin (tget loc i) end). split; [exact K0|]. split; [rewrite !sumR_S, sumR_0; pose proof (sin2_cos2 (tget loc i)) as E; unfold Rsqr in E; lra|]. split; [|reflexivity].
        intros k Hk. assert (k = 0%nat \/ k = 1%nat) as [-> | ->] by lia; [now rewrite K1|now rewrite K2].
    - rewrite (vonmises_fisher2 _ _ _ K0). unfold von_mises_fisher_pdf. now rewrite !sumR_S, !sumR_0, X0, X1.
  Qed.

  (** ** von Mises-Fisher *)
  Theorem vmf_pdf b n (mu kappa : tensor R) (x : tensor C) : (2 <= n)%nat -> shp mu = (b ++ [n])%list -> shp kappa = b -> (forall i, inb b i = true -> 0 < tget kappa i /\ sumR n (fun k => tget mu (i ++ [k])%list * tget mu (i ++ [k])%list) = 1) -> shp x = (b ++ [n])%list ->
    (forall i, inb b i = true -> sumR n (fun k => fst (tget x (i ++ [k])%list) * fst (tget x (i ++ [k])%list)) = 1) ->
    exists d r, vmf_dist mu kappa draw = Ok d /\ sd_pdf d x = Ok r /\ shp r = b /\ forall i, inb b i = true -> tget r i = von_mises_fisher_pdf n (tget kappa i) (fun k => tget mu (i ++ [k])%list) (fun k => fst (tget x (i ++ [k])%list)).
  Proof.
    intros Hn Em Ek H Ex Hx. unfold vmf_dist. rewrite Em, Ek, app_length, last_snoc, removelast_snoc. destruct (list_eq_dec Nat.eq_dec b b) as [_|N]; [|congruence]. cbn [negb]. rewrite (proj2 (Nat.eqb_neq _ 0)) by (cbn; lia).
    rewrite (mapM_ok _ (fun _ => tt)).
    2: { intros i Hi. apply in_indices in Hi. destruct (H i Hi) as [H1 H2]. rewrite (proj2 (Nat.leb_le 2 n) Hn). destruct (Req_EM_T _ _) as [_|N]; [|now elim N]. destruct (Rlt_dec _ _) as [_|N]; [reflexivity|now elim N]. }
    cbn [bind]. match goal with |- exists d r, Ok ?w = Ok d /\ _ => set (D := w); exists D end.
    assert (K : forall i, inb b i = true -> exists w, o_pdf (sd_objects D i) (tsub x i) = Ok w /\ shp w = [] /\ tget w [] = von_mises_fisher_pdf n (tget kappa i) (fun k => tget mu (i ++ [k])%list) (fun k => fst (tget x (i ++ [k])%list))).
    { intros i Hi. cbn [D sd_objects vmf_obj o_pdf]. destruct (tindex_ok b [n] x i Ex Hi) as (_ & T2 & T3). rewrite T2. cbn [last removelast]. rewrite Nat.eqb_refl. cbn [negb]. rewrite (proj2 (forallb_forall _ _)).
      - eexists. split; [reflexivity|]. split; [reflexivity|]. rewrite tget_tbuild by reflexivity. unfold von_mises_fisher_pdf. do 3 f_equal. apply sumR_exti. intros k Hk. cbn [app]. now rewrite T3 by now apply in1.
      - intros j Hj. apply in_indices in Hj. destruct j; [|discriminate]. destruct (Req_EM_T _ _) as [_|N]; [reflexivity|]. elim N. rewrite <- (Hx i Hi). apply sumR_exti. intros k Hk. cbn [app]. now rewrite T3 by now apply in1. }
    destruct (pdf_spec D x [n] Ex) as (r & P1 & P2 & P3).
    - intros i Hi. destruct (K i Hi) as (w & W1 & W2 & _). eauto.
    - exists r. split; [reflexivity|]. split; [exact P1|]. split; [exact P2|]. intros i Hi. destruct (K i Hi) as (w & W1 & W2 & W3). specialize (P3 i Hi). rewrite W1 in P3. injection P3 as ->. rewrite <- W3. reflexivity.
  Qed.
  Theorem agree_von_mises_fisher solve b q n (mu kappa : tensor R) (x : tensor C) : (2 <= n)%nat -> dims_of q = Ok n -> (forall i, inb b i = true -> proper b i VonMisesFisher q) -> shp mu = (b ++ [n])%list -> shp kappa = b ->
    (forall i, inb b i = true -> tget kappa i = sqrt (sumR n (fun k => par q i "mean_times_concentration" [k] * par q i "mean_times_concentration" [k]))) ->
    (forall i k, inb b i = true -> (k < n)%nat -> tget mu (i ++ [k])%list = par q i "mean_times_concentration" [k] / tget kappa i) -> shp x = (b ++ [n])%list ->
    (forall i, inb b i = true -> sumR n (fun k => fst (tget x (i ++ [k])%list) * fst (tget x (i ++ [k])%list)) = 1) ->
    exists d r, vmf_dist mu kappa draw = Ok d /\ sd_pdf d x = Ok r /\ shp r = b /\ forall i xe, inb b i = true -> observed b i q xe (obs_at x i) -> density (fam_methods solve) b i q xe (tget r i).
  Proof.
    intros Hn D Pq Em Ek Hk Hm Ex Hx.
    assert (Kp : forall i, inb b i = true -> 0 < tget kappa i /\ sumR n (fun k => tget mu (i ++ [k])%list * tget mu (i ++ [k])%list) = 1).
    { intros i Hi. destruct (proper_dims b i VonMisesFisher q (Pq i Hi)) as (n' & Dn & _ & (k0 & K0 & N0) & _). assert (n' = n) by congruence. subst n'. set (v := fun k => par q i "mean_times_concentration" [k]).
      assert (Sp : 0 < sumR n (fun k => v k * v k)). { assert (v k0 * v k0 <= sumR n (fun k => v k * v k)) by (apply (sumR_term n (fun k => v k * v k) k0); [intros; nra|exact K0]). assert (0 < v k0 * v k0) by (change (v k0 <> 0) in N0; nra). lra. }
      assert (Q : 0 < tget kappa i) by (rewrite (Hk i Hi); now apply sqrt_lt_R0). assert (Kq : tget kappa i * tget kappa i = sumR n (fun k => v k * v k)) by (rewrite (Hk i Hi); apply sqrt_def; left; exact Sp). split; [exact Q|].
      rewrite (sumR_ext n _ (fun k => / (tget kappa i * tget kappa i) * (v k * v k))) by (intros k Hk'; rewrite (Hm i k Hi Hk'); unfold v; field; lra). rewrite sumR_scal, Kq. field. lra. }
    destruct (vmf_pdf b n mu kappa x Hn Em Ek Kp Ex Hx) as (d & r & R1 & R2 & R3 & R4). exists d, r. split; [exact R1|]. split; [exact R2|]. split; [exact R3|]. intros i xe Hi O. rewrite (R4 i Hi). destruct (Kp i Hi) as [Q1 Q2].
    refine (textbook solve b i VonMisesFisher q n xe (obs_at x i) (fun x => von_mises_fisher_pdf n _ _ (fun k => x false [k])) (Pq i Hi) D O _ _).
    - exact (Hx i Hi).
    - exists (tget kappa i), (fun k => tget mu (i ++ [k])%list). split; [exact Q1|]. split; [exact Q2|]. split; [|reflexivity]. intros k Hk'. rewrite (Hm i k Hi Hk'). unfold par. field. lra.
  Qed.
End Vm.

(** with the concentration and angle of to_kappa_angle, as in tests/create_info.py:397-400 *)
Theorem agree_von_mises_angle {G} (draw : list nat -> shape -> G -> tensor R * G) solve b q (k a : tensor xr) (kappa loc : tensor R) (x : tensor C) : dims_of q = Ok 2%nat -> (forall i, inb b i = true -> proper b i VonMisesFisher q) -> to_kappa_angle q = Ok (k, a) ->
  shp kappa = b -> shp loc = b -> (forall i, inb b i = true -> tget k i = Fin (tget kappa i) /\ tget a i = Fin (tget loc i)) -> shp x = b ->
  exists d r, vm_dist kappa (Some loc) draw = Ok d /\ sd_pdf d x = Ok r /\ shp r = b /\
    forall i xe xv, inb b i = true -> observed b i q xe xv -> xv false [0%nat] = cos (fst (tget x i)) -> xv false [1%nat] = sin (fst (tget x i)) -> density (fam_methods solve) b i q xe (tget r i).
Proof.
  intros D Pq K Ek El H Ex. apply (agree_von_mises draw solve b q kappa loc x D Pq Ek El); [|exact Ex]. intros i Hi. pose proof (Pq i Hi) as (C & W & Sh & _ & n & Dn & Fn & _). assert (n = 2%nat) by congruence. subst n.
  destruct (t_kappa_angle b i q) as (k' & a' & r & t & K' & _ & _ & R1 & R2 & R3 & _ & _ & R4 & R5). { repeat split; try assumption. }
  rewrite K in K'. injection K' as <- <-. destruct (H i Hi) as [H1 H2]. rewrite H1 in R1. rewrite H2 in R2. injection R1 as ->. injection R2 as ->. auto.
Qed.
