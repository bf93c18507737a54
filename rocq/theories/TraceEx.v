(** Concrete cases for C29 and C42. *)
From Coquelicot Require Import Coquelicot.
From Coq Require Import String List Bool Arith Reals Lia Lra.
From Verif Require Import Base XReal Tensor TensorFacts Support SupportSpec Dist Iteration Structure Spec FlattenSpec Fisher FisherSpec TraceSpec Joint SumSpec DotSpec PointSpec Examples ConvEx JointEx FisherEx Fam.
Import ListNotations.
Local Unset Asymmetric Patterns.
Local Open Scope string_scope.
Local Open Scope R_scope.

(** a two-dimensional normal and a Poisson distribution *)
Definition ex_tr : dist := Dist JointDistributionN DefaultMinimizer []
  [("m", Dist (NP MultivariateNormal) DefaultMinimizer [("mean_times_precision", vec [1; 2] [2]%nat eq_refl); ("negative_half_precision", vec [-2; 1; 1; -3] [2; 2]%nat eq_refl)] []);
   ("p", Dist (NP Poisson) DefaultMinimizer [("log_mean", vec [0] [] eq_refl)] [])].
(** a 6 by 6 matrix *)
Definition ex_tr_F : tensor xr := tbuild [6; 6]%nat (fun i => Fin (INR (hd 0 i * hd 0 i + last i 0)%nat)).
Lemma ex_tr_hyps : well_formed ex_tr = true /\ dist_vals true [] ex_tr /\ unbounded ex_tr /\ flat_size ex_tr = 6%nat /\ shp ex_tr_F = [6; 6]%nat /\ (forall a, (a < 6)%nat -> exists v, tget ex_tr_F [a; a] = Fin v) /\
  sections ex_tr = [(["m"; "mean_times_precision"], (0, 2)); (["m"; "negative_half_precision"], (2, 3)); (["p"; "log_mean"], (5, 1))]%nat.
Proof.
  split; [reflexivity|]. split; [|split; [|split; [reflexivity|split; [reflexivity|split; [|reflexivity]]]]].
  - intros p q H. cbn in H. destruct H as [H|[H|[]]]; injection H as <- <-.
    + exists 2%nat. split; [reflexivity|]. intros f Hf. cbn in Hf. destruct Hf as [<-|[<-|[]]]; (eexists _, _; split; [reflexivity|]; split; [reflexivity|]).
      * split; [reflexivity|]. intros _ i Hi. destruct (fin_vec [1; 2] [2]%nat eq_refl i Hi) as [v Ev]. exists v. split; [exact Ev|]. split; exact Logic.I.
      * split; [reflexivity|]. split.
        -- intros _ i Hi. destruct (fin_vec [-2; 1; 1; -3] [2; 2]%nat eq_refl i Hi) as [v Ev]. exists v. split; [exact Ev|]. split; exact Logic.I.
        -- cbn [arr_symmetric vec]. intros j k l Hj Hkl Hl. destruct j; [|discriminate Hj]. destruct k as [|k]; [|exfalso; lia]. destruct l as [|[|l]]; [exfalso; lia|reflexivity|exfalso; lia].
    + exists 1%nat. split; [reflexivity|]. intros f Hf. cbn in Hf. destruct Hf as [<-|[]]. eexists _, _. split; [reflexivity|]. split; [reflexivity|]. split; [reflexivity|].
      intros _ i Hi. destruct (fin_vec [0] [] eq_refl i Hi) as [v Ev]. exists v. split; [exact Ev|]. split; exact Logic.I.
  - intros p q f H Hf. cbn in H. destruct H as [H|[H|[]]]; injection H as <- <-; cbn in Hf.
    + destruct Hf as [<-|[<-|[]]]; exists 1; [right; left; reflexivity|right; right; eexists _, _, _; reflexivity].
    + destruct Hf as [<-|[]]. exists 1. left. reflexivity.
  - intros a Ha. exists (INR (a * a + a)). unfold ex_tr_F. rewrite tget_tbuild; [reflexivity|]. cbn -[Nat.ltb]. now rewrite (proj2 (Nat.ltb_lt a 6) Ha).
Qed.
(** an exponential distribution: the trace of its Fisher information is 1, fisher_information_trace returns a negative number *)
Lemma fx_trace : exists r x, fisher_information_trace (fun _ => Ok (fmat 1)) (fx (-1)) = Ok r /\ dget (dparams r) "negative_rate" = Some (RA x) /\ shp x = [] /\ exists v, tget x [] = Fin v /\ v < 0.
Proof.
  eexists _, _. split; [reflexivity|]. split; [reflexivity|]. split; [reflexivity|]. cbn. pose proof (exp_pos (- (1))) as E.
  destruct (Rlt_dec 0 (1 + exp (- (1)))) as [|X]; [|exfalso; apply X; lra]. cbn. eexists. split; [reflexivity|].
  assert (0 < ln (1 + exp (- (1)))) by (rewrite <- ln_1; apply ln_increasing; lra). unfold adj_max. match goal with |- Rmin ?a ?b + _ < 0 => pose proof (Rmin_l a b) end. assert (0 < feps) by (unfold feps; apply Rinv_0_lt_compat; lra). lra.
Qed.
Lemma t_trace_refuted solve : exists q F, well_formed q = true /\ nat_tree q = true /\ shaped [] q = true /\ fisher_matrix_of (fam_methods solve) q F /\ sections q = [(["negative_rate"], (0, 1))]%nat /\ block_trace F 0 1 1 /\
  exists r x, fisher_information_trace (fun _ => Ok F) q = Ok r /\ param_at r ["negative_rate"] = Some (RA x) /\ exists v, tget x [] = Fin v /\ v < 0.
Proof.
  exists (fx (-1)), (fmat 1). do 3 (split; [reflexivity|]). split; [apply fx_matrix|]. split; [reflexivity|]. split.
  - exists [1]. split; [reflexivity|]. split; [intros a Ha; destruct a; [reflexivity|exfalso; lia]|]. cbn. ring.
  - destruct fx_trace as (r & x & E1 & E2 & _ & E3). exists r, x. auto.
Qed.
(** complex parameters: of a complex unit normal distribution the Fisher information is 1/2 in the direction of the real part and 1/2 in that of the imaginary part; its trace is 1,
    and fisher_information_trace returns 1/2 + 1/2 i *)
Definition cz : dist := Dist (NP ComplexUnitNormal) DefaultMinimizer [("two_mean_conjugate", CA (@mkT xc [] [XC (Fin 0) (Fin 0)] eq_refl))] [].
Definition czF : tensor xr := @mkT xr [2; 2]%nat [Fin (1 / 2); Fin 0; Fin 0; Fin (1 / 2)] eq_refl.
Lemma cz_trace : exists r x, fisher_information_trace (fun _ => Ok czF) cz = Ok r /\ dget (dparams r) "two_mean_conjugate" = Some (CA x) /\ tget x [] = XC (Fin (1 / 2)) (Fin (1 / 2)).
Proof.
  eexists _, _. split; [reflexivity|]. split; [reflexivity|]. cbn. destruct (Rle_dec 0 (1 / 2 * (1 / 2) + 1 / 2 * (1 / 2))) as [|X]; [|exfalso; apply X; lra].
  assert (E : 0 < sqrt (1 / 2 * (1 / 2) + 1 / 2 * (1 / 2))) by (apply sqrt_lt_R0; lra). set (w := sqrt _) in *. unfold cscale, cdivr. cbn. unfold xdiv. cbn.
  repeat match goal with |- context [Req_EM_T ?a ?b] => destruct (Req_EM_T a b); [exfalso; lra|] end. cbn. f_equal; f_equal; field; lra.
Qed.
Lemma cz_matrix solve : fisher_matrix_of (fam_methods solve) cz czF.
Proof.
  eexists _, _, [], 2%nat. split; [reflexivity|]. split; [reflexivity|]. split; [reflexivity|].
  intros i a c Hi Ha Hc. destruct i; [|discriminate Hi].
  exists (fun s t : R => let x := (if (a =? 0)%nat then s else 0) + (if (c =? 0)%nat then t else 0) in let y := (if (a =? 1)%nat then s else 0) + (if (c =? 1)%nat then t else 0) in (x * x + y * y) / 4 + ln PI).
  destruct a as [|[|?]]; [| |lia]; (destruct c as [|[|?]]; [| |lia]).
  all: cbn [Nat.eqb]; cbv zeta.
  1: exists (fun s => s / 2), (1 / 2), 1.
  2: exists (fun s => 0), 0, 1.
  3: exists (fun s => 0), 0, 1.
  4: exists (fun s => s / 2), (1 / 2), 1.
  all: split; [lra|]; split; [|split; [|split; [|reflexivity]]].
  all: try (intros s t Hs Ht; eexists _, _; split; [reflexivity|]; split; [reflexivity|]; cbn; f_equal; field).
  all: try (intros s Hs; apply is_derive_Reals; auto_derive; [trivial|field]).
  all: try (apply is_derive_Reals; auto_derive; [trivial|field]).
Qed.
Lemma t_trace_complex_refuted solve : exists q F, well_formed q = true /\ nat_tree q = true /\ shaped [] q = true /\ fisher_matrix_of (fam_methods solve) q F /\ sections q = [(["two_mean_conjugate"], (0, 2))]%nat /\ block_trace F 0 2 1 /\
  exists r x, fisher_information_trace (fun _ => Ok F) q = Ok r /\ param_at r ["two_mean_conjugate"] = Some (CA x) /\ tget x [] = XC (Fin (1 / 2)) (Fin (1 / 2)).
Proof.
  exists cz, czF. do 3 (split; [reflexivity|]). split; [apply cz_matrix|]. split; [reflexivity|]. split.
  - exists [1 / 2; 1 / 2]. split; [reflexivity|]. split; [intros a Ha; destruct a as [|[|?]]; [reflexivity|reflexivity|exfalso; lia]|]. cbn. field.
  - destruct cz_trace as (r & x & E1 & E2 & E3). exists r, x. auto.
Qed.
