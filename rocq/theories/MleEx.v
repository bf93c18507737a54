(** A concrete data set for C26. *)
From Coquelicot Require Import Coquelicot.
From Coq Require Import String List Bool Arith Reals Lia Lra.
From Verif Require Import Base XReal Tensor TensorFacts Support Dist Iteration Structure Spec Tools Joint SpecFun Expr Fam SumSpec DotSpec Examples JointEx PointSpec ConvEx KlSpec DensSpec MleSpec.
Import ListNotations.
Local Unset Asymmetric Patterns.
Local Open Scope string_scope.
Local Open Scope R_scope.

Definition mle_dist (mu a c v : R) : dist := Dist JointDistributionN DefaultMinimizer []
  [("u", Dist (NP UnitNormal) DefaultMinimizer [("mean", vec [mu] [] eq_refl)] []);
   ("f", Dist (NP MultivariateFixedVarianceNormal) DefaultMinimizer [("mean_times_precision", vec [a; c] [2]%nat eq_refl); ("variance", vec [v] [] eq_refl)] [])].
Definition mle_p := mle_dist 2 1 0 2.
Definition mle_q := mle_dist 1 4 5 2.
(** the same with a leading axis of size 2 *)
Definition mle_q0 : dist := Dist JointDistributionN DefaultMinimizer []
  [("u", Dist (NP UnitNormal) DefaultMinimizer [("mean", vec [0; 0] [2]%nat eq_refl)] []);
   ("f", Dist (NP MultivariateFixedVarianceNormal) DefaultMinimizer [("mean_times_precision", vec [0; 0; 0; 0] [2; 2]%nat eq_refl); ("variance", vec [2; 2] [2]%nat eq_refl)] [])].
Definition mle_x : nested arr := Node [("f", Leaf (vec [1; 1; 3; -1] [2; 2]%nat eq_refl)); ("u", Leaf (vec [1; 3] [2]%nat eq_refl))].
Definition mle_row (k : nat) (a : arr) : arr := match arr_getitem [k] a with Ok r => r | Err _ => a end.
Definition mle_xs (k : nat) : nested arr := Node [("u", Leaf (mle_row k (vec [1; 3] [2]%nat eq_refl))); ("f", Leaf (mle_row k (vec [1; 1; 3; -1] [2; 2]%nat eq_refl)))].
Ltac fin_eq := unfold cofr; match goal with |- XC (Fin ?a) _ = XC (Fin ?b) _ => replace b with a by (try unfold Rdiv; try lra; field); reflexivity end.
Lemma mle_means solve : exists est s m e, create_estimator_from_natural mle_q0 = Ok est /\ mle_sufficient_statistics (fam_methods solve) est mle_x = Ok s /\ parameter_mean s 0 = Ok m /\
  to_exp (fam_methods solve) mle_p = Ok e /\ same_at [] [] e m.
Proof.
  eexists _, _, _, _. split; [reflexivity|]. split; [reflexivity|]. split; [reflexivity|]. split; [reflexivity|].
  unfold same_at. constructor; [|constructor; [|constructor]]; (split; [reflexivity|]); split; try reflexivity; (split; [repeat (split; [reflexivity|]); eexists; split; reflexivity|]).
  all: intros f v w j I Ev Ew Hj; cbn in I; repeat (destruct I as [<-|I]; [|]); try destruct I; injection Ev as <-; injection Ew as <-.
  - destruct j; [|discriminate Hj]. cbn. destruct (Req_EM_T (1 + 1) 0); [lra|]. fin_eq.
  - destruct j as [|[|[|?]] [|? ?]]; try discriminate Hj; cbn; (destruct (Req_EM_T (1 + 1) 0); [lra|]); fin_eq.
  - destruct j; [|discriminate Hj]. cbn. destruct (Req_EM_T (1 + 1) 0); [lra|]. fin_eq.
Qed.
Lemma mle_q0_dom k : (k < 2)%nat -> tree_in_domain mle_q0 [k].
Proof.
  intros Hk p l H. cbn in H. destruct k as [|[|?]]; [| |lia]; (destruct H as [H|[H|[]]]; injection H as <- <-; [leaf_ 1%nat; exact Logic.I|leaf_ 2%nat; lra]).
Qed.
Lemma mle_dom mu a c : tree_in_domain (mle_dist mu a c 2) [].
Proof. intros p l H. cbn in H. destruct H as [H|[H|[]]]; injection H as <- <-; [leaf_ 1%nat; exact Logic.I|leaf_ 2%nat; lra]. Qed.
Lemma mle_obs : obs_matches mle_q0 mle_x /\ obs_shaped [2]%nat mle_q0 mle_x.
Proof.
  split.
  - split; [repeat constructor; cbn; intuition discriminate|]. split; [intros n; cbn; tauto|]. cbn. auto.
  - intros p l a Hi Ha. cbn in Hi. destruct Hi as [H|[H|[]]]; injection H as <- <-; cbn in Ha; injection Ha as <-; eexists _, _; repeat (split; [reflexivity|]); reflexivity.
Qed.
Lemma mle_data : data_in_domain 2 [] [] mle_q0 mle_x.
Proof.
  intros k p l f n a Hk Hi Cf Dn Ga. cbn in Hi. destruct Hi as [H|[H|[]]]; injection H as <- <-; cbn in Ga, Cf, Dn; injection Ga as <-; injection Cf as <-; injection Dn as <-.
  all: match goal with |- exists xv, observed _ _ _ ?v _ /\ _ => exists (fun c j => toR (comp c (entry_c v (k :: j)))) end; split; [|exact Logic.I]; split; [eexists _, _; repeat (split; [reflexivity|]); reflexivity|].
  all: intros n s j En Es Hj; cbn in En, Es; injection En as <-; injection Es as <-; (destruct k as [|[|?]]; [| |lia]); destruct j as [|[|[|?]] [|? ?]]; try discriminate Hj; reflexivity.
Qed.
Lemma mle_rows : rows 2 mle_p mle_x mle_xs.
Proof.
  intros k Hk. split.
  - destruct k; (split; [repeat constructor; cbn; intuition discriminate|]; split; [intros n; cbn; tauto|]; cbn; auto).
  - intros p a G. destruct p as [|s [|? ?]]; [discriminate G| |cbn in G; destruct (string_dec s "f"); [discriminate G|]; destruct (string_dec s "u"); discriminate G].
    cbn in G. destruct (string_dec s "f") as [->|]; [|destruct (string_dec s "u") as [->|]; [|discriminate G]]; injection G as <-; (destruct k as [|[|?]]; [| |lia]); eexists; split; reflexivity.
Qed.
Lemma mle_tm : tree_match [] mle_p mle_q.
Proof. unfold tree_match. repeat constructor; try (cbn; eexists; split; reflexivity); reflexivity. Qed.
Lemma mle_skel : same_skeleton mle_p mle_q.
Proof. intros p. destruct p as [|a p]; [split; reflexivity|]. cbn. destruct (keq a "u"); [|destruct (keq a "f")]; [| |split; reflexivity]; destruct p; split; reflexivity. Qed.
Lemma mle_fam : families (fun f => matrix_family f = false) mle_p.
Proof. intros p l f H E. cbn in H. destruct H as [H|[H|[]]]; injection H as <- <-; cbn in E; injection E as <-; reflexivity. Qed.
Lemma mle_clip : not_clipped mle_p [].
Proof. intros p l H E. cbn in H. destruct H as [H|[H|[]]]; injection H as <- <-; discriminate E. Qed.
Lemma mle_fixed : same_fixed_at [] [] mle_p mle_q.
Proof. constructor; [|constructor; [|constructor]]; intros f v w j I F Ev Ew Hj; cbn in I; repeat (destruct I as [<-|I]; [try discriminate F|]); try destruct I. cbn in Ev, Ew. congruence. Qed.
Lemma mle_stacked : stacked_fixed 2 [] mle_q0 mle_p.
Proof.
  constructor; [|constructor; [|constructor]]; (split; [reflexivity|]); (split; [reflexivity|]); (split; [reflexivity|]); intros k f v0 v j Hk I F Ev Ew; cbn in I; repeat (destruct I as [<-|I]; [try discriminate F|]); try destruct I.
  injection Ev as <-. injection Ew as <-. destruct k as [|[|?]]; [| |lia]; destruct j; reflexivity.
Qed.
Definition mle_leaf0 : dist := Dist (NP Normal) DefaultMinimizer [("mean_times_precision", vec [0; 1] [2]%nat eq_refl); ("negative_half_precision", vec [-1; -2] [2]%nat eq_refl)] [].
(** expectation parameters, for kl_divergence *)
Definition mle_pe : dist := Dist JointDistributionE DefaultMinimizer []
  [("u", Dist (EP UnitNormal) DefaultMinimizer [("mean", vec [2] [] eq_refl)] []);
   ("f", Dist (EP MultivariateFixedVarianceNormal) DefaultMinimizer [("mean", vec [2; 0] [2]%nat eq_refl); ("variance", vec [2] [] eq_refl)] [])].
Lemma mle_pe_ok solve : exists sn, well_formed mle_pe = true /\ exp_tree mle_pe = true /\ shaped [] mle_pe = true /\ tree_in_domain mle_pe [] /\
  families (fun f => closed_form f = true) mle_pe /\ well_formed mle_q = true /\ to_nat (fam_methods solve) mle_pe = Ok sn /\ same_skeleton sn mle_q /\ tree_match [] mle_pe mle_q /\
  tree_in_domain mle_q [] /\ same_fixed_at [] [] sn mle_q.
Proof.
  eexists. do 3 (split; [reflexivity|]). split; [intros p l H; cbn in H; destruct H as [H|[H|[]]]; injection H as <- <-; [leaf_ 1%nat; exact Logic.I|leaf_ 2%nat; lra]|].
  split. { intros p l f H E. cbn in H. destruct H as [H|[H|[]]]; injection H as <- <-; cbn in E; injection E as <-; reflexivity. }
  split; [reflexivity|]. split; [reflexivity|]. split.
  { intros p. destruct p as [|a p]; [split; reflexivity|]. cbn. destruct (keq a "u"); [|destruct (keq a "f")]; [| |split; reflexivity]; destruct p; split; reflexivity. }
  split; [unfold tree_match; repeat constructor; try (cbn; eexists; split; reflexivity); reflexivity|]. split; [apply mle_dom|].
  unfold same_fixed_at. cbn. repeat constructor; cbn [snd]; intros f v w j I F E1 E2 Hj; cbn in I; repeat (destruct I as [<-|I]; [try discriminate F|]); try destruct I.
  cbn in E1, E2. injection E1 as <-. injection E2 as <-. destruct j; [|discriminate Hj]. cbn. reflexivity.
Qed.
