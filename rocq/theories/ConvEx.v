(** Concrete distributions in the domains of PointSpec.v, and counterexamples at the edges of the domains. *)
From Coq Require Import String List Bool Arith Reals Lra Lia.
From Verif Require Import Base XReal Tensor TensorFacts Support Dist Iteration Structure Spec Joint SpecFun Expr Fam SumSpec DotSpec KlThms Examples JointEx PointSpec.
Import ListNotations.
Local Open Scope string_scope.
Local Open Scope R_scope.

(** closed-form families in a nested joint distribution of batch shape [2] *)
Definition ex_closed : dist :=
  Dist JointDistributionN DefaultMinimizer []
    [("x", Dist JointDistributionN DefaultMinimizer []
       [("n", ex_normal);
        ("b", Dist (NP NegativeBinomial) DefaultMinimizer [("log_not_p", vec [-1; -2]%R [2]%nat eq_refl); ("failures", vec [3; 1]%R [2]%nat eq_refl)] [])]);
     ("m", ex_fixed)].
Definition ex_closed_e : dist :=
  Dist JointDistributionE DefaultMinimizer []
    [("n", Dist (EP Normal) DefaultMinimizer [("mean", vec [1; 2]%R [2]%nat eq_refl); ("second_moment", vec [3; 5]%R [2]%nat eq_refl)] []);
     ("p", Dist (EP Multinomial) DefaultMinimizer [("probability", vec [1/2; 1/4; 1/8; 1/8]%R [2; 2]%nat eq_refl)] [])].
(** second batch element of a batch [2] whose first element may be anything *)
Ltac fin_ := let f := fresh in let a := fresh in let j := fresh in let I := fresh in let E := fresh in let Hj := fresh in
  intros f a j I E Hj; cbn in I; repeat (destruct I as [<-|I]; [cbn in E; injection E as <-; apply fin_vec_entry; cbn in *; rewrite ?Hj; reflexivity|]); destruct I.
Ltac leaf_ m := exists m; split; [reflexivity|]; split; [fin_|]; cbn.
Ltac ks := let k := fresh "k" in let K := fresh "K" in intros k K; repeat (first [exfalso; lia | destruct k as [|k]; [cbn; try match goal with |- _ /\ _ => split end; lra|]]).
Lemma ex_closed_dom : tree_in_domain ex_closed [1]%nat.
Proof.
  intros p l H. cbn in H. destruct H as [H|[H|[H|[]]]]; injection H as <- <-.
  - leaf_ 1%nat. lra.
  - leaf_ 1%nat. split; [lra|]. exists 0%nat. reflexivity.
  - leaf_ 3%nat. lra.
Qed.
Lemma ex_joint_dom : tree_in_domain ex_joint [1]%nat.
Proof.
  intros p l H. cbn in H. destruct H as [H|[H|[H|[]]]]; injection H as <- <-.
  - leaf_ 1%nat. lra.
  - leaf_ 1%nat. lra.
  - leaf_ 3%nat. lra.
Qed.
Lemma ex_closed_e_dom : tree_in_domain ex_closed_e [1]%nat.
Proof.
  intros p l H. cbn in H. destruct H as [H|[H|[]]]; injection H as <- <-.
  - leaf_ 1%nat. lra.
  - leaf_ 2%nat. split; [ks|]. unfold sumR. cbn. lra.
Qed.
Ltac fams := let p := fresh in let l := fresh in let f := fresh in let H := fresh in let E := fresh in intros p l f H E; cbn in H;
  repeat (destruct H as [H|H]; [injection H as _ <-; cbn in E; injection E as <-; auto|]); destruct H.
Lemma ex_closed_fam : families (fun f => matrix_family f = false /\ closed_form f = true) ex_closed. Proof. fams. Qed.
Lemma ex_closed_e_fam : families (fun f => matrix_family f = false /\ closed_form f = true) ex_closed_e. Proof. fams. Qed.
Lemma ex_joint_fam : families (fun f => matrix_family f = false) ex_joint. Proof. fams. Qed.
Lemma ex_joint_clip i : not_clipped ex_joint i.
Proof. intros p l H E. cbn in H. destruct H as [H|[H|[H|[]]]]; injection H as <- <-; discriminate E. Qed.

(** the uniform von Mises-Fisher distribution on the sphere: natural parameters (0, 0, 0) *)
Definition ex_uniform : dist := Dist (NP VonMisesFisher) DefaultMinimizer [("mean_times_concentration", vec [0; 0; 0]%R [3]%nat eq_refl)] [].
Lemma uniform_nan solve : entry (log_normalizer (fam_methods solve) ex_uniform) [] = NaN.
Proof.
  cbn. unfold fam_log_normalizer. cbn. replace (0 * 0 + (0 * 0 + (0 * 0 + 0))) with 0 by ring. destruct (Rle_dec 0 0); [|lra]. rewrite sqrt_0. cbn.
  destruct (Rlt_dec 0 0); [lra|]. destruct (Req_EM_T 0 0); [|lra]. cbn. unfold inf_mul, rltb. repeat destruct Req_EM_T; repeat destruct Rlt_dec; cbn; repeat destruct Req_EM_T; try reflexivity; repeat destruct Rlt_dec; cbn; try reflexivity; try lra.
Qed.
(** a logarithmic distribution with probability exp(-1/10^8) *)
Definition ex_log : dist := Dist (NP Logarithmic) DefaultMinimizer [("log_probability", vec [-1 / 100000000]%R [1]%nat eq_refl)] [].
Lemma ex_log_dom : tree_in_domain ex_log [0]%nat.
Proof. intros p l H. cbn in H. destruct H as [H|[]]; injection H as <- <-. leaf_ 1%nat. lra. Qed.
Lemma ex_log_inf solve : exists e chi, to_exp (fam_methods solve) ex_log = Ok e /\ dget (dparams e) "chi" = Some (RA chi) /\ tget chi [0]%nat = PInf.
Proof.
  cbn. unfold fam_to_exp, make, evals. cbn. eexists _, _. split; [reflexivity|]. split; [reflexivity|]. cbn. unfold xltb, rltb, log_probability_floor, log_probability_ceiling. cbn.
  destruct (Rlt_dec (-1 / 100000000) (-50)); [exfalso; lra|]. cbn. destruct (Req_EM_T 0 0); [|exfalso; lra]. destruct (Rlt_dec (- / 10000000) (-1 / 100000000)) as [H|H]; [|exfalso; apply H; lra]. cbn.
  unfold reqb. destruct (Req_EM_T 0 0); [|exfalso; lra]. destruct (Req_EM_T 1 0); [exfalso; lra|reflexivity].
Qed.
(** C20 *)
Lemma ex_joint'_finite : tree_finite ex_joint' [1]%nat.
Proof.
  intros p l H. cbn in H. destruct H as [H|[H|[H|[]]]]; injection H as <- <-.
  - exists 1%nat. split; [reflexivity|]. fin_.
  - exists 1%nat. split; [reflexivity|]. fin_.
  - exists 3%nat. split; [reflexivity|]. fin_.
Qed.
Definition ex_log_dot : dist := Dist (NP Logarithmic) DefaultMinimizer [("log_probability", vec [1]%R [1]%nat eq_refl)] [].
Lemma ex_log_tm : tree_match [1]%nat ex_log ex_log_dot.
Proof. unfold tree_match. cbn [leaves ex_log ex_log_dot is_joint flat_map app fst snd]. repeat constructor; try (cbn; eexists; split; reflexivity); reflexivity. Qed.
Lemma ex_log_skel : same_skeleton ex_log ex_log_dot.
Proof. intros [|n p]; split; reflexivity. Qed.
Lemma ex_log_dot_finite : tree_finite ex_log_dot [0]%nat.
Proof. intros p l H. cbn in H. destruct H as [H|[]]; injection H as <- <-. exists 1%nat. split; [reflexivity|]. fin_. Qed.
Lemma ex_log_jvp solve : exists y y_dot, log_normalizer_jvp (fam_methods solve) ex_log ex_log_dot = Ok (y, y_dot) /\ tget y_dot [0]%nat = PInf.
Proof.
  unfold log_normalizer_jvp. cbn. unfold fam_log_normalizer. cbn. unfold fam_to_exp, make, evals. cbn. eexists _, _. split; [reflexivity|]. cbn.
  unfold rltb, log_probability_floor, log_probability_ceiling. destruct (Rlt_dec (-1 / 100000000) (-50)); [exfalso; lra|]. cbn. destruct (Req_EM_T 0 0); [|exfalso; lra].
  destruct (Rlt_dec (- / 10000000) (-1 / 100000000)) as [H|H]; [|exfalso; apply H; lra]. cbn.
  unfold reqb. destruct (Req_EM_T 0 0); [|exfalso; lra]. destruct (Req_EM_T 1 0); [exfalso; lra|]. cbn. unfold inf_mul, rltb. destruct (Req_EM_T 1 0); [exfalso; lra|]. destruct (Rlt_dec 1 0); [exfalso; lra|reflexivity].
Qed.
