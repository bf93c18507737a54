(** Concrete multivariate normal and complex circularly symmetric normal distributions in their domains. *)
From Coq Require Import String List Bool Arith Reals Lra Lia.
From Verif Require Import Base XReal Tensor TensorFacts Support Dist Iteration Structure Spec Joint SpecFun Expr Fam SumSpec DotSpec KlThms SupportSpec Examples JointEx PointSpec ConvEx.
Import ListNotations.
Local Open Scope string_scope.
Local Open Scope R_scope.

Lemma fin_cvec_entry l s H i : inb s i = true -> finite_entry (entry_c (cvec l s H) i).
Proof.
  intros Hi. cbn [entry_c cvec]. unfold tget. cbn [shp dat]. set (k := ravel s i).
  assert (K : (k < length (map (fun p => cfin (fst p) (snd p)) l))%nat). { apply Nat.eqb_eq in H. rewrite H. now apply ravel_lt. }
  revert K. generalize k. clear. induction l as [|[a b] l IH]; intros [|k] K; cbn in *; try lia; [exists a, b; reflexivity|]. apply IH. lia.
Qed.
Lemma spd2 (m : nat -> nat -> R) : m 0%nat 1%nat = m 1%nat 0%nat -> 0 < m 0%nat 0%nat -> m 0%nat 1%nat * m 0%nat 1%nat < m 0%nat 0%nat * m 1%nat 1%nat -> spd 2 m.
Proof.
  intros S P D. split.
  - intros [|[|a]] [|[|b]] Ha Hb; try lia; congruence.
  - intros z (a & Ha & Z). unfold sumR. cbn. rewrite <- S. set (x := z 0%nat) in *. set (y := z 1%nat) in *. set (p := m 0%nat 0%nat) in *. set (q := m 0%nat 1%nat) in *. set (r := m 1%nat 1%nat) in *.
    assert (N : x <> 0 \/ y <> 0). { destruct a as [|[|a]]; [left|right|lia]; exact Z. }
    assert (0 < (p * x + q * y) * (p * x + q * y) + (p * r - q * q) * (y * y)).
    { destruct (Req_dec y 0) as [->|Y]; [destruct N as [N|N]; [|lra]; assert (0 < (p * x) * (p * x)) by (apply Rsqr_pos_lt; nra); lra|].
      assert (0 < y * y) by (apply Rsqr_pos_lt; exact Y). pose proof (Rle_0_sqr (p * x + q * y)). unfold Rsqr in *. nra. }
    assert (0 < p * (x * p * x + (x * q * y + 0) + (y * q * x + (y * r * y + 0) + 0))) by nra. nra.
Qed.
Lemma hpd2 (re im : nat -> nat -> R) : re 0%nat 1%nat = re 1%nat 0%nat -> im 0%nat 1%nat = - im 1%nat 0%nat -> im 0%nat 0%nat = 0 -> im 1%nat 1%nat = 0 -> 0 < re 0%nat 0%nat ->
  re 0%nat 1%nat * re 0%nat 1%nat + im 0%nat 1%nat * im 0%nat 1%nat < re 0%nat 0%nat * re 1%nat 1%nat -> hpd 2 re im.
Proof.
  intros S1 S2 S3 S4 P D. split.
  - intros [|[|a]] [|[|b]] Ha Hb; try lia; split; congruence || lra.
  - intros x y (a & Ha & Z). unfold sumR. cbn. rewrite <- S1, S3, S4. assert (E : im 1%nat 0%nat = - im 0%nat 1%nat) by lra. rewrite E. clear S1 S2 S3 S4 E.
    set (x0 := x 0%nat) in *. set (x1 := x 1%nat) in *. set (y0 := y 0%nat) in *. set (y1 := y 1%nat) in *. set (p := re 0%nat 0%nat) in *. set (q := re 0%nat 1%nat) in *. set (s := im 0%nat 1%nat) in *. set (r := re 1%nat 1%nat) in *.
    assert (N : (x0 <> 0 \/ y0 <> 0) \/ (x1 <> 0 \/ y1 <> 0)). { destruct a as [|[|a]]; [left|right|lia]; exact Z. }
    assert (Sq : forall u, u <> 0 -> 0 < u * u) by (intros; apply Rsqr_pos_lt; assumption). assert (Sq0 : forall u, 0 <= u * u) by (intros u; exact (Rle_0_sqr u)).
    assert (0 < (p * x0 + q * x1 - s * y1) * (p * x0 + q * x1 - s * y1) + (p * y0 + q * y1 + s * x1) * (p * y0 + q * y1 + s * x1) + (p * r - (q * q + s * s)) * (x1 * x1 + y1 * y1)).
    { destruct (Req_dec (x1 * x1 + y1 * y1) 0) as [E|E].
      - assert (x1 = 0) by (destruct (Req_dec x1 0) as [|X]; [assumption|]; pose proof (Sq _ X); pose proof (Sq0 y1); lra).
        assert (y1 = 0) by (destruct (Req_dec y1 0) as [|X]; [assumption|]; pose proof (Sq _ X); pose proof (Sq0 x1); lra). rewrite H, H0 in *.
        destruct N as [[N|N]|[N|N]]; try lra; [pose proof (Sq (p * x0) ltac:(nra)); pose proof (Sq0 (p * y0))|pose proof (Sq (p * y0) ltac:(nra)); pose proof (Sq0 (p * x0))]; nra.
      - pose proof (Sq0 x1). pose proof (Sq0 y1). pose proof (Sq0 (p * x0 + q * x1 - s * y1)). pose proof (Sq0 (p * y0 + q * y1 + s * x1)). assert (0 < (p * r - (q * q + s * s)) * (x1 * x1 + y1 * y1)) by (apply Rmult_lt_0_compat; lra). lra. }
    match goal with |- 0 < ?u => assert (0 < p * u) by (match goal with K : 0 < _ |- _ => refine (Rlt_le_trans _ _ _ K _) end; right; ring) end. nra.
Qed.
(** batch shape [2] *)
Definition ex_mvn : dist := Dist (NP MultivariateNormal) DefaultMinimizer
  [("mean_times_precision", vec [1; 0; 2; 3]%R [2; 2]%nat eq_refl); ("negative_half_precision", vec [-1; 0; 0; -1; -1; 1/2; 1/2; -2]%R [2; 2; 2]%nat eq_refl)] [].
Definition ex_ccs : dist := Dist (NP ComplexCircularlySymmetricNormal) DefaultMinimizer
  [("negative_precision", cvec [(-1, 0); (0, 0); (0, 0); (-1, 0); (-2, 0); (1/2, 1); (1/2, -1); (-3, 0)]%R [2; 2; 2]%nat eq_refl)] [].
Definition ex_mat : dist := Dist JointDistributionN DefaultMinimizer [] [("c", ex_ccs); ("m", ex_mvn); ("n", ex_normal)].
Definition ex_mvn_e : dist := Dist (EP MultivariateNormal) DefaultMinimizer
  [("mean", vec [0; 0; 1; 2]%R [2; 2]%nat eq_refl); ("second_moment", vec [1; 0; 0; 1; 3; 5/2; 5/2; 5]%R [2; 2; 2]%nat eq_refl)] [].
Definition ex_ccs_e : dist := Dist (EP ComplexCircularlySymmetricNormal) DefaultMinimizer
  [("variance", cvec [(1, 0); (0, 0); (0, 0); (1, 0); (2, 0); (1/2, 1); (1/2, -1); (3, 0)]%R [2; 2; 2]%nat eq_refl)] [].
Definition ex_mat_e : dist := Dist JointDistributionE DefaultMinimizer [] [("c", ex_ccs_e); ("m", ex_mvn_e)].
Ltac finc_ := let f := fresh in let a := fresh in let j := fresh in let I := fresh in let E := fresh in let Hj := fresh in
  intros f a j I E Hj; cbn in I; repeat (destruct I as [<-|I]; [cbn in E; injection E as <-; first [apply fin_vec_entry|apply fin_cvec_entry]; cbn in *; rewrite ?Hj; reflexivity|]); destruct I.
Lemma ex_mat_dom : tree_in_domain ex_mat [1]%nat.
Proof.
  intros p l H. cbn in H. destruct H as [H|[H|[H|[]]]]; injection H as <- <-.
  - exists 2%nat. split; [reflexivity|]. split; [finc_|]. apply hpd2; cbn; lra.
  - exists 2%nat. split; [reflexivity|]. split; [finc_|]. apply spd2; cbn; lra.
  - leaf_ 1%nat. lra.
Qed.
Lemma ex_mat_e_dom : tree_in_domain ex_mat_e [1]%nat.
Proof.
  intros p l H. cbn in H. destruct H as [H|[H|[]]]; injection H as <- <-.
  - exists 2%nat. split; [reflexivity|]. split; [finc_|]. apply hpd2; cbn; lra.
  - exists 2%nat. split; [reflexivity|]. split; [finc_|]. apply spd2; cbn; lra.
Qed.
Lemma ex_mat_fam : families (fun f => closed_form f = true) ex_mat. Proof. fams. Qed.
Lemma ex_mat_e_fam : families (fun f => closed_form f = true) ex_mat_e. Proof. fams. Qed.
Lemma ex_mat_clip i : not_clipped ex_mat i.
Proof. intros p l H E. cbn in H. destruct H as [H|[H|[H|[]]]]; injection H as <- <-; discriminate E. Qed.
