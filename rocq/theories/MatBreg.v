(** C19: the divergence of the log-normalizer of every family. *)
From Coquelicot Require Import Coquelicot.
From Coq Require Import String List Bool Arith Reals Lia Lra FunctionalExtensionality.
From Verif Require Import Base XReal Tensor TensorFacts Support Dist Iteration Spec SumSpec DotSpec SpecFun GammaFn BesselFn Expr Fam ExprFacts FamTy FamFacts DotFacts PointSpec PointFacts DetFacts MatFacts Val FamR FamVal ConvFacts DerivFacts
  MatDeriv MatHess BregFacts BregThms.
Import ListNotations.
Local Unset Asymmetric Patterns.
Local Open Scope string_scope.
Local Open Scope R_scope.
Local Notation C := Complex.C (only parsing).

(** ** derivatives along a line, away from its origin *)
Lemma padd_padd c p v s t : padd c (padd c p v s) v t = padd c p v (s + t).
Proof. apply functional_extensionality. intros k. apply functional_extensionality. intros nm. apply functional_extensionality. intros j. unfold padd. destruct (existsb _ _); [reflexivity|ring]. Qed.
Lemma shift_derive (F : point -> R) c p v s d : is_derive (fun t => F (padd c (padd c p v s) v t)) 0 d -> is_derive (fun t => F (padd c p v t)) s d.
Proof.
  intros D. evar_last. { apply (is_derive_ext (fun t => F (padd c (padd c p v s) v (t - s)))).
    - intros t. rewrite padd_padd. f_equal. f_equal. ring.
    - apply (is_derive_comp (fun r => F (padd c (padd c p v s) v r)) (fun t => t - s)).
      + replace (s - s) with 0 by ring. exact D.
      + auto_derive; [exact Logic.I|reflexivity]. }
  cbn. unfold scal. cbn. unfold mult. cbn. ring.
Qed.
Lemma line_derive f n p v s : nat_dom f n (padd (NP f) p v s) -> is_derive (fun t => lnR n (padd (NP f) p v t) f) s (dotP (NP f) (EP f) n v (expR n (padd (NP f) p v s) f)).
Proof. intros K. destruct (ln_dv_all f n _ v K) as [_ D]. exact (shift_derive (fun r => lnR n r f) (NP f) p v s _ D). Qed.

Lemma mat_conv f n p q : mat f = true -> nat_dom f n p -> nat_dom f n q ->
  (forall r, nat_dom f n r -> exists H, 0 < H /\ is_derive (fun s => dotP (NP f) (EP f) n (psub q p) (expR n (padd (NP f) r (psub q p) s) f)) 0 H) -> 0 < brR f n p q.
Proof.
  intros M P Q H. set (w := psub q p) in *. set (g t := lnR n (padd (NP f) p w t) f). set (g' t := dotP (NP f) (EP f) n w (expR n (padd (NP f) p w t) f)).
  assert (K : forall t, 0 <= t <= 1 -> nat_dom f n (padd (NP f) p w t)) by (intros t T; exact (mat_convex f n p q t M P Q T)).
  assert (D1 : forall t, 0 <= t <= 1 -> is_derive g t (g' t)) by (intros t T; apply line_derive, K, T).
  assert (D2 : forall t, 0 <= t <= 1 -> exists H, 0 < H /\ is_derive g' t H).
  { intros t T. destruct (H _ (K t T)) as (h & Hp & Hd). exists h. split; [exact Hp|]. exact (shift_derive (fun r => dotP (NP f) (EP f) n w (expR n r f)) (NP f) p w t _ Hd). }
  pose proof (conv1 g g' 0 1) as Cv. rewrite Rmin_left, Rmax_right in Cv by lra.
  assert (Cp : 0 < g 1 - g 0 - (1 - 0) * g' 0).
  { apply Cv; [exact D1| |lra]. intros x y X XY Y. destruct (MVT_cor2 g' (fun t => Derive g' t) x y XY) as (c & E & Hc).
    - intros c Hc. destruct (D2 c ltac:(lra)) as (h & _ & Hd). apply is_derive_Reals. rewrite (is_derive_unique _ _ _ Hd). exact Hd.
    - destruct (D2 c ltac:(lra)) as (h & Hp & Hd). rewrite (is_derive_unique _ _ _ Hd) in E. nra. }
  assert (X0 : padd (NP f) p w 0 = p). { apply functional_extensionality. intros k. apply functional_extensionality. intros nm. apply functional_extensionality. intros j. unfold padd. destruct (existsb _ _); [reflexivity|ring]. }
  assert (X1 : padd (NP f) p w 1 = q). { apply functional_extensionality. intros k. apply functional_extensionality. intros nm. apply functional_extensionality. intros j. destruct f; try discriminate M; adds; unfold w, psub; ring. }
  unfold g, g' in Cp. rewrite X0, X1 in Cp. unfold brR. fold w. lra.
Qed.
Theorem br_pos f n p q : nat_dom f n p -> nat_dom f n q -> fix_eq (NP f) n p q -> pt_eq (NP f) n p q \/ 0 < brR f n p q.
Proof.
  intros P Q X. destruct (mat f) eqn:M; [|now apply br_pos0]. pose proof (sym_dir_sub f n p q P Q) as Sw. change (sym_dir f n (psub q p)) in Sw. destruct f; try discriminate M.
  - destruct (vecR_dec n (fun a b => psub q p false "negative_precision" [a; b]%nat)) as [Z|Z]; [destruct (vecR_dec n (fun a b => psub q p true "negative_precision" [a; b]%nat)) as [Z'|Z']|].
    + left. apply pt_intro. cbn [fields]. apply Forall_cons; [|apply Forall_nil]. intros j Hj. cbn [fd_name fd_support var fixd] in Hj |- *. destruct (inb2 _ _ _ Hj) as (a & b & -> & Ha & Hb).
      specialize (Z a b Ha Hb). specialize (Z' a b Ha Hb). unfold psub in Z, Z'. split; [lra|]. intros _. lra.
    + right. apply mat_conv; [reflexivity|exact P|exact Q|]. intros r Rr. exists (ccsH n r (psub q p) (psub q p)). split; [|exact (proj2 (ccs_hess_dv n r Rr _ _ Sw))].
      apply ccsH_pos; [exact Rr|exact Sw|]. destruct Z' as (a & b & Ha & Hb & E). exists a, b. split; [exact Ha|]. split; [exact Hb|]. intros F. apply E. exact (f_equal snd F).
    + right. apply mat_conv; [reflexivity|exact P|exact Q|]. intros r Rr. exists (ccsH n r (psub q p) (psub q p)). split; [|exact (proj2 (ccs_hess_dv n r Rr _ _ Sw))].
      apply ccsH_pos; [exact Rr|exact Sw|]. destruct Z as (a & b & Ha & Hb & E). exists a, b. split; [exact Ha|]. split; [exact Hb|]. intros F. apply E. exact (f_equal fst F).
  - assert (Y : forall r, nat_dom MultivariateNormal n r -> (exists a, (a < n)%nat /\ hE (psub q p) a <> 0) \/ (exists a b, (a < n)%nat /\ (b < n)%nat /\ hH (psub q p) a b <> 0) ->
      exists H, 0 < H /\ is_derive (fun s => dotP (NP MultivariateNormal) (EP MultivariateNormal) n (psub q p) (expR n (padd (NP MultivariateNormal) r (psub q p) s) MultivariateNormal)) 0 H).
    { intros r Rr N. exists (mvnH n r (psub q p) (psub q p)). split; [now apply mvnH_pos|exact (proj2 (mvn_hess_dv n r Rr _ _ Sw Sw))]. }
    destruct (vecR_dec n (fun a b => psub q p false "negative_half_precision" [a; b]%nat)) as [Z|Z].
    + destruct (vec_dec n (fun k => q false "mean_times_precision" [k]) (fun k => p false "mean_times_precision" [k])) as [E|(k & K & E)].
      * left. apply pt_intro. cbn [fields]. apply Forall_cons; [|apply Forall_cons; [|apply Forall_nil]]; intros j Hj; (split; [|intros KK; discriminate KK]); cbn [fd_name fd_support var fixd] in Hj |- *.
        -- destruct (inb1 _ _ Hj) as (a & -> & Ha). symmetry. now apply E.
        -- destruct (inb2 _ _ _ Hj) as (a & b & -> & Ha & Hb). specialize (Z a b Ha Hb). unfold psub in Z. lra.
      * right. apply mat_conv; [reflexivity|exact P|exact Q|]. intros r Rr. apply Y; [exact Rr|]. left. exists k. split; [exact K|]. unfold hE, psub. lra.
    + right. apply mat_conv; [reflexivity|exact P|exact Q|]. intros r Rr. apply Y; [exact Rr|]. right. exact Z.
Qed.
