(** Concrete distributions for C32. *)
From Coquelicot Require Import Coquelicot.
From Coq Require Import String List Bool Arith Reals Lra Lia.
From Verif Require Import Base XReal Tensor TensorFacts Support Dist Iteration Structure Spec StructThms Joint SpecFun Expr Fam SumSpec DotSpec KlThms Examples JointEx PointSpec ConvEx VarSpec VarEx DensSpec
  Sample SampleSpec SampleShape SampleThms SampleTop.
Import ListNotations.
Local Open Scope string_scope.
Local Open Scope R_scope.

(** natural parameters of a batch of two Gamma distributions *)
Definition ex_sgamma : dist := Dist (NP Gamma) DefaultMinimizer [("negative_rate", vec [-1; -2]%R [2]%nat eq_refl); ("shape_minus_one", vec [1; 0]%R [2]%nat eq_refl)] [].
Definition ex_sgeo : dist := Dist (EP Geometric) DefaultMinimizer [("mean", vec [2; 1/2]%R [2]%nat eq_refl)] [].
Definition ex_smul : dist := Dist (NP Multinomial) DefaultMinimizer [("log_odds", vec [0; 1]%R [1; 2]%nat eq_refl)] [].
Definition ex_scun : dist := Dist (EP ComplexUnitNormal) DefaultMinimizer [("mean", CA (mkT [1]%nat [XC (Fin 1) (Fin 2)] eq_refl))] [].
Definition ex_snb : dist := Dist (EP NegativeBinomial) DefaultMinimizer [("mean", vec [1; 5]%R [2]%nat eq_refl); ("failures", vec [2; 3]%R [2]%nat eq_refl)] [].
Definition ex_solve : minimizer -> dist -> nat -> xr := fun _ _ _ => Fin 0.
Definition ex_split : nat -> nat * nat := fun k => (2 * k, 2 * k + 1)%nat.

Lemma ex_sgamma_at : samplable_at (fam_methods ex_solve) [2]%nat [1]%nat Gamma ex_sgamma.
Proof. do 5 (split; [reflexivity|]). split; [cbn [dcls ex_sgamma]; leaf_ 1%nat; lra|discriminate]. Qed.
Lemma ex_snvp_at : samplable_at (fam_methods ex_solve) [2]%nat [1]%nat Normal ex_nvp.
Proof. do 5 (split; [reflexivity|]). split; [exact ex_nvp_dom|discriminate]. Qed.
Lemma ex_sgeo_at i : i = [0]%nat \/ i = [1]%nat -> samplable_at (fam_methods ex_solve) [2]%nat i Geometric ex_sgeo.
Proof. intros [-> | ->]; (do 5 (split; [reflexivity|]); split; [cbn [dcls ex_sgeo]; leaf_ 1%nat; lra|discriminate]). Qed.
Lemma ex_smul_at : samplable_at (fam_methods ex_solve) [1]%nat [0]%nat Multinomial ex_smul.
Proof. do 5 (split; [reflexivity|]). split; [cbn [dcls ex_smul]; leaf_ 2%nat; exact Logic.I|discriminate]. Qed.
Lemma ex_scun_at : samplable_at (fam_methods ex_solve) [1]%nat [0]%nat ComplexUnitNormal ex_scun.
Proof. do 5 (split; [reflexivity|]). split; [|discriminate]. exists 1%nat. split; [reflexivity|]. split; [|exact Logic.I].
  intros f v j [<-|[]] H2 Hj. injection H2 as <-. cbn in Hj. destruct j; [|discriminate Hj]. cbn. do 2 eexists. reflexivity. Qed.
Lemma ex_snb_at : samplable_at (fam_methods ex_solve) [2]%nat [1]%nat NegativeBinomial ex_snb.
Proof. do 5 (split; [reflexivity|]). split; [cbn [dcls ex_snb]; leaf_ 1%nat|discriminate]. split; [lra|]. exists 2%nat. cbn; lra. Qed.

(** the refutations *)
Lemma multinomial_missed : exists q n xv, samplable_at (fam_methods ex_solve) [1]%nat [0]%nat Multinomial q /\ dims_of q = Ok n /\ sample_space Multinomial n xv /\ real_obs (dcls q) n xv /\
  forall key sh j, inb (requested sh) j = true -> ~ can_sample ex_split (fam_methods ex_solve) q key sh j [0]%nat xv.
Proof.
  exists ex_smul, 2%nat, (fun _ _ => 0). assert (Rx : real_obs (dcls ex_smul) 2 (fun _ _ => 0)) by (intros s _ _ e _; reflexivity).
  split; [exact ex_smul_at|]. split; [reflexivity|]. split; [split; [auto|cbn; lra]|]. split; [exact Rx|]. intros key sh j Hj Ca.
  apply (multinomial_samples ex_split ex_solve [1]%nat [0]%nat ex_smul key sh j 2 _ ex_smul_at eq_refl Hj Rx) in Ca. destruct Ca as [_ Q]. cbn in Q. lra.
Qed.
Lemma geometric_missed : exists q n xv, samplable_at (fam_methods ex_solve) [2]%nat [0]%nat Geometric q /\ dims_of q = Ok n /\ sample_space Geometric n xv /\ real_obs (dcls q) n xv /\
  forall key sh j, inb (requested sh) j = true -> ~ can_sample ex_split (fam_methods ex_solve) q key sh j [0]%nat xv.
Proof.
  exists ex_sgeo, 1%nat, (fun _ _ => 0). assert (Rx : real_obs (dcls ex_sgeo) 1 (fun _ _ => 0)) by (intros s _ _ e _; reflexivity).
  split; [apply ex_sgeo_at; auto|]. split; [reflexivity|]. split; [exists 0%nat; reflexivity|]. split; [exact Rx|]. intros key sh j Hj Ca.
  apply (geometric_samples ex_split ex_solve [2]%nat [0]%nat ex_sgeo key sh j 1 _ (ex_sgeo_at _ (or_introl eq_refl)) eq_refl Hj Rx) in Ca.
  - destruct Ca as (k & Q). rewrite S_INR in Q. pose proof (pos_INR k). lra.
  - intros e He. cbn in He. subst e. cbn. lra.
Qed.
Lemma geometric_outside : exists draw q x, lawful draw /\ samplable_at (fam_methods ex_solve) [2]%nat [1]%nat Geometric q /\
  sample ex_split draw (fam_methods ex_solve) q 0%nat None = Ok x /\ entry_c x [1]%nat = XC NaN (Fin 0).
Proof.
  destruct (geometric_nan ex_split ex_solve (oracle (fun _ => 0) 0) [2]%nat [1]%nat ex_sgeo 0%nat None [] (oracle_lawful _ _) (ex_sgeo_at _ (or_intror eq_refl)) eq_refl) as (x & X1 & X2).
  - intros e He. cbn in He. subst e. cbn. lra.
  - exists (oracle (fun _ => 0) 0), ex_sgeo, x. split; [apply oracle_lawful|]. split; [apply ex_sgeo_at; auto|]. auto.
Qed.
