(** Concrete distributions and observations for the density theorems. *)
From Coq Require Import String List Bool Arith Reals Lra Lia.
From Verif Require Import Base XReal Tensor TensorFacts Support Dist Iteration Structure Spec StructThms StructFacts Joint SpecFun Expr Fam SumSpec DotSpec KlThms Examples JointEx PointSpec ConvEx DensSpec.
Import ListNotations.
Local Open Scope string_scope.
Local Open Scope R_scope.

Definition ex_ray : dist := Dist (NP Rayleigh) DefaultMinimizer [("eta", vec [-1; -3]%R [2]%nat eq_refl)] [].
Definition ex_wei : dist := Dist (NP Weibull) DefaultMinimizer [("concentration", vec [2; 5]%R [2]%nat eq_refl); ("eta", vec [-1; -3]%R [2]%nat eq_refl)] [].
Definition ex_ray0 : dist := Dist (NP Exponential) DefaultMinimizer [("negative_rate", vec [-1; -3]%R [2]%nat eq_refl)] [].
Definition ex_rx : arr := vec [1; 2]%R [2]%nat eq_refl.
Definition ex_ry : arr := vec [1; 4]%R [2]%nat eq_refl.
Definition scalar (v : R) : obs := fun c _ => if c then 0 else v.
Definition vec2 (v w : R) : obs := fun c j => if c then 0 else match j with [0%nat] => v | [1%nat] => w | _ => 0 end.
Ltac observed_ := split; [do 2 eexists; split; [reflexivity|]; split; [reflexivity|]; split; reflexivity|
  let n := fresh "n" in let s := fresh "s" in let j := fresh "j" in let H := fresh "H" in let Hs := fresh "Hs" in let Hj := fresh "Hj" in
  intros n s j H Hs Hj; injection H as <-; injection Hs as <-; cbn [supp_shape] in Hj ].
Ltac proper_ k := split; [reflexivity|]; split; [reflexivity|]; split; [reflexivity|]; split; [reflexivity|]; leaf_ k.
Lemma ex_ray_proper : proper [2]%nat [1]%nat Rayleigh ex_ray.
Proof. proper_ 1%nat. lra. Qed.
Lemma ex_wei_proper : proper [2]%nat [1]%nat Weibull ex_wei.
Proof. proper_ 1%nat. lra. Qed.
Lemma ex_ray0_proper : proper [2]%nat [1]%nat Exponential ex_ray0.
Proof. proper_ 1%nat. lra. Qed.
Lemma ex_rx_obs : observed [2]%nat [1]%nat ex_ray ex_rx (scalar 2).
Proof. observed_. destruct j; [reflexivity|discriminate]. Qed.
Lemma ex_ry_obs : observed [2]%nat [1]%nat ex_ray0 ex_ry (scalar 4).
Proof. observed_. destruct j; [reflexivity|discriminate]. Qed.
Lemma ex_ray_transformed : transformed [1]%nat Rayleigh Exponential ex_ray ex_ray0 (fun z => z * z).
Proof. cbn. auto. Qed.
Lemma ex_wei_transformed : transformed [1]%nat Weibull Exponential ex_wei ex_ray0 (fun z => Rpower z (par ex_wei [1]%nat "concentration" [])).
Proof. cbn. auto. Qed.

Definition ex_iso : dist := Dist (NP IsotropicNormal) DefaultMinimizer [("mean_times_precision", vec [1; 2]%R [1; 2]%nat eq_refl); ("negative_half_precision", vec [-3]%R [1]%nat eq_refl)] [].
Definition ex_diag : dist := Dist (NP MultivariateDiagonalNormal) DefaultMinimizer [("mean_times_precision", vec [1; 2]%R [1; 2]%nat eq_refl); ("negative_half_precision", vec [-3; -3]%R [1; 2]%nat eq_refl)] [].
Definition ex_ix : arr := vec [5; 6]%R [1; 2]%nat eq_refl.
Lemma ex_iso_proper : proper [1]%nat [0]%nat IsotropicNormal ex_iso.
Proof. proper_ 2%nat. split; [lia|lra]. Qed.
Lemma ex_diag_proper : proper [1]%nat [0]%nat MultivariateDiagonalNormal ex_diag.
Proof. proper_ 2%nat. ks. Qed.
Lemma ex_iso_special : special_case 2 [0]%nat IsotropicNormal MultivariateDiagonalNormal ex_iso ex_diag.
Proof. split; [reflexivity|]. intros [|[|k]] H; [split; reflexivity|split; reflexivity|lia]. Qed.
Lemma ex_iso_obs : observed [1]%nat [0]%nat ex_iso ex_ix (vec2 5 6).
Proof. observed_. destruct j as [|[|[|j]] [|? ?]]; try discriminate; reflexivity. Qed.
Lemma ex_diag_obs : observed [1]%nat [0]%nat ex_diag ex_ix (vec2 5 6).
Proof. observed_. destruct j as [|[|[|j]] [|? ?]]; try discriminate; reflexivity. Qed.

Definition ex_beta : dist := Dist (NP Beta) DefaultMinimizer [("alpha_minus_one", vec [1; 2]%R [2]%nat eq_refl)] [].
Definition ex_dir : dist := Dist (NP Dirichlet) DefaultMinimizer [("alpha_minus_one", vec [1; 2]%R [2]%nat eq_refl)] [].
Lemma ex_beta_proper : proper [] [] Beta ex_beta.
Proof. proper_ 2%nat. split; [lia|ks]. Qed.
Lemma ex_dir_proper : proper [] [] Dirichlet ex_dir.
Proof. proper_ 2%nat. split; [lia|ks]. Qed.
Lemma ex_beta_special : special_case 2 [] Beta Dirichlet ex_beta ex_dir.
Proof. split; reflexivity. Qed.
Lemma ex_beta_obs : observed [] [] ex_beta (vec [1 / 3]%R [] eq_refl) (scalar (1 / 3)).
Proof. observed_. destruct j; [reflexivity|discriminate]. Qed.
Lemma ex_dir_obs : observed [] [] ex_dir (vec [1 / 3]%R [1]%nat eq_refl) (vec2 (1 / 3) 0).
Proof. observed_. destruct j as [|[|j] [|? ?]]; try discriminate; reflexivity. Qed.
