(** C37, C38: densities of transformed families and of special cases. *)
From Coquelicot Require Import Coquelicot.
From Coq Require Import String List Bool Arith Reals Lra Lia.
From Verif Require Import Base XReal Tensor Support Dist Iteration Structure Spec Joint SpecFun Expr Fam SumSpec DotSpec PointSpec Examples ConvEx DensSpec DensVal DensThms DensEx.
Import ListNotations.
Local Open Scope string_scope.
Local Open Scope R_scope.

(** q.pdf(x) == base.pdf(g(x)) * |g'(x)| for Rayleigh, Weibull, Chi and ChiSquare *)
Theorem C37_change_of_variables solve b i f f0 q q0 g x y xv yv g' : proper b i f q -> proper b i f0 q0 -> transformed i f f0 q q0 g ->
  observed b i q x xv -> observed b i q0 y yv -> 0 < xv false [] -> yv false [] = g (xv false []) -> is_derive g (xv false []) g' ->
  exists d d0, density (fam_methods solve) b i q x d /\ density (fam_methods solve) b i q0 y d0 /\ d = d0 * Rabs g'.
Proof. exact (transformed_density solve b i f f0 q q0 g x y xv yv g'). Qed.
Example C37_example : proper [2]%nat [1]%nat Rayleigh ex_ray /\ proper [2]%nat [1]%nat Exponential ex_ray0 /\ transformed [1]%nat Rayleigh Exponential ex_ray ex_ray0 (fun z => z * z) /\
  observed [2]%nat [1]%nat ex_ray ex_rx (scalar 2) /\ observed [2]%nat [1]%nat ex_ray0 ex_ry (scalar 4) /\ 0 < scalar 2 false [] /\ scalar 4 false [] = 2 * 2 /\
  is_derive (fun z => z * z) 2 4 /\ proper [2]%nat [1]%nat Weibull ex_wei /\
  transformed [1]%nat Weibull Exponential ex_wei ex_ray0 (fun z => Rpower z (par ex_wei [1]%nat "concentration" [])).
Proof.
  split; [exact ex_ray_proper|]. split; [exact ex_ray0_proper|]. split; [exact ex_ray_transformed|]. split; [exact ex_rx_obs|]. split; [exact ex_ry_obs|].
  split; [cbn; lra|]. split; [cbn; lra|]. split; [auto_derive; [exact Logic.I|lra]|]. split; [exact ex_wei_proper|exact ex_wei_transformed].
Qed.

(** q.log_pdf(x) == q0.log_pdf(x) when q0 is the same distribution in a more general family *)
Theorem C38_special_cases solve b i f f0 q q0 n x y xv yv : proper b i f q -> proper b i f0 q0 -> dims_of q = Ok n -> special_case n i f f0 q q0 ->
  observed b i q x xv -> observed b i q0 y yv -> same_observation f f0 xv yv -> sample_space f n xv ->
  exists l, log_density (fam_methods solve) b i q x l /\ log_density (fam_methods solve) b i q0 y l.
Proof. exact (special_density solve b i f f0 q q0 n x y xv yv). Qed.
Example C38_example : (proper [1]%nat [0]%nat IsotropicNormal ex_iso /\ proper [1]%nat [0]%nat MultivariateDiagonalNormal ex_diag /\ dims_of ex_iso = Ok 2%nat /\
    special_case 2 [0]%nat IsotropicNormal MultivariateDiagonalNormal ex_iso ex_diag /\ observed [1]%nat [0]%nat ex_iso ex_ix (vec2 5 6) /\ observed [1]%nat [0]%nat ex_diag ex_ix (vec2 5 6)) /\
  (proper [] [] Beta ex_beta /\ proper [] [] Dirichlet ex_dir /\ special_case 2 [] Beta Dirichlet ex_beta ex_dir /\ observed [] [] ex_beta (vec [1 / 3] [] eq_refl) (scalar (1 / 3)) /\
    observed [] [] ex_dir (vec [1 / 3] [1]%nat eq_refl) (vec2 (1 / 3) 0) /\ same_observation Beta Dirichlet (scalar (1 / 3)) (vec2 (1 / 3) 0) /\ sample_space Beta 2 (scalar (1 / 3))).
Proof.
  split.
  - split; [exact ex_iso_proper|]. split; [exact ex_diag_proper|]. split; [reflexivity|]. split; [exact ex_iso_special|]. split; [exact ex_iso_obs|exact ex_diag_obs].
  - split; [exact ex_beta_proper|]. split; [exact ex_dir_proper|]. split; [exact ex_beta_special|]. split; [exact ex_beta_obs|]. split; [exact ex_dir_obs|]. split; [intros []; reflexivity|cbn; lra].
Qed.
