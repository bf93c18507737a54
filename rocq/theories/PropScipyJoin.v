(** Theorems for C69: joint distributions of scipy replacements have the density and the entropy of the joint distribution of the exponential families they replace,
    and ScipyComplexNormal reports the parameters that it was given. *)
From Coquelicot Require Import Complex.
From Coq Require Import String List Bool Arith Reals Lra.
From Verif Require Import Base XReal Tensor Support Dist Iteration Structure Spec Tools Joint Fam SumSpec DotSpec PointSpec SpecFun Val DensSpec TextEx Scipy ScipyEx ScipyJoinSpec ScipyJoin ScipyJoinEx.
Import ListNotations.
Local Open Scope string_scope.
Local Open Scope R_scope.
Local Notation C := Complex.C (only parsing).
Local Existing Instance Scipy.Dflt_C.
Local Existing Instance Scipy.Dflt_R.

(** [ScipyJointDistribution(ds).pdf(z)] is [q.pdf(x)] if it is so for each part, whatever the order of the keys in ds, z and x *)
Theorem C69_joint_pdf {G} solve b q x (ds : dict string (sdist G)) z : is_joint (dcls q) = true -> (forall n s, In (n, s) (sub_distributions q) -> is_joint (dcls s) = false) ->
  well_formed q = true -> nat_tree q = true -> shaped b q = true -> obs_matches q x -> obs_shaped b q x ->
  NoDup (map fst ds) -> NoDup (map fst z) -> (forall n, In n (map fst ds) <-> In n (map fst (sub_distributions q))) -> (forall n, In n (map fst z) <-> In n (map fst (sub_distributions q))) ->
  (forall n s d a y, In (n, s) (sub_distributions q) -> In (n, d) ds -> nested_get x [n] = Some a -> In (n, y) z ->
     exists r, sd_pdf d y = Ok r /\ shp r = b /\ forall i, inb b i = true -> density (fam_methods solve) b i s a (tget r i)) ->
  exists r p, sj_pdf (map (fun kd => (fst kd, of_shaped (snd kd))) ds) z = Ok r /\ pdf (fam_methods solve) q x = Ok p /\ shp r = b /\ shp p = b /\ forall i, inb b i = true -> tget p i = Fin (tget r i).
Proof. exact (joint_pdf_agrees solve b q x ds z). Qed.
(** and its entropy is [q.entropy()] *)
Theorem C69_joint_entropy {G} solve b q (ds : dict string (sdist G)) : is_joint (dcls q) = true -> (forall n s, In (n, s) (sub_distributions q) -> is_joint (dcls s) = false) ->
  well_formed q = true -> nat_tree q = true -> shaped b q = true -> (forall n s f, In (n, s) (sub_distributions q) -> dcls s = NP f -> has_entropy_ep (EP f) = true) ->
  NoDup (map fst ds) -> (forall n, In n (map fst ds) <-> In n (map fst (sub_distributions q))) ->
  (forall n s d, In (n, s) (sub_distributions q) -> In (n, d) ds -> exists r t, sd_entropy d = Ok r /\ shp r = b /\ entropy_nat (fam_methods solve) s = Ok t /\ forall i, inb b i = true -> tget t i = Fin (tget r i)) ->
  exists r t, sj_entropy (map (fun kd => (fst kd, of_shaped (snd kd))) ds) = Ok r /\ entropy_nat (fam_methods solve) q = Ok t /\ shp r = b /\ shp t = b /\ forall i, inb b i = true -> tget t i = Fin (tget r i).
Proof. exact (joint_entropy_agrees solve b q ds). Qed.
(** the mean, variance and pseudo_variance of [ScipyComplexNormal(mean, variance, pseudo_variance)] are those it was given; by default 0, 1 and 0.  Arrays of a real dtype have real entries *)
Theorem C69_parameters b mean variance pseudo : declared b mean -> declared b variance -> declared b pseudo -> (mean <> None \/ variance <> None \/ pseudo <> None) -> (forall a, variance = Some a -> na_real a = true) ->
  (forall i, inb b i = true -> Cmod (or_else (RtoC 0) pseudo i) <= fst (or_else (RtoC 1) variance i)) ->
  exists c, cn_array mean variance pseudo = Ok c /\ shp (cn_means c) = b /\ shp (cn_variances c) = b /\ shp (cn_pseudos c) = b /\
    forall i, inb b i = true -> tget (cn_means c) i = or_else (RtoC 0) mean i /\ RtoC (tget (cn_variances c) i) = or_else (RtoC 1) variance i /\ tget (cn_pseudos c) i = or_else (RtoC 0) pseudo i.
Proof. exact (cn_getters b mean variance pseudo). Qed.
(** one of the three arguments must be given *)
Theorem C69_none : cn_array None None None = Err ValueError.
Proof. reflexivity. Qed.
Example C69_example {G} (gen : @gen_mvn_t G) solve z w :
  (exists cc cu r p, sj_pdf (map (fun kd => (fst kd, of_shaped (snd kd))) [("u", cn_dist gen cu); ("c", cn_dist gen cc)]) (jx_dict z w) = Ok r /\ pdf (fam_methods solve) jx (jx_obs z w) = Ok p /\ tget p [] = Fin (tget r [])) /\
  (let v := NArr true (@mkT C [2]%nat [RtoC 3; RtoC 5] eq_refl) in declared [2]%nat (@None narr) /\ declared [2]%nat (Some v) /\ exists c, cn_array None (Some v) None = Ok c /\
     tget (cn_variances c) [1]%nat = 5 /\ tget (cn_means c) [1]%nat = RtoC 0 /\ tget (cn_pseudos c) [1]%nat = RtoC 0).
Proof. split; [exact (jx_agrees gen solve z w)|exact ex_var_only]. Qed.
