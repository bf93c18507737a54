(** C73: the entropy of p is the largest of all densities with its moments. *)
From Coquelicot Require Import Coquelicot.
From Coq Require Import String List Bool Arith ZArith Reals Lra Lia.
From Verif Require Import Base XReal Tensor TensorFacts Support Dist Iteration Structure Tools Joint Spec StructFacts SumSpec DotSpec DotFacts DotLaws TensorFacts2 PointSpec SpecFun Expr Fam
  DictFacts MappingFacts PointFacts LeafVal DerivFacts DerivThms DensSpec DensVal DensThms ConvFacts ConvThms AssembleFacts SumFacts MapFacts JointThms JointThms2 BatchFacts LogPdfThms KlSpec KlThms
  BregFacts BregThms KlPos MleThms JointProofs SampleSpec FamR IntSpec IntFacts IntFam IntThms JointIntSpec JointInt DomConv2 JointKl InjThms GradSpec ProjSpec ProjThms.
Import ListNotations.
Local Unset Asymmetric Patterns.
Local Open Scope R_scope.

Lemma fix_self f n p : fix_eq (NP f) n p p. Proof. apply Forall_forall. intros g _ _ j _. split; auto. Qed.
Section M.
  Variable solve : minimizer -> dist -> nat -> xr.
  Let L := fam_methods solve.
  Variables (b i : list nat) (p : dist) (P : jobs -> R).
  Hypotheses (Pp : joint_proper b i p) (U : not_clipped p i) (P1 : integral_joint p P 1) (Hm : has_moments L b i p P) (Hc : has_carriers L b i p P).
  Hypotheses (He : forall pth l f, In (pth, l) (leaves [] p) -> dcls l = NP f -> has_entropy_ep (EP f) = true)
             (Hr : forall pth l f, In (pth, l) (leaves [] p) -> dcls l = NP f -> carrier_by_search f = true -> recovered L b i l).
  Theorem t_entropy_moment : exists h, value_is b i (entropy_nat L p) h /\ forall lp, joint_log_pdf_is L b i p lp -> integral_joint p (fun xv => P xv * - lp xv) h.
  Proof.
    destruct (joint_entropy solve b i p Pp He Hr) as (t & h & T1 & T2 & T3 & (lp0 & Hl0) & K). exists h. split; [exists t; auto|]. intros lp Hl.
    destruct (joint_normalised solve b i p Pp) as [(Q & HQ) _]. specialize (K Q lp HQ Hl).
    set (m := fun pth => let l := leafat p pth in let (f, n) := fam_dim l in - dotP (NP f) (EP f) n (point_of l i) (expR n (point_of l i) f) + lnR n (point_of l i) f - ecmR n (point_of l i) f).
    pose proof (spaces_nodup b i p Pp) as Nd.
    assert (E : h = rsum (map (fun l : leafspace => m (fst l)) (spaces p))).
    { apply (joint_fun _ _ _ _ _ K). apply (joint_expected solve b i p Pp Q (fun pth x => - lpl i p pth x) m HQ).
      - intros pth f n I. destruct (in_spaces b i p Pp pth f n I) as (l & I' & E' & D & Pl). pose proof (proj1 Pl) as C. destruct (proper_dims b i f l Pl) as (n' & D1 & _ & D3 & D4 & _). assert (n' = n) by congruence. subst n'.
        unfold m, fam_dim. rewrite E', C, D. eapply integral_ext; [|exact (expected_cross f n _ _ (He pth l f I' C) D4 D3 (fix_self f n (point_of l i)))].
        intros x _. cbv beta. unfold densl, dens. now rewrite (lpl_at b i p Pp pth f n l I E').
      - intros xv G. rewrite (joint_log_pdf_val solve b i p Pp lp Hl xv G). apply sumG_neg. }
    rewrite E. unfold integral_joint.
    apply (joint_ext _ _ (fun xv => P xv * rsum (map (fun a : leafspace => - lpl i p (fst a) (xv (fst a))) (spaces p)))); [exact Nd|intros xv O; rewrite (joint_log_pdf_val solve b i p Pp lp Hl xv (ok_good p xv O)), sumG_neg; reflexivity|].
    apply joint_rsum; auto. intros [pth [f n]] I. cbn [fst snd]. destruct (in_spaces b i p Pp pth f n I) as (l & I' & E' & D & Pl). pose proof (proj1 Pl) as C.
    unfold m, fam_dim. rewrite E', C, D. exact (lp_moment solve b i p P Pp P1 pth l f n U Hm Hc I' C D (He pth l f I' C) (Hr pth l f I' C)).
  Qed.
  Theorem t_maximum_entropy s : (forall xv, joint_space p xv -> 0 <= P xv) -> integral_joint p (fun xv => P xv * - ln (P xv)) s -> exists h, value_is b i (entropy_nat L p) h /\ s <= h.
  Proof.
    intros Pos HS. destruct t_entropy_moment as (h & K & J). exists h. split; [exact K|]. destruct (joint_entropy solve b i p Pp He Hr) as (_ & _ & _ & _ & _ & (lp & Hl) & _).
    exact (t_gibbs solve b i p P Pp P1 lp h s Pos Hl (J lp Hl) HS).
  Qed.
End M.
