(** C54: a bracket of the search contains the root. *)
From Coquelicot Require Import Coquelicot.
From Coq Require Import String List Bool Arith Reals Lia Lra.
From Verif Require Import Base XReal Tensor TensorFacts TensorFacts2 Support Dist Spec DotSpec SumSpec PointSpec Joint DensSpec VarSpec Fam RootSpec RootVal FamR PointFacts Val FamVal LeafVal FamFacts SearchFacts FamTy StructFacts ConvFacts JointThms JointThms2 RootThms RootEx MeanSpec MeanThms.
Import ListNotations.
Local Unset Asymmetric Patterns.
Local Open Scope R_scope.

Lemma t_bracket b i f e n lo hi sp : f = Gamma \/ f = ChiSquare \/ f = VonMisesFisher -> proper_e b i f e -> dims_of e = Ok n -> (f = VonMisesFisher -> b = []) ->
  finite_search b i 1 lo -> finite_search b i 1 hi -> search_root b i f 1 e sp ->
  (exists g x, search_gradient e f lo = Ok g /\ tget g (i ++ [0%nat])%list = Fin x /\ x <= 0) -> (exists g x, search_gradient e f hi = Ok g /\ tget g (i ++ [0%nat])%list = Fin x /\ 0 <= x) ->
  exists x y z, tget lo (i ++ [0%nat])%list = Fin x /\ tget sp (i ++ [0%nat])%list = Fin y /\ tget hi (i ++ [0%nat])%list = Fin z /\ x <= y <= z.
Proof.
  intros F P D Hb Fl Fh [Fs (g & G & Z)] (gl & xl & L1 & L2 & L3) (gh & xh & H1 & H2 & H3). destruct (proj2 Fl 0%nat Nat.lt_0_1) as (x & X). destruct (proj2 Fs 0%nat Nat.lt_0_1) as (y & Y). destruct (proj2 Fh 0%nat Nat.lt_0_1) as (z & W).
  exists x, y, z. split; [exact X|]. split; [exact Y|]. split; [exact W|].
  assert (Z0 : tget g (i ++ [0%nat])%list = Fin 0).
  { pose proof P as (C & W' & S & Hi & Dom). destruct (exp_dom_at b i e f Hi C W' S Dom) as (n' & A & H). destruct (leaf_dims _ _ S) as (n2 & D2 & K). rewrite C in K. assert (n' = n) by (rewrite (ap_dims _ _ _ _ _ _ A) in D; congruence). assert (n2 = n) by congruence. subst n' n2.
    assert (M : search_count f n = Some 1%nat) by (destruct F as [->|[->| ->]]; reflexivity). destruct (count_dim f n 1 M K) as [E2 _].
    destruct (grad_at solve0 b i e f n (point_of e i) sp (fun _ => y) 1 Hi A H M Hb) as (g' & G1 & G2 & _).
    - apply search_dom; auto. destruct F as [->|[->| ->]]; exact Logic.I.
    - exact (proj1 Fs).
    - intros k Kk. replace k with 0%nat by Lia.lia. exact Y.
    - rewrite G in G1. injection G1 as <-. exact (zero_get b i g 1 0 G2 Z Nat.lt_0_1). }
  assert (M : forall u v a c gu gv xu xv, finite_search b i 1 u -> finite_search b i 1 v -> tget u (i ++ [0%nat])%list = Fin a -> tget v (i ++ [0%nat])%list = Fin c -> a < c ->
     search_gradient e f u = Ok gu -> search_gradient e f v = Ok gv -> tget gu (i ++ [0%nat])%list = Fin xu -> tget gv (i ++ [0%nat])%list = Fin xv -> xu < xv).
  { intros u v a c gu gv xu xv Fu Fv Ua Vc Lt Gu Gv Xu Xv. assert (X0 : xltb (tget u (i ++ [0%nat])%list) (tget v (i ++ [0%nat])%list) = true) by (rewrite Ua, Vc; unfold xltb, rltb; destruct (Rlt_dec a c); [reflexivity|contradiction]).
    destruct (t_grad_incr solve0 b i f e n u v ltac:(destruct F as [->|[->| ->]]; reflexivity) P D Hb Fu Fv X0 ltac:(destruct F as [->|[->| ->]]; discriminate)) as (g1 & g2 & x1 & x2 & A1 & A2 & A3 & A4 & A5).
    rewrite Gu in A1. rewrite Gv in A2. injection A1 as <-. injection A2 as <-. rewrite Xu in A3. rewrite Xv in A4. injection A3 as <-. injection A4 as <-. exact A5. }
  split; apply Rnot_lt_le; intros Lt.
  - pose proof (M sp lo y x g gl 0 xl Fs Fl Y X Lt G L1 Z0 L2). lra.
  - pose proof (M hi sp z y gh g xh 0 Fh Fs W Y Lt H1 G H2 Z0). lra.
Qed.
