(** C35: what generate produces. *)
From Coq Require Import String List Bool Arith Reals ZArith Lra Lia.
From Verif Require Import Base XReal Tensor TensorFacts TensorFacts2 BroadcastFacts Support SupportSpec PlaneFacts SupportFacts ClampThms
  Dist DictFacts Iteration Structure Spec DotSpec PointSpec Val Generate GenSpec.
Import ListNotations.
Local Open Scope R_scope.

Section G.
  Context (g : rng) (Hg : rng_ok g) (Hz : normal_nonzero g).
  Lemma real_gen mn mx sc k s : 0 <= sc -> match mn, mx with Some m, Some M => m <= M | _, _ => True end ->
    exists t, real_generate g mn mx sc k s = (S k, t) /\ shp t = s /\ forall i, inb s i = true -> exists v, tget t i = Fin v /\ within mn mx v.
  Proof.
    intros Hs Hm. unfold real_generate, within. destruct mn as [m|], mx as [M|]; eexists; (split; [reflexivity|]).
    - destruct (ok_uniform g Hg k s) as [E H]. split; [exact E|]. intros i Hi. rewrite <- E in Hi. rewrite tget_tmap by exact Hi. rewrite E in Hi. destruct (H i Hi) as (v & -> & V). eexists. split; [reflexivity|]. nra.
    - destruct (ok_exponential g Hg k s) as [E H]. split; [exact E|]. intros i Hi. rewrite <- E in Hi. rewrite tget_tmap by exact Hi. rewrite E in Hi. destruct (H i Hi) as (v & -> & V). eexists. split; [reflexivity|]. nra.
    - destruct (ok_exponential g Hg k s) as [E H]. split; [exact E|]. intros i Hi. rewrite <- E in Hi. rewrite tget_tmap by exact Hi. rewrite E in Hi. destruct (H i Hi) as (v & -> & V). eexists. split; [reflexivity|]. nra.
    - destruct (ok_normal g Hg k s) as [E H]. split; [exact E|]. intros i Hi. rewrite <- E in Hi. rewrite tget_tmap by exact Hi. rewrite E in Hi. destruct (H i Hi) as (v & -> & V). eexists. split; [reflexivity|]. auto.
  Qed.
  Lemma adj_min_above m : m < adj_min m.
  Proof. pose proof feps_pos. unfold adj_min. eapply Rlt_le_trans; [|apply Rmax_l]. lra. Qed.
  Lemma adj_max_below m : adj_max m < m.
  Proof. pose proof feps_pos. unfold adj_max. eapply Rle_lt_trans; [apply Rmin_l|]. lra. Qed.
  Lemma trunc_ge (m : Z) v : (0 <= m)%Z -> IZR m <= v -> (m <= rtrunc v)%Z.
  Proof.
    intros H0 H. assert (0 <= v) by (apply Rle_trans with (IZR m); [now apply IZR_le|exact H]). unfold rtrunc. destruct (Rle_dec 0 v); [|lra].
    destruct (archimed v) as [A1 A2]. assert (IZR m < IZR (up v)) by lra. match goal with X : IZR m < _ |- _ => apply lt_IZR in X end. unfold Int_part. lia.
  Qed.
  Lemma ring_gen r b s k : ring_ready r b -> exists k' x, ring_generate g r k (b ++ s) = Ok (k', x) /\ ashape x = (b ++ s)%list /\ ring_member r b x.
  Proof.
    destruct r as [mn mx sc|mn mx| |mn mx]; cbn [ring_ready ring_generate]; intros H.
    - destruct H as [H1 H2]. destruct (real_gen mn mx sc k (b ++ s) H1 H2) as (t & -> & S & V). exists (Datatypes.S k), (RA t). split; [reflexivity|]. split; [exact S|]. intros i Hi. rewrite S in Hi. auto.
    - destruct H as (P1 & P2 & H). destruct (Hz k (b ++ s)%list) as [E1 Z1]. destruct (Hz (S k) (b ++ s)%list) as [E2 Z2].
      rewrite tmap2_same by congruence. cbn [bind]. rewrite complex_from_plane_elem.
      2:{ cbn [shp tbuild]. rewrite E1. destruct P1 as [s2 ->]. exists (s2 ++ s)%list. now rewrite app_assoc. }
      2:{ cbn [shp tbuild]. rewrite E1. intros M HM. destruct (P2 M HM) as [s2 ->]. exists (s2 ++ s)%list. now rewrite app_assoc. }
      cbn [bind]. do 2 eexists. split; [reflexivity|]. split; [exact E1|]. cbn [ring_member]. intros _. split; [exact P1|]. split; [exact P2|].
      cbn [shp tbuild]. intros i Hi. rewrite !tget_tbuild by exact Hi. rewrite E1 in Hi. destruct (Z1 i Hi) as (u & -> & U). destruct (Z2 i Hi) as (w & -> & W).
      assert (HB : inb b (firstn (length b) i) = true) by (clear -Hi; revert i Hi; induction b as [|d b IH]; intros [|i0 i] Hi; cbn in *; try discriminate; auto; apply andb_prop in Hi as [A B]; apply andb_true_intro; split; [exact A|now apply IH]).
      destruct (H _ HB) as (lo & hi & B1 & B2 & L & M).
      assert (C1 : bval mn i = Fin lo). { rewrite <- B1. unfold bval. destruct P1 as [s2 E]. rewrite firstn_firstn. f_equal. f_equal. unfold rank. rewrite E, app_length. lia. }
      assert (C2 : mx_val mx i = option_map Fin hi). { rewrite <- B2. destruct mx as [Mb|]; [|reflexivity]. cbn. f_equal. unfold bval. destruct (P2 Mb eq_refl) as [s2 E]. rewrite firstn_firstn. f_equal. f_equal. unfold rank. rewrite E, app_length. lia. }
      rewrite C1, C2. assert (Q : 0 < cmag u w). { unfold cmag. apply sqrt_lt_R0. nra. } change (XC (Fin u) (Fin w)) with (cfin u w). rewrite c_from_Fin by lra.
      exists lo, hi. do 2 eexists. repeat (split; [first [exact B1|exact B2|reflexivity|exact L]|]).
      assert (FM : 0 <= from_mag lo hi (cmag u w)). { pose proof (from_mag_inside lo hi (cmag u w) M Q) as [F _]. lra. }
      replace (cmag _ _) with (from_mag lo hi (cmag u w)); [now apply from_mag_inside|].
      set (f := from_mag lo hi (cmag u w)) in *. set (c := cmag u w) in *. unfold cmag. replace (f / c * u * (f / c * u) + f / c * w * (f / c * w)) with (f * f).
      + now rewrite sqrt_square.
      + assert (CC : c * c = u * u + w * w) by (unfold c, cmag; apply sqrt_sqrt; nra). transitivity (f * f / (c * c) * (u * u + w * w)); [rewrite <- CC; field; lra|field; lra].
    - do 2 eexists. split; [reflexivity|]. destruct (ok_binomial g Hg k (b ++ s)%list) as [E B]. split; [exact E|]. cbn [ring_member]. intros i Hi. change (inb (shp (r_binomial g k (b ++ s)%list)) i = true) in Hi. rewrite tget_tmap by exact Hi. rewrite E in Hi. destruct (B i Hi) as (v & -> & V). cbn [xbool]. destruct (Req_EM_T v 0); auto.
    - destruct H as [-> H]. unfold mk_real_field.
      assert (SC : match option_map adj_min (option_map IZR mn), option_map adj_max (option_map IZR (@None Z)) with Some m, Some M => m <= M | _, _ => True end) by (destruct mn; exact I).
      destruct (real_gen (option_map adj_min (option_map IZR mn)) (option_map adj_max (option_map IZR (@None Z))) 1 k (b ++ s)%list) as (t & E & S & V); [lra|exact SC|]. rewrite E. do 2 eexists. split; [reflexivity|]. split; [exact S|].
      cbn [ring_member shp tmap tbuild]. rewrite S. intros i Hi. rewrite tget_tmap by (now rewrite S). destruct (V i Hi) as (v & -> & W). cbn [xmul xtrunc]. eexists. split; [reflexivity|].
      split; [|exact I]. destruct mn as [m|]; [|exact I]. cbn in W. destruct W as [W _]. apply trunc_ge; [exact H|]. pose proof (adj_min_above (IZR m)). assert (0 <= IZR m) by now apply IZR_le. lra.
  Qed.
End G.

(** ** sums *)
Lemma sumR_swap n m (F : nat -> nat -> R) : sumR n (fun a => sumR m (fun b => F a b)) = sumR m (fun b => sumR n (fun a => F a b)).
Proof.
  induction n as [|n IH].
  - rewrite sumR_0. symmetry. now apply sumR_zero.
  - rewrite sumR_S, IH. rewrite <- sumR_plus. apply sumR_ext. intros k _. now rewrite sumR_S.
Qed.
Lemma sumR_prod n u w : sumR n u * sumR n w = sumR n (fun a => sumR n (fun b => u a * w b)).
Proof. rewrite Rmult_comm, <- sumR_scal. apply sumR_ext. intros a _. rewrite Rmult_comm. symmetry. apply sumR_scal. Qed.
Lemma hsd_gram n (p q : nat -> nat -> R) (e : nat -> R) : (forall l, (l < n)%nat -> 0 <= e l) ->
  hsd n (fun a b => sumR n (fun l => e l * (p a l * p b l + q a l * q b l))) (fun a b => sumR n (fun l => e l * (q a l * p b l - p a l * q b l))).
Proof.
  intros He. split.
  - intros a b _ _. split; [apply sumR_ext; intros; ring|]. rewrite <- sumR_opp. apply sumR_ext. intros; ring.
  - intros x y.
    replace (sumR n _) with (sumR n (fun l => e l * (sumR n (fun a => x a * p a l + y a * q a l) * sumR n (fun a => x a * p a l + y a * q a l) +
                                                   sumR n (fun a => x a * q a l - y a * p a l) * sumR n (fun a => x a * q a l - y a * p a l)))).
    + apply sumR_nonneg. intros l Hl. apply Rmult_le_pos; [now apply He|]. nra.
    + transitivity (sumR n (fun a => sumR n (fun b => sumR n (fun l => e l * ((x a * p a l + y a * q a l) * (x b * p b l + y b * q b l) + (x a * q a l - y a * p a l) * (x b * q b l - y b * p b l)))))).
      * rewrite (sumR_ext n _ (fun l => sumR n (fun a => sumR n (fun b => e l * ((x a * p a l + y a * q a l) * (x b * p b l + y b * q b l) + (x a * q a l - y a * p a l) * (x b * q b l - y b * p b l)))))).
        { rewrite sumR_swap. apply sumR_ext. intros a _. apply sumR_swap. }
        intros l _. rewrite !sumR_prod, <- sumR_plus, <- sumR_scal. apply sumR_ext. intros a _. rewrite <- sumR_plus, <- sumR_scal. apply sumR_ext. intros b _. reflexivity.
      * apply sumR_ext. intros a _. apply sumR_ext. intros b _. rewrite !(Rmult_comm (sumR n _)), <- !sumR_scal, <- sumR_minus. apply sumR_ext. intros l _. ring.
Qed.
Lemma hsd_ext n re im re' im' : (forall a b, (a < n)%nat -> (b < n)%nat -> re a b = re' a b /\ im a b = im' a b) -> hsd n re im -> hsd n re' im'.
Proof.
  intros E [S H]. split.
  - intros a b Ha Hb. destruct (E a b Ha Hb) as [<- <-]. destruct (E b a Hb Ha) as [<- <-]. auto.
  - intros x y. specialize (H x y). erewrite sumR_ext; [exact H|]. intros a Ha. apply sumR_ext. intros b Hb. destruct (E a b Ha Hb) as [<- <-]. reflexivity.
Qed.
Lemma csum_seq n (a c : nat -> R) : forall s, fold_right cadd (XC (Fin 0) (Fin 0)) (map (fun l => cfin (a l) (c l)) (seq s n)) = cfin (fold_right Rplus 0 (map a (seq s n))) (fold_right Rplus 0 (map c (seq s n))).
Proof. induction n as [|n IH]; intros s; [reflexivity|]. cbn [seq map fold_right]. rewrite IH. reflexivity. Qed.

Section S.
  Context (g : rng) (Hg : rng_ok g) (Hz : normal_nonzero g).
  Lemma removelast2 {A} (l : list A) a c : removelast (l ++ [a; c]) = l ++ [a].
  Proof. change (l ++ [a; c])%list with (l ++ ([a] ++ [c]))%list. rewrite app_assoc. apply removelast_last. Qed.
  Lemma last2 {A} (l : list A) a c d : last (l ++ [a; c]) d = c.
  Proof. change (l ++ [a; c])%list with (l ++ ([a] ++ [c]))%list. rewrite app_assoc. apply last_last. Qed.
  Lemma einsum_get {A} {DA : Dflt A} add mul zero b n (m e mt : tensor A) j a c : inb b j = true -> (a < n)%nat -> (c < n)%nat ->
    tget (einsum_diag add mul zero b n m e mt) (j ++ [a; c])%list = fold_right add zero (map (fun l => mul (mul (tget m (j ++ [a; l])%list) (tget e (j ++ [l])%list)) (tget mt (j ++ [l; c])%list)) (seq 0 n)).
  Proof. intros Hj Ha Hc. unfold einsum_diag. rewrite tget_tbuild by (now apply inb_snoc2_intro). rewrite removelast2, last2, last_last, removelast_last. reflexivity. Qed.
  Lemma tswap_get {A} {DA : Dflt A} b n (t : tensor A) j a c : shp t = (b ++ [n; n])%list -> inb b j = true -> (a < n)%nat -> (c < n)%nat -> tget (tswap t) (j ++ [a; c])%list = tget t (j ++ [c; a])%list.
  Proof. intros E Hj Ha Hc. unfold tswap. rewrite tget_tbuild by (rewrite E, swap_last2_snoc; now apply inb_snoc2_intro). now rewrite swap_last2_snoc. Qed.

  Lemma eig_gen (psd : bool) k b n : exists t, (if psd then real_generate g (Some (adj_min 0)) None 1 k (b ++ [n]) else real_generate g None (Some (adj_max 0)) 1 k (b ++ [n])) = (S k, t) /\
    shp t = (b ++ [n])%list /\ exists e : index -> nat -> R, forall j l, inb b j = true -> (l < n)%nat -> tget t (j ++ [l])%list = Fin (e j l) /\ if psd then 0 <= e j l else e j l <= 0.
  Proof.
    pose proof (adj_min_above 0) as A1. pose proof (adj_max_below 0) as A2.
    assert (X : exists t, (if psd then real_generate g (Some (adj_min 0)) None 1 k (b ++ [n]) else real_generate g None (Some (adj_max 0)) 1 k (b ++ [n])) = (S k, t) /\ shp t = (b ++ [n])%list /\
      forall i, inb (b ++ [n]) i = true -> exists v, tget t i = Fin v /\ if psd then 0 <= v else v <= 0).
    { destruct psd.
      - destruct (real_gen g Hg (Some (adj_min 0)) None 1 k (b ++ [n])%list) as (t & E & Sh & V); [lra|exact I|]. exists t. split; [exact E|]. split; [exact Sh|]. intros i Hi. destruct (V i Hi) as (v & W & [B _]). exists v. split; [exact W|lra].
      - destruct (real_gen g Hg None (Some (adj_max 0)) 1 k (b ++ [n])%list) as (t & E & Sh & V); [lra|exact I|]. exists t. split; [exact E|]. split; [exact Sh|]. intros i Hi. destruct (V i Hi) as (v & W & [_ B]). exists v. split; [exact W|lra]. }
    destruct X as (t & E & Sh & V). exists t. split; [exact E|]. split; [exact Sh|]. exists (fun j l => toR (tget t (j ++ [l])%list)). intros j l Hj Hl.
    destruct (V (j ++ [l])%list) as (v & -> & W); [now apply inb_snoc_intro|]. auto.
  Qed.
  Lemma sym_gen r h p q b n k : r = real_field \/ (r = complex_field /\ h = true) ->
    exists k' x, sym_generate g r h p q k b n = Ok (k', x) /\ supp_member (SymS r h p q) b n x.
  Proof.
    intros Hr. unfold sym_generate.
    assert (RR : ring_ready r b).
    { destruct Hr as [->|[-> _]]; cbn; [split; [lra|exact I]|]. split; [now exists b|]. split; [intros M HM; discriminate|]. intros j _. exists 0, None. repeat split; try reflexivity; lra. }
    destruct (ring_gen g Hg Hz r b [n; n] k RR) as (k1 & m & -> & Sh & Mem). cbn [bind].
    destruct Hr as [->|[-> ->]].
    - destruct m as [t|]; [|contradiction]. cbn [ashape] in Sh. cbn [ring_member real_field mk_real_field option_map] in Mem.
      assert (T0 : exists P : index -> nat -> nat -> R, forall j a c, inb b j = true -> (a < n)%nat -> (c < n)%nat -> tget t (j ++ [a; c])%list = Fin (P j a c)).
      { exists (fun j a c => toR (tget t (j ++ [a; c])%list)). intros j a c Hj Ha Hc. destruct (Mem (j ++ [a; c])%list) as (v & -> & _); [rewrite Sh; now apply inb_snoc2_intro|reflexivity]. }
      destruct T0 as [P T].
      destruct (p || q) eqn:PQ.
      + cbn [real_field mk_real_field option_map]. destruct (eig_gen p k1 b n) as (te & -> & She & e & He).
        do 2 eexists. split; [reflexivity|]. set (x := einsum_diag _ _ _ _ _ _ _ _).
        assert (X : forall j a c, inb b j = true -> (a < n)%nat -> (c < n)%nat -> tget x (j ++ [a; c])%list = Fin (sumR n (fun l => e j l * (P j a l * P j c l)))).
        { intros j a c Hj Ha Hc. unfold x. rewrite einsum_get by assumption. erewrite (map_ext_in _ (fun l => Fin (e j l * (P j a l * P j c l)))); [apply xsum_seq|].
          intros l Hl. apply in_seq in Hl. rewrite (tswap_get b n) by (auto; lia). rewrite !T by (auto; lia). destruct (He j l Hj) as [-> _]; [lia|]. cbn [xmul]. f_equal. ring. }
        split; [reflexivity|]. split; [|split; [reflexivity|split]].
        * cbn [ashape]. intros i Hi. change (inb (b ++ [n; n]) i = true) in Hi. apply inb_snoc2 in Hi as (j & a & c & -> & Hj & Ha & Hc). cbn [entry_c]. rewrite X by assumption. eexists _, _. reflexivity.
        * cbn [arr_symmetric]. intros j a c Hj Ha Hc. rewrite !X by (auto; lia). f_equal. apply sumR_ext. intros; ring.
        * split.
          -- intros -> j Hj. eapply hsd_ext; [|apply (hsd_gram n (P j) (fun _ _ => 0) (e j)); intros l Hl; apply (He j l Hj Hl)]. intros a c Ha Hc. unfold mre, mim. cbn [entry_c]. rewrite X by assumption. cbn. split; [apply sumR_ext; intros; ring|]. apply sumR_zero. intros; ring.
          -- intros -> -> j Hj. eapply hsd_ext; [|apply (hsd_gram n (P j) (fun _ _ => 0) (fun l => - e j l)); intros l Hl; destruct (He j l Hj Hl); lra]. intros a c Ha Hc. unfold mre, mim. cbn [entry_c]. rewrite X by assumption. cbn. split; [rewrite <- sumR_opp; apply sumR_ext; intros; ring|]. rewrite Ropp_0. apply sumR_zero. intros; ring.
      + rewrite tmap2_same by (unfold tswap; cbn [shp tbuild]; now rewrite Sh, swap_last2_snoc). cbn [bind]. do 2 eexists. split; [reflexivity|]. set (x := tbuild _ _).
        assert (X : forall j a c, inb b j = true -> (a < n)%nat -> (c < n)%nat -> tget x (j ++ [a; c])%list = Fin (P j a c + P j c a)).
        { intros j a c Hj Ha Hc. unfold x. rewrite tget_tbuild by (rewrite Sh; now apply inb_snoc2_intro). rewrite (tswap_get b n) by auto. rewrite !T by auto. reflexivity. }
        apply orb_false_elim in PQ as [-> ->]. split; [exact Sh|]. split; [|split; [reflexivity|split; [|split; discriminate]]].
        * cbn [ashape]. intros i Hi. unfold x in Hi. cbn [shp tbuild] in Hi. rewrite Sh in Hi. apply inb_snoc2 in Hi as (j & a & c & -> & Hj & Ha & Hc). cbn [entry_c]. rewrite X by assumption. eexists _, _. reflexivity.
        * cbn [arr_symmetric]. intros j a c Hj Ha Hc. rewrite !X by (auto; lia). f_equal. ring.
    - destruct m as [|t]; [contradiction|]. cbn [ashape] in Sh. cbn [ring_member complex_field ring_vals] in Mem. destruct (Mem eq_refl) as (_ & _ & Mem').
      assert (T0 : exists P Q : index -> nat -> nat -> R, forall j a c, inb b j = true -> (a < n)%nat -> (c < n)%nat -> tget t (j ++ [a; c])%list = cfin (P j a c) (Q j a c)).
      { exists (fun j a c => toR (xre (tget t (j ++ [a; c])%list))), (fun j a c => toR (xim (tget t (j ++ [a; c])%list))). intros j a c Hj Ha Hc. destruct (Mem' (j ++ [a; c])%list) as (lo & hi & re & im & _ & _ & -> & _); [rewrite Sh; now apply inb_snoc2_intro|reflexivity]. }
      destruct T0 as (P & Q & T).
      assert (Sw : shp (tswap t) = (b ++ [n; n])%list) by (unfold tswap; cbn [shp tbuild]; now rewrite Sh, swap_last2_snoc).
      assert (SC : forall j a c, inb b j = true -> (a < n)%nat -> (c < n)%nat -> tget (tmap cconj (tswap t)) (j ++ [a; c])%list = cfin (P j c a) (- Q j c a)).
      { intros j a c Hj Ha Hc. rewrite tget_tmap by (rewrite Sw; now apply inb_snoc2_intro). rewrite (tswap_get b n) by auto. rewrite T by auto. reflexivity. }
      destruct (p || q) eqn:PQ.
      + cbn [complex_field]. destruct (eig_gen p k1 b n) as (te & -> & She & e & He).
        do 2 eexists. split; [reflexivity|]. set (x := einsum_diag _ _ _ _ _ _ _ _).
        assert (X : forall j a c, inb b j = true -> (a < n)%nat -> (c < n)%nat -> tget x (j ++ [a; c])%list =
          cfin (sumR n (fun l => e j l * (P j a l * P j c l + Q j a l * Q j c l))) (sumR n (fun l => e j l * (Q j a l * P j c l - P j a l * Q j c l)))).
        { intros j a c Hj Ha Hc. unfold x. rewrite einsum_get by assumption. erewrite (map_ext_in _ (fun l => cfin (e j l * (P j a l * P j c l + Q j a l * Q j c l)) (e j l * (Q j a l * P j c l - P j a l * Q j c l)))); [apply csum_seq|].
          intros l Hl. apply in_seq in Hl. rewrite SC by (auto; lia). rewrite !T by (auto; lia). rewrite tget_tmap by (rewrite She; apply inb_snoc_intro; [exact Hj|lia]). destruct (He j l Hj) as [-> _]; [lia|].
          unfold cofr, cmul, cfin. cbn [xre xim xmul xsub xadd xneg]. f_equal; unfold xsub; cbn; f_equal; ring. }
        split; [reflexivity|]. split; [|split; [reflexivity|split]].
        * cbn [ashape]. intros i Hi. change (inb (b ++ [n; n]) i = true) in Hi. apply inb_snoc2 in Hi as (j & a & c & -> & Hj & Ha & Hc). cbn [entry_c]. rewrite X by assumption. eexists _, _. reflexivity.
        * cbn [arr_symmetric]. intros j a c Hj Ha Hc. rewrite !X by (auto; lia). unfold cconj, cfin. cbn [xre xim xneg]. f_equal; f_equal; [apply sumR_ext; intros; ring|]. rewrite <- sumR_opp. apply sumR_ext; intros; ring.
        * split.
          -- intros -> j Hj. eapply hsd_ext; [|apply (hsd_gram n (P j) (Q j) (e j)); intros l Hl; apply (He j l Hj Hl)]. intros a c Ha Hc. unfold mre, mim. cbn [entry_c]. rewrite X by assumption. cbn. split; reflexivity.
          -- intros -> -> j Hj. eapply hsd_ext; [|apply (hsd_gram n (P j) (Q j) (fun l => - e j l)); intros l Hl; destruct (He j l Hj Hl); lra]. intros a c Ha Hc. unfold mre, mim. cbn [entry_c]. rewrite X by assumption. cbn. split; rewrite <- sumR_opp; apply sumR_ext; intros; ring.
      + rewrite tmap2_same by (cbn [shp tmap tbuild]; now rewrite Sh, Sw). cbn [bind]. do 2 eexists. split; [reflexivity|]. set (x := tbuild _ _).
        assert (X : forall j a c, inb b j = true -> (a < n)%nat -> (c < n)%nat -> tget x (j ++ [a; c])%list = cfin (P j a c + P j c a) (Q j a c + - Q j c a)).
        { intros j a c Hj Ha Hc. unfold x. rewrite tget_tbuild by (rewrite Sh; now apply inb_snoc2_intro). rewrite SC by auto. rewrite !T by auto. reflexivity. }
        apply orb_false_elim in PQ as [-> ->]. split; [exact Sh|]. split; [|split; [reflexivity|split; [|split; discriminate]]].
        * cbn [ashape]. intros i Hi. unfold x in Hi. cbn [shp tbuild] in Hi. rewrite Sh in Hi. apply inb_snoc2 in Hi as (j & a & c & -> & Hj & Ha & Hc). cbn [entry_c]. rewrite X by assumption. eexists _, _. reflexivity.
        * cbn [arr_symmetric]. intros j a c Hj Ha Hc. rewrite !X by (auto; lia). unfold cconj, cfin. cbn [xre xim xneg]. f_equal; f_equal; ring.
  Qed.
  Theorem supp_gen s b n k : supp_ready s b -> exists k' x, supp_generate g s k b n = Ok (k', x) /\ supp_member s b n x.
  Proof.
    destruct s as [r|r|r|r h p q|r|rad]; cbn [supp_ready]; try contradiction; intros H; cbn [supp_generate].
    - destruct (ring_gen g Hg Hz r b [] k H) as (k' & x & E & S1 & M). rewrite app_nil_r in E. exists k', x. split; [exact E|]. split; [exact S1|exact M].
    - destruct (ring_gen g Hg Hz r b [n] k H) as (k' & x & E & S1 & M). exists k', x. split; [exact E|]. split; [exact S1|exact M].
    - now apply sym_gen.
  Qed.
End S.
