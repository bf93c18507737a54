(** Samples lie in the sample space, and which values can be sampled. *)
From Coquelicot Require Import Coquelicot.
From Coq Require Import String List Bool Arith Reals Lia Lra.
From Verif Require Import Base XReal Tensor TensorFacts TensorFacts2 BroadcastFacts Support Dist DictFacts Iteration Structure Spec StructFacts AssembleFacts SumSpec DotSpec Tools
  ToolThms Joint StructThms MapFacts SpecFun GammaFn Expr Fam ExprFacts FamTy FamFacts SearchFacts DotFacts DotLaws BatchFacts PointSpec PointFacts Val FamR FamVal ConvFacts LeafVal ConvThms
  Var VarSpec MatVal VarThms DensSpec Sample SampleSpec SampleFacts SampleShape SampleVal.
Import ListNotations.
Local Unset Asymmetric Patterns.
Local Open Scope string_scope.
Local Open Scope R_scope.
Local Open Scope list_scope.

(** a generator with chosen values: U for the continuous functions, V for the integer ones *)
Section Oracle.
  Context {K : Type}.
  Variables (U : list nat -> R) (V : nat).
  Definition row_ok (n : nat) (i : list nat) : bool :=
    forallb (fun m => if Rlt_dec 0 (U (i ++ [m])) then true else false) (seq 0 n) && (if Req_EM_T (sumR n (fun m => U (i ++ [m]))) 1 then true else false).
  Definition oracle (key : K) (r : request) (s idx : list nat) : xr :=
    let i := firstn (length s) idx in let n := row_size r in let a := toR (row_arg r 0 i []) in
    match r_kind r with
    | Bernoulli_ => if Req_EM_T (U idx) 1 then if Rlt_dec 0 a then Fin 1 else Fin 0 else if Rlt_dec a 1 then Fin 0 else Fin 1
    | Beta_ => if Rlt_dec 0 (U idx) then if Rlt_dec (U idx) 1 then Fin (U idx) else Fin (1 / 2) else Fin (1 / 2)
    | Dirichlet_ => if row_ok n i then Fin (U idx) else Fin (/ INR n)
    | Chisquare_ | Gamma_ | Rayleigh_ | Exponential_ | Weibull_min_ => if Rlt_dec 0 (U idx) then Fin (U idx) else Fin 1
    | Geometric_ => if Rlt_dec 1 a then NaN else if Req_EM_T a 1 then Fin 1 else Fin (INR (S V))
    | Categorical_ => if (V <? n)%nat then Fin (INR V) else Fin 0
    | Poisson_ => Fin (INR V)
    | Multivariate_normal_ | Normal_ => Fin (U idx)
    end.
  Lemma firstn_row (s i e : list nat) : inb s i = true -> firstn (length s) (i ++ e) = i.
  Proof. intros H. rewrite <- (inb_length _ _ H). now rewrite firstn_app, firstn_all, Nat.sub_diag, firstn_O, app_nil_r. Qed.
  Lemma oracle_lawful : lawful oracle.
  Proof.
    intros key r s i A Ha Hi As. unfold oracle. assert (F : forall e, firstn (length s) (i ++ e) = i) by (intros e; now apply firstn_row).
    assert (A0 : (0 < length (r_args r))%nat -> arg_event (r_kind r) 0 = 0%nat -> toR (row_arg r 0 i []) = A 0%nat []).
    { intros H1 H2. rewrite (As 0%nat [] H1); [reflexivity|]. unfold row_shape. rewrite H2. destruct (nth_error (r_args r) 0); [|reflexivity]. now rewrite Nat.sub_0_r, skipn_all. }
    unfold allowed. destruct (r_kind r) eqn:Ek; cbv zeta beta; rewrite ?F, ?app_nil_r; cbn [arity arg_event] in *; try (rewrite A0 by (reflexivity || lia)); clear A0; intros.
    - destruct (Req_EM_T (U i) 1); [destruct (Rlt_dec 0 (A 0%nat []))|destruct (Rlt_dec (A 0%nat []) 1)]; first [left; split; [reflexivity|lra] | right; split; [reflexivity|lra]].
    - destruct (Rlt_dec 0 (U i)); [destruct (Rlt_dec (U i) 1)|]; (eexists; split; [reflexivity|lra]).
    - destruct (row_ok (row_size r) i) eqn:Ro.
      + pose proof Ro as Ro'. apply andb_prop in Ro'. destruct Ro' as [R1 R2]. rewrite forallb_forall in R1. exists (fun m => U (i ++ [m])). split.
        * intros m Hm. rewrite F, Ro. specialize (R1 m). rewrite in_seq in R1. split; [reflexivity|]. destruct (Rlt_dec 0 (U (i ++ [m]))); [assumption|]. discriminate R1. lia.
        * intros _. destruct (Req_EM_T (sumR (row_size r) (fun m => U (i ++ [m]))) 1); [assumption|discriminate R2].
      + exists (fun _ => / INR (row_size r)). split; [intros m Hm; rewrite F, Ro; split; [reflexivity|]; apply Rinv_0_lt_compat, lt_0_INR; lia|]. intros H1. rewrite sumR_const. field. apply not_0_INR. lia.
    - destruct (Rlt_dec 0 (U i)); (eexists; split; [reflexivity|lra]).
    - destruct (Rlt_dec 0 (U i)); (eexists; split; [reflexivity|lra]).
    - destruct (Rlt_dec 0 (U i)); (eexists; split; [reflexivity|lra]).
    - destruct (Rlt_dec 1 (A 0%nat [])); [split; [lra|reflexivity]|]. split; [|lra]. intros Hx. destruct (Req_EM_T (A 0%nat []) 1); [exists 0%nat; split; reflexivity|]. exists V. split; [reflexivity|]. contradiction.
    - destruct (V <? row_size r)%nat eqn:Ev; [exists V; split; [now apply Nat.ltb_lt|reflexivity]|]. exists 0%nat. split; [lia|reflexivity].
    - exists V. reflexivity.
    - destruct (Rlt_dec 0 (U i)); (eexists; split; [reflexivity|lra]).
    - destruct (Rlt_dec 0 (U i)); (eexists; split; [reflexivity|lra]).
    - eexists; reflexivity.
    - eexists; reflexivity.
  Qed.
End Oracle.

Lemma sumR_split n m f : sumR (n + m) f = sumR n f + sumR m (fun k => f (n + k)%nat).
Proof. induction m as [|m IH]; [rewrite Nat.add_0_r, sumR_0; ring|]. rewrite Nat.add_succ_r, !sumR_S, IH. ring. Qed.
Lemma spd2 w u u' m : 0 < w -> u * u + u' * u' < w * w -> m 0%nat 0%nat = 1 / 2 * (w + u) -> m 0%nat 1%nat = 1 / 2 * u' -> m 1%nat 0%nat = 1 / 2 * u' -> m 1%nat 1%nat = 1 / 2 * (w - u) -> spd 2 m.
Proof.
  intros Hw Hu M1 M2 M3 M4. split.
  - intros [|[|a]] [|[|b]] Ha Hb; try lia; congruence.
  - intros z Hz. rewrite !sumR_S, !sumR_0. rewrite M1, M2, M3, M4. assert (B : 0 < w + u) by nra.
    assert (Q : 0 < (w + u) * ((w + u) * (z 0%nat * z 0%nat) + 2 * u' * (z 0%nat * z 1%nat) + (w - u) * (z 1%nat * z 1%nat))).
    { replace ((w + u) * _) with (((w + u) * z 0%nat + u' * z 1%nat) * ((w + u) * z 0%nat + u' * z 1%nat) + (w * w - u * u - u' * u') * (z 1%nat * z 1%nat)) by ring.
      destruct (Req_dec (z 1%nat) 0) as [Z1|Z1].
      - assert (Z0 : z 0%nat <> 0). { destruct Hz as (a & Ha & Hz). destruct a as [|[|a]]; [exact Hz|contradiction|lia]. }
        rewrite Z1. assert (0 < (w + u) * z 0%nat * ((w + u) * z 0%nat)); [|lra]. apply Rsqr_pos_lt. apply Rmult_integral_contrapositive_currified; lra.
      - assert (0 < z 1%nat * z 1%nat) by (exact (Rsqr_pos_lt _ Z1)). pose proof (Rle_0_sqr ((w + u) * z 0%nat + u' * z 1%nat)) as S. unfold Rsqr in S. assert (0 < (w * w - u * u - u' * u') * (z 1%nat * z 1%nat)) by (apply Rmult_lt_0_compat; lra). lra. }
    assert (Q' := Rmult_lt_reg_l _ _ _ B (eq_ind_r (fun t => t < _) Q (Rmult_0_r (w + u)))). lra.
Qed.
Lemma spd_block n re im : hpd n re im -> spd (n + n) (fun r c => if (r <? n)%nat then if (c <? n)%nat then 1 / 2 * re r c else - (1 / 2 * im r (c - n)%nat)
  else if (c <? n)%nat then 1 / 2 * im (r - n)%nat c else 1 / 2 * re (r - n)%nat (c - n)%nat).
Proof.
  intros [H1 H2]. split.
  - intros a c Ha Hc. destruct (Nat.ltb_spec a n), (Nat.ltb_spec c n).
    + now rewrite (proj1 (H1 a c ltac:(lia) ltac:(lia))).
    + rewrite (proj2 (H1 a (c - n)%nat ltac:(lia) ltac:(lia))). ring.
    + rewrite (proj2 (H1 (a - n)%nat c ltac:(lia) ltac:(lia))). ring.
    + now rewrite (proj1 (H1 (a - n)%nat (c - n)%nat ltac:(lia) ltac:(lia))).
  - intros z Hz. specialize (H2 z (fun k => z (n + k)%nat)).
    assert (Q : exists a, (a < n)%nat /\ (z a <> 0 \/ z (n + a)%nat <> 0)). { destruct Hz as (a & Ha & Z). destruct (Nat.lt_ge_cases a n); [exists a; auto|]. exists (a - n)%nat. split; [lia|]. right. now replace (n + (a - n))%nat with a by lia. }
    specialize (H2 Q). rewrite sumR_split.
    replace (sumR n (fun a => sumR (n + n) _) + sumR n _) with (1 / 2 * sumR n (fun a => sumR n (fun b => re a b * (z a * z b + z (n + a)%nat * z (n + b)%nat) - im a b * (z a * z (n + b)%nat - z (n + a)%nat * z b)))); [lra|].
    rewrite <- sumR_plus, <- sumR_scal. apply sumR_ext. intros a Ha. rewrite !sumR_split, <- sumR_scal, <- !sumR_plus. apply sumR_ext. intros c Hc.
    repeat match goal with |- context [(?x <? n)%nat] => first [rewrite (proj2 (Nat.ltb_lt x n) ltac:(lia)) | rewrite (proj2 (Nat.ltb_ge x n) ltac:(lia))] end.
    replace (n + c - n)%nat with c by lia. replace (n + a - n)%nat with a by lia. ring.
Qed.

Lemma nn_pos v r : 0 < v -> r < 0 -> 0 < - v / r.
Proof. intros H1 H2. replace (- v / r) with (v / - r) by (field; lra). apply Rdiv_lt_0_compat; lra. Qed.
(** what the four samplers that miss part of their sample space can produce *)
Definition reach (c : cls) (n : nat) (p : point) (x : obs) : Prop :=
  match c with
  | NP Multinomial => sumR n (fun k => x false [k]) = 1
  | EP Geometric => exists k, x false [] = INR (S k)
  | EP ComplexUnitNormal | EP ComplexMultivariateUnitNormal => forall j, inb (event c n) j = true -> x true j - x false j = p true "mean" j - p false "mean" j
  | _ => True
  end.
(** the draws at row j, batch index i are finite, and their image is in the sample space *)
Definition geometric_ok (c : cls) (p : point) : Prop := c = EP Geometric -> 1 <= p false "mean" [].
Lemma xfin {K} (draw : K -> request -> list nat -> list nat -> xr) key r s l x : draw key r s l = Fin x -> draw key r s l = Fin (toR (draw key r s l)).
Proof. intros ->. reflexivity. Qed.
Lemma inb0' e : inb [] e = true -> e = []. Proof. destruct e; [reflexivity|discriminate]. Qed.
Lemma and_T (P Q : Prop) : P /\ Q -> P /\ Q /\ True. Proof. tauto. Qed.
Theorem direct_dom {K} draw b i q c sp n p f (key : K) sh : lawful draw -> inb b i = true -> at_pt b i q c n p -> direct c = Some sp -> pre c n p -> geometric_ok c p -> sampled_family c = Some f ->
  exists x, run draw sp q key sh = Ok x /\ forall j, inb (requested sh) j = true -> exists xv, (forall e, inb (event c n) e = true -> entry_c x (j ++ i ++ e) = XC (Fin (xv false e)) (Fin (xv true e))) /\ sample_space f n xv /\ reach c n p xv.
Proof.
  intros La Hi A E P Ge Fa. pose proof (at_pt_dok _ _ _ _ _ _ A) as Hn. destruct (direct_at draw b i q c sp n p key sh Hi A E P) as (ts & x & LT & X1 & X2 & X3 & X4 & X5). exists x. split; [exact X1|]. intros j Hj.
  set (r := Req (s_kind sp) ts) in *. set (s := requested sh ++ b ++ direct_ev c n) in *.
  set (u := fun e => toR (draw key r s (j ++ i ++ e))). exists (postR n p c u).
  assert (AL : forall e, inb (direct_ev c n) e = true -> allowed (s_kind sp) (row_size r) (argR n p c) (fun e' => draw key r s (j ++ i ++ e ++ e'))).
  { intros e He. assert (I : inb s (j ++ i ++ e) = true) by (unfold s; repeat apply inb_app_intro; auto). pose proof (La key r s (j ++ i ++ e) (argR n p c) LT I (X4 j e Hj He)) as Q.
    
    match type of Q with allowed _ _ _ ?v => assert (FE : v = fun e' => draw key r s (j ++ i ++ e ++ e')) by (apply FunctionalExtensionality.functional_extensionality; intros; now rewrite <- !app_assoc) end. rewrite FE in Q. exact Q. }
  cut ((forall e, inb (direct_ev c n ++ direct_draw c n) e = true -> draw key r s (j ++ i ++ e) = Fin (u e)) /\ sample_space f n (postR n p c u) /\ reach c n p (postR n p c u)).
  { intros [Q1 Q2]. split; [|exact Q2]. exact (X5 j u Hj Q1). }
  clear X5 X4 X1 X2 LT. unfold u.
  destruct c as [g|g| | | | | | |]; try destruct g; try discriminate E; injection E as <-; injection Fa as <-; cbn [s_post s_kind s_args] in *; cbn [direct_draw] in *;
    unfold direct_ev in *; cbn [direct np_sampler ep_sampler vp_sampler s_mean domain_support supp_shape app] in *; cbn [allowed] in AL; cbn [pre nat_dom exp_dom] in P.
  all: try (split; [intros e He; destruct (AL e He) as (v & Hv); cbn beta in Hv; rewrite app_nil_r in Hv; exact (xfin _ _ _ _ _ _ Hv)|split; [exact Logic.I|first [exact Logic.I | intros e He; unfold postR; ring]]]).
  (* scalar draws *)
  all: specialize (AL [] eq_refl); cbn [app] in AL; unfold argR in AL; cbn [sample_space]; unfold postR, reo; cbn beta iota; cbn [reach].
  all: try (match goal with |- _ /\ _ /\ True => idtac end; apply and_T).
  Ltac sc_ AL v Hv Hp := destruct AL as (v & Hv & Hp); (split; [intros e He; rewrite (inb0' e He); exact (xfin _ _ _ _ _ _ Hv)|]); rewrite Hv; cbn [toR]; try lra.
  all: try (assert (0 < p false "shape_minus_one" [] + 1) by lra).
  - (* Beta *) apply Nat.eqb_eq in Hn. destruct P as [_ P]. destruct (AL ltac:(specialize (P 0%nat ltac:(lia)); lra) ltac:(specialize (P 1%nat ltac:(lia)); lra)) as (v & Hv & Hp). split; [intros e He; rewrite (inb0' e He); exact (xfin _ _ _ _ _ _ Hv)|]. rewrite Hv. cbn [toR]. lra.
  - specialize (AL ltac:(lra)). sc_ AL v Hv Hp.
  - (* Dirichlet *) specialize (X3 ltac:(discriminate)). cbn [direct_evs nth last] in X3. rewrite X3 in AL. destruct P as [N P]. destruct AL as (v & V1 & V2); [intros m Hm; specialize (P m Hm); lra|]. split.
    + intros e He. destruct (inb1 _ _ He) as (k & -> & Hk). exact (xfin _ _ _ _ _ _ (proj1 (V1 k Hk))).
    + split; [intros k Hk; destruct (V1 k ltac:(lia)) as [Q1 Q2]; rewrite Q1; exact Q2|]. specialize (V2 ltac:(lia)). destruct n as [|n]; [lia|]. replace (S n - 1)%nat with n by lia. rewrite sumR_S in V2.
      rewrite (sumR_ext n _ v) by (intros k Hk; now rewrite (proj1 (V1 k ltac:(lia)))). pose proof (proj2 (V1 n ltac:(lia))). lra.
  - sc_ AL v Hv Hp. now apply nn_pos.
  - specialize (AL H). sc_ AL v Hv Hp. apply nn_pos; lra.
  - (* Multinomial *) specialize (X3 ltac:(discriminate)). cbn [direct_evs nth last] in X3. rewrite X3 in AL. apply Nat.leb_le in Hn. destruct (AL Hn) as (m & Hm & Hv). split; [intros e He; rewrite (inb0' e He); exact (xfin _ _ _ _ _ _ Hv)|]. rewrite Hv. cbn [toR last].
    assert (SU : sumR n (fun k => if Req_EM_T (INR m) (INR k) then 1 else 0) = 1).
    { rewrite (sumR_ext n _ (fun k => if Nat.eq_dec m k then 1 else 0)).
      + clear - Hm. assert (Z : forall n, (n <= m)%nat -> sumR n (fun k => if Nat.eq_dec m k then 1 else 0) = 0) by (intros n0 H0; apply sumR_zero; intros k Hk; destruct (Nat.eq_dec m k); [lia|reflexivity]).
        induction n as [|n IH]; [lia|]. rewrite sumR_S. destruct (Nat.eq_dec m n); [rewrite Z by lia; lra|]. specialize (IH ltac:(lia)). lra.
      + intros k Hk. destruct (Req_EM_T (INR m) (INR k)) as [Q|Q], (Nat.eq_dec m k) as [Q'|Q']; try reflexivity; [apply INR_eq in Q; contradiction|subst; contradiction]. }
    rewrite SU. split; [|reflexivity]. split; [intros k Hk; destruct (Req_EM_T _ _); auto|lra].
  - (* Rayleigh *) assert (H0 : 0 < sqrt (-1 / 2 / p false "eta" [])) by (apply sqrt_lt_R0; replace (-1 / 2) with (- (1 / 2)) by lra; apply nn_pos; lra). specialize (AL H0). sc_ AL v Hv Hp.
  - (* Bernoulli *) destruct AL as [[Hv Hp]|[Hv Hp]]; (split; [intros e He; rewrite (inb0' e He); exact (xfin _ _ _ _ _ _ Hv)|]); rewrite Hv; cbn [toR]; auto.
  - (* CCSN *) specialize (X3 ltac:(discriminate)). cbn [direct_evs nth last] in X3. rewrite X3 in AL. split; [|exact Logic.I]. intros e He. destruct (inb1 _ _ He) as (k & -> & Hk).
    destruct (fun Q => AL Q k Hk) as (v & Hv); [|exact (xfin _ _ _ _ _ _ Hv)]. exact (spd_block n _ _ P).
  - (* ComplexNormal *) specialize (X3 ltac:(discriminate)). cbn [direct_evs nth last] in X3. rewrite X3 in AL. split; [|exact Logic.I]. intros e He. destruct (inb1 _ _ He) as (k & -> & Hk).
    destruct (fun Q => AL Q k Hk) as (v & Hv); [|exact (xfin _ _ _ _ _ _ Hv)]. apply (spd2 (cnv p) (cnu p) (cnu' p)); try reflexivity; unfold cnv, cnu, cnu'; [lra|]. destruct P as [_ P]. replace (p false "mean" [] * p true "mean" [] + p true "mean" [] * p false "mean" []) with (2 * p false "mean" [] * p true "mean" []) by ring. exact P.
  - sc_ AL v Hv Hp. now apply Rmult_lt_0_compat.
  - (* Geometric *) specialize (Ge eq_refl). destruct AL as [AL _]. destruct AL as (m & Hv & _). { split; [apply Rdiv_lt_0_compat; lra|]. apply (Rmult_le_reg_r (p false "mean" [])); [lra|]. field_simplify; lra. }
    split; [intros e He; rewrite (inb0' e He); exact (xfin _ _ _ _ _ _ Hv)|]. rewrite Hv. cbn [toR]. eauto.
  - (* Poisson *) destruct (AL P) as (m & Hv). split; [intros e He; rewrite (inb0' e He); exact (xfin _ _ _ _ _ _ Hv)|]. rewrite Hv. cbn [toR]. eauto.
  - assert (H0 : 0 < sqrt (1 / 2 * p false "chi" [])) by (apply sqrt_lt_R0; lra). specialize (AL H0). sc_ AL v Hv Hp.
  - assert (H0 : 0 < Rpower (p false "chi" []) (1 / p false "concentration" [])) by apply exp_pos. specialize (AL H0 ltac:(lra)). sc_ AL v Hv Hp.
  - (* MVN *) specialize (X3 ltac:(discriminate)). cbn [direct_evs nth last] in X3. rewrite X3 in AL. split; [|exact Logic.I]. intros e He. destruct (inb1 _ _ He) as (k & -> & Hk).
    destruct (fun Q => AL Q k Hk) as (v & Hv); [exact P|exact (xfin _ _ _ _ _ _ Hv)].
Qed.

Lemma one_hot_sum n v : (forall k, (k < n)%nat -> v k = 0 \/ v k = 1) -> sumR n v = 1 -> exists m, (m < n)%nat /\ forall k, (k < n)%nat -> v k = if Nat.eq_dec m k then 1 else 0.
Proof.
  induction n as [|n IH]; intros H S; [rewrite sumR_0 in S; lra|]. rewrite sumR_S in S. destruct (H n ltac:(lia)) as [Z|Z]; rewrite Z in S.
  - destruct IH as (m & Hm & Q); [intros k Hk; apply H; lia|lra|]. exists m. split; [lia|]. intros k Hk. destruct (Nat.eq_dec k n) as [->|N]; [|apply Q; lia]. rewrite Z. destruct (Nat.eq_dec m n); [lia|reflexivity].
  - exists n. split; [lia|]. intros k Hk. destruct (Nat.eq_dec n k) as [<-|N]; [exact Z|]. destruct (H k Hk) as [W|W]; [exact W|]. exfalso.
    assert (T : v k <= sumR n v) by (apply sumR_term; [intros m Hm; destruct (H m ltac:(lia)) as [-> | ->]; lra|lia]). lra.
Qed.
Lemma skipn_row (j i e : list nat) : skipn (length (j ++ i)) (j ++ i ++ e) = e.
Proof. rewrite app_assoc, skipn_app, skipn_all, Nat.sub_diag. reflexivity. Qed.
Lemma firstn_row_all (s l : list nat) : inb s l = true -> firstn (length s) l = l.
Proof. intros H. rewrite <- (inb_length _ _ H). apply firstn_all. Qed.
Theorem direct_reach {K} b i q c sp n p f (key : K) sh j (x : obs) : inb b i = true -> at_pt b i q c n p -> direct c = Some sp -> pre c n p -> sampled_family c = Some f -> inb (requested sh) j = true ->
  sample_space f n x -> reach c n p x -> (c = EP Geometric -> 1 < p false "mean" []) -> (forall s, domain_support c = Some s -> kind_of s = KR -> forall e, inb (event c n) e = true -> x true e = 0) ->
  exists U V a, run (oracle (K := K) U V) sp q key sh = Ok a /\ forall e, inb (event c n) e = true -> entry_c a (j ++ i ++ e) = XC (Fin (x false e)) (Fin (x true e)).
Proof.
  intros Hi A E P Fa Hj Sx Rx Gx Kx. pose proof (at_pt_dok _ _ _ _ _ _ A) as Hn.
  cut (exists u V, forall ts, row_size (Req (s_kind sp) ts) = last (nth 0 (direct_evs c n) []) (last b 0%nat) \/ s_args sp = [] ->
    (forall e, inb (direct_ev c n) e = true -> asks (Req (s_kind sp) ts) (j ++ i ++ e) (argR n p c)) -> length ts = arity (s_kind sp) ->
    let U := fun idx => u (skipn (length (j ++ i)) idx) in
    exists u', (forall e, inb (direct_ev c n ++ direct_draw c n) e = true -> oracle U V key (Req (s_kind sp) ts) (requested sh ++ b ++ direct_ev c n) (j ++ i ++ e) = Fin (u' e)) /\
      forall e, inb (event c n) e = true -> postR n p c u' false e = x false e /\ postR n p c u' true e = x true e).
  { intros (u & V & H). exists (fun idx => u (skipn (length (j ++ i)) idx)), V.
    destruct (direct_at (oracle (fun idx => u (skipn (length (j ++ i)) idx)) V) b i q c sp n p key sh Hi A E P) as (ts & a & LT & X1 & X2 & X3 & X4 & X5). exists a. split; [exact X1|].
    destruct (H ts) as (u' & U1 & U2). { destruct (s_args sp) as [|] eqn:Q; [now right|left; apply X3; rewrite ?Q; discriminate]. } { intros e He. exact (X4 j e Hj He). } { exact LT. }
    intros e He. rewrite (X5 j u' Hj U1 e He). destruct (U2 e He) as [-> ->]. reflexivity. }
  clear A.
  destruct c as [g|g| | | | | | |]; try destruct g; try discriminate E; injection E as <-; injection Fa as <-; cbn [s_post s_kind s_args] in *; cbn [direct_draw] in *;
    unfold direct_ev in *; cbn [direct np_sampler ep_sampler vp_sampler s_mean domain_support supp_shape app] in *; unfold event in *; cbn [domain_support supp_shape kind_of] in *; cbn [pre nat_dom exp_dom] in P; cbn [sample_space] in Sx; cbn [reach] in Rx.
  Ltac im0 Kx He := symmetry; first [exact (Kx _ eq_refl eq_refl _ He) | exact (Kx _ eq_refl eq_refl [] eq_refl)].
  Ltac go_n u := exists u, 0%nat; intros ts _ _ _; cbv zeta; exists u; (split; [intros e He; unfold oracle; cbn [r_kind]; now rewrite skipn_row|]); intros e He; unfold postR, reo; cbn beta iota.
  Ltac go_p u := exists u, 0%nat; intros ts _ _ _; cbv zeta; exists u; (split; [intros e He; unfold oracle; cbn [r_kind]; rewrite skipn_row; rewrite (inb0' e He); destruct (Rlt_dec 0 _) as [Q|Q]; [reflexivity|exfalso; apply Q; clear Q]|]); [|intros e He; rewrite (inb0' e He); unfold postR, reo; cbn beta iota].
  - (* Beta *) exists (x false), 0%nat. intros ts _ _ _. cbv zeta. exists (x false). split; [intros e He; unfold oracle; cbn [r_kind]; rewrite skipn_row; rewrite (inb0' e He); destruct (Rlt_dec 0 (x false [])), (Rlt_dec (x false []) 1); try lra; reflexivity|].
    intros e He. split; [reflexivity|im0 Kx He].
  - go_p (x false); [exact Sx|]. split; [reflexivity|im0 Kx He].
  - (* Dirichlet *) set (u := fun e : list nat => if (hd 0 e <? n - 1)%nat then x false e else 1 - sumR (n - 1) (fun k => x false [k])). exists u, 0%nat. intros ts Rs _ _. destruct Rs as [Rs|Rs]; [|discriminate Rs]. cbn [direct_evs nth last] in Rs. cbv zeta. exists u. split.
    + intros e He. unfold oracle. cbn [r_kind]. rewrite Rs. rewrite skipn_row. replace (firstn _ _) with (j ++ i).
      2:{ rewrite app_nil_r, (app_assoc j i e). symmetry. apply firstn_row. apply inb_app_intro; auto. }
      replace (row_ok _ n (j ++ i)) with true; [reflexivity|]. symmetry. unfold row_ok. destruct Sx as [S1 S2]. destruct P as [N _]. apply andb_true_intro. split.
      * apply forallb_forall. intros m Hm. apply in_seq in Hm. rewrite <- app_assoc, skipn_row. unfold u. cbn [hd]. destruct (Nat.ltb_spec m (n - 1)); [specialize (S1 m ltac:(lia)); destruct (Rlt_dec 0 _); [reflexivity|contradiction]|]. destruct (Rlt_dec 0 _); [reflexivity|lra].
      * destruct (Req_EM_T _ 1) as [Q|Q]; [reflexivity|]. exfalso. apply Q. clear Q. destruct n as [|n]; [lia|]. rewrite sumR_S. replace (S n - 1)%nat with n in * by lia.
        rewrite (sumR_ext n _ (fun k => x false [k])). { rewrite <- app_assoc, skipn_row. unfold u. cbn [hd]. replace (S n - 1)%nat with n by lia. rewrite (proj2 (Nat.ltb_ge n n) ltac:(lia)). lra. }
        intros k Hk. rewrite <- app_assoc, skipn_row. unfold u. cbn [hd]. replace (S n - 1)%nat with n by lia. now rewrite (proj2 (Nat.ltb_lt k n) Hk).
    + intros e He. destruct (inb1 _ _ He) as (k & -> & Hk). unfold postR, reo, u. cbn [hd]. rewrite (proj2 (Nat.ltb_lt k (n - 1)) Hk). split; [reflexivity|im0 Kx He].
  - go_p (fun e => - x false e * p false "negative_rate" []); [nra|]. split; [field; lra|im0 Kx He].
  - go_p (fun e => - x false e * p false "negative_rate" []); [nra|]. split; [field; lra|im0 Kx He].
  - (* Multinomial *) destruct Sx as [S1 S2]. destruct (one_hot_sum n _ S1 Rx) as (m & Hm & Q). exists (fun _ => 0), m. intros ts Rs _ _. destruct Rs as [Rs|Rs]; [|discriminate Rs]. cbn [direct_evs nth last] in Rs. cbv zeta. exists (fun _ => INR m). split.
    + intros e He. unfold oracle. cbn [r_kind]. rewrite Rs, (proj2 (Nat.ltb_lt m n) Hm). reflexivity.
    + intros e He. destruct (inb1 _ _ He) as (k & -> & Hk). unfold postR, reo. cbn [last]. rewrite (Q k Hk). split; [|im0 Kx He]. destruct (Req_EM_T (INR m) (INR k)) as [Z|Z], (Nat.eq_dec m k) as [Z'|Z']; try reflexivity; [apply INR_eq in Z; contradiction|subst; contradiction].
  - go_n (fun e => x false e - p false "mean" e). split; [ring|im0 Kx He].
  - go_n (fun e => x false e - p false "mean" e). split; [ring|im0 Kx He].
  - go_p (x false); [exact Sx|]. split; [reflexivity|im0 Kx He].
  - (* Bernoulli *) exists (x false), 0%nat. intros ts _ As LT. cbv zeta. exists (x false). split; [|intros e He; split; [reflexivity|im0 Kx He]].
    intros e He. rewrite (inb0' e He). unfold oracle. cbn [r_kind]. rewrite !skipn_row. rewrite (app_assoc j i []), !app_nil_r, (firstn_row_all _ (j ++ i)) by (apply inb_app_intro; auto).
    specialize (As [] eq_refl 0%nat []). rewrite app_nil_r in As. rewrite As. 2:{ cbn [r_args]. rewrite LT. cbn. lia. } 2:{ unfold row_shape. cbn [r_args r_kind arg_event]. destruct ts; [reflexivity|]. cbn [nth_error]. now rewrite Nat.sub_0_r, skipn_all. }
    cbn [toR]. unfold argR. destruct (Req_EM_T (x false []) 1) as [Q|Q]; [rewrite Q; destruct (Rlt_dec 0 _); [reflexivity|lra]|]. destruct Sx as [Sx|Sx]; [|contradiction]. rewrite Sx. destruct (Rlt_dec _ 1); [reflexivity|lra].
  - (* CCSN *) go_n (fun e => if (hd 0 e <? n)%nat then x false e else x true [(hd 0 e - n)%nat]). destruct (inb1 _ _ He) as (k & -> & Hk). cbn [hd]. rewrite (proj2 (Nat.ltb_lt k n) Hk), (proj2 (Nat.ltb_ge (n + k) n) ltac:(lia)). replace (n + k - n)%nat with k by lia. split; reflexivity.
  - go_n (fun e => x false e - p false "mean" e). split; [ring|]. specialize (Rx e He). lra.
  - go_n (fun e => if (hd 0 e =? 0)%nat then x false [] else x true []). rewrite (inb0' e He). split; reflexivity.
  - go_n (fun e => x false e - p false "mean" e). split; [ring|]. specialize (Rx e He). lra.
  - go_p (fun e => x false e / p false "mean" []); [now apply Rdiv_lt_0_compat|]. split; [field; lra|im0 Kx He].
  - (* Geometric *) pose proof (Gx eq_refl) as R1. destruct Rx as (k & R2). exists (fun _ => 0), k. intros ts _ As LT. cbv zeta. exists (x false). split; [|intros e He; split; [reflexivity|im0 Kx He]].
    intros e He. rewrite (inb0' e He). unfold oracle. cbn [r_kind]. rewrite (app_assoc j i []), !app_nil_r, (firstn_row_all _ (j ++ i)) by (apply inb_app_intro; auto).
    specialize (As [] eq_refl 0%nat []). rewrite app_nil_r in As. rewrite As. 2:{ cbn [r_args]. rewrite LT. cbn. lia. } 2:{ unfold row_shape. cbn [r_args r_kind arg_event]. destruct ts; [reflexivity|]. cbn [nth_error]. now rewrite Nat.sub_0_r, skipn_all. }
    cbn [toR]. unfold argR. assert (L1 : 1 / p false "mean" [] < 1). { apply (Rmult_lt_reg_r (p false "mean" [])); [lra|]. field_simplify; lra. }
    destruct (Rlt_dec 1 _); [lra|]. destruct (Req_EM_T _ 1); [lra|]. now rewrite R2.
  - assert (D0 : 0 < sqrt (p false "variance" [])) by now apply sqrt_lt_R0. go_n (fun e => (x false e - p false "mean" e) / sqrt (p false "variance" [])). split; [field; lra|im0 Kx He].
  - pose proof (sqrt_lt_R0 _ (iso_var_pos n p P)) as D0. go_n (fun e => (x false e - p false "mean" e) / sqrt (iso_var n p)). split; [field; lra|im0 Kx He].
  - assert (D0 : 0 < sqrt (p false "second_moment" [] - p false "mean" [] * p false "mean" [])) by (apply sqrt_lt_R0; lra). go_n (fun e => (x false e - p false "mean" []) / sqrt (p false "second_moment" [] - p false "mean" [] * p false "mean" [])). split; [field; lra|im0 Kx He].
  - (* Poisson *) destruct Sx as (k & Sx). exists (fun _ => 0), k. intros ts _ _ _. cbv zeta. exists (fun _ => INR k). split; [intros e He; reflexivity|]. intros e He. rewrite (inb0' e He). split; [symmetry; exact Sx|im0 Kx He].
  - go_p (x false); [exact Sx|]. split; [reflexivity|im0 Kx He].
  - go_p (x false); [exact Sx|]. split; [reflexivity|im0 Kx He].
  - assert (D0 : 0 < sqrt (p false "variance" [])) by now apply sqrt_lt_R0. go_n (fun e => (x false e - p false "mean" e) / sqrt (p false "variance" e)). rewrite (inb0' e He). split; [field; lra|im0 Kx He].
  - go_n (fun e => (x false e - p false "mean" e) / sqrt (p false "variance" e)). destruct (inb1 _ _ He) as (k & -> & Hk). pose proof (sqrt_lt_R0 _ (P k Hk)) as D0. split; [field; lra|im0 Kx He].
  - go_n (x false). split; [reflexivity|im0 Kx He].
Qed.

(** every class except NegativeBinomial samples by converting to a class that draws itself *)
Definition two_stage (c : cls) : bool := match c with NP NegativeBinomial | EP NegativeBinomial => true | _ => false end.
Section Reduce.
  Context {K : Type}.
  Variable split2 : K -> K * K.
  Variable solve : minimizer -> dist -> nat -> xr.
  Notation L := (fam_methods solve).
  Definition reduced (b i : list nat) (f : family) (n : nat) (q : dist) : Prop := exists q' c' p' sp,
    direct c' = Some sp /\ sampled_family c' = Some f /\ domain_support c' = domain_support (dcls q) /\ at_pt b i q' c' n p' /\ pre c' n p' /\
    (c' = EP Geometric -> exp_form L q q') /\
    forall draw (key : K) sh, sample split2 draw L q key sh = run draw sp q' key sh.
  Theorem reduces b i f q : samplable_at L b i f q -> two_stage (dcls q) = false -> exists n, dims_of q = Ok n /\ reduced b i f n q.
  Proof.
    intros (F & Sa & W & S & Hi & D & Se) T.
    assert (NPC : forall g, dcls q = NP g -> exists n, at_pt b i q (NP g) n (point_of q i) /\ nat_dom g n (point_of q i)) by (intros g C; apply nat_dom_at; auto; now rewrite C in D).
    assert (EPC : forall g, dcls q = EP g -> exists n, at_pt b i q (EP g) n (point_of q i) /\ exp_dom g n (point_of q i)) by (intros g C; apply exp_dom_at; auto; now rewrite C in D).
    assert (VPC : vp_domain q i -> exists n, at_pt b i q (dcls q) n (point_of q i) /\ vp_domain q i) by (intros V; now apply vp_dom_at).
    destruct (dcls q) as [g|g| | | | | | |] eqn:C; try discriminate Sa; cbn [sampled_family] in F; injection F as <-.
    - destruct (NPC g eq_refl) as (n & A & P). exists n. split; [exact (ap_dims _ _ _ _ _ _ A)|].
      destruct g; try discriminate Sa; try discriminate T.
      all: try (match type of A with at_pt _ _ _ (NP ?g) _ _ => exists q, (NP g), (point_of q i); eexists; do 6 (split; [first [reflexivity|exact A|exact P|discriminate|now rewrite C]|]); intros; unfold sample; rewrite C; reflexivity end).
      all: lazymatch goal with A : at_pt _ _ _ (NP ?g) ?n _ |- reduced _ _ _ ?n _ => destruct (exp_at solve b i q g n _ Hi A P Logic.I) as (e & E1 & E2); pose proof (exp_ok g n _ P) as P' | _ => idtac end.
      all: try (match type of A with at_pt _ _ _ (NP ?g) _ _ => exists e, (EP g), (expR n (point_of q i) g); eexists; do 6 (split; [first [reflexivity|exact E2|exact P'|discriminate|now rewrite C|intros _; unfold exp_form; rewrite C; exact E1]|]); intros; unfold sample; rewrite C, E1; reflexivity end).
      + destruct (diag_ep_var_at b i Hi e n _ E2) as (v & V1 & V2). exists v, MultivariateDiagonalNormalVP; do 2 eexists. split; [reflexivity|]. split; [reflexivity|]. split; [now rewrite C|]. split; [exact V2|]. split.
        * cbn [pre]. cbn [exp_dom] in P'. intros k Hk. specialize (P' k Hk). revert P'. mkv. lra.
        * split; [discriminate|]. intros. unfold sample. rewrite C, E1. cbn [bind]. rewrite V1. cbn [bind]. rewrite (ap_cls _ _ _ _ _ _ V2). reflexivity.
      + (* Normal *) destruct (normal_ep_var_at b i Hi e n _ E2) as (v & V1 & V2). exists v, NormalVP; do 2 eexists. split; [reflexivity|]. split; [reflexivity|]. split; [now rewrite C|]. split; [exact V2|]. split.
        * cbn [pre]. cbn [exp_dom] in P'. revert P'. mkv. lra.
        * split; [discriminate|]. intros. unfold sample. rewrite C. unfold np_to_var. rewrite C. cbn [l_to_exp fam_methods] in E1. rewrite E1. cbn [bind]. rewrite V1. cbn [bind]. rewrite (ap_cls _ _ _ _ _ _ V2). reflexivity.
    - destruct (EPC g eq_refl) as (n & A & P). exists n. split; [exact (ap_dims _ _ _ _ _ _ A)|].
      destruct g; try discriminate Sa; try discriminate T.
      all: try (match type of A with at_pt _ _ _ (EP ?g) _ _ => exists q, (EP g), (point_of q i); eexists; do 6 (split; [first [reflexivity|exact A|exact P|discriminate|now rewrite C|intros _; unfold exp_form; now rewrite C]|]); intros; unfold sample; rewrite C; reflexivity end).
      all: try (match type of A with at_pt _ _ _ (EP ?g) _ _ => destruct (nat_at solve b i q g n _ Hi A P eq_refl) as (e & E1 & E2); pose proof (nat_ok g n _ eq_refl P) as P' end;
        match type of A with at_pt _ _ _ (EP ?g) _ _ => exists e, (NP g), (natR n (point_of q i) g); eexists; do 6 (split; [first [reflexivity|exact E2|exact P'|discriminate|now rewrite C]|]); intros; unfold sample; rewrite C, E1; reflexivity end).
      all: try (match type of A with at_pt _ _ _ (EP ?g) _ _ => destruct (nat_builds solve b q g n C W S (ap_dims _ _ _ _ _ _ A)) as (ps & E1 & E2 & E3 & E4 & _);
          destruct (nat_dom_at b i (Dist (NP g) DefaultMinimizer ps []) g Hi eq_refl E2 E3 (Se _ eq_refl eq_refl E1)) as (m & A' & P'); assert (m = n) by (pose proof (ap_dims _ _ _ _ _ _ A'); congruence); subst m;
          exists (Dist (NP g) DefaultMinimizer ps []), (NP g); do 2 eexists; do 6 (split; [first [exact A'|exact P'|reflexivity|discriminate|now rewrite C]|]); intros; unfold sample; rewrite C, E1; reflexivity end).
      + destruct (mvn_ep_var_at b i Hi q n _ A) as (v & V1 & V2). exists v, MultivariateNormalVP; do 2 eexists. split; [reflexivity|]. split; [reflexivity|]. split; [now rewrite C|]. split; [exact V2|]. split.
        * cbn [pre]. cbn [exp_dom] in P. eapply spd_ext; [|exact P]. intros a c Ha Hc. mkv. reflexivity.
        * split; [discriminate|]. intros. unfold sample. rewrite C, V1. cbn [bind]. rewrite (ap_cls _ _ _ _ _ _ V2). reflexivity.
      + destruct (diag_ep_var_at b i Hi q n _ A) as (v & V1 & V2). exists v, MultivariateDiagonalNormalVP; do 2 eexists. split; [reflexivity|]. split; [reflexivity|]. split; [now rewrite C|]. split; [exact V2|]. split.
        * cbn [pre]. cbn [exp_dom] in P. intros k Hk. specialize (P k Hk). revert P. mkv. lra.
        * split; [discriminate|]. intros. unfold sample. rewrite C, V1. cbn [bind]. rewrite (ap_cls _ _ _ _ _ _ V2). reflexivity.
    - destruct (VPC D) as (n & A & P). exists n. split; [exact (ap_dims _ _ _ _ _ _ A)|]. destruct P as (n' & N1 & _ & P). rewrite C in P. assert (n' = n) by (pose proof (ap_dims _ _ _ _ _ _ A); congruence). subst n'. destruct P as [P1 P2].
      destruct (gamma_vp_nat_at b i Hi q n _ A P2) as (e & E1 & E2). exists e, (NP Gamma); do 2 eexists. split; [reflexivity|]. split; [reflexivity|]. split; [now rewrite C|]. split; [exact E2|]. split.
      + assert (R : 0 < point_of q i false "mean" [] / point_of q i false "variance" []) by (apply Rdiv_lt_0_compat; assumption). cbn [pre nat_dom]; mkv. pose proof (Rmult_lt_0_compat _ _ P1 R). lra.
      + split; [discriminate|]. intros. unfold sample. rewrite C, E1. reflexivity.
    - destruct (VPC D) as (n & A & P). exists n. split; [exact (ap_dims _ _ _ _ _ _ A)|]. destruct P as (n' & N1 & _ & P). rewrite C in P. assert (n' = n) by (pose proof (ap_dims _ _ _ _ _ _ A); congruence). subst n'.
      exists q, NormalVP; do 2 eexists. do 6 (split; [first [reflexivity|exact A|exact P|discriminate|now rewrite C]|]). intros. unfold sample. rewrite C. reflexivity.
    - destruct (VPC D) as (n & A & P). exists n. split; [exact (ap_dims _ _ _ _ _ _ A)|]. destruct P as (n' & N1 & _ & P). rewrite C in P. assert (n' = n) by (pose proof (ap_dims _ _ _ _ _ _ A); congruence). subst n'.
      exists q, MultivariateDiagonalNormalVP; do 2 eexists. do 6 (split; [first [reflexivity|exact A|exact P|discriminate|now rewrite C]|]). intros. unfold sample. rewrite C. reflexivity.
    - destruct (VPC D) as (n & A & P). exists n. split; [exact (ap_dims _ _ _ _ _ _ A)|]. destruct P as (n' & N1 & _ & P). rewrite C in P. assert (n' = n) by (pose proof (ap_dims _ _ _ _ _ _ A); congruence). subst n'.
      exists q, MultivariateNormalVP; do 2 eexists. do 6 (split; [first [reflexivity|exact A|exact P|discriminate|now rewrite C]|]). intros. unfold sample. rewrite C. reflexivity.
  Qed.
End Reduce.
