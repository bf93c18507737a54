(** The methods of the distribution classes are well shaped: every expression of Fam.v has a shape in the context of
    its class, for any batch shape and dimensions. *)
From Coq Require Import String List Bool Arith Reals Lia.
From Verif Require Import Base XReal Tensor TensorFacts Support Dist DictFacts Iteration Structure Spec SumSpec Tools Joint SpecFun Expr Fam ExprFacts.
Import ListNotations.
Local Unset Asymmetric Patterns.

Definition kind_of (s : support) : kind := match supp_ring s with ComplexF _ _ => KC | _ => KR end.
Definition fd_ctx (n : nat) (f : field_desc) : string * (kind * list nat) := (fd_name f, (kind_of (fd_support f), supp_shape (fd_support f) n)).
Definition ctx_of (c : cls) (n : nat) : ctx := map (fd_ctx n) (fields c).
Definition fixed_ctx (c : cls) (n : nat) : ctx := map (fd_ctx n) (filter fd_fixed (fields c)).
Definition obs_ctx (c : cls) (n : nat) : ctx :=
  match domain_support c with Some s => [("x"%string, (kind_of s, supp_shape s n))] | None => [] end.

Section Rules.
  Variable G : ctx.
  Definition choose (τ1 τ2 τ : tsh) : Prop := (τ = τ1 /\ sub τ2 τ1) \/ (τ = τ2 /\ sub τ1 τ2).
  Lemma T_map2' k1 k2 k3 f e1 e2 τ1 τ2 τ d1 d2 : ty G k1 e1 τ1 d1 -> ty G k2 e2 τ2 d2 -> choose τ1 τ2 τ ->
    ty G k3 (@EMap2 k1 k2 k3 f e1 e2) τ (fun r j => f (d1 r (bidx (evs τ1) j)) (d2 r (bidx (evs τ2) j))).
  Proof. intros H1 H2 [[-> C] | [-> C]]; apply T_map2; auto using sub_refl. Qed.
  Lemma T_map3' k f e1 e2 e3 τ1 τ2 τ3 σ τ d1 d2 d3 : ty G k e1 τ1 d1 -> ty G k e2 τ2 d2 -> ty G k e3 τ3 d3 ->
    choose τ1 τ2 σ -> choose σ τ3 τ -> sub τ1 τ -> sub τ2 τ ->
    ty G k (@EMap3 k f e1 e2 e3) τ (fun r j => f (d1 r (bidx (evs τ1) j)) (d2 r (bidx (evs τ2) j)) (d3 r (bidx (evs τ3) j))).
  Proof.
    intros H1 H2 H3 C [[-> D] | [-> D]] S1 S2; apply T_map3; auto using sub_refl. destruct C as [[-> C] | [-> C]]; auto.
  Qed.
  Lemma T_keep' k f e s d : ty G k e (Ev s) d -> s <> [] ->
    ty G k (@EKeep k f e) (Ev (removelast s ++ [1])) (fun r j => f (map (fun m => d r (removelast j ++ [m])) (seq 0 (last s 0)))).
  Proof. intros H Hs. rewrite (app_removelast_last 0 Hs) in H. apply T_keep. exact H. Qed.
  Lemma T_eq k e τ τ' d : ty G k e τ' d -> τ' = τ -> ty G k e τ d.
  Proof. now intros H <-. Qed.
End Rules.

Ltac subt := cbn; first [exact I | solve [repeat (constructor; first [now left | now right | idtac])]].
Ltac chooset := first [left; split; [reflexivity|subt] | right; split; [reflexivity|subt]].
Ltac sidet := cbn -[Nat.eqb]; rewrite ?Nat.eqb_refl; try reflexivity; try assumption; try discriminate; try (apply Nat.leb_le; lia); try lia.
Ltac ty1 :=
  lazymatch goal with |- ty ?G ?k ?e ?τ ?d =>
    let e' := eval hnf in e in
    change (ty G k e' τ d);
    lazymatch e' with
    | EVar _ _ => eapply T_var; reflexivity
    | ENum _ => eapply T_num
    | EDim _ => eapply T_dim; reflexivity
    | EMap _ _ => eapply T_map; ty1
    | EMap2 _ _ _ => eapply T_map2'; [ty1 | ty1 | chooset]
    | EMap3 _ _ _ _ => eapply T_map3'; [ty1 | ty1 | ty1 | chooset | chooset | subt | subt]
    | ENewaxis _ => eapply T_newaxis; ty1
    | EKeep _ _ => eapply T_keep'; [ty1 | discriminate]
    | EGu _ _ => eapply T_gu; [ty1 | reflexivity | sidet]
    | EGu2 _ _ _ => eapply T_gu2; [ty1 | ty1 | reflexivity | reflexivity | sidet]
    | EZeros _ _ => eapply T_zeros; [ty1 | cbn; lia]
    | EBroadcast _ _ => eapply T_broadcast; [ty1 | ty1 | subt]
    end
  end.
Ltac tyr := eexists; eapply T_eq; [ty1 | cbn; rewrite ?Nat.min_id; try reflexivity].

Lemma ln_ty f n : dims_ok (NP f) n = true -> exists d, ty (ctx_of (NP f) n) KR (ln_e f) (Ev []) d.
Proof.
  intros D. destruct f; cbn in D; try tyr.
Qed.

(** constructor arguments: the names and shapes of the fields of the class they build *)
Definition arg_ty (G : ctx) (a : arg) (o : string * (kind * list nat)) : Prop :=
  fst a = fst o /\ projT1 (snd a) = fst (snd o) /\ exists d, ty G (projT1 (snd a)) (projT2 (snd a)) (Ev (snd (snd o))) d.
Definition args_ty (G : ctx) : list arg -> ctx -> Prop := Forall2 (arg_ty G).
Ltac argsr := repeat (apply Forall2_cons; [split; [reflexivity|split; [reflexivity|cbn [projT1 projT2 snd fst]; tyr]]|]); try apply Forall2_nil.

Lemma exp_ty f n : dims_ok (NP f) n = true -> args_ty (ctx_of (NP f) n) (exp_args f) (ctx_of (EP f) n).
Proof. intros D. destruct f; cbn in D; unfold args_ty, exp_args, ctx_of; cbn [map fields]; argsr; cbn. Qed.
Lemma nat_ty f n l : dims_ok (EP f) n = true -> nat_args f = Some l -> args_ty (ctx_of (EP f) n) l (ctx_of (NP f) n).
Proof.
  intros D E. destruct f; cbn in D; cbn [nat_args] in E; try discriminate E; injection E as <-; unfold args_ty, ctx_of; cbn [map fields]; argsr.
Qed.
Lemma cm_ty f n : dims_ok (NP f) n = true -> exists d, ty (obs_ctx (NP f) n ++ ctx_of (NP f) n) KR (cm_e f) (Ev []) d.
Proof. intros D. destruct f; cbn in D; try tyr. Qed.
Lemma ss_ty f n : dims_ok (NP f) n = true -> args_ty (obs_ctx (NP f) n ++ fixed_ctx (NP f) n) (ss_args f) (ctx_of (EP f) n).
Proof.
  intros D. destruct f; cbn in D; unfold args_ty, ss_args, ctx_of; cbn [map fields]; argsr; cbn.
  - apply Nat.eqb_eq in D. now subst.
  - destruct n; [discriminate|]. do 2 f_equal. lia.
Qed.
Lemma ecm_ty f n : dims_ok (EP f) n = true -> has_entropy_ep (EP f) = true -> f <> Chi -> f <> ChiSquare ->
  exists d, ty (ctx_of (EP f) n) KR (ecm_e f) (Ev []) d.
Proof. intros D H N1 N2. destruct f; cbn in D, H; try discriminate H; try congruence; try tyr. Qed.
Lemma ecm_ty' f n : f = Chi \/ f = ChiSquare -> exists d, ty (ctx_of (NP f) n) KR (ecm_e f) (Ev []) d.
Proof. intros [-> | ->]; tyr. Qed.
