(** Structure of the sample methods: broadcasting of the parameters against the draws. *)
From Coq Require Import String List Bool Arith Reals Lia Lra.
From Verif Require Import Base XReal Tensor TensorFacts TensorFacts2 BroadcastFacts Support Dist DictFacts Iteration Structure Spec StructFacts AssembleFacts SumSpec DotSpec Tools
  ToolThms Joint StructThms MapFacts SpecFun GammaFn Expr Fam ExprFacts FamTy FamFacts SearchFacts DotFacts DotLaws BatchFacts PointSpec PointFacts Val Var Sample SampleSpec.
Import ListNotations.
Local Unset Asymmetric Patterns.
Local Open Scope string_scope.
Local Open Scope nat_scope.
Local Open Scope list_scope.

Lemma bidx_lead s j e : length s <= length e -> bidx s (j ++ e) = bidx s e.
Proof. intros H. unfold bidx. rewrite app_length. rewrite skipn_app. replace (length j + length e - length s - length j) with (length e - length s) by lia.
  rewrite (skipn_all2 j) by lia. reflexivity. Qed.
Lemma bshape_lead sh s s' : Forall2 b1 s s' -> bshape s (sh ++ s') = Some (sh ++ s').
Proof.
  intros H. unfold bshape. rewrite rev_app_distr. pose proof (brev_b1 (rev s) (rev s') [] (rev sh) (rev sh) (F2_rev _ _ _ H) eq_refl) as X. rewrite app_nil_r in X.
  rewrite X. cbn. now rewrite <- rev_app_distr, rev_involutive.
Qed.
Lemma b1_refl s : Forall2 b1 s s.
Proof. induction s; constructor; auto. now left. Qed.
Lemma b1_app a s s' : Forall2 b1 s s' -> Forall2 b1 (a ++ s) (a ++ s').
Proof. intros H. induction a; [exact H|]. cbn. constructor; auto. now left. Qed.
Lemma F2_len {A B} (R : A -> B -> Prop) l m : Forall2 R l m -> length l = length m.
Proof. induction 1; cbn; congruence. Qed.

Section Two.
  Context {A B C : Type} {DA : Dflt A} {DB : Dflt B} {DC : Dflt C}.
  Lemma tmap2_lead (f : A -> B -> C) x t sh s s' : shp x = sh ++ s' -> shp t = s -> Forall2 b1 s s' ->
    exists y, tmap2 f x t = Ok y /\ shp y = sh ++ s' /\ forall j e, inb sh j = true -> inb s' e = true -> tget y (j ++ e) = f (tget x (j ++ e)) (tget t (bidx s e)).
  Proof.
    intros Hx Ht H. unfold tmap2. rewrite Hx, Ht, bshape_comm, (bshape_lead sh s s' H). eexists. split; [reflexivity|]. split; [reflexivity|].
    intros j e Hj He. assert (I : inb (sh ++ s') (j ++ e) = true) by now apply inb_app_intro.
    rewrite tget_tbuild by exact I. rewrite bidx_id by exact I. rewrite (bidx_lead s j e); [reflexivity|]. rewrite (F2_len _ _ _ H). rewrite (inb_length _ _ He). lia.
  Qed.
End Two.

Section Draws.
  Context {K : Type}.
  Variable split2 : K -> K * K.
  Variable draw : K -> request -> shape -> index -> xr.
  Variables (b : list nat) (q : dist) (G : ctx).
  Hypothesis HE : env_ok b G (dparams q).
  Definition arg_typed (k : rkind) (m : nat) (ev : list nat) : Prop := length ev = arg_event k m.
  Fixpoint args_typed (k : rkind) (m : nat) (l : list (aexp KR)) (evs : list (list nat)) : Prop :=
    match l, evs with
    | [], [] => True
    | e :: l', ev :: evs' => (exists d, ty G KR e (Ev ev) d) /\ length ev = arg_event k m /\ args_typed k (S m) l' evs'
    | _, _ => False
    end.
  Lemma args_eval k : forall l m evs, args_typed k m l evs ->
    exists ts, mapM (eval (dparams q)) l = Ok ts /\ Forall2 (fun t ev => shp t = b ++ ev) ts evs /\ args_shape k m ts = Ok (match l with [] => [] | _ => b end).
  Proof.
    induction l as [|e l IH]; intros m [|ev evs] H; try contradiction; [exists []; repeat split; constructor|].
    destruct H as ((d & T) & N & H). destruct (IH _ _ H) as (ts & E1 & E2 & E3). destruct (ty_sound b G (dparams q) HE _ _ _ _ T) as (t & F1 & F2 & _).
    exists (t :: ts). cbn [mapM]. change (elt KR) with xr in *. rewrite F1, E1. cbn [bind]. split; [reflexivity|]. split; [constructor; assumption|].
    cbn [args_shape]. unfold rank. change (shp t = b ++ ev) in F2. rewrite F2, app_length. assert (Q : (arg_event k m <=? length b + length ev) = true) by (apply Nat.leb_le; lia). rewrite Q, E3. cbn [bind].
    unfold batch_of. rewrite app_length. replace (length b + length ev - arg_event k m) with (length b) by lia. rewrite (firstn_app_len b ev) by reflexivity.
    destruct l; [now rewrite bshape_nil_r|now rewrite bshape_same].
  Qed.
  Variables (sp : sampler) (base : list nat) (evs : list (list nat)) (key : K) (sh : option shape).
  Hypothesis Hbase : (if s_mean sp then let* m := attr q "mean" in Ok (ashape m) else dshape q) = Ok base.
  Hypothesis Hargs : args_typed (s_kind sp) 0 (s_args sp) evs.
  Hypothesis Hb : (s_args sp = [] /\ s_none sp = false) \/ (s_args sp <> [] /\ base = b).
  Lemma run_draw : exists ts sh', mapM (eval (dparams q)) (s_args sp) = Ok ts /\ Forall2 (fun t ev => shp t = b ++ ev) ts evs /\
    let r := Req (s_kind sp) ts in let s := (requested sh ++ base)%list in let t := tbuild (s ++ draw_event r) (draw key r s) in
    jrandom draw key r sh' = Ok t /\ run draw sp q key sh = apply_post draw q key r sh' (s_post sp) t.
  Proof.
    destruct (args_eval _ _ _ _ Hargs) as (ts & E1 & E2 & E3). unfold run. rewrite Hbase, E1. cbn [bind].
    set (sh' := match sh with Some s => Some (s ++ base) | None => if s_none sp then None else Some base end).
    exists ts, sh'. split; [reflexivity|]. split; [exact E2|]. cbv zeta.
    assert (J : jrandom draw key (Req (s_kind sp) ts) sh' = Ok (tbuild ((requested sh ++ base) ++ draw_event (Req (s_kind sp) ts)) (draw key (Req (s_kind sp) ts) (requested sh ++ base)))).
    { unfold jrandom. cbn [r_kind r_args]. rewrite E3. cbn [bind]. destruct Hb as [[X Y]|[X Y]].
      - rewrite X. unfold sh'. rewrite Y. destruct sh as [s|]; cbn [requested]; rewrite bshape_nil_l; match goal with |- context [list_eq_dec ?d ?u ?v] => destruct (list_eq_dec d u v) as [_|N]; [|now destruct N] end; reflexivity.
      - subst base. destruct (s_args sp) as [|e l]; [now destruct X|]. unfold sh'. destruct sh as [s|]; cbn [requested].
        + rewrite (bshape_lead s b b (b1_refl b)). match goal with |- context [list_eq_dec ?d ?u ?v] => destruct (list_eq_dec d u v) as [_|N]; [|now destruct N] end. reflexivity.
        + destruct (s_none sp); [reflexivity|]. rewrite bshape_same. match goal with |- context [list_eq_dec ?d ?u ?v] => destruct (list_eq_dec d u v) as [_|N]; [|now destruct N] end. reflexivity. }
    split; [exact J|]. rewrite J. reflexivity.
  Qed.
End Draws.

Section Posts.
  Context {K : Type}.
  Variable draw : K -> request -> shape -> index -> xr.
  Variables (b : list nat) (q : dist) (key : K) (r : request) (sh' : option shape) (sh ev : list nat) (t : tensor xr).
  Hypothesis Ht : shp t = sh ++ b ++ ev.
  Notation ap := (apply_post draw q key r sh').
  Lemma b_idx dv i e : Forall2 b1 dv ev -> inb b i = true -> inb ev e = true -> bidx (b ++ dv) (i ++ e) = i ++ bidx dv e.
  Proof. intros H Hi He. exact (bidx_full b (Ev dv) (Ev ev) i e H Hi He). Qed.
  Lemma bev_id i e : inb b i = true -> inb ev e = true -> bidx (b ++ ev) (i ++ e) = i ++ e.
  Proof. intros Hi He. apply bidx_id. now apply inb_app_intro. Qed.
  Lemma post_shift mean m : eval (dparams q) mean = Ok m -> shp m = b ++ ev -> exists x, ap (PShift mean) t = Ok (RA x) /\ shp x = sh ++ b ++ ev /\
    forall j i e, inb sh j = true -> inb b i = true -> inb ev e = true -> tget x (j ++ i ++ e) = xadd (tget t (j ++ i ++ e)) (tget m (i ++ e)).
  Proof.
    intros E S. cbn [apply_post]. rewrite E. cbn [bind]. destruct (tmap2_lead xadd t m sh (b ++ ev) (b ++ ev) Ht S (b1_refl _)) as (x & X1 & X2 & X3).
    exists x. change (elt KR) with xr in *. rewrite X1. split; [reflexivity|]. split; [exact X2|]. intros j i e Hj Hi He. rewrite X3 by (auto; now apply inb_app_intro). now rewrite bev_id.
  Qed.
  Lemma post_mul v d : eval (dparams q) v = Ok d -> shp d = b ++ ev -> exists x, ap (PMul v) t = Ok (RA x) /\ shp x = sh ++ b ++ ev /\
    forall j i e, inb sh j = true -> inb b i = true -> inb ev e = true -> tget x (j ++ i ++ e) = xmul (tget t (j ++ i ++ e)) (tget d (i ++ e)).
  Proof.
    intros E S. cbn [apply_post]. rewrite E. cbn [bind]. destruct (tmap2_lead xmul t d sh (b ++ ev) (b ++ ev) Ht S (b1_refl _)) as (x & X1 & X2 & X3).
    exists x. change (elt KR) with xr in *. rewrite X1. split; [reflexivity|]. split; [exact X2|]. intros j i e Hj Hi He. rewrite X3 by (auto; now apply inb_app_intro). now rewrite bev_id.
  Qed.
  Lemma post_negdiv v d : eval (dparams q) v = Ok d -> shp d = b ++ ev -> exists x, ap (PNegDiv v) t = Ok (RA x) /\ shp x = sh ++ b ++ ev /\
    forall j i e, inb sh j = true -> inb b i = true -> inb ev e = true -> tget x (j ++ i ++ e) = xdiv (xneg (tget t (j ++ i ++ e))) (tget d (i ++ e)).
  Proof.
    intros E S. cbn [apply_post]. rewrite E. cbn [bind]. destruct (tmap2_lead xdiv (tmap xneg t) d sh (b ++ ev) (b ++ ev) (eq_trans (shp_tmap _ _) Ht) S (b1_refl _)) as (x & X1 & X2 & X3).
    exists x. change (elt KR) with xr in *. rewrite X1. split; [reflexivity|]. split; [exact X2|]. intros j i e Hj Hi He. rewrite X3 by (auto; now apply inb_app_intro).
    rewrite tget_tmap by (rewrite Ht; now repeat apply inb_app_intro). now rewrite bev_id.
  Qed.
  Lemma post_scale dev mean d m dv : eval (dparams q) dev = Ok d -> eval (dparams q) mean = Ok m -> shp d = b ++ dv -> Forall2 b1 dv ev -> shp m = b ++ ev ->
    exists x, ap (PScale dev mean) t = Ok (RA x) /\ shp x = sh ++ b ++ ev /\
    forall j i e, inb sh j = true -> inb b i = true -> inb ev e = true -> tget x (j ++ i ++ e) = xadd (xmul (tget t (j ++ i ++ e)) (tget d (i ++ bidx dv e))) (tget m (i ++ e)).
  Proof.
    intros E E' S F S'. cbn [apply_post]. rewrite E, E'. cbn [bind]. change (elt KR) with xr in *. destruct (tmap2_lead xmul t d sh (b ++ dv) (b ++ ev) Ht S (b1_app b _ _ F)) as (y & Y1 & Y2 & Y3). rewrite Y1. cbn [bind].
    destruct (tmap2_lead xadd y m sh (b ++ ev) (b ++ ev) Y2 S' (b1_refl _)) as (x & X1 & X2 & X3). rewrite X1. cbn [bind]. exists x. split; [reflexivity|]. split; [exact X2|].
    intros j i e Hj Hi He. rewrite X3 by (auto; now apply inb_app_intro). rewrite Y3 by (auto; now apply inb_app_intro). now rewrite bev_id, b_idx.
  Qed.
  Lemma post_complex mean m : jrandom draw key r sh' = Ok t -> eval (dparams q) mean = Ok m -> shp m = b ++ ev -> exists x, ap (PComplex mean) t = Ok (CA x) /\ shp x = sh ++ b ++ ev /\
    forall j i e, inb sh j = true -> inb b i = true -> inb ev e = true -> tget x (j ++ i ++ e) = cadd (XC (tget t (j ++ i ++ e)) (tget t (j ++ i ++ e))) (tget m (i ++ e)).
  Proof.
    intros J E S. cbn [apply_post]. rewrite J, E. cbn [bind]. rewrite tmap2_same by reflexivity. cbn [bind].
    match goal with |- context [tmap2 cadd ?z m] => set (u := z) end. assert (Hu : shp u = sh ++ b ++ ev) by exact Ht.
    change (elt KC) with xc in *. destruct (tmap2_lead cadd u m sh (b ++ ev) (b ++ ev) Hu S (b1_refl _)) as (x & X1 & X2 & X3).
    exists x. rewrite X1. split; [reflexivity|]. split; [exact X2|]. intros j i e Hj Hi He. rewrite X3 by (auto; now apply inb_app_intro). rewrite bev_id by assumption. f_equal.
    unfold u. rewrite tget_tbuild; [reflexivity|]. rewrite Ht. now repeat apply inb_app_intro.
  Qed.
  Lemma post_id : ap PId t = Ok (RA t). Proof. reflexivity. Qed.
  Lemma post_onehot n : ev = [] -> dims_of q = Ok n -> exists x, ap POneHot t = Ok (RA x) /\ shp x = sh ++ b ++ [n] /\
    forall j i k, inb sh j = true -> inb b i = true -> k < n -> tget x (j ++ i ++ [k]) = if xeqb (tget t (j ++ i)) (Fin (INR k)) then Fin 1 else Fin 0.
  Proof.
    intros -> D. cbn [apply_post]. rewrite D. cbn [bind]. rewrite app_nil_r in Ht. eexists. split; [reflexivity|]. unfold one_hot. cbn [shp tbuild]. rewrite Ht, <- app_assoc. split; [reflexivity|].
    intros j i k Hj Hi Hk. rewrite tget_tbuild. 2:{ repeat apply inb_app_intro; auto. now apply inb1_intro. } rewrite !app_assoc, removelast_snoc, last_snoc. reflexivity.
  Qed.
  Lemma post_init n : ev = [n] -> exists x, ap PInit t = Ok (RA x) /\ shp x = sh ++ b ++ [n - 1] /\
    forall j i k, inb sh j = true -> inb b i = true -> k < n - 1 -> tget x (j ++ i ++ [k]) = tget t (j ++ i ++ [k]).
  Proof.
    intros ->. cbn [apply_post]. rewrite app_assoc in Ht. rewrite Ht, last_snoc. eexists. split; [reflexivity|]. rewrite (shp_tslice (sh ++ b) n) by (auto; lia). rewrite Nat.sub_0_r, <- app_assoc. split; [reflexivity|].
    intros j i k Hj Hi Hk. rewrite app_assoc. rewrite (tget_tslice (sh ++ b) n 0 (n - 1)) by (auto using inb_app_intro; lia). reflexivity.
  Qed.
  Lemma post_pair : ev = [2] -> exists x, ap PPair t = Ok (CA x) /\ shp x = sh ++ b /\
    forall j i, inb sh j = true -> inb b i = true -> tget x (j ++ i) = XC (tget t (j ++ i ++ [0])) (tget t (j ++ i ++ [1])).
  Proof.
    intros ->. cbn [apply_post]. rewrite app_assoc in Ht. rewrite tmap2_same by reflexivity. cbn [bind]. eexists. split; [reflexivity|]. unfold tlast at 1. cbn [shp tbuild]. rewrite Ht, removelast_snoc. split; [reflexivity|].
    intros j i Hj Hi. assert (I : inb (removelast (shp t)) (j ++ i) = true) by (rewrite Ht, removelast_snoc; now apply inb_app_intro). rewrite tget_tbuild by exact I. unfold tlast. rewrite !tget_tbuild by exact I. now rewrite !app_assoc.
  Qed.
  Lemma post_halves n : ev = [n + n] -> dims_of q = Ok n -> exists x, ap PHalves t = Ok (CA x) /\ shp x = sh ++ b ++ [n] /\
    forall j i k, inb sh j = true -> inb b i = true -> k < n -> tget x (j ++ i ++ [k]) = XC (tget t (j ++ i ++ [k])) (tget t (j ++ i ++ [n + k])).
  Proof.
    intros -> D. cbn [apply_post]. rewrite D. cbn [bind]. rewrite app_assoc in Ht. rewrite Ht, last_snoc.
    assert (S1 : shp (tslice 0 n t) = (sh ++ b) ++ [n]). { rewrite (shp_tslice (sh ++ b) (n + n)) by (auto; lia). now rewrite Nat.sub_0_r. }
    assert (S2 : shp (tslice n (n + n) t) = (sh ++ b) ++ [n]). { rewrite (shp_tslice (sh ++ b) (n + n)) by (auto; lia). now replace (n + n - n) with n by lia. }
    rewrite tmap2_same by now rewrite S1, S2. cbn [bind]. eexists. split; [reflexivity|]. cbn [shp tbuild]. rewrite S1, <- app_assoc. split; [reflexivity|].
    intros j i k Hj Hi Hk. rewrite (app_assoc j i [k]). rewrite tget_tbuild. 2:{ rewrite <- (app_assoc j i). repeat apply inb_app_intro; auto. now apply inb1_intro. }
    rewrite (tget_tslice (sh ++ b) (n + n) 0 n), (tget_tslice (sh ++ b) (n + n) n (n + n)) by (auto using inb_app_intro; lia). rewrite !app_assoc. reflexivity.
  Qed.
End Posts.
