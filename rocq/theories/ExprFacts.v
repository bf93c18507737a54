(** Shapes and pointwise values of array expressions: every expression acts on each batch element alone. *)
From Coq Require Import String List Bool Arith Reals Lia.
From Verif Require Import Base XReal Tensor TensorFacts TensorFacts2 BroadcastFacts Support Dist DictFacts SpecFun Expr.
Import ListNotations.
Local Unset Asymmetric Patterns.

(** a Python number, or a batch of arrays of an event shape *)
Inductive tsh := Num | Ev (s : list nat).
Definition evs (τ : tsh) : list nat := match τ with Num => [] | Ev s => s end.
Definition full (b : list nat) (τ : tsh) : list nat := match τ with Num => [] | Ev s => b ++ s end.
Definition bat (τ : tsh) (i : list nat) : list nat := match τ with Num => [] | Ev _ => i end.
Definition b1 (m n : nat) : Prop := m = n \/ m = 1.
Definition sub (τ σ : tsh) : Prop :=
  match τ, σ with
  | Num, _ => True
  | Ev s, Ev s' => Forall2 b1 s s'
  | Ev _, Num => False
  end.
(** the values of the variables for one batch element *)
Definition vals := forall k : kind, string -> list nat -> elt k.
Definition vals_of (env : dict string arr) (i : list nat) : vals := fun k n j =>
  match dget env n with
  | Some a => match get_kind k a with Ok t => tget t (i ++ j) | Err _ => dflt end
  | None => dflt
  end.
Definition ctx := list (string * (kind * list nat)).
Definition den k := vals -> list nat -> elt k.

Inductive ty (G : ctx) : forall k, aexp k -> tsh -> den k -> Prop :=
  | T_var k n s : dget G n = Some (k, s) -> ty G k (EVar k n) (Ev s) (fun r j => r k n j)
  | T_num x : ty G KR (ENum x) Num (fun _ _ => Fin x)
  | T_dim n k s m : dget G n = Some (k, s) -> last_dim s = Some m -> ty G KR (EDim n) Num (fun _ _ => Fin (INR m))
  | T_map k1 k2 f e τ d : ty G k1 e τ d -> ty G k2 (@EMap k1 k2 f e) τ (fun r j => f (d r j))
  | T_map2 k1 k2 k3 f e1 e2 τ1 τ2 τ d1 d2 : ty G k1 e1 τ1 d1 -> ty G k2 e2 τ2 d2 -> sub τ1 τ -> sub τ2 τ -> τ = τ1 \/ τ = τ2 ->
      ty G k3 (@EMap2 k1 k2 k3 f e1 e2) τ (fun r j => f (d1 r (bidx (evs τ1) j)) (d2 r (bidx (evs τ2) j)))
  | T_map3 k f e1 e2 e3 τ1 τ2 τ3 τ d1 d2 d3 : ty G k e1 τ1 d1 -> ty G k e2 τ2 d2 -> ty G k e3 τ3 d3 ->
      sub τ1 τ -> sub τ2 τ -> sub τ3 τ -> τ = τ3 \/ (τ = τ2 /\ sub τ1 τ2) \/ (τ = τ1 /\ sub τ2 τ1) ->
      ty G k (@EMap3 k f e1 e2 e3) τ
        (fun r j => f (d1 r (bidx (evs τ1) j)) (d2 r (bidx (evs τ2) j)) (d3 r (bidx (evs τ3) j)))
  | T_newaxis k e s d : ty G k e (Ev s) d -> ty G k (@ENewaxis k e) (Ev (s ++ [1])) (fun r j => d r (removelast j))
  | T_keep k f e s n d : ty G k e (Ev (s ++ [n])) d ->
      ty G k (@EKeep k f e) (Ev (s ++ [1])) (fun r j => f (map (fun m => d r (removelast j ++ [m])) (seq 0 n)))
  | T_gu k1 k2 (g : gufunc k1 k2) e s d : ty G k1 e (Ev s) d -> length s = g_rank g -> g_ok g s = true ->
      ty G k2 (@EGu k1 k2 g e) (Ev (g_out g s)) (fun r j => g_fun g s (map (d r) (indices s)) j)
  | T_gu2 k1 k2 k3 (g : gufunc2 k1 k2 k3) e1 e2 s1 s2 d1 d2 : ty G k1 e1 (Ev s1) d1 -> ty G k2 e2 (Ev s2) d2 ->
      length s1 = h_rank1 g -> length s2 = h_rank2 g -> h_ok g s1 s2 = true ->
      ty G k3 (@EGu2 k1 k2 k3 g e1 e2) (Ev (h_out g s1 s2))
        (fun r j => h_fun g s1 s2 (map (d1 r) (indices s1)) (map (d2 r) (indices s2)) j)
  | T_zeros k drop e s d : ty G k e (Ev s) d -> drop <= length s ->
      ty G KR (@EZeros k drop e) (Ev (firstn (length s - drop) s)) (fun _ _ => Fin 0)
  | T_broadcast k1 k2 e to τ1 s d1 d2 : ty G k1 e τ1 d1 -> ty G k2 to (Ev s) d2 -> sub τ1 (Ev s) ->
      ty G k1 (@EBroadcast k1 k2 e to) (Ev s) (fun r j => d1 r (bidx (evs τ1) j)).

Definition env_ok (b : list nat) (G : ctx) (env : dict string arr) : Prop := forall n k s,
  dget G n = Some (k, s) -> exists t, dget env n = Some (pack k t) /\ shp t = b ++ s.

(** ** broadcasting with a common batch shape *)
Lemma brev_b1 s : forall s' r r' x, Forall2 b1 s s' -> brev r r' = Some x -> brev (s ++ r) (s' ++ r') = Some (s' ++ x).
Proof.
  induction s as [|m s IH]; intros [|n s'] r r' x H E; inversion H; subst; cbn; [exact E|].
  rewrite (IH s' r r' x) by assumption. destruct H3 as [-> | ->]; [now rewrite Nat.eqb_refl|].
  destruct (1 =? n) eqn:F; [apply Nat.eqb_eq in F; now subst|reflexivity].
Qed.
Lemma F2_rev {A B} (R : A -> B -> Prop) l m : Forall2 R l m -> Forall2 R (rev l) (rev m).
Proof. induction 1; cbn; [constructor|]. apply Forall2_app; [assumption|now repeat constructor]. Qed.
Lemma bshape_full b τ σ : sub τ σ -> bshape (full b τ) (full b σ) = Some (full b σ).
Proof.
  destruct τ as [|s], σ as [|s']; cbn [sub full]; intros H; try contradiction; try apply bshape_nil_l.
  unfold bshape. rewrite !rev_app_distr. rewrite (brev_b1 (rev s) (rev s') (rev b) (rev b) (rev b) (F2_rev _ _ _ H) (brev_same _)).
  cbn. now rewrite rev_app_distr, !rev_involutive.
Qed.
Lemma bidx_full b τ σ i j : sub τ σ -> inb b i = true -> inb (evs σ) j = true -> bidx (full b τ) (bat σ i ++ j) = bat τ i ++ bidx (evs τ) j.
Proof.
  destruct τ as [|s], σ as [|s']; cbn [sub full bat evs]; intros H Hi Hj; try contradiction; try reflexivity.
  pose proof (inb_length _ _ Hi) as Li. pose proof (inb_length _ _ Hj) as Lj. assert (Ls : length s = length s') by (clear -H; induction H; cbn; congruence).
  rewrite <- (bidx_id b i Hi) at 2. unfold bidx. rewrite !app_length, Li, Lj, Ls, !Nat.sub_diag. cbn [skipn].
  rewrite combine_app_l by congruence. now rewrite map_app.
Qed.
Lemma bidx_inb s : forall s' j, Forall2 b1 s s' -> inb s' j = true -> inb s (bidx s j) = true.
Proof.
  intros s' j H Hj. unfold bidx. assert (Ls : length s = length s') by (clear -H; induction H; cbn; congruence). rewrite (inb_length _ _ Hj), Ls, Nat.sub_diag. cbn [skipn]. clear Ls.
  revert j Hj. induction H as [|m n s s' Hmn H IH]; intros [|k j] Hj; try discriminate; [reflexivity|]. cbn in Hj. apply andb_prop in Hj as [Hk Hj].
  cbn [combine map fst snd inb]. rewrite (IH _ Hj), andb_true_r. destruct Hmn as [-> | ->]; [|reflexivity].
  destruct (n =? 1) eqn:E; [apply Nat.eqb_eq in E; now subst|exact Hk].
Qed.
Lemma bidx_evs τ σ j : sub τ σ -> inb (evs σ) j = true -> inb (evs τ) (bidx (evs τ) j) = true.
Proof. destruct τ as [|s], σ as [|s']; cbn [sub evs]; intros H Hj; try contradiction; try reflexivity. now apply (bidx_inb s s'). Qed.
Lemma full_split b τ i : inb (full b τ) i = true -> (exists i0, inb b i0 = true) -> exists i1 i2, i = bat τ i1 ++ i2 /\ inb b i1 = true /\ inb (evs τ) i2 = true.
Proof.
  destruct τ as [|s]; cbn [full bat evs]; intros H [i0 H0]; [exists i0, i; auto|]. destruct (inb_split _ _ _ H) as (i1 & i2 & ? & ? & ?). eauto.
Qed.
Lemma full_inb b τ i j : inb b i = true -> inb (evs τ) j = true -> inb (full b τ) (bat τ i ++ j) = true.
Proof. destruct τ as [|s]; cbn [full bat evs]; intros Hi Hj; [exact Hj|]. rewrite inb_app by (now apply inb_length). now rewrite Hi. Qed.
Lemma sub_refl τ : sub τ τ.
Proof. destruct τ as [|s]; cbn; [exact I|]. induction s; constructor; [now left|assumption]. Qed.

Lemma firstn_app_len {A} (x y : list A) n : n = length x -> firstn n (x ++ y) = x.
Proof. intros ->. rewrite firstn_app, Nat.sub_diag, firstn_all. cbn. apply app_nil_r. Qed.
Lemma skipn_app_len {A} (x y : list A) n : n = length x -> skipn n (x ++ y) = y.
Proof. intros ->. rewrite skipn_app, Nat.sub_diag, skipn_all. reflexivity. Qed.
Lemma removelast_app1 {A} (x y : list A) a : removelast (x ++ y ++ [a]) = x ++ y.
Proof. rewrite app_assoc. apply removelast_last. Qed.

Lemma brev_join u : forall s s' r, Forall2 b1 s u -> Forall2 b1 s' u -> exists x, Forall2 b1 x u /\ brev (s ++ r) (s' ++ r) = Some (x ++ r).
Proof.
  induction u as [|n u IH]; intros s s' r H H'; destruct s as [|m s]; inversion H; destruct s' as [|m' s']; inversion H'; subst; [exists []; split; [constructor|apply brev_same]|].
  destruct (IH s s' r ltac:(assumption) ltac:(assumption)) as (x & X1 & X2). cbn. rewrite X2.
  match goal with A : b1 m n, B : b1 m' n |- _ => destruct A as [-> | ->], B as [-> | ->] end.
  - exists (n :: x). rewrite Nat.eqb_refl. split; [constructor; [now left|assumption]|reflexivity].
  - exists (n :: x). split; [constructor; [now left|assumption]|]. destruct (n =? 1); reflexivity.
  - exists (n :: x). split; [constructor; [now left|assumption]|]. destruct (1 =? n) eqn:E; [apply Nat.eqb_eq in E; now subst|reflexivity].
  - exists (1 :: x). split; [constructor; [now right|assumption]|reflexivity].
Qed.
Lemma bshape_join b τ1 τ2 τ : sub τ1 τ -> sub τ2 τ -> exists σ, sub σ τ /\ bshape (full b τ1) (full b τ2) = Some (full b σ).
Proof.
  destruct τ1 as [|s1]; intros H1 H2; [exists τ2; split; [assumption|apply bshape_nil_l]|].
  destruct τ2 as [|s2]; [exists (Ev s1); split; [assumption|apply bshape_nil_r]|]. destruct τ as [|s]; [contradiction|]. cbn [sub] in *.
  destruct (brev_join (rev s) (rev s1) (rev s2) (rev b) (F2_rev _ _ _ H1) (F2_rev _ _ _ H2)) as (x & X1 & X2).
  exists (Ev (rev x)). split; [apply F2_rev in X1; now rewrite rev_involutive in X1|]. cbn [full]. unfold bshape. rewrite !rev_app_distr, X2. cbn. now rewrite rev_app_distr, rev_involutive.
Qed.

(** what it means for an array to hold a batch of arrays of shape τ with given values *)
Definition holds {k} (b : list nat) (env : dict string arr) (τ : tsh) (d : den k) (t : tensor (elt k)) : Prop :=
  shp t = full b τ /\ forall i j, inb b i = true -> inb (evs τ) j = true -> tget t (bat τ i ++ j) = d (vals_of env i) j.

Theorem ty_sound b G env : env_ok b G env -> forall k e τ d, ty G k e τ d -> exists t, eval env e = Ok t /\ holds b env τ d t.
Proof.
  intros Henv k e τ d H. unfold holds. induction H.
  - destruct (Henv _ _ _ H) as (t & E & S). exists t. cbn [eval]. rewrite E. cbn [opt_err bind].
    assert (G1 : get_kind k (pack k t) = Ok t) by (destruct k; reflexivity). rewrite G1. split; [reflexivity|]. split; [exact S|].
    intros i j Hi Hj. unfold vals_of. now rewrite E, G1.
  - eexists. split; [reflexivity|]. split; [reflexivity|]. intros i j Hi Hj. cbn [evs] in Hj. destruct j; [|discriminate]. reflexivity.
  - destruct (Henv _ _ _ H) as (t & E & S). cbn [eval]. rewrite E. cbn [opt_err bind].
    assert (A : ashape (pack k t) = b ++ s) by (destruct k; exact S). rewrite A.
    assert (L : last_dim (b ++ s) = Some m). { unfold last_dim in *. rewrite rev_app_distr. destruct (rev s); [discriminate|exact H0]. }
    rewrite L. cbn [opt_err bind]. eexists. split; [reflexivity|]. split; [reflexivity|]. intros i j Hi Hj. cbn [evs] in Hj. destruct j; [|discriminate]. reflexivity.
  - destruct IHty as (t & E & S & V). cbn [eval]. rewrite E. cbn [bind]. eexists. split; [reflexivity|]. split; [exact S|].
    intros i j Hi Hj. unfold tmap. rewrite tget_tbuild by (rewrite S; now apply full_inb). now rewrite V.
  - destruct IHty1 as (t & E & S & V). destruct IHty2 as (u & E' & S' & V'). cbn [eval]. rewrite E, E'. cbn [bind]. unfold tmap2.
    assert (B : bshape (shp t) (shp u) = Some (full b τ)).
    { rewrite S, S'. destruct H3 as [-> | ->]; [rewrite bshape_comm|]; now apply bshape_full. }
    rewrite B. eexists. split; [reflexivity|]. split; [reflexivity|]. intros i j Hi Hj. rewrite tget_tbuild by now apply full_inb.
    rewrite S, S', (bidx_full b τ1 τ i j), (bidx_full b τ2 τ i j) by assumption.
    rewrite V, V' by (assumption || now apply (bidx_evs _ τ)). reflexivity.
  - destruct IHty1 as (t & E & S & V). destruct IHty2 as (u & E' & S' & V'). destruct IHty3 as (v & E'' & S'' & V'').
    cbn [eval]. rewrite E, E', E''. cbn [bind]. unfold tmap3.
    assert (B : exists s1, bshape (shp t) (shp u) = Some s1 /\ bshape s1 (shp v) = Some (full b τ)).
    { rewrite S, S', S''. destruct H5 as [-> | [[-> Q] | [-> Q]]].
      - destruct (bshape_join b τ1 τ2 τ3 H2 H3) as (σ & J1 & J2). exists (full b σ). split; [exact J2|now apply bshape_full].
      - exists (full b τ2). split; [now apply bshape_full|rewrite bshape_comm; now apply bshape_full].
      - exists (full b τ1). split; [rewrite bshape_comm; now apply bshape_full|rewrite bshape_comm; now apply bshape_full]. }
    destruct B as (s1 & B1 & B2). rewrite B1, B2. eexists. split; [reflexivity|]. split; [reflexivity|].
    intros i j Hi Hj. rewrite tget_tbuild by now apply full_inb. rewrite S, S', S''.
    rewrite (bidx_full b τ1 τ i j), (bidx_full b τ2 τ i j), (bidx_full b τ3 τ i j) by assumption.
    rewrite V, V', V'' by (assumption || now apply (bidx_evs _ τ)). reflexivity.
  - destruct IHty as (t & E & S & V). cbn [eval]. rewrite E. cbn [bind]. eexists. split; [reflexivity|]. unfold tnewaxis. cbn [shp tbuild full] in *. rewrite S.
    split; [symmetry; apply app_assoc|]. intros i j Hi Hj. cbn [evs bat] in *. rewrite tget_tbuild.
    2:{ rewrite <- app_assoc. rewrite inb_app by now apply inb_length. now rewrite Hi. }
    destruct (inb_snoc _ _ _ Hj) as (j' & m & -> & Hj' & Hm). rewrite removelast_app1, removelast_last. now apply V.
  - destruct IHty as (t & E & S & V). cbn [eval]. rewrite E. cbn [bind]. unfold tkeep. cbn [full evs bat] in *.
    destruct (shp t) as [|z zs] eqn:Z. { symmetry in S. apply app_eq_nil in S as [_ S]. apply app_eq_nil in S as [_ S]. discriminate. }
    eexists. split; [reflexivity|]. cbn [shp tbuild]. rewrite S. rewrite removelast_app1. split; [now rewrite app_assoc|].
    intros i j Hi Hj. destruct (inb_snoc _ _ _ Hj) as (j' & m & -> & Hj' & Hm).
    rewrite tget_tbuild. 2:{ rewrite <- app_assoc, inb_app by (now apply inb_length). rewrite Hi. now apply inb_snoc_intro. }
    rewrite removelast_app1, removelast_last. replace (last (b ++ s ++ [n]) 0) with n by (rewrite app_assoc; symmetry; apply last_last).
    f_equal. apply map_ext_in. intros a Ha. apply in_seq in Ha. rewrite <- app_assoc. apply V; [assumption|]. apply inb_snoc_intro; [assumption|lia].
  - destruct IHty as (t & E & S & V). cbn [eval]. rewrite E. cbn [bind]. unfold gu_apply, rank. cbn [full evs bat] in *. rewrite S.
    assert (R : length (b ++ s) - g_rank g = length b) by (rewrite app_length; lia). rewrite R.
    rewrite (firstn_app_len b s) by reflexivity. rewrite (skipn_app_len b s) by reflexivity. rewrite H1.
    assert (Q : (g_rank g <=? length (b ++ s)) = true) by (apply Nat.leb_le; rewrite app_length; lia). rewrite Q. cbn [andb].
    eexists. split; [reflexivity|]. split; [reflexivity|]. intros i j Hi Hj.
    rewrite tget_tbuild by (rewrite inb_app by (now apply inb_length); now rewrite Hi).
    rewrite (firstn_app_len i j), (skipn_app_len i j) by (symmetry; now apply inb_length). f_equal. apply map_ext_in. intros a Ha. apply V; [assumption|]. now apply in_indices.
  - destruct IHty1 as (t & E & S & V). destruct IHty2 as (u & E' & S' & V'). cbn [eval]. rewrite E, E'. cbn [bind]. unfold gu2_apply, rank. cbn [full evs bat] in *. rewrite S, S'.
    assert (R1 : length (b ++ s1) - h_rank1 g = length b) by (rewrite app_length; lia). rewrite R1.
    assert (R2 : length (b ++ s2) - h_rank2 g = length b) by (rewrite app_length; lia). rewrite R2.
    rewrite !(firstn_app_len b) by reflexivity. rewrite !(skipn_app_len b) by reflexivity. rewrite H3.
    assert (Q1 : (h_rank1 g <=? length (b ++ s1)) = true) by (apply Nat.leb_le; rewrite app_length; lia). rewrite Q1.
    assert (Q2 : (h_rank2 g <=? length (b ++ s2)) = true) by (apply Nat.leb_le; rewrite app_length; lia). rewrite Q2. cbn [andb].
    destruct (list_eq_dec Nat.eq_dec b b) as [_|N]; [|now destruct N].
    eexists. split; [reflexivity|]. split; [reflexivity|]. intros i j Hi Hj.
    rewrite tget_tbuild by (rewrite inb_app by (now apply inb_length); now rewrite Hi).
    rewrite (firstn_app_len i j), (skipn_app_len i j) by (symmetry; now apply inb_length).
    f_equal; apply map_ext_in; intros a Ha; [apply V|apply V']; try assumption; now apply in_indices.
  - destruct IHty as (t & E & S & V). cbn [eval]. rewrite E. cbn [bind]. eexists. split; [reflexivity|]. unfold tfull, rank. cbn [shp tbuild]. rewrite S. cbn [full evs bat] in *.
    assert (F : firstn (length (b ++ s) - drop) (b ++ s) = b ++ firstn (length s - drop) s).
    { rewrite firstn_app, app_length. rewrite firstn_all2 by lia. do 2 f_equal. lia. }
    rewrite F. split; [reflexivity|]. intros i j Hi Hj. rewrite tget_tbuild; [reflexivity|]. rewrite inb_app by (now apply inb_length). now rewrite Hi.
  - destruct IHty1 as (t & E & S & V). destruct IHty2 as (u & E' & S' & V'). cbn [eval]. rewrite E, E'. cbn [bind]. unfold tbroadcast_to. rewrite S, S'.
    rewrite (bshape_full b τ1 (Ev s)) by assumption. destruct (list_eq_dec Nat.eq_dec (full b (Ev s)) (full b (Ev s))) as [_|N]; [|now destruct N].
    eexists. split; [reflexivity|]. split; [reflexivity|]. intros i j Hi Hj. rewrite tget_tbuild by (apply (full_inb b (Ev s)); assumption).
    rewrite (bidx_full b τ1 (Ev s) i j) by assumption. apply V; [assumption|]. now apply (bidx_evs _ (Ev s)).
Qed.

(** the value depends only on the in-range values of the variables of the context *)
Definition vals_eq (G : ctx) (r r' : vals) : Prop := forall n k s j, dget G n = Some (k, s) -> inb s j = true -> r k n j = r' k n j.
Lemma ty_ext G r r' : vals_eq G r r' -> forall k e τ d, ty G k e τ d -> forall j, inb (evs τ) j = true -> d r j = d r' j.
Proof.
  intros Hr k e τ d H. induction H; intros j Hj; cbn [evs] in *; try reflexivity.
  - eapply Hr; eassumption.
  - now rewrite IHty.
  - rewrite IHty1, IHty2; [reflexivity|now apply (bidx_evs _ τ)|now apply (bidx_evs _ τ)].
  - rewrite IHty1, IHty2, IHty3; [reflexivity|now apply (bidx_evs _ τ)|now apply (bidx_evs _ τ)|now apply (bidx_evs _ τ)].
  - destruct (inb_snoc _ _ _ Hj) as (j' & m & -> & Hj' & Hm). rewrite removelast_last. now apply IHty.
  - destruct (inb_snoc _ _ _ Hj) as (j' & m & -> & Hj' & Hm). rewrite removelast_last. f_equal. apply map_ext_in. intros a Ha. apply in_seq in Ha.
    apply IHty. apply inb_snoc_intro; [assumption|lia].
  - f_equal. apply map_ext_in. intros a Ha. apply IHty. now apply in_indices.
  - f_equal; apply map_ext_in; intros a Ha; [apply IHty1|apply IHty2]; now apply in_indices.
  - apply IHty1. now apply (bidx_evs _ (Ev s)).
Qed.

(** ** one batch element *)
Definition asub (i : list nat) (a : arr) : arr := match a with RA t => RA (tsub t i) | CA t => CA (tsub t i) end.
Definition slice (i : list nat) (env : dict string arr) : dict string arr := map (fun kv => (fst kv, asub i (snd kv))) env.
Lemma dget_slice i env n : dget (slice i env) n = option_map (asub i) (dget env n).
Proof. unfold slice. induction env as [|[k v] l IH]; [reflexivity|]. cbn [map fst snd dget]. destruct (keq n k); [reflexivity|exact IH]. Qed.
Lemma asub_pack k i (t : tensor (elt k)) : asub i (pack k t) = pack k (tsub t i).
Proof. destruct k; reflexivity. Qed.
Lemma get_pack k (t : tensor (elt k)) : get_kind k (pack k t) = Ok t.
Proof. destruct k; reflexivity. Qed.
Lemma shp_tsub {A} `{Dflt A} b s (t : tensor A) i : inb b i = true -> shp t = b ++ s -> shp (tsub t i) = s.
Proof. intros Hi Hs. unfold tsub. cbn [shp tbuild]. rewrite Hs. apply skipn_app_len. now apply inb_length. Qed.
Lemma get_tsub {A} `{Dflt A} b s (t : tensor A) i j : inb b i = true -> shp t = b ++ s -> inb s j = true -> tget (tsub t i) j = tget t (i ++ j).
Proof. intros Hi Hs Hj. unfold tsub. rewrite tget_tbuild; [reflexivity|]. change (inb (shp (tsub t i)) j = true). now rewrite (shp_tsub b s t i Hi Hs). Qed.
Lemma slice_env b G env i : env_ok b G env -> inb b i = true -> env_ok [] G (slice i env).
Proof.
  intros H Hi n k s E. destruct (H n k s E) as (t & E1 & E2). exists (tsub t i). rewrite dget_slice, E1. cbn [option_map]. rewrite asub_pack. split; [reflexivity|]. now apply (shp_tsub b).
Qed.
Lemma slice_vals b G env i : env_ok b G env -> inb b i = true -> vals_eq G (vals_of (slice i env) []) (vals_of env i).
Proof.
  intros H Hi n k s j E Hj. destruct (H n k s E) as (t & E1 & E2). unfold vals_of. rewrite dget_slice, E1. cbn [option_map]. rewrite asub_pack, !get_pack. cbn [app]. now apply (get_tsub b s).
Qed.
(** evaluating an expression on one batch element gives that element of the result *)
Theorem slice_eval b G env i k e s d : env_ok b G env -> inb b i = true -> ty G k e (Ev s) d ->
  exists t, eval env e = Ok t /\ shp t = b ++ s /\ eval (slice i env) e = Ok (tsub t i).
Proof.
  intros H Hi T. destruct (ty_sound b G env H k e _ d T) as (t & E & S & V). destruct (ty_sound [] G _ (slice_env b G env i H Hi) k e _ d T) as (t' & E' & S' & V').
  exists t. split; [exact E|]. split; [exact S|]. rewrite E'. f_equal. cbn [full evs bat app] in *. apply tensor_ext; [now rewrite (shp_tsub b s t i Hi S)|].
  rewrite S'. intros j Hj. rewrite (get_tsub b s t i j Hi S Hj), (V i j Hi Hj). rewrite <- (ty_ext G _ _ (slice_vals b G env i H Hi) k e _ d T j Hj). exact (V' [] j eq_refl Hj).
Qed.
