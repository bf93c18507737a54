(** The methods of distributions, generic part: transform/joint.py, natural_parametrization.py,
    expectation_parametrization.py, mixins/has_entropy.py, structure.py (MaximumLikelihoodEstimator).

    The methods of the simple classes are collected in a record [leaf_methods]; the generic code is
    written over it and instantiated with the families of [Fam*.v]. *)
From Coq Require Import String List Bool Arith Reals.
From Verif Require Import Base XReal Tensor Support Dist Iteration Structure Tools.
Import ListNotations.
Local Open Scope string_scope.
Set Implicit Arguments.

Record leaf_methods := {
  l_log_normalizer : dist -> result (tensor xr);
  l_to_exp : dist -> result dist;
  l_to_nat : dist -> result dist;
  l_carrier_measure : dist -> arr -> result (tensor xr);
  l_sufficient_statistics : family -> arr -> dict string arr -> result dist;
  l_expected_carrier_measure : dist -> result (tensor xr) }.

(** isinstance(x, Samplable) (the class declarations of efax/_src/distributions) *)
Definition is_samplable (c : cls) : bool :=
  match c with
  | NP f => match f with
            | Chi | GeneralizedDirichlet | Logarithmic | MultivariateNormal | VonMisesFisher => false
            | _ => true end
  | EP f => match f with
            | Chi | GeneralizedDirichlet | Logarithmic | VonMisesFisher => false
            | _ => true end
  | GammaVP | NormalVP | MultivariateDiagonalNormalVP | MultivariateNormalVP => true
  | _ => false
  end.
(** isinstance(x, HasEntropyEP) *)
Definition has_entropy_ep (c : cls) : bool :=
  match c with
  | EP f => match f with Logarithmic | NegativeBinomial | Poisson => false | _ => true end
  | JointDistributionE => true
  | _ => false
  end.

(** transform/joint.py:26-33 general_method, threading the state of the callback;
    [t] is the class filter *)
Fixpoint general_method {St B} (f : St -> dist -> result (St * B)) (t : cls -> bool)
    (st : St) (d : dist) {struct d} : result (St * list (string * nested B)) :=
  let '(Dist _ _ _ subs) := d in
  (fix go (st : St) (l : list (string * dist)) :=
     match l with
     | [] => Ok (st, [])
     | (n, s) :: l' =>
         if is_joint (dcls s) then
           let* (st1, v) := general_method f t st s in
           let* (st2, r) := go st1 l' in Ok (st2, (n, Node v) :: r)
         else if t (dcls s) then
           let* (st1, v) := f st s in
           let* (st2, r) := go st1 l' in Ok (st2, (n, Leaf v) :: r)
         else go st l'
     end) st subs.

Section Sampling.
  (** jax.random.split(key, n): n keys *)
  Context {K : Type} (split : K -> nat -> list K).
  Variable sample : dist -> K -> option shape -> result arr.
  (** transform/joint.py:35-53 general_sample *)
  Definition general_sample (d : dist) (key : K) (sh : option shape)
    : result (list (string * nested arr)) :=
    let* (count, _) := general_method (fun c (_ : dist) => Ok (S c, tt)) is_samplable 0 d in
    let ks := split key count in
    let* (_, r) := general_method
      (fun c x => let* k := opt_err IndexErr (nth_error ks c) in
                  let* v := sample x k sh in Ok (S c, v)) is_samplable 0 d in
    Ok r.
End Sampling.

(** transform/joint.py:55-60 as_dict; t is Distribution: every class passes *)
Definition as_dict (d : dist) : result (list (string * nested dist)) :=
  let* (_, r) := general_method (fun (u : unit) x => Ok (u, x)) (fun _ => true) tt d in Ok r.
(** iteration.py:186-191 flat_dict_of_parameters *)
Definition flat_dict_of_parameters (d : dist) : result (dict path dist) :=
  if is_joint (dcls d) then rmap flatten_mapping (as_dict d) else Ok [([], d)].

Section Generic.
  Variable L : leaf_methods.

  (** to_exp: JointDistributionN transform/joint.py:115-117; calling to_exp on an object that is not a
      natural parametrization is an AttributeError (variance parametrizations are separate methods) *)
  Fixpoint to_exp (d : dist) : result dist :=
    let '(Dist c m ps subs) := d in
    match c with
    | NP _ => l_to_exp L d
    | JointDistributionN =>
        let* subs' := (fix go (l : list (string * dist)) :=
          match l with
          | [] => Ok []
          | (n, s) :: l' => let* e := to_exp s in let* r := go l' in Ok ((n, e) :: r)
          end) subs in
        Ok (Dist JointDistributionE DefaultMinimizer [] subs')
    | _ => Err AttributeErr
    end.
  (** to_nat: JointDistributionE transform/joint.py:86-88 *)
  Fixpoint to_nat (d : dist) : result dist :=
    let '(Dist c m ps subs) := d in
    match c with
    | EP _ => l_to_nat L d
    | JointDistributionE =>
        let* subs' := (fix go (l : list (string * dist)) :=
          match l with
          | [] => Ok []
          | (n, s) :: l' => let* e := to_nat s in let* r := go l' in Ok ((n, e) :: r)
          end) subs in
        Ok (Dist JointDistributionN DefaultMinimizer [] subs')
    | _ => Err AttributeErr
    end.
  (** log_normalizer: JointDistributionN transform/joint.py:110-112 *)
  Fixpoint log_normalizer (d : dist) : result (tensor xr) :=
    let '(Dist c m ps subs) := d in
    match c with
    | NP _ => l_log_normalizer L d
    | JointDistributionN =>
        let* ts := (fix go (l : list (string * dist)) :=
          match l with
          | [] => Ok []
          | (_, s) :: l' => let* e := log_normalizer s in let* r := go l' in Ok (e :: r)
          end) subs in
        reduceM (tmap2 xadd) ts
    | _ => Err AttributeErr
    end.
  (** expected_carrier_measure: JointDistributionE transform/joint.py:91-96 *)
  Fixpoint expected_carrier_measure (d : dist) : result (tensor xr) :=
    let '(Dist c m ps subs) := d in
    match c with
    | EP _ => if has_entropy_ep c then l_expected_carrier_measure L d else Err AttributeErr
    | JointDistributionE =>
        let* ts := (fix go (l : list (string * dist)) :=
          match l with
          | [] => Ok []
          | (_, s) :: l' =>
              let* e := if has_entropy_ep (dcls s) then expected_carrier_measure s
                        else Err AssertionError in
              let* r := go l' in Ok (e :: r)
          end) subs in
        reduceM (tmap2 xadd) ts
    | _ => Err AttributeErr
    end.

  (** carrier_measure: JointDistributionN transform/joint.py:120-124.
      join_mappings(sub=..., x=...) gives the sub-distributions' keys in order followed by the extra
      keys of x; value['sub'] / value['x'] raise KeyError when absent. *)
  Inductive sub_or_obs := JSub (d : dist) | JObs (x : nested arr).
  Definition joined (subs : dict string dist) (x : dict string (nested arr)) :=
    join_mappings [("sub", map (fun kv => (fst kv, JSub (snd kv))) subs);
                   ("x", map (fun kv => (fst kv, JObs (snd kv))) x)].
  Definition joined_pair (v : dict string sub_or_obs) : result (dist * nested arr) :=
    let* s := dindex v "sub" in
    let* x := dindex v "x" in
    match s, x with JSub d, JObs y => Ok (d, y) | _, _ => Err TypeError end.
  (** The recursion through join_mappings is on the depth of the tree, hence the fuel; [carrier_measure]
      supplies the depth of the distribution (see [carrier_fuel_enough] in the proofs). *)
  Fixpoint carrier_fuel (fuel : nat) (d : dist) (x : nested arr) : result (tensor xr) :=
    match fuel with
    | 0 => Err RuntimeErr
    | S fuel' =>
      let '(Dist c m ps subs) := d in
      match c with
      | NP _ => match x with Leaf a => l_carrier_measure L d a | Node _ => Err TypeError end
      | JointDistributionN =>
          match x with
          | Leaf _ => Err AttributeErr
          | Node kvs =>
              let* ts := mapM (fun v => let* (s, y) := joined_pair v in carrier_fuel fuel' s y)
                              (values (joined subs kvs)) in
              reduceM (tmap2 xadd) ts
          end
      | _ => Err AttributeErr
      end
    end.
  Fixpoint depth (d : dist) : nat :=
    let '(Dist _ _ _ subs) := d in
    S ((fix go (l : list (string * dist)) :=
          match l with [] => 0 | (_, s) :: l' => Nat.max (depth s) (go l') end) subs).
  Definition carrier_measure (d : dist) (x : nested arr) : result (tensor xr) :=
    carrier_fuel (depth d) d x.

  (** ** MaximumLikelihoodEstimator (structure.py:138-215) *)
  Record estimator := Estimator { e_infos : list info; e_fixed : dict path arr }.
  (** structure.py:146-159 *)
  Definition create_simple_estimator (c : cls) (fixed : dict string arr) : result estimator :=
    if is_exp c then Ok (Estimator [Info [] c 0 []] (map (fun kv => ([fst kv], snd kv)) fixed))
    else Err AssertionError.
  (** structure.py:161-168 *)
  Definition create_estimator (p : dist) : result estimator :=
    let* infos := create p in
    if is_exp (dcls p) then let* fixed := parameters p (Some true) in Ok (Estimator infos fixed)
    else Err AssertionError.
  (** structure.py:170-176 *)
  Definition create_estimator_from_natural (p : dist) : result estimator :=
    let* infos := create p in
    let* infos' := struct_to_exp infos in
    let* fixed := parameters p (Some true) in
    Ok (Estimator infos' fixed).

  (** structure.py:184-196: g *)
  Definition mle_leaf (e : estimator) (constructed : dict path dist) (i : info) (x : arr)
    : result (dict path dist) :=
    match i_subs i with
    | _ :: _ => Err AssertionError
    | [] =>
      match i_type i with
      | EP f =>
        let* fixed := mapM (fun n => let* v := dindex (e_fixed e) (i_path i ++ [n])%list in Ok (n, v))
                           (keys (class_support (NP f) (Some true))) in
        let* p := l_sufficient_statistics L f x fixed in
        if is_exp (dcls p) then Ok (dset constructed (i_path i) p) else Err AssertionError
      | JointDistributionE => Err NotImplementedErr (* JointDistributionN.sufficient_statistics, transform/joint.py:126-130 *)
      | _ => Err AssertionError
      end
    end.
  (** structure.py:198-203: h *)
  Definition mle_joint (constructed : dict path dist) (i : info) : result (dict path dist) :=
    match i_type i with
    | JointDistributionE =>
        let* subs := mapM (fun n => let* d := dindex constructed (i_path i ++ [n])%list in Ok (n, d)) (i_subs i) in
        Ok (dset constructed (i_path i) (Dist JointDistributionE DefaultMinimizer [] (dict_of subs)))
    | _ => Err AssertionError
    end.
  (** structure.py:178-215 *)
  Definition mle_sufficient_statistics (e : estimator) (x : nested arr) : result dist :=
    let* constructed :=
      match x with
      | Node kvs =>
          let flat_x := flatten_mapping kvs in
          foldM (fun c i => match dget flat_x (i_path i) with
                            | Some a => mle_leaf e c i a
                            | None => mle_joint c i
                            end) [] (e_infos e)
      | Leaf a => match e_infos e with
                  | [i] => mle_leaf e [] i a
                  | _ => Err ValueError
                  end
      end in
    dindex constructed [].

  (** natural_parametrization.py:99-109 log_pdf, 89-97 pdf *)
  Definition log_pdf (q : dist) (x : nested arr) : result (tensor xr) :=
    let* e := create_estimator_from_natural q in
    let* tx := mle_sufficient_statistics e x in
    let* dp := parameter_dot_product q tx in
    let* ln := log_normalizer q in
    let* a := tmap2 xsub dp ln in
    let* cm := carrier_measure q x in
    tmap2 xadd a cm.
  Definition pdf (q : dist) (x : nested arr) : result (tensor xr) := rmap (tmap xexp) (log_pdf q x).

  (** jnp.subtract as the operation of parameter_map *)
  Definition arr_sub (x y : arr) : result arr :=
    match x, y with
    | RA a, RA b => rmap RA (tmap2 xsub a b)
    | _, _ => rmap CA (tmap2 csub (as_complex x) (as_complex y))
    end.
  Definition sub_op (l : list arr) : result arr :=
    match l with [x; y] => arr_sub x y | _ => Err TypeError end.
  (** expectation_parametrization.py:37-52 kl_divergence *)
  Definition kl_divergence_exp (p q : dist) (self_nat : option dist) : result (tensor xr) :=
    let* sn := match self_nat with Some n => Ok n | None => to_nat p end in
    let* difference := parameter_map sub_op sn [q] in
    let* dp := parameter_dot_product difference p in
    let* lq := log_normalizer q in
    let* a := tmap2 xadd dp lq in
    let* ls := log_normalizer sn in
    tmap2 xsub a ls.
  (** natural_parametrization.py:171-173 *)
  Definition kl_divergence_nat (p q : dist) : result (tensor xr) :=
    let* e := to_exp p in kl_divergence_exp e q (Some p).
  (** mixins/has_entropy.py:36-46 cross_entropy; 48-56 entropy (EP); 65-70 entropy (NP) *)
  Definition cross_entropy (p q : dist) : result (tensor xr) :=
    let* dp := parameter_dot_product q p in
    let* lq := log_normalizer q in
    let* a := tmap2 xadd (tmap xneg dp) lq in
    let* ecm := expected_carrier_measure p in
    tmap2 xsub a ecm.
  Definition entropy_exp (p : dist) : result (tensor xr) :=
    let* n := to_nat p in cross_entropy p n.
  Definition entropy_nat (q : dist) : result (tensor xr) :=
    let* e := to_exp q in cross_entropy e q.
  (** natural_parametrization.py:26-35 log_normalizer_jvp: the value and the tangent of log_normalizer, for primal q and tangent q_dot *)
  Definition log_normalizer_jvp (q q_dot : dist) : result (tensor xr * tensor xr) :=
    let* y := log_normalizer q in
    let* p := to_exp q in
    let* y_dot := parameter_dot_product q_dot p in
    Ok (y, y_dot).
End Generic.
