(** Model of efax/_src/scipy_replacement: numpy distributions with the interface of scipy.stats.

    Simplifications: exact arithmetic on real and complex numbers; a dtype is only real or complex; an array of Python objects is a function
    of the index; np.isclose with its default tolerances is equality.  External functions are given by their documentation: the density of
    scipy.stats.multivariate_normal and of scipy.stats.dirichlet, scipy.special.beta, and (by an arbitrary function of the generator's state,
    [gen_mvn] and [gen_beta]) the draws of numpy.random.Generator. *)
From Coq Require Import String List Bool Arith Reals.
From Coquelicot Require Import Complex.
From Verif Require Import Base Tensor Dist Tools SpecFun TextSpec.
Import ListNotations.
Local Open Scope R_scope.
Local Open Scope nat_scope.

Local Instance Dflt_R : Dflt R := 0%R.
Local Instance Dflt_C : Dflt Complex.C := RtoC 0.
Notation cplx := Complex.C.

(** numpy: x[i] for a tuple i of integers *)
Definition tindex {A} `{Dflt A} (t : tensor A) (i : index) : result (tensor A) :=
  if (length i <=? length (shp t)) && inb (firstn (length i) (shp t)) i then Ok (tsub t i) else Err IndexErr.
(** numpy: what a[i] = t stores, a[i] having shape s: axes of length one in front are dropped, then t is broadcast *)
Definition tstore {A} `{Dflt A} (s : shape) (t : tensor A) : result (tensor A) :=
  let k := length (shp t) - length s in
  if forallb (Nat.eqb 1) (firstn k (shp t)) then
    match tbroadcast_to s (tbuild (skipn k (shp t)) (fun i => tget t (repeat 0 k ++ i))) with Ok r => Ok r | Err _ => Err ValueError end
  else Err ValueError.
(** an array a = np.empty(b + s) after a[i] = vs[i] for every i in np.ndindex( *b) *)
Definition gather {A} `{Dflt A} (b s : shape) (vs : list (tensor A)) : tensor A :=
  tbuild (b ++ s) (fun ij => tget (nth (ravel b (firstn (length b) ij)) vs (tfull s dflt)) (skipn (length b) ij)).
(** assignment to an array of real dtype discards imaginary parts (numpy warns) *)
Definition cast (real : bool) (z : cplx) : cplx := if real then RtoC (fst z) else z.

(** the argument "size" *)
Inductive size_arg := SizeNone | SizeInt (k : nat) | SizeTuple (s : shape).
Definition size_of (a : size_arg) : shape := match a with SizeNone => [] | SizeInt k => [k] | SizeTuple s => s end.

Section Shaped.
  (** the states of a numpy.random.Generator *)
  Context {G : Type}.

  (** the interface of the objects in a ShapedDistribution *)
  Record sobj := SObj { o_pdf : tensor cplx -> result (tensor R); o_rvs : shape -> G -> result (tensor cplx * G); o_entropy : result (tensor R) }.
  (** shaped_distribution.py:14-30 ShapedDistribution; [sd_real]: rvs_dtype is a real dtype *)
  Record sdist := SDist { sd_shape : shape; sd_rvs_shape : shape; sd_real : bool; sd_objects : index -> sobj }.

  (** shaped_distribution.py:41-42, the loop *)
  Fixpoint rvs_loop (d : sdist) (size : shape) (l : list index) (g : G) : result (list (tensor cplx) * G) :=
    match l with
    | [] => Ok ([], g)
    | i :: l' =>
        let* r := o_rvs (sd_objects d i) size g in
        let* w := tstore (size ++ sd_rvs_shape d) (tmap (cast (sd_real d)) (fst r)) in
        let* r' := rvs_loop d size l' (snd r) in
        Ok (w :: fst r', snd r')
    end.
  (** shaped_distribution.py:32-43 ShapedDistribution.rvs *)
  Definition sd_rvs (d : sdist) (a : size_arg) (g : G) : result (tensor cplx * G) :=
    let* r := rvs_loop d (size_of a) (indices (sd_shape d)) g in
    Ok (gather (sd_shape d) (size_of a ++ sd_rvs_shape d) (fst r), snd r).
  (** shaped_distribution.py:45-52 ShapedDistribution.pdf; for shape () the value is returned as it is *)
  Definition sd_pdf (d : sdist) (x : tensor cplx) : result (tensor R) :=
    match sd_shape d with
    | [] => let* xi := tindex x [] in o_pdf (sd_objects d []) xi
    | b => let* vs := mapM (fun i => let* xi := tindex x i in let* v := o_pdf (sd_objects d i) xi in tstore [] v) (indices b) in
           Ok (gather b [] vs)
    end.
  (** shaped_distribution.py:54-58 ShapedDistribution.entropy *)
  Definition sd_entropy (d : sdist) : result (tensor R) :=
    let* vs := mapM (fun i => let* v := o_entropy (sd_objects d i) in tstore [] v) (indices (sd_shape d)) in
    Ok (gather (sd_shape d) [] vs).

  (** ** joint.py *)
  (** joint.py:15-17 ScipyJointDistribution: any distributions by name; [X] is the type of observations *)
  Record sjobj := SJObj { j_pdf : tensor cplx -> result (tensor R); j_rvs : size_arg -> G -> result (tensor cplx * G); j_entropy : result (tensor R) }.
  Definition of_shaped (d : sdist) : sjobj := SJObj (sd_pdf d) (sd_rvs d) (sd_entropy d).
  Inductive jval := JDist (d : sjobj) | JObs (x : tensor cplx).
  (** joint.py:19-21 pdf; math.prod starts from 1 *)
  Definition sj_pdf (subs : dict string sjobj) (z : dict string (tensor cplx)) : result (tensor R) :=
    let joined := join_mappings [("sub", map (fun kv => (fst kv, JDist (snd kv))) subs); ("z", map (fun kv => (fst kv, JObs (snd kv))) z)]%string in
    foldM (fun acc kv =>
             let* s := dindex (snd kv) "sub"%string in
             let* x := dindex (snd kv) "z"%string in
             match s, x with
             | JDist d, JObs y => let* v := j_pdf d y in tmap2 Rmult acc v
             | _, _ => Err AttributeErr
             end) (tscalar 1%R) joined.
  (** joint.py:23-28 rvs: one generator passed to all in turn *)
  Fixpoint sj_rvs (subs : dict string sjobj) (a : size_arg) (g : G) : result (dict string (tensor cplx) * G) :=
    match subs with
    | [] => Ok ([], g)
    | (k, d) :: l => let* r := j_rvs d a g in let* r' := sj_rvs l a (snd r) in Ok ((k, fst r) :: fst r', snd r')
    end.
  (** joint.py:30-33 entropy: np.sum of a list of arrays along axis 0; the list must not be ragged; the sum of no arrays is 0 *)
  Definition sj_entropy (subs : dict string sjobj) : result (tensor R) :=
    let* es := mapM (fun kv => j_entropy (snd kv)) subs in
    match es with
    | [] => Ok (tscalar 0%R)
    | e :: _ => if forallb (fun e' => if list_eq_dec Nat.eq_dec (shp e') (shp e) then true else false) es
                then Ok (tbuild (shp e) (fun i => fold_right Rplus 0%R (map (fun e' => tget e' i) es))) else Err ValueError
    end.

  (** ** multivariate_normal.py *)
  (** scipy.stats.multivariate_normal: a covariance matrix with a leading minor that is not positive is rejected (ValueError, or
      LinAlgError which is a ValueError) *)
  Definition pd_test (n : nat) (S : nat -> nat -> R) : bool := forallb (fun k => if Rlt_dec 0 (rdet k S) then true else false) (seq 1 n).
  Definition col (t : tensor cplx) (i : index) (k : nat) : R := fst (tget t (i ++ [k])).
  (** multivariate_normal_frozen.pdf: the last axis is the event axis *)
  Definition mvn_pdf (n : nat) (m : nat -> R) (S : nat -> nat -> R) (x : tensor cplx) : result (tensor R) :=
    if negb (pd_test n S) then Err ValueError
    else if last (shp x) 0 =? n then Ok (tbuild (removelast (shp x)) (fun i => multivariate_normal_pdf n m S (col x i))) else Err ValueError.
  (** multivariate_normal_frozen.entropy: half the logarithm of det(2 pi e S) *)
  Definition mvn_entropy (n : nat) (S : nat -> nat -> R) : result (tensor R) :=
    if negb (pd_test n S) then Err ValueError else Ok (tscalar (1 / 2 * ln (rdet n (fun a b => 2 * PI * exp 1 * S a b)))%R).
  (** Generator.multivariate_normal(mean, cov, size) *)
  Definition gen_mvn_t := forall (n : nat), (nat -> R) -> (nat -> nat -> R) -> shape -> G -> tensor R * G.
  Context (gen_mvn : gen_mvn_t).

  (** multivariate_normal.py:16-34 ScipyMultivariateNormalUnvectorized; rvs reshapes what scipy drew to size + mean.shape *)
  Definition mvn_obj (n : nat) (m : nat -> R) (S : nat -> nat -> R) : sobj :=
    SObj (mvn_pdf n m S)
         (fun size g => let r := gen_mvn n m S size g in let* t := treshape (size ++ [n]) (tmap RtoC (fst r)) in Ok (t, snd r))
         (mvn_entropy n S).

  (** ** complex_normal.py *)
  (** an array with a real or complex dtype *)
  Record narr := NArr { na_real : bool; na_val : tensor cplx }.
  Record cnormal := CNormal { cn_mean : cplx; cn_variance : R; cn_pseudo : cplx }.
  (** complex_normal.py:16-34 ScipyComplexNormalUnvectorized.__init__ *)
  Definition cn_init (m : tensor cplx) (v_real : bool) (v u : tensor cplx) : result cnormal :=
    if negb v_real then Err TypeError else
    let* bigger := tmap2 (fun z w => if Rlt_dec (fst w) (Cmod z) then true else false) u v in
    if existsb (fun x => x) (dat bigger) then Err ValueError else
    if negb (forallb (fun s => if list_eq_dec Nat.eq_dec s [] then true else false) [shp m; shp v; shp u]) then Err ValueError else
    Ok (CNormal (tget m []) (fst (tget v [])) (tget u [])).
  (** complex_normal.py:61-62 _multivariate_normal_mean *)
  Definition cn_mv_mean (o : cnormal) (k : nat) : R := nth k [fst (cn_mean o); snd (cn_mean o)] 0%R.
  (** complex_normal.py:64-70 _multivariate_normal_cov *)
  Definition cn_mv_cov (o : cnormal) (a b : nat) : R :=
    let xx := (cn_variance o + fst (cn_pseudo o))%R in
    let xy := snd (cn_pseudo o) in
    let yy := (cn_variance o - fst (cn_pseudo o))%R in
    (/ 2 * nth b (nth a [[xx; xy]; [xy; yy]] []) 0)%R.
  (** complex_normal.py:55-58 as_multivariate_normal *)
  Definition cn_as_mvn (o : cnormal) : sobj := mvn_obj 2 (cn_mv_mean o) (cn_mv_cov o).
  (** complex_normal.py:36-53 pdf, rvs, entropy *)
  Definition cn_obj (o : cnormal) : sobj :=
    SObj (fun z => o_pdf (cn_as_mvn o) (tbuild (shp z ++ [2]) (fun i => let w := tget z (removelast i) in RtoC (if last i 0 =? 0 then fst w else snd w))))
         (fun size g => let r := gen_mvn 2 (cn_mv_mean o) (cn_mv_cov o) size g in
                        Ok (tbuild (removelast (shp (fst r))) (fun i => (tget (fst r) (i ++ [0]), tget (fst r) (i ++ [1])) : cplx), snd r))
         (o_entropy (cn_as_mvn o)).
  (** complex_normal.py:76-97 ScipyComplexNormal.__init__; the result is the array of objects with its shape and dtype *)
  Record carr := CArr { ca_shape : shape; ca_real : bool; ca_objects : list cnormal }.
  Definition dtype_real (l : list (option narr)) : bool := forallb (fun x => match x with Some a => na_real a | None => true end) l.
  Definition cn_array (mean variance pseudo : option narr) : result carr :=
    let* s := match mean, variance, pseudo with
              | Some a, _, _ => Ok (shp (na_val a)) | None, Some a, _ => Ok (shp (na_val a)) | None, None, Some a => Ok (shp (na_val a))
              | None, None, None => Err ValueError end in
    let m := match mean with Some a => na_val a | None => tfull s (RtoC 0) end in
    let v := match variance with Some a => a | None => NArr true (tfull s (RtoC 1)) end in
    let u := match pseudo with Some a => na_val a | None => tfull s (RtoC 0) end in
    let* os := mapM (fun i => let* mi := tindex m i in let* vi := tindex (na_val v) i in let* ui := tindex u i in cn_init mi (na_real v) vi ui) (indices s) in
    Ok (CArr s (dtype_real [mean; variance; pseudo]) os).
  (** the object at an index *)
  Definition ca_at (c : carr) (i : index) : cnormal := nth (ravel (ca_shape c) i) (ca_objects c) (CNormal (RtoC 0) 1 (RtoC 0)).
  Definition cn_dist (c : carr) : sdist := SDist (ca_shape c) [] (ca_real c) (fun i => cn_obj (ca_at c i)).
  (** complex_normal.py:99-110 init_using_angle, the pseudo-variance of one element *)
  Definition angle_pseudo (v angle : R) (polarization : cplx) : cplx :=
    Cmult (Cmult polarization (cos (2 * PI * angle * 2), sin (2 * PI * angle * 2))%R) (RtoC v).
  (** complex_normal.py:112-116 as_multivariate_normal: rvs_shape is that of the complex distribution, the dtype is real *)
  Definition cn_dist_mvn (c : carr) : sdist := SDist (ca_shape c) [] true (fun i => cn_as_mvn (ca_at c i)).
  (** complex_normal.py:118-137 mean, variance, pseudo_variance *)
  Definition cn_means (c : carr) : tensor cplx := tbuild (ca_shape c) (fun i => cast (ca_real c) (cn_mean (ca_at c i))).
  Definition cn_variances (c : carr) : tensor R := tbuild (ca_shape c) (fun i => cn_variance (ca_at c i)).
  Definition cn_pseudos (c : carr) : tensor cplx := tbuild (ca_shape c) (fun i => cast (ca_real c) (cn_pseudo (ca_at c i))).

  (** ** complex_multivariate_normal.py *)
  Record cmnormal := CMNormal { cm_size : nat; cm_mean : nat -> cplx; cm_variance : nat -> nat -> cplx; cm_pseudo : nat -> nat -> cplx }.
  Definition Ceqb (x y : cplx) : bool := if Req_EM_T (fst x) (fst y) then if Req_EM_T (snd x) (snd y) then true else false else false.
  Definition all2 (n : nat) (p : nat -> nat -> bool) : bool := forallb (fun a => forallb (p a) (seq 0 n)) (seq 0 n).
  (** all principal minors of the matrix are at least 0, which says of a Hermitian matrix that its eigenvalues are
      (np.linalg.eigvals(variance) >= 0); the bit k of s selects index k *)
  Definition selected (n s : nat) : list nat := filter (fun k => Nat.testbit s k) (seq 0 n).
  Definition psd_test (n : nat) (V : nat -> nat -> cplx) : bool :=
    forallb (fun s => let l := selected n s in if Rle_dec 0 (fst (cdet (length l) (fun a b => V (nth a l 0) (nth b l 0)))) then true else false) (seq 0 (2 ^ n)).
  Definition square_shape (n : nat) (s : shape) : bool := if list_eq_dec Nat.eq_dec s [n; n] then true else false.
  (** complex_multivariate_normal.py:16-43 ScipyComplexMultivariateNormalUnvectorized.__init__ *)
  Definition cm_init (m v u : tensor cplx) : result cmnormal :=
    match shp m with
    | [] => Err IndexErr
    | n :: r =>
        if negb (length r =? 0) then Err ValueError else
        if negb (square_shape n (shp v)) then Err ValueError else
        if negb (square_shape n (shp u)) then Err ValueError else
        let V a b := tget v [a; b] in let U a b := tget u [a; b] in
        if negb (psd_test n V && all2 n (fun a b => Ceqb (V a b) (Cconj (V b a)))) then Err ValueError else
        if negb (all2 n (fun a b => Ceqb (U a b) (U b a))) then Err ValueError else
        Ok (CMNormal n (fun k => tget m [k]) V U)
    end.
  (** complex_multivariate_normal.py:70-72 _multivariate_normal_mean *)
  Definition cm_mv_mean (o : cmnormal) (k : nat) : R := if k <? cm_size o then fst (cm_mean o k) else snd (cm_mean o (k - cm_size o)).
  (** complex_multivariate_normal.py:74-82 _multivariate_normal_cov *)
  Definition cm_mv_cov (o : cmnormal) (a b : nat) : R :=
    let n := cm_size o in
    let cov_sum i j := Cplus (cm_variance o i j) (cm_pseudo o i j) in
    let cov_diff i j := Cminus (cm_variance o i j) (cm_pseudo o i j) in
    let xx i j := (/ 2 * fst (cov_sum i j))%R in
    let xy i j := (/ 2 * - snd (cov_diff i j))%R in
    let yx i j := (/ 2 * snd (cov_sum i j))%R in
    let yy i j := (/ 2 * fst (cov_diff i j))%R in
    if a <? n then (if b <? n then xx a b else xy a (b - n)) else (if b <? n then yx (a - n) b else yy (a - n) (b - n)).
  (** complex_multivariate_normal.py:64-67 as_multivariate_normal *)
  Definition cm_as_mvn (o : cmnormal) : sobj := mvn_obj (2 * cm_size o) (cm_mv_mean o) (cm_mv_cov o).
  (** complex_multivariate_normal.py:45-62 pdf, rvs, entropy *)
  Definition cm_obj (o : cmnormal) : sobj :=
    let n := cm_size o in
    SObj (fun z => let k := last (shp z) 0 in
                   o_pdf (cm_as_mvn o) (tbuild (removelast (shp z) ++ [2 * k]) (fun i => let j := last i 0 in
                     RtoC (if j <? k then fst (tget z (removelast i ++ [j])) else snd (tget z (removelast i ++ [j - k]))))))
         (fun size g => let r := gen_mvn (2 * n) (cm_mv_mean o) (cm_mv_cov o) size g in
                        Ok (tbuild (removelast (shp (fst r)) ++ [n]) (fun i => let j := last i 0 in
                              (tget (fst r) (removelast i ++ [j]), tget (fst r) (removelast i ++ [n + j])) : cplx), snd r))
         (o_entropy (cm_as_mvn o)).
  (** complex_multivariate_normal.py:86-119 ScipyComplexMultivariateNormal.__init__ *)
  Record cmarr := CMArr { cma_shape : shape; cma_dims : nat; cma_real : bool; cma_objects : list cmnormal }.
  Definition eye (s : shape) (n : nat) : tensor cplx := tbuild (s ++ [n; n]) (fun i => RtoC (if last i 0 =? last (removelast i) 0 then 1 else 0)).
  Definition cm_array (mean variance pseudo : option narr) : result cmarr :=
    let drop2 (s : shape) := removelast (removelast s) in
    let* sn := match mean, variance, pseudo with
               | Some a, _, _ => if length (shp (na_val a)) =? 0 then Err IndexErr else Ok (removelast (shp (na_val a)), last (shp (na_val a)) 0)
               | None, Some a, _ | None, None, Some a => if length (shp (na_val a)) =? 0 then Err IndexErr else Ok (drop2 (shp (na_val a)), last (shp (na_val a)) 0)
               | None, None, None => Err ValueError end in
    let s := fst sn in let n := snd sn in
    let m := match mean with Some a => na_val a | None => tfull (s ++ [n]) (RtoC 0) end in
    let v := match variance with Some a => na_val a | None => eye s n end in
    let u := match pseudo with Some a => na_val a | None => tfull (s ++ [n; n]) (RtoC 0) end in
    let* os := mapM (fun i => let* mi := tindex m i in let* vi := tindex v i in let* ui := tindex u i in cm_init mi vi ui) (indices s) in
    Ok (CMArr s n (dtype_real [mean; variance; pseudo]) os).
  Definition cma_at (c : cmarr) (i : index) : cmnormal := nth (ravel (cma_shape c) i) (cma_objects c) (CMNormal 0 (fun _ => RtoC 0) (fun _ _ => RtoC 0) (fun _ _ => RtoC 0)).
  Definition cm_dist (c : cmarr) : sdist := SDist (cma_shape c) [cma_dims c] (cma_real c) (fun i => cm_obj (cma_at c i)).
  (** complex_multivariate_normal.py:121-125 as_multivariate_normal *)
  Definition cm_dist_mvn (c : cmarr) : sdist := SDist (cma_shape c) [cma_dims c] true (fun i => cm_as_mvn (cma_at c i)).

  (** ** dirichlet.py *)
  (** scipy.stats.dirichlet(alpha).pdf(x): the components are along the first axis, the last one may be left out; a component outside of
      (0, 1] (a component 0 is only legal for alpha >= 1: not modelled) or a sum further than 1e-9 from 1 is a ValueError *)
  Definition dirichlet_scipy (n : nat) (alpha : nat -> R) (x : tensor cplx) : result (tensor R) :=
    match shp x with
    | [] => Err ValueError
    | k :: s =>
        let at_ i j := fst (tget x (j :: i)) in
        let total i m := fold_right Rplus 0%R (map (at_ i) (seq 0 m)) in
        let comp i j := (if j <? k then at_ i j else 1 - total i k)%R in
        if negb ((k =? n) || (S k =? n)) then Err ValueError else
        if forallb (fun i => forallb (fun j => if Rlt_dec 0 (comp i j) then if Rle_dec (comp i j) 1 then true else false else false) (seq 0 n) &&
                             (if Rle_dec (Rabs (fold_right Rplus 0%R (map (comp i) (seq 0 n)) - 1)) (1 / 1000000000) then true else false)) (indices s)
        then Ok (tbuild s (fun i => dirichlet_pdf n alpha (comp i))) else Err ValueError
    end.
  (** dirichlet.py:18-39 ScipyDirichletFixRVsAndPDF: pdf transposes matrices; the draws are an arbitrary function of the state *)
  Definition dirichlet_obj (n : nat) (alpha : nat -> R) (draw : shape -> G -> tensor R * G) : sobj :=
    SObj (fun x => if length (shp x) =? 2 then dirichlet_scipy n alpha (tswap x) else dirichlet_scipy n alpha x)
         (fun size g => let r := draw size g in Ok (tmap RtoC (fst r), snd r))
         (Err RuntimeErr).
  (** dirichlet.py:44-52 ScipyDirichlet.__init__ *)
  Definition dirichlet_dist (alpha : tensor R) (draw : index -> shape -> G -> tensor R * G) : result sdist :=
    if length (shp alpha) =? 0 then Err IndexErr else
    let n := last (shp alpha) 0 in
    Ok (SDist (removelast (shp alpha)) [n] true (fun i => dirichlet_obj n (fun k => tget alpha (i ++ [k])) (draw i))).
  (** dirichlet.py:54-60 ScipyDirichlet.pdf *)
  Definition dirichlet_dist_pdf (d : sdist) (x : tensor cplx) : result (tensor R) :=
    let n := last (shp x) 0 in
    if forallb (fun i => if Rle_dec (Rabs (fold_right Rplus 0%R (map (fun k => fst (tget x (i ++ [k]))) (seq 0 n)) - 1)) (1 / 100000) then true else false) (indices (removelast (shp x)))
    then sd_pdf d x else Err ValueError.
  (** dirichlet.py:73-79 ScipyGeneralizedDirichlet.pdf for vectors alpha, beta and x of length n: np.roll, np.diff(append=1), np.cumsum *)
  Definition gd_pdf (n : nat) (alpha beta x : nat -> R) : R :=
    let alpha_roll k := (if S k =? n then 0 else alpha (S k mod n))%R in
    let gamma k := (- ((if S k =? n then 1 else beta (S k)) - beta k) - alpha_roll k)%R in
    let cs k := fold_right Rplus 0%R (map x (seq 0 (S k))) in
    let term k := (Rpower (x k) (alpha k - 1) * Rpower (1 - cs k) (gamma k) / BetaF (alpha k) (beta k))%R in
    fold_right Rmult 1%R (map term (seq 0 n)).
  (** dirichlet.py:81-93 ScipyGeneralizedDirichlet.rvs, the loop on one vector of beta samples *)
  Fixpoint gd_sticks (l : list R) (q : R) : list R := match l with [] => [] | s :: l' => let s' := (s * (1 - q))%R in s' :: gd_sticks l' (q + s')%R end.
End Shaped.
Arguments sobj : clear implicits.
Arguments sdist : clear implicits.
Arguments sjobj : clear implicits.
