(** Model of the scipy replacements that wrap a real scipy distribution: multivariate_normal.py, von_mises.py and geometric.py.

    Simplifications: as in Scipy.v.  scipy.stats.multivariate_normal, vonmises, vonmises_fisher and geom are given by their documented
    densities and argument checks (np.allclose as equality). *)
From Coq Require Import List Bool Arith ZArith Reals.
From Coquelicot Require Import Complex.
From Verif Require Import Base Tensor SpecFun TextSpec PointSpec Scipy.
Import ListNotations.
Local Open Scope nat_scope.
Local Existing Instance Scipy.Dflt_C.
Local Existing Instance Scipy.Dflt_R.

Section Mv.
  Context {G : Type} (gen_mvn : @gen_mvn_t G).
  (** scipy.stats.multivariate_normal(mean, cov): a number or a vector cov is a multiple of the unit matrix or the diagonal *)
  Definition cov_of (n : nat) (t : tensor R) : result (nat -> nat -> R) :=
    match shp t with
    | [] => Ok (fun a b => if a =? b then tget t [] else 0%R)
    | [k] => if k =? n then Ok (fun a b => if a =? b then tget t [a] else 0%R) else Err ValueError
    | [k; l] => if (k =? n) && (l =? n) then Ok (fun a b => tget t [a; b]) else Err ValueError
    | _ => Err ValueError
    end.
  (** multivariate_normal.py:39-59 ScipyMultivariateNormal.from_mc *)
  Definition mc_dist (mean cov : option (tensor R)) : result (sdist G) :=
    let m := match mean, cov with
             | Some m, _ => m
             | None, None => tfull [1] 0%R
             | None, Some c => tfull (removelast (shp c)) 0%R
             end in
    if length (shp m) =? 0 then Err IndexErr else
    let b := removelast (shp m) in
    let n := last (shp m) 0 in
    let c := match cov with Some c => c | None => tbuild (b ++ [n; n]) (fun i => if last (removelast i) 0 =? last i 0 then 1%R else 0%R) end in
    let cov_at i := let* ci := tindex c i in cov_of n ci in
    let* _ := mapM (fun i => let* Sg := cov_at i in if pd_test n Sg then Ok tt else Err ValueError) (indices b) in
    Ok (SDist b [n] true (fun i => mvn_obj gen_mvn n (fun k => tget m (i ++ [k])) (match cov_at i with Ok Sg => Sg | Err _ => fun _ _ => 0%R end))).
End Mv.

Section Vm.
  Context {G : Type}.
  (** scipy.stats.vonmises(kappa, loc).pdf; an error stands for nan, the value for kappa <= 0; draws are an arbitrary function of the state *)
  Definition vonmises_pdf (kappa loc x : R) : R := (exp (kappa * cos (x - loc)) / (2 * PI * bessel_i 0 kappa))%R.
  Definition vm_obj (kappa loc : R) (draw : shape -> G -> tensor R * G) : sobj G :=
    SObj (fun x => if Rlt_dec 0 kappa then Ok (tbuild (shp x) (fun j => vonmises_pdf kappa loc (fst (tget x j)))) else Err RuntimeErr)
         (fun size g => let r := draw size g in Ok (tmap RtoC (fst r), snd r)) (Err RuntimeErr).
  (** von_mises.py:14-27 ScipyVonMises.__init__ *)
  Definition vm_dist (kappa : tensor R) (loc : option (tensor R)) (draw : index -> shape -> G -> tensor R * G) : result (sdist G) :=
    let l := match loc with Some l => l | None => tfull (shp kappa) 0%R end in
    match bshape (shp kappa) (shp l) with
    | None => Err ValueError
    | Some s => let* k' := tbroadcast_to s kappa in let* l' := tbroadcast_to s l in
                Ok (SDist s [] true (fun i => vm_obj (tget k' i) (tget l' i) (draw i)))
    end.
  (** scipy.stats.vonmises_fisher(mu, kappa).pdf; mu and the observations are unit vectors *)
  Definition vmf_obj (n : nat) (mu : nat -> R) (kappa : R) (draw : shape -> G -> tensor R * G) : sobj G :=
    SObj (fun x => if negb (last (shp x) 0 =? n) then Err ValueError else
                   if forallb (fun i => if Req_EM_T (sumR n (fun k => fst (tget x (i ++ [k])) * fst (tget x (i ++ [k])))%R) 1 then true else false) (indices (removelast (shp x)))
                   then Ok (tbuild (removelast (shp x)) (fun i => von_mises_fisher_pdf n kappa mu (fun k => fst (tget x (i ++ [k]))))) else Err ValueError)
         (fun size g => let r := draw size g in Ok (tmap RtoC (fst r), snd r)) (Err RuntimeErr).
  (** von_mises.py:33-44 ScipyVonMisesFisher.__init__; scipy.stats.vonmises_fisher wants dimension 2 or more, a unit vector and kappa > 0 *)
  Definition vmf_dist (mu kappa : tensor R) (draw : index -> shape -> G -> tensor R * G) : result (sdist G) :=
    if negb (if list_eq_dec Nat.eq_dec (removelast (shp mu)) (shp kappa) then true else false) then Err AssertionError else
    if length (shp mu) =? 0 then Err IndexErr else
    let n := last (shp mu) 0 in
    let* _ := mapM (fun i => if (2 <=? n) && (if Req_EM_T (sumR n (fun k => tget mu (i ++ [k]) * tget mu (i ++ [k]))%R) 1 then true else false) && (if Rlt_dec 0 (tget kappa i) then true else false)
                             then Ok tt else Err ValueError) (indices (shp kappa)) in
    Ok (SDist (shp kappa) [n] true (fun i => vmf_obj n (fun k => tget mu (i ++ [k])) (tget kappa i) (draw i))).
End Vm.

(** geometric.py:13-20 ScipyGeometric.pmf: scipy.stats.geom counts trials, beginning with 1; an error stands for nan, the value for p outside of (0, 1] *)
Definition trials (z : R) : option nat := let k := Z.to_nat (Int_part z - 1) in if Req_EM_T z (INR (S k)) then Some k else None.
Definition geom_pmf (p z : R) : R := match trials z with Some k => p * (1 - p) ^ k | None => 0 end.
Definition scipy_geometric_pmf (p z : tensor R) : result (tensor R) :=
  if forallb (fun q => if Rlt_dec 0 q then if Rle_dec q 1 then true else false else false) (dat p) then tmap2 geom_pmf p z else Err RuntimeErr.
