(** efax/_src/tools.py and Distribution.__getitem__ (efax/_src/parametrization.py) *)
From Coq Require Import String List Bool Arith Reals.
From Verif Require Import Base XReal Tensor Support Dist Iteration Structure.
Import ListNotations.
Set Implicit Arguments.

(** x * y with broadcasting and real/complex promotion *)
Definition arr_mul (x y : arr) : result arr :=
  match x, y with
  | RA a, RA b => rmap RA (tmap2 xmul a b)
  | _, _ => rmap CA (tmap2 cmul (as_complex x) (as_complex y))
  end.

(** tools.py:83-86 _parameter_dot_product: jnp.sum(x * y, axis=range(-n_axes, 0)).real *)
Definition dot1 (x y : arr) (n_axes : nat) : result (tensor xr) :=
  let* p := arr_mul x y in
  if length (ashape p) <? n_axes then Err ValueError else
  match p with
  | RA t => Ok (tfold_axes xsum n_axes t)
  | CA t => Ok (tmap xre (tfold_axes csum n_axes t))
  end.

(** tools.py:19-29 parameter_dot_product *)
Definition parameter_dot_product (x y : dist) : result (tensor xr) :=
  let* xs := parameters_s x (Some false) in
  let* ys := parameters_s y (Some false) in
  let* z := zip_strict (values xs) (values ys) in
  let* terms := mapM (fun p : (arr * support) * (arr * support) =>
                        let axes := supp_axes (snd (fst p)) in
                        if supp_axes (snd (snd p)) =? axes
                        then dot1 (fst (fst p)) (fst (snd p)) axes
                        else Err AssertionError) z in
  reduceM (tmap2 xadd) terms.

(** zip(iterators..., strict=True) of at least one iterator *)
Fixpoint zipn {A} (l : list A) (ls : list (list A)) : result (list (list A)) :=
  match ls with
  | [] => Ok (map (fun a => [a]) l)
  | l' :: ls' =>
      let* z := zipn l' ls' in
      let* w := zip_strict l z in
      Ok (map (fun p => fst p :: snd p) w)
  end.

(** tools.py:43-56 parameter_map *)
Definition parameter_map (op : list arr -> result arr) (x : dist) (ys : list dist) : result dist :=
  let* px := parameters x (Some false) in
  let* pys := mapM (fun y => parameters y (Some false)) ys in
  let* rows := zipn (values px) (map values pys) in
  let* final_values := mapM op rows in
  let* operated := zip_strict (keys px) final_values in
  let* fixed := parameters x (Some true) in
  let* infos := create x in
  assemble infos (dupdate fixed (dict_of operated)).

(** jnp.mean(value, axis=k): k-th axis, counted from the front *)
Definition tmean_axis (k : nat) (t : tensor xr) : result (tensor xr) :=
  if rank t <=? k then Err ValueError else
  let n := nth k (shp t) 0 in
  Ok (tbuild (firstn k (shp t) ++ skipn (S k) (shp t))
        (fun i => xdiv (xsum (map (fun j => tget t (firstn k i ++ j :: skipn k i)) (seq 0 n)))
                       (Fin (INR n)))).
Definition cmean_axis (k : nat) (t : tensor xc) : result (tensor xc) :=
  if rank t <=? k then Err ValueError else
  let n := nth k (shp t) 0 in
  Ok (tbuild (firstn k (shp t) ++ skipn (S k) (shp t))
        (fun i => cdivr (csum (map (fun j => tget t (firstn k i ++ j :: skipn k i)) (seq 0 n)))
                        (Fin (INR n)))).
Definition arr_mean (k : nat) (a : arr) : result arr :=
  match a with RA t => rmap RA (tmean_axis k t) | CA t => rmap CA (cmean_axis k t) end.
(** tools.py:35-40 parameter_mean, for a single non-negative axis *)
Definition parameter_mean (x : dist) (axis : nat) : result dist :=
  let* infos := create x in
  let* p := parameters x None in
  let* q := mapM (fun kv : path * arr => let* v := arr_mean axis (snd kv) in Ok (fst kv, v)) p in
  assemble infos (dict_of q).

(** tools.py:63-75 join_mappings: retval[key][field_name] = value *)
Section Join.
  Context {K V : Type} `{EqDec K}.
  Definition join_step (retval : dict K (dict string V)) (n : string) (kv : K * V) : dict K (dict string V) :=
    let inner := match dget retval (fst kv) with Some d => d | None => [] end in
    dset retval (fst kv) (dset inner n (snd kv)).
  Definition join_mappings (field_to_map : dict string (dict K V)) : dict K (dict string V) :=
    fold_left (fun r nm => fold_left (fun r kv => join_step r (fst nm) kv) (snd nm) r) field_to_map [].
End Join.

(** value[key] for a tuple of non-negative integers; an out-of-range index is an IndexError
    (simplification: jax clamps or raises depending on the mode) *)
Definition arr_getitem (key : list nat) (a : arr) : result arr :=
  if inb (firstn (length key) (ashape a)) key
  then Ok (match a with RA t => RA (tsub t key) | CA t => CA (tsub t key) end)
  else Err IndexErr.
(** parametrization.py:17-21 *)
Definition getitem (d : dist) (key : list nat) : result dist :=
  let* p := parameters d None in
  let* q := mapM (fun kv : path * arr => let* v := arr_getitem key (snd kv) in Ok (fst kv, v)) p in
  let* infos := create d in
  assemble infos (dict_of q).
