(** efax/_src/structure.py *)
From Coq Require Import String List Bool Arith.
From Verif Require Import Base XReal Tensor Support Dist Iteration.
Import ListNotations.
Set Implicit Arguments.

(** structure.py:20-26 *)
Record info := Info { i_path : path; i_type : cls; i_dims : nat; i_subs : list string }.

(** structure.py:118-128: post-order traversal *)
Fixpoint walk {T} (f : dist -> path -> result T) (q : dist) (base : path) : result (list T) :=
  let '(Dist c m ps subs) := q in
  let* rest :=
    (fix go (l : list (string * dist)) :=
       match l with
       | [] => Ok []
       | (n, s) :: l' =>
           let* a := walk f s (base ++ [n]) in
           let* b := go l' in Ok (a ++ b)
       end) subs in
  let* x := f q base in
  Ok (rest ++ [x]).

(** structure.py:130-135 *)
Definition make_info (q : dist) (p : path) : result info :=
  let* d := dims_of q in
  Ok (Info p (dcls q) d (map fst (sub_distributions q))).

(** structure.py:49-51, 114-116 *)
Definition create (p : dist) : result (list info) := walk make_info p [].

(** structure.py:53-60 *)
Definition struct_to_nat (infos : list info) : result (list info) :=
  mapM (fun i => if is_exp (i_type i)
                 then Ok (Info (i_path i) (nat_cls (i_type i)) (i_dims i) (i_subs i))
                 else Err AssertionError) infos.
(** structure.py:62-70 *)
Definition struct_to_exp (infos : list info) : result (list info) :=
  mapM (fun i => if is_nat (i_type i)
                 then Ok (Info (i_path i) (exp_cls (i_type i)) (i_dims i) (i_subs i))
                 else Err AssertionError) infos.

(** the values of [constructed] in assemble: arrays and finished distributions *)
Inductive cval := VArr (a : arr) | VDist (d : dist).
Definition as_arr (v : cval) : result arr := match v with VArr a => Ok a | VDist _ => Err TypeError end.
Definition as_dist (v : cval) : result dist := match v with VDist d => Ok d | VArr _ => Err TypeError end.

(** structure.py:75-83, one iteration of the loop.  (A name resolving to a value of the wrong kind
    is a type error here; in Python it would be stored in the object unchecked.) *)
Definition assemble_step (constructed : dict path cval) (i : info) : result (dict path cval) :=
  let* kwargs := mapM (fun n => let* v := dindex constructed (i_path i ++ [n]) in
                                let* a := as_arr v in Ok (n, a))
                      (keys (class_support (i_type i) None)) in
  let* subs := mapM (fun n => let* v := dindex constructed (i_path i ++ [n]) in
                              let* d := as_dist v in Ok (n, d)) (i_subs i) in
  let* d := construct (i_type i) (dict_of kwargs)
                      (match subs with [] => None | _ => Some (dict_of subs) end) in
  Ok (dset constructed (i_path i) (VDist d)).
(** structure.py:72-86 *)
Definition assemble (infos : list info) (p : dict path arr) : result dist :=
  let* constructed := foldM assemble_step (map (fun kv => (fst kv, VArr (snd kv))) p) infos in
  let* r := dindex constructed [] in
  match r with VDist d => Ok d | VArr _ => Err AssertionError end.

(** structure.py:88-95 *)
Definition reinterpret (infos : list info) (q : dist) : result dist :=
  let p_paths := flat_map (fun i => map (fun n => i_path i ++ [n]) (keys (class_support (i_type i) None))) infos in
  let* q_values := parameters q None in
  let* z := zip_strict p_paths (values q_values) in
  assemble infos (dict_of z).

(** structure.py:97-101 *)
Definition struct_domain_support (infos : list info) : dict path support :=
  dict_of (flat_map (fun i => match domain_support (i_type i) with
                              | Some s => [(i_path i, s)] | None => [] end) infos).

(** ** Flattener (structure.py:218-323) *)
Record flattener := Flattener { f_infos : list info; f_fixed : dict path arr; f_mapped : bool }.

(** structure.py:314-323 _make_flat *)
Definition make_flat (map_to_plane : bool) (q : dist) (_ : path) : result (list (tensor xr)) :=
  let* own := own_params (Some false) (dcls q) (dparams q) in
  let* r := foldM (fun (st : dict string arr * list (tensor xr)) nv =>
                     let '(kwargs, retval) := st in
                     let name := fst nv in let value := fst (snd nv) in
                     let* s := adjust_support (dcls q) name kwargs in
                     let kwargs := dset kwargs name value in
                     let* fl := supp_flattened s map_to_plane value in
                     Ok (kwargs, retval ++ [fl]))
                  ([], []) own in
  Ok (snd r).

(** structure.py:268-290 flatten *)
Definition flatten (p : dist) (map_to_plane : bool) : result (flattener * tensor xr) :=
  let* xss := walk (make_flat map_to_plane) p [] in
  let* flattened_array := reduceM (@tappend xr _) (concat xss) in
  let* infos := create p in
  let* fixed := parameters p (Some true) in
  Ok (Flattener infos fixed map_to_plane, flattened_array).

(** structure.py:245-255: the variable parameters of one info *)
Definition unflatten_params (mapped : bool) (flattened : tensor xr) (available : nat) (i : info)
    (consumed : nat) : result (nat * dict string arr) :=
  foldM (fun (st : nat * dict string arr) name =>
           let '(consumed, kwargs) := st in
           let* s := adjust_support (i_type i) name kwargs in
           let k := supp_num_elements s (i_dims i) in
           if available <? consumed + k then Err ValueError else
           let* v := supp_unflattened s (tslice consumed (consumed + k) flattened) (i_dims i) mapped in
           Ok (consumed + k, dset kwargs name v))
        (consumed, []) (keys (class_support (i_type i) (Some false))).

(** structure.py:243-263: one iteration of the loop *)
Definition unflatten_step (f : flattener) (flattened : tensor xr) (available : nat)
    (st : nat * dict path dist) (i : info) : result (nat * dict path dist) :=
  let '(consumed, constructed) := st in
  let* (consumed', regular) := unflatten_params (f_mapped f) flattened available i consumed in
  let* kwargs := foldM (fun kw name => let* v := dindex (f_fixed f) (i_path i ++ [name]) in
                                       Ok (dset kw name v))
                       regular (keys (class_support (i_type i) (Some true))) in
  let* subs := mapM (fun n => let* d := dindex constructed (i_path i ++ [n]) in Ok (n, d)) (i_subs i) in
  let* d := construct (i_type i) kwargs (match subs with [] => None | _ => Some (dict_of subs) end) in
  Ok (consumed', dset constructed (i_path i) d).

(** structure.py:234-266 unflatten *)
Definition unflatten (f : flattener) (flattened : tensor xr) : result dist :=
  let* available := opt_err IndexErr (last_dim (shp flattened)) in
  let* (consumed, constructed) := foldM (unflatten_step f flattened available) (0, []) (f_infos f) in
  if negb (consumed =? available) then Err ValueError else dindex constructed [].

(** structure.py:292-312 create_flattener *)
Definition create_flattener (p : dist) (q_cls : cls) (mapped_to_plane : bool) : result flattener :=
  match sub_distributions p with
  | _ :: _ => Err ValueError
  | [] =>
      let* i := make_info p [] in
      let* fixed := parameters p (Some true) in
      Ok (Flattener [Info (i_path i) q_cls (i_dims i) (i_subs i)] fixed mapped_to_plane)
  end.
