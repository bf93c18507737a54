(** Random generation of parameters: efax/_src/parameter.py generate methods, structure.py generate_random.
    The numpy Generator is an oracle: the k-th call returns whatever array the oracle holds for call k. *)
From Coq Require Import String List Arith Bool Reals ZArith.
From Verif Require Import Base XReal Tensor Support Dist Iteration Structure.
Import ListNotations.
Set Implicit Arguments.

(** numpy.random.Generator: exponential(size), uniform(size), normal(scale=1, size), binomial(1, 0.5, size) *)
Record rng := Rng {
  r_exponential : nat -> shape -> tensor xr;
  r_uniform : nat -> shape -> tensor xr;
  r_normal : nat -> shape -> tensor xr;
  r_binomial : nat -> shape -> tensor xr }.

Section Gen.
  Variable g : rng.
  (** parameter.py:91-103 RealField.generate (k: number of the next generator call; the result carries the new k) *)
  Definition real_generate (mn mx : option R) (scale : R) (k : nat) (s : shape) : nat * tensor xr :=
    match mn, mx with
    | None, Some M => (S k, tmap (fun e => xsub (Fin M) (xmul e (Fin scale))) (r_exponential g k s))
    | Some m, None => (S k, tmap (fun e => xadd (xmul e (Fin scale)) (Fin m)) (r_exponential g k s))
    | Some m, Some M => (S k, tmap (fun u => xadd (Fin m) (xmul (Fin (M - m)) u)) (r_uniform g k s))
    | None, None => (S k, tmap (fun z => xmul z (Fin scale)) (r_normal g k s))
    end.
  (** Ring.generate: parameter.py:91-103, 166-167 (ComplexField), 184-185 (BooleanRing), 206-210 (IntegralRing) *)
  Definition ring_generate (r : ring) (k : nat) (s : shape) : result (nat * arr) :=
    match r with
    | RealF mn mx scale => let '(k', t) := real_generate mn mx scale k s in Ok (k', RA t)
    | ComplexF mn mx =>
        let* z := tmap2 XC (r_normal g k s) (r_normal g (S k) s) in
        let* c := complex_from_plane mn mx z in Ok (S (S k), CA c)
    | BoolR => Ok (S k, RA (tmap xbool (r_binomial g k s)))
    | IntR mn mx =>
        match mk_real_field (option_map IZR mn) (option_map IZR mx) 1 true true with
        | RealF a b sc => let '(k', t) := real_generate a b sc k s in Ok (k', RA (tmap (fun v => xtrunc (xmul v (Fin 10))) t))
        | _ => Err TypeError
        end
    end.
  (** jnp.einsum('...ij,...j,...jk->...ik', m, eig, mt), batch shape b, n dimensions, over a commutative ring of scalars *)
  Definition einsum_diag {A} {DA : Dflt A} (add mul : A -> A -> A) (zero : A) (b : shape) (n : nat) (m e mt : tensor A) : tensor A :=
    tbuild (b ++ [n; n]) (fun i =>
      let k := last i 0 in let i' := removelast i in let j := last i' 0 in let bi := removelast i' in
      fold_right add zero (map (fun l => mul (mul (tget m (bi ++ [j; l])) (tget e (bi ++ [l]))) (tget mt (bi ++ [l; k]))) (seq 0 n))).
  (** parameter.py:399-412 SymmetricMatrixSupport.generate *)
  Definition sym_generate (r : ring) (hermitian psd nsd : bool) (k : nat) (s : shape) (d : nat) : result (nat * arr) :=
    let* (k1, m) := ring_generate r k (s ++ [d; d]) in
    if psd || nsd then
      match r with
      | RealF _ _ _ | ComplexF _ _ =>
          (* RealField(minimum=0.0) if positive_semidefinite else RealField(maximum=0.0) *)
          let '(k2, eig) := if psd then real_generate (Some (adj_min 0)) None 1 k1 (s ++ [d])
                            else real_generate None (Some (adj_max 0)) 1 k1 (s ++ [d]) in
          match m with
          | RA t => Ok (k2, RA (einsum_diag xadd xmul (Fin 0) s d t eig (tswap t)))
          | CA t => Ok (k2, CA (einsum_diag cadd cmul (XC (Fin 0) (Fin 0)) s d t (tmap cofr eig) (if hermitian then tmap cconj (tswap t) else tswap t)))
          end
      | _ => Err AssertionError
      end
    else
      match m with
      | RA t => let* x := tmap2 xadd t (tswap t) in Ok (k1, RA x)
      | CA t => let* x := tmap2 cadd t (if hermitian then tmap cconj (tswap t) else tswap t) in Ok (k1, CA x)
      end.
  (** Support.generate: parameter.py:279-280, 307-308 (and CircularBoundedSupport, inherited), 342-343, 399-412;
      SquareMatrixSupport does not define it *)
  Definition supp_generate (s : support) (k : nat) (b : shape) (d : nat) : result (nat * arr) :=
    match s with
    | ScalarS r => ring_generate r k b
    | VectorS r => ring_generate r k (b ++ [d])
    | CircS _ => ring_generate real_field k (b ++ [d])
    | SimplexS _ | SquareS _ => Err NotImplementedErr
    | SymS r h p n => sym_generate r h p n k b d
    end.
  (** structure.py:103-112 generate_random *)
  Definition generate_info (b : shape) (st : nat * dict path arr) (i : info) : result (nat * dict path arr) :=
    let* (k, vals, _) :=
      foldM (fun (st : nat * dict path arr * dict string arr) name =>
               let '(k, vals, kwargs) := st in
               let* s := adjust_support (i_type i) name kwargs in
               let* (k', v) := supp_generate s k b (i_dims i) in
               Ok (k', dset vals (i_path i ++ [name]) v, dset kwargs name v))
            (fst st, snd st, []) (keys (class_support (i_type i) None)) in
    Ok (k, vals).
  Definition generate_random (infos : list info) (k : nat) (b : shape) : result dist :=
    let* (_, vals) := foldM (generate_info b) (k, []) infos in
    assemble infos vals.
End Gen.
