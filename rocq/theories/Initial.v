(** Model of initial_search_parameters and of the bisection that starts there (mixins/exp_to_nat). *)
From Coq Require Import String List Bool Arith Reals.
From Verif Require Import Base XReal Tensor Support Dist Iteration Structure Expr Fam Bisect.
Import ListNotations.
Local Open Scope string_scope.
Local Open Scope ae_scope.

(** jnp.where(mu == 1.0, jnp.inf, y) *)
Definition inf_at_one (mu y : xr) : xr := if xeqb mu (Fin 1) then PInf else y.
(** the overrides of initial_search_parameters *)
Definition initial_search_e (f : family) : option (aexp KR) :=
  match f with
  | Gamma =>                                                                        (* gamma.py:136-142 *)
      let log_mean_minus_mean_log := jlog (self "mean") - self "mean_log" in
      let initial_shape := (#3 - log_mean_minus_mean_log + jsqrt (jsquare (log_mean_minus_mean_log - #3) + #24 * log_mean_minus_mean_log)) / (#12 * log_mean_minus_mean_log) in
      Some (ENewaxis (r1 xinv_softplus initial_shape))
  | VonMisesFisher =>                                                               (* von_mises.py:120-126; mu ** 3 is the product *)
      let mu := jnorm (self "mean") in
      let initial_kappa := r2 inf_at_one mu ((mu * EDim "mean" - mu * (mu * mu)) / (#1 - jsquare mu)) in
      Some (ENewaxis (r1 xinv_softplus initial_kappa))
  | _ => None
  end.
(** initial_search_parameters: exp_to_nat.py:61-67 (zeros of the shape of the flattened parameters) and the overrides *)
Definition initial_search_parameters (d : dist) (f : family) : result (tensor xr) :=
  match initial_search_e f with
  | Some e => eval (dparams d) e
  | None => let* (_, flattened) := flatten d true in Ok (tbuild (shp flattened) (fun _ => Fin 0))
  end.
(** default_bisection_minimizer.solve (optimistix.py:25-49, 57-61) with k doublings and n halvings: not finite when the first interval is not *)
Definition default_bisection (k n : nat) : minimizer -> dist -> nat -> xr := fun _ e _ =>
  match dcls e with
  | EP f => match initial_search_parameters e f with
            | Ok t => match tget t [0%nat] with
                      | Fin start => let (lo, hi) := bis_interval (bis_fun f e) start k n in Fin ((lo + hi) / 2)%R
                      | x => x
                      end
            | Err _ => NaN
            end
  | _ => NaN
  end.
