(** Category probabilities: BernoulliNP and MultinomialNP.nat_to_probability, nat_to_surprisal. *)
From Coq Require Import String List Bool Arith Reals.
From Verif Require Import Base XReal Tensor Support Dist Iteration Structure Tools Joint SpecFun Expr Fam.
Import ListNotations.
Local Open Scope string_scope.
Local Open Scope nat_scope.
Local Open Scope ae_scope.

Definition probability_e (f : family) : option (aexp KR) :=
  match f with
  | Bernoulli =>                                                                    (* bernoulli.py:63-66 *)
      let p := r1 xexpit (self "log_odds") in
      let final_p := #1 - p in
      Some (jstack p final_p)
  | Multinomial =>                                                                  (* multinomial.py:81-87 *)
      let p := jexp (q_minus_max_q - ENewaxis log_scaled_a) in
      let final_p := #1 - jsum_keep p in
      Some (jappend p final_p)
  | _ => None
  end.
Definition nat_to_probability (d : dist) : result (tensor xr) :=
  match dcls d with
  | NP f => match probability_e f with Some e => eval (dparams d) e | None => Err AttributeErr end
  | _ => Err AttributeErr
  end.
(** bernoulli.py:68-70, multinomial.py:89-91 *)
Definition nat_to_surprisal (d : dist) : result (tensor xr) :=
  match dcls d with
  | NP f => match probability_e f with Some e => eval (dparams d) (- jlog e) | None => Err AttributeErr end
  | _ => Err AttributeErr
  end.
