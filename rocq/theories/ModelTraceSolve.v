(** * TraceBall and TraceNorm as arguments of the solvers *)
From Coq Require Import List Arith.
From Verif Require Import Num Vec ModelPenalty ModelTrace ModelConstraint ModelFrankWolfe.
Import ListNotations.

(** TraceBall(alpha, (m, n)).lmo as minimize_frank_wolfe calls it: copt/constraint.py:306
    lmo(u, x, active_set=None), copt/frank_wolfe.py:252 *)
Definition trace_oracle {K : Num} (svds : list (vec K) -> vec K * vec K) (alpha : K) (m n : nat) : lmo_fun K :=
  Lmo3 (fun u x _ => trace_ball_lmo svds alpha m n u x).

(** A prox that may raise, as an argument of minimize_proximal_gradient, whose model takes total
    functions (copt/proximal_gradient.py:121,139).  The theorems use it only on inputs where the prox
    returns; [x] is a placeholder for the others. *)
Definition or_self {K : Num} (prox : vec K -> K -> result (vec K)) (x : vec K) (s : K) : vec K :=
  match prox x s with Ok p => p | Err _ => x end.
(** TraceBall.prox(x, step_size) ignores its second argument (copt/constraint.py:297) *)
Definition trace_ball_prox2 {K : Num} (svd : svd_fun (K := K)) (alpha : K) (m n : nat) (x : vec K) (step : K) : result (vec K) :=
  trace_ball_prox svd alpha m n x.
