(** * ModelTrace: copt/constraint.py TraceBall and copt/penalty.py TraceNorm.

    The singular value decompositions (scipy.linalg.svd, svdvals, and
    scipy.sparse.linalg.svds with k=1) are parameters: arbitrary functions of the
    matrix.  Matrices are lists of rows; flat arrays are row-major, as in numpy. *)
From Coq Require Import ZArith List Bool Arith.
From Verif Require Import Num Vec ModelConstraint ModelPenalty.
Import ListNotations.

Section TRACE.
Context {K : Num}.
Local Open Scope num_scope.

(** [x.reshape((m, n))]: ValueError when the sizes disagree. *)
Fixpoint rows_of (m n : nat) (x : vec K) : list (vec K) :=
  match m with
  | O => []
  | S m' => firstn n x :: rows_of m' n (skipn n x)
  end.
Definition reshape (m n : nat) (x : vec K) : result (list (vec K)) :=
  if Nat.eqb (length x) (m * n) then Ok (rows_of m n x) else Err ValueError.

(** [A.dot(B)] for [B] with [n] columns. *)
Definition matmul (n : nat) (A B : list (vec K)) : list (vec K) :=
  map (fun r => map (fun j => vdot r (map (fun b => nth j b n0) B)) (seq 0 n)) A.

(** [(U * s).dot(Vt).ravel()] (constraint.py:301, penalty.py:266): [U * s] scales
    column [k] of [U] by [s[k]]. *)
Definition recompose (n : nat) (U : list (vec K)) (s : vec K) (Vt : list (vec K)) : vec K :=
  concat (matmul n (map (fun r => vmul r s) U) Vt).

Definition svd_fun : Type := list (vec K) -> list (vec K) * vec K * list (vec K).

(** copt/constraint.py:297-301  TraceBall.prox *)
Definition trace_ball_prox (svd : svd_fun) (alpha : K) (m n : nat) (x : vec K) : result (vec K) :=
  X <- reshape m n x ;;
  let '(U, s, Vt) := svd X in
  t <- proj_l1ball s alpha ;;
  Ok (recompose n U t Vt).

(** copt/constraint.py:290-295  TraceBall.__call__ ([true] = 0, [false] = inf);
    np.finfo(np.float32).eps is 2^-23. *)
Definition trace_ball_call (svdvals : list (vec K) -> vec K) (alpha : K) (m n : nat) (x : vec K) : result bool :=
  X <- reshape m n x ;;
  Ok (vsum (svdvals X) <=? alpha + nlit 1 8388608).

(** copt/constraint.py:306-326  TraceBall.lmo.  [svds] returns the left and right
    vectors of the leading pair; scipy raises ValueError unless k=1 < min(m, n).
    [np.outer] flattens its arguments. *)
Definition outer_flat (a b : vec K) : vec K := concat (map (fun x => map (fun y => x * y) b) a).
Definition trace_ball_lmo (svds : list (vec K) -> vec K * vec K) (alpha : K) (m n : nat) (u x : vec K)
  : result (lmo_out K) :=
  M <- reshape m n u ;;
  if Nat.leb (Nat.min m n) 1 then Err ValueError else
  let '(a, b) := svds M in
  let vertex := vscale alpha (outer_flat a b) in
  if negb (Nat.eqb (length x) (length vertex)) then Err ValueError else
  Ok (mkLmo (vsub vertex x) None None n1).

(** copt/penalty.py:256-258  TraceNorm.__call__ *)
Definition trace_norm_call (svdvals : list (vec K) -> vec K) (alpha : K) (m n : nat) (x : vec K) : result K :=
  X <- reshape m n x ;;
  Ok (alpha * vsum (svdvals X)).

(** copt/penalty.py:260-266  TraceNorm.prox *)
Definition trace_norm_prox (svd : svd_fun) (alpha : K) (m n : nat) (x : vec K) (step : K) : result (vec K) :=
  X <- reshape m n x ;;
  let '(U, s, Vt) := svd X in
  Ok (recompose n U (map (soft_thr (alpha * step)) s) Vt).

End TRACE.
