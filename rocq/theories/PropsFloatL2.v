(** * C129: L2Ball.prox in float64 *)
From Coq Require Import ZArith Reals List.
From Coq Require Import Floats.SpecFloat.
From Verif Require Import Num Vec Spec ModelConstraint FloatBase FloatL2 FloatL2Runs.
Import ListNotations.
Local Open Scope R_scope.

(** copt/constraint.py:54 squares the entries before it sums them.  Refuted: for x = [2^600] and radius 1 the
    result is 0 and not 1; for x = [2^-560] and radius 2^-700 the point is returned unchanged. *)
Theorem C129_refuted : 
  (exists x : F64, fin x /\ l2_prox n1 [x] = [@n0 F64] /\ is_projection (l2_ball 1) [fv x] [1]) /\
  (exists alpha x : F64, fin alpha /\ fin x /\ l2_prox alpha [x] = [x] /\ is_projection (l2_ball (fv alpha)) [fv x] [fv alpha] /\ fv alpha < fv x * powerRZ 2 (-100)).
Proof. exact main_C129_refuted. Qed.
Print Assumptions C129_refuted.

(** every x with an entry of at least 2^512 is sent to zeros and nans *)
Theorem C129_overflow_partial : forall (alpha : F64) (x : list F64) j,
  fin alpha -> Forall fin x -> powerRZ 2 512 <= Rabs (fv (nth j x n0)) ->
  forall i, (i < length x)%nat ->
    nth i (l2_prox alpha x) n0 = S754_nan \/ exists s, nth i (l2_prox alpha x) n0 = S754_zero s.
Proof. exact main_C129_overflow_partial. Qed.
Print Assumptions C129_overflow_partial.

(** every x with entries of at most 2^-538 is returned unchanged, whatever the radius *)
Theorem C129_underflow_partial : forall (alpha : F64) (x : list F64),
  fin alpha -> 0 <= fv alpha -> Forall fin x -> Forall (fun a => Rabs (fv a) <= powerRZ 2 (-538)) x -> l2_prox alpha x = x.
Proof. exact main_C129_underflow_partial. Qed.
Print Assumptions C129_underflow_partial.

(** between the two: each entry has a relative error of at most (8n + 40) 2^-53 against the exact projection,
    whichever way the comparison of the rounded norm with the radius goes *)
Theorem C129_accuracy_partial : forall (alpha : F64) (x : list F64) (p : list R),
  fin alpha -> 0 <= fv alpha -> Forall fin x -> INR (length x) <= 2 ^ 48 -> powerRZ 2 (-450) <= norm2 (map fv x) <= powerRZ 2 500 ->
  is_projection (l2_ball (fv alpha)) (map fv x) p ->
  length (l2_prox alpha x) = length x /\
  forall i, (i < length x)%nat -> fin (nth i (l2_prox alpha x) n0) /\
    Rabs (fv (nth i (l2_prox alpha x) n0) - nth i p 0) <= (8 * INR (length x) + 40) * / 2 ^ 53 * Rabs (nth i p 0) + powerRZ 2 (-620).
Proof. exact main_C129_accuracy_partial. Qed.
Print Assumptions C129_accuracy_partial.

(** and the norm of the result exceeds the radius by rounding errors only *)
Theorem C129_feasible_partial : forall (alpha : F64) (x : list F64),
  fin alpha -> 0 <= fv alpha -> Forall fin x -> INR (length x) <= 2 ^ 48 -> powerRZ 2 (-450) <= norm2 (map fv x) <= powerRZ 2 500 ->
  norm2 (map fv (l2_prox alpha x)) <= (1 + (8 * INR (length x) + 40) * / 2 ^ 53) * fv alpha + INR (length x) * powerRZ 2 (-620).
Proof. exact main_C129_feasible_partial. Qed.
Print Assumptions C129_feasible_partial.

Example C129_nonvacuous : let x := [nofZ F64 3; nofZ F64 4] in
  fin n1 /\ 0 <= fv n1 /\ Forall fin x /\ INR (length x) <= 2 ^ 48 /\ powerRZ 2 (-450) <= norm2 (map fv x) <= powerRZ 2 500 /\
  l2_prox n1 x = [ndiv F64 (nofZ F64 3) (nofZ F64 5); ndiv F64 (nofZ F64 4) (nofZ F64 5)].
Proof. exact run_C129. Qed.
