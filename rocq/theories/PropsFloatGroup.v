(** * C130: GroupL1.prox in float64 *)
From Coq Require Import ZArith Reals List.
From Coq Require Import Floats.SpecFloat.
From Verif Require Import Num Vec Spec ModelPenalty PenaltyFacts3 FloatBase FloatL2Runs FloatGroup FloatGroupMain.
Import ListNotations.
Local Open Scope R_scope.

(** copt/penalty.py:85-87.  Refuted: alpha = 2^599, step 1, one group holding 2^600.  The exact proximal point
    is positive and smaller than x; the norm and step * alpha * x both overflow, and the result is nan. *)
Theorem C130_refuted : exists (alpha step x : F64) (pen : list R -> R) (p : R),
  fin alpha /\ fin step /\ fin x /\ 0 < fv alpha /\ 0 < fv step /\ group_init [[0%Z]] = Ok [[0%Z]] /\
  (forall y : list R, length y = 1%nat -> @group_call RN (fv alpha) [[0%Z]] y = Ok (pen y)) /\
  is_prox pen (fv step) [fv x] [p] /\ 0 < p < fv x /\ group_prox alpha [[0%Z]] [x] step = Ok [S754_nan].
Proof. exact main_C130_refuted. Qed.
Print Assumptions C130_refuted.

(** every group with an entry of at least 2^512: an entry is left as it is when step * alpha * x_k does not
    overflow, and becomes nan when it does *)
Theorem C130_overflow_partial : forall (alpha step : F64) groups (x : list F64) g j,
  fin alpha -> fin step -> fin (nmul F64 step alpha) -> group_init groups = Ok groups -> groups_within (length x) groups -> Forall fin x ->
  In g groups -> In (Z.of_nat j) g -> powerRZ 2 512 <= Rabs (fv (nth j x n0)) ->
  exists out, group_prox alpha groups x step = Ok out /\ length out = length x /\
    forall k, In (Z.of_nat k) g ->
      (Rabs (fv (nmul F64 step alpha) * fv (nth k x n0)) <= powerRZ 2 1023 -> fin (nth k out n0) /\ fv (nth k out n0) = fv (nth k x n0)) /\
      (powerRZ 2 1024 <= Rabs (fv (nmul F64 step alpha) * fv (nth k x n0)) -> nth k out n0 = S754_nan).
Proof. exact main_C130_overflow_partial. Qed.
Print Assumptions C130_overflow_partial.

(** away from overflow: each entry is finite and within (8n + 40) 2^-53 |x_i| + 2^-618 of the exact proximal
    point of alpha * sum of group norms, whichever way the comparison of the rounded norm with the rounded
    threshold goes; entries outside the groups are returned as they are *)
Theorem C130_accuracy_partial : forall (alpha step : F64) groups (x : list F64) (pen : list R -> R) (p : list R),
  fin alpha -> fin step -> 0 <= fv alpha -> 0 <= fv step -> fv alpha * fv step <= powerRZ 2 500 ->
  group_init groups = Ok groups -> groups_within (length x) groups -> Forall fin x -> INR (length x) <= 2 ^ 48 ->
  (forall g, In g groups -> let N := norm2 (map (fun z => fv (nth (Z.to_nat z) x n0)) g) in
     N <= powerRZ 2 500 /\ (powerRZ 2 (-450) <= N \/ N = 0 \/ powerRZ 2 (-440) <= fv alpha * fv step)) ->
  (forall y : list R, length y = length x -> @group_call RN (fv alpha) groups y = Ok (pen y)) ->
  is_prox pen (fv step) (map fv x) p ->
  exists out, group_prox alpha groups x step = Ok out /\ length out = length x /\
    forall i, (i < length x)%nat -> fin (nth i out n0) /\
      Rabs (fv (nth i out n0) - nth i p 0) <= (8 * INR (length x) + 40) * / 2 ^ 53 * Rabs (fv (nth i x n0)) + powerRZ 2 (-618) /\
      ((forall g, In g groups -> ~ In (Z.of_nat i) g) -> nth i out n0 = nth i x n0).
Proof. exact main_C130_accuracy_partial. Qed.
Print Assumptions C130_accuracy_partial.

(** a run that meets the hypotheses: [4; 1; -1/8; 32] with groups [0, 1] and [2], threshold 1/2.  The first
    group is shrunk, the second is set to zero, the last entry is free. *)
Example C130_nonvacuous : let x := [f2p 2; f2p 0; nopp F64 (f2p (-3)); f2p 5] : list F64 in group_init [[0; 1]; [2]]%Z = Ok [[0; 1]; [2]]%Z /\ groups_within (length x) [[0; 1]; [2]]%Z /\ Forall fin x /\
  exists a b, group_prox (f2p 0) [[0; 1]; [2]]%Z x (f2p (-1)) = Ok [a; b; n0; f2p 5] /\ 0 < fv b < fv (f2p 0) /\ fv (f2p 1) < fv a < fv (f2p 2).
Proof. exact run_C130. Qed.
