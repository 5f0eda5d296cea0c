(** * Property C123: Frank-Wolfe on the l1 ball in float64 *)
From Coq Require Import ZArith Reals Lia Bool List.
From Verif Require Import Num Vec Spec ModelConstraint ModelFrankWolfe FloatBase FloatPairRuns FloatBallMain FloatBallRuns.
Import ListNotations.
Open Scope R_scope.

(** C123.  frank_wolfe.py minimize_frank_wolfe with L1Ball.lmo in binary64, any step strategy whose
    steps lie in [0, 1], any objective with nan-free gradients: rounding carries the iterate out of
    the ball of radius alpha by at most a factor (1 + 2^-50) per iteration (plus n subnormals), so
    all iterates are finite. *)
Theorem C123_iterates : forall (n : nat) (alpha tol : F64) (fg : vec F64 -> F64 * vec F64)
    (cb : option (list (fw_event F64) -> bool)) (step : fw_strategy F64) (lipschitz : option F64) (m : nat) (x0 : vec F64) (r : fw_result F64),
  let bound (k : nat) := (1 + 8 * / 2 ^ 53) ^ k * (fv alpha + INR k * (INR n * powerRZ 2 (-1074))) in
  (0 < n)%nat -> fin alpha -> 0 <= fv alpha -> bound m <= powerRZ 2 1000 ->
  (forall x, length x = n -> Forall fin x ->
     length (snd (fg x)) = n /\ Forall (fun g => datum g /\ nisnan g = false) (snd (fg x))) ->
  length x0 = n -> Forall fin x0 -> Rsum (map (fun a => Rabs (fv a)) x0) <= fv alpha ->
  minimize_fw fg (l1_oracle alpha) step lipschitz tol m cb (Vanilla (K:=F64)) x0 = Ok r ->
  Forall (fun i => datum (fi_step i) /\ nleb F64 n0 (fi_step i) = true /\ nleb F64 (fi_step i) n1 = true) (fr_iters r) ->
  Forall (fun i => Forall fin (fi_next i) /\ Rsum (map (fun a => Rabs (fv a)) (fi_next i)) <= bound (Datatypes.S (fi_it i))) (fr_iters r) /\
  Forall fin (fr_x r) /\ Rsum (map (fun a => Rabs (fv a)) (fr_x r)) <= bound (length (fr_iters r)).
Proof. exact main_C123_iterates. Qed.
Print Assumptions C123_iterates.

(** With step='sublinear' the steps lie in [0, 1] and the call returns. *)
Theorem C123_sublinear : forall (n : nat) (alpha tol : F64) (fg : vec F64 -> F64 * vec F64)
    (cb : option (list (fw_event F64) -> bool)) (lipschitz : option F64) (m : nat) (x0 : vec F64),
  let bound (k : nat) := (1 + 8 * / 2 ^ 53) ^ k * (fv alpha + INR k * (INR n * powerRZ 2 (-1074))) in
  (0 < n)%nat -> (0 < m)%nat -> (Z.of_nat m + 2 < 2 ^ 53)%Z -> nltb F64 tol n0 = false ->
  fin alpha -> 0 <= fv alpha -> bound m <= powerRZ 2 1000 ->
  (forall x, length x = n -> Forall fin x ->
     length (snd (fg x)) = n /\ Forall (fun g => datum g /\ nisnan g = false) (snd (fg x))) ->
  length x0 = n -> Forall fin x0 -> Rsum (map (fun a => Rabs (fv a)) x0) <= fv alpha ->
  exists r, minimize_fw fg (l1_oracle alpha) (FSSublinear (K:=F64)) lipschitz tol m cb (Vanilla (K:=F64)) x0 = Ok r /\
    Forall fin (fr_x r) /\ Rsum (map (fun a => Rabs (fv a)) (fr_x r)) <= bound (length (fr_iters r)) /\
    Forall (fun i => Forall fin (fi_next i) /\ Rsum (map (fun a => Rabs (fv a)) (fi_next i)) <= bound (Datatypes.S (fi_it i))) (fr_iters r).
Proof. exact main_C123_sublinear. Qed.
Print Assumptions C123_sublinear.

Example C123_nonvacuous :
  (forall x, length x = 2%nat -> Forall fin x ->
    length (snd (guard_fg x)) = 2%nat /\ Forall (fun g => datum g /\ nisnan g = false) (snd (guard_fg x))) /\
  (1 + 8 * / 2 ^ 53) ^ 20 * (fv n1 + INR 20 * (INR 2 * powerRZ 2 (-1074))) <= powerRZ 2 1000 /\
  fin n1 /\ 0 <= fv n1 /\ Forall fin [nofZ F64 1; nofZ F64 0] /\ Rsum (map (fun a => Rabs (fv a)) [nofZ F64 1; nofZ F64 0]) <= fv n1.
Proof. exact (conj guard_fin (conj sub_bound sub_hyps)). Qed.
(** its run makes twelve moving iterations with steps in (0, 1] *)
Example C123_run_nonvacuous : sub_check = true.
Proof. exact sub_runs. Qed.
