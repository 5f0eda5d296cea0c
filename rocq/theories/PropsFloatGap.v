(** * C138: the Frank-Wolfe certificate over IEEE binary64.
    [F64], [fin], [fv], [csr_err] as in PropsFloat; [l1_oracle alpha] is L1Ball(alpha).lmo; [first_order n f gradf]: f is convex with gradient gradf. *)
From Coq Require Import Reals Lra Lia List Bool ZArith.
From Coq Require Import Floats.SpecFloat.
From Verif Require Import Num Vec Spec RVec ConvexFacts ModelConstraint ModelFrankWolfe FloatBase FloatSum SplittingLsRuns FloatGap FloatGapRuns.
Import ListNotations.
Local Open Scope R_scope.

Theorem C138_gap : forall (n : nat) (alpha : F64) (grad x : list F64) (G : R) (o : lmo_out F64),
  let cert := vdot (lmo_dir o) (vopp grad) in
  let M := Rsum (map (fun a => Rabs (fv a)) x) + fv alpha in
  let err := csr_err n (2 * G * M) + / 2 ^ 53 * (G * M) in
  length grad = n -> length x = n -> Forall fin grad -> Forall fin x -> fin alpha -> 0 <= fv alpha ->
  Forall (fun a => Rabs (fv a) <= G) grad -> M <= powerRZ 2 1000 ->
  l1_lmo alpha (vopp grad) x = Ok o -> fin cert ->
  (forall y, length y = n -> l1_ball (fv alpha) y -> dot (map fv grad) (vminus (map fv x) y) <= fv cert + err) /\
  (exists y, length y = n /\ l1_ball (fv alpha) y /\ fv cert - err <= dot (map fv grad) (vminus (map fv x) y)).
Proof. exact main_C138_gap. Qed.
Print Assumptions C138_gap.
Theorem C138_returned : forall (n : nat) (alpha tol : F64) (fg : vec F64 -> F64 * vec F64) (f : list R -> R) (gradf : list R -> list R)
    (step : fw_strategy F64) (lipschitz : option F64) (max_iter : nat) (cb : option (list (fw_event F64) -> bool)) (x0 : vec F64) (r : fw_result F64) (G delta : R),
  let grad := snd (fg (fr_x r)) in
  let M := Rsum (map (fun a => Rabs (fv a)) (fr_x r)) + fv alpha in
  let err := csr_err n (2 * G * M) + / 2 ^ 53 * (G * M) + delta * M in
  minimize_fw fg (l1_oracle alpha) step lipschitz tol max_iter cb (Vanilla (K:=F64)) x0 = Ok r -> fr_exit r <> ExitMaxIter ->
  length grad = n -> length (fr_x r) = n -> Forall fin grad -> Forall fin (fr_x r) -> fin alpha -> 0 <= fv alpha -> fin (fr_cert r) ->
  Forall (fun a => Rabs (fv a) <= G) grad -> M <= powerRZ 2 1000 ->
  first_order n f gradf -> (forall u, length u = n -> length (gradf u) = n) -> 0 <= delta ->
  (forall j, (j < n)%nat -> Rabs (nth j (gradf (map fv (fr_x r))) 0 - fv (nth j grad n0)) <= delta) ->
  (forall y, length y = n -> l1_ball (fv alpha) y -> f (map fv (fr_x r)) - f y <= fv (fr_cert r) + err) /\
  (fr_exit r = ExitGap -> fin tol -> fv (fr_cert r) <= fv tol).
Proof. exact main_C138_returned. Qed.
Print Assumptions C138_returned.
(** Frank-Wolfe on half the squared norm, from (0.1, 0.7), stops on its gap test with a positive certificate, and meets the hypotheses with G = 1, delta = 0 *)
Example C138_nonvacuous : exists r : fw_result F64, half_run = Ok r /\ fr_exit r = ExitGap /\
  length (snd (half_fg (fr_x r))) = 2%nat /\ length (fr_x r) = 2%nat /\ Forall fin (snd (half_fg (fr_x r))) /\ Forall fin (fr_x r) /\ fin (fr_cert r) /\
  Forall (fun a => Rabs (fv a) <= 1) (snd (half_fg (fr_x r))) /\ Rsum (map (fun a => Rabs (fv a)) (fr_x r)) + fv n1 <= powerRZ 2 1000 /\
  first_order 2 (quad 1) (smul 1) /\
  (forall j, (j < 2)%nat -> Rabs (nth j (smul 1 (map fv (fr_x r))) 0 - fv (nth j (snd (half_fg (fr_x r))) n0)) <= 0).
Proof. exact half_meets. Qed.
Example C138_run_nonvacuous : half_check = true.
Proof. exact half_runs. Qed.
