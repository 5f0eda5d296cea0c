(** * Properties of copt/tv_prox.py, FusedLasso.prox and TotalVariation2D (C14-C17, C87)

    [pinf], [ninf] are the values of np.inf and -np.inf in the arithmetic used (they are stored but the
    theorems do not depend on them). *)
From Coq Require Import ZArith Bool List Lia Permutation Reals Lra.
From Verif Require Import Num Vec Spec SpecTv RVec ModelPenalty ModelTv TvMain.
Import ListNotations.
Local Open Scope nat_scope.

(** C15: for every arithmetic.  The model reads and writes arrays through checked accesses, divides
    integers through a check for zero, and the output starts unwritten; Ok means that all checks passed. *)
Theorem C15_tv1d_total : forall (K : Num) (pinf ninf step : K) (input : list K), input <> [] ->
  exists p, low_tv1d pinf ninf step input = Ok (map Some p) /\ length p = length input /\ prox_tv1d pinf ninf input step = Ok p.
Proof. exact main_C15_tv1d_total. Qed.
Print Assumptions C15_tv1d_total.
Theorem C15_tv2d_total : forall (K : Num) (pinf ninf : K) w step rows cols max_iter tol, 1 <= rows -> 1 <= cols -> length w = rows * cols -> 1 <= max_iter ->
  exists x warned, prox_tv2d pinf ninf w step rows cols max_iter tol = Ok (x, warned) /\ length x = length w.
Proof. exact main_C15_tv2d_total. Qed.
Print Assumptions C15_tv2d_total.
Theorem C15_degenerate : forall (K : Num) (pinf ninf : K) w step rows cols max_iter tol,
  prox_tv1d pinf ninf [] step = Err IndexError /\ prox_tv2d pinf ninf w step rows cols 0 tol = Err UnboundLocalError /\
  (length w <> rows * cols -> 1 <= max_iter -> prox_tv2d pinf ninf w step rows cols max_iter tol = Err ValueError).
Proof. exact main_C15_degenerate. Qed.
Print Assumptions C15_degenerate.
Local Notation z k := (nofZ F64 k).
Example C15_nonvacuous : prox_tv1d (K:=F64) (z 9) (z (-9)) [z 6; z 0; z 0; z 6] (z 2) = Ok [z 4; z 2; z 2; z 4] /\
  prox_tv1d (K:=F64) (z 9) (z (-9)) [z 6; z 0; z 0; z 6] (z (-2)) <> Err IndexError.
Proof. split; [vm_compute; reflexivity|vm_compute; discriminate]. Qed.

Local Open Scope R_scope.
(** C14: the unique minimiser, for every input and every step >= 0 *)
Theorem C14_prox_tv1d : forall (pinf ninf : R) (w : list R) (step : R), w <> [] -> 0 <= step -> exists p, prox_tv1d (K:=RN) pinf ninf w step = Ok p /\ is_prox tv step w p.
Proof. exact main_C14_prox_tv1d. Qed.
Print Assumptions C14_prox_tv1d.
Theorem C14_fused_prox : forall (pinf ninf alpha : R) (x : list R) (step : R), x <> [] -> 0 <= step * alpha -> exists p, fused_prox (K:=RN) pinf ninf alpha x step = Ok p /\
  is_prox (fun v => fused_call (K:=RN) alpha v) step x p.
Proof. exact main_C14_fused_prox. Qed.
Print Assumptions C14_fused_prox.
Example C14_nonvacuous : [3; 1] <> [] /\ 0 <= / 2 /\ is_prox tv (/ 2) [3; 1] [5 / 2; 3 / 2].
Proof.
  split; [discriminate|]. split; [lra|]. apply prox_intro; [reflexivity|]. intros y Ly. destruct y as [|a [|b [|? ?]]]; try discriminate Ly. cbn.
  pose proof (Rle_abs (a - b)). rewrite Rabs_minus_sym in H. rewrite (Rabs_left (3 / 2 - 5 / 2)) by lra. lra.
Qed.

(** C16: suboptimality of the returned image, and distance to the exact prox, bounded by the tolerance *)
Theorem C16_prox_tv2d : forall (pinf ninf step : R) (rows cols : nat) (w : list R) (tol : R) (max_iter : nat) (x : list R), 0 <= step -> (1 <= rows)%nat -> (1 <= cols)%nat ->
  prox_tv2d (K:=RN) pinf ninf w step rows cols max_iter tol = Ok (x, false) -> length x = length w /\
  (forall z, length z = length w -> prox_obj (tv2 rows cols) step w x <= prox_obj (tv2 rows cols) step w z + 4 * step * INR (rows * cols) * tol) /\
  (forall z, is_prox (tv2 rows cols) step w z -> dist2 z x <= 8 * step * INR (rows * cols) * tol).
Proof. exact main_C16_prox_tv2d. Qed.
Print Assumptions C16_prox_tv2d.
Theorem C16_penalty_prox : forall (pinf ninf alpha step : R) (rows cols : nat) (w : list R) (tol : R) (max_iter : nat) (x : list R), 0 <= step * alpha -> (1 <= rows)%nat -> (1 <= cols)%nat ->
  tv2d_prox (K:=RN) pinf ninf alpha rows cols max_iter tol w step = Ok (x, false) ->
  forall (z : list R) (fz : R), tv2d_call (K:=RN) alpha rows cols z = Ok fz -> exists fx : R, tv2d_call (K:=RN) alpha rows cols x = Ok fx /\
  step * fx + / 2 * dist2 x w <= step * fz + / 2 * dist2 z w + 4 * (step * alpha) * INR (rows * cols) * tol.
Proof. exact main_C16_penalty_prox. Qed.
Print Assumptions C16_penalty_prox.
(** C87: convergence: the loop stops without a warning once max_iter exceeds ||w||^2 / tol^2 *)
Theorem C87_tv2d_converges : forall (pinf ninf step : R) (rows cols : nat) (w : list R) (tol : R) (max_iter : nat), 0 <= step -> (1 <= rows)%nat -> (1 <= cols)%nat -> length w = (rows * cols)%nat -> 0 < tol ->
  dot w w / (tol * tol) < INR max_iter -> exists x, prox_tv2d (K:=RN) pinf ninf w step rows cols max_iter tol = Ok (x, false).
Proof. exact main_C87_tv2d_converges. Qed.
Print Assumptions C87_tv2d_converges.
Example C16_nonvacuous : exists x, prox_tv2d (K:=RN) 0 0 [1; 2; 3; 4; 0; 7] 1 2 3 800 (/ 3) = Ok (x, false).
Proof. apply C87_tv2d_converges; [lra|lia|lia|reflexivity|lra|]. cbn [dot]. replace 800%nat with (8 * 100)%nat by reflexivity. rewrite mult_INR. replace (INR 8) with 8 by (cbn; lra). replace (INR 100) with 100 by (cbn; lra). lra. Qed.

(** C17 *)
Theorem C17_operator : forall (rows cols : nat) (x : list R), length x = (rows * cols)%nat -> exists L, tv2d_rows (K:=RN) rows cols = Ok L /\
  Forall (fun r : list R => length r = length x) L /\ l1 (map (fun r => dot r x) L) = tv2 rows cols x.
Proof. exact main_C17_operator. Qed.
Print Assumptions C17_operator.
Theorem C17_penalty : forall (rows cols : nat) (alpha : R) (x : list R), length x = (rows * cols)%nat -> tv2d_call (K:=RN) alpha rows cols x = Ok (alpha * tv2 rows cols x).
Proof. exact main_C17_penalty. Qed.
Print Assumptions C17_penalty.
Example C17_nonvacuous : length [1; 2; 3; 4; 0; 7] = (2 * 3)%nat /\ tv2 2 3 [1; 2; 3; 4; 0; 7] = 22.
Proof.
  split; [reflexivity|]. unfold tv2, tv_cols, tv_rows, img_col, img_row. cbn. unfold Rabs. repeat (destruct Rcase_abs; try lra).
Qed.
