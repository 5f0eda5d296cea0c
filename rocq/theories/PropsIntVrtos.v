(** * C128: starting minimize_vrtos from an integer array *)
From Coq Require Import ZArith List Reals Lra Lia.
From Verif Require Import Num Vec Spec SpecSparse ModelRandomized SpecFiniteSum RandomizedBlocks ModelMemory ModelIntStart IntStartMain ModelIntVrtos IntVrtosMain.
Import ListNotations.
Local Open Scope R_scope.

(** copt/randomized.py:498, :525 and the array x0 itself keep the element type of x0.  Refuted: from the
    float64 zero the run moves; from the integer zero every run, of any length and sample order,
    returns zero with certificate zero, although the gradient there is not zero.  [pin b] is least
    squares with one sample, A = [[1]], target b. *)
Theorem C128_refuted : forall step tol : R, 0 < step < 4 ->
  let b := / (2 * step) in
  problem_wf (pin b) /\ grad_F (pin b) [0] 0 = - b /\
  (exists r, minimize_vrtos (pin b) [0] step None None None None 1 tol (fun _ => [0%nat]) = Ok r /\ vs_x r = [1 / 2 - step / 8]) /\
  (forall max_iter perms, (0 < max_iter)%nat -> (forall k, Forall (fun i => (i < 1)%nat) (perms k)) ->
    exists r, minimize_vrtos_cast (pin b) int_cast [0] step None None None None max_iter tol perms = Ok r /\ vs_x r = [0] /\ vs_cert r = 0).
Proof. exact main_C128_refuted. Qed.
Print Assumptions C128_refuted.

(** for every problem with every feature stored: from an integer array of zeros, with a bound G on the
    entries of the gradients of the samples and step (1 + n) G / 2 < 1, nothing moves in any number of
    epochs and the certificate returned is zero *)
Theorem C128_stuck_partial : forall (P : problem RN) (ptr1 ptr2 : list nat) (B1 B2 : blocks RN) (step tol G : R) max_iter perms,
  problem_wf P -> canonical P -> length (p_b P) = p_n P -> partitions ptr1 (p_d P) -> partitions ptr2 (p_d P) -> make_blocks P ptr1 = Ok B1 -> make_blocks P ptr2 = Ok B2 ->
  (forall j, (j < p_d P)%nat -> exists i, (i < p_n P)%nat /\ In j (csr_row (p_indices P) (p_indptr P) i)) ->
  0 <= step -> (0 < p_n P)%nat -> (0 < max_iter)%nat -> (forall k, Forall (fun i => (i < p_n P)%nat) (perms k)) ->
  (forall i j, (i < p_n P)%nat -> (j < p_d P)%nat -> Rabs (loss_deriv P (zeros (p_d P)) i * ent P i j) <= G) -> step * (1 / 2) * ((1 + INR (p_n P)) * G) < 1 ->
  exists r, minimize_vrtos_cast P int_cast (zeros (p_d P)) step None None (Some ptr1) (Some ptr2) max_iter tol perms = Ok r /\
    vs_x r = zeros (p_d P) /\ vs_x0 r = zeros (p_d P) /\ vs_cert r = 0 /\ S (vs_nit r) = max_iter.
Proof. exact main_C128_stuck_partial. Qed.
Print Assumptions C128_stuck_partial.

(** every iterate of an integer run without prox is an integer vector, and so is the caller's x0 *)
Theorem C128_integers_partial : forall (P : problem RN) (x0 : list R) (step : R) ptr1 ptr2 max_iter (tol : R) perms r,
  Forall (fun v => exists z, v = IZR z) x0 ->
  minimize_vrtos_cast P int_cast x0 step None None ptr1 ptr2 max_iter tol perms = Ok r ->
  Forall (fun v => exists z, v = IZR z) (vs_x r) /\ Forall (fun v => exists z, v = IZR z) (vs_x0 r) /\
  Forall (fun s : vr_state RN => Forall (fun v => exists z, v = IZR z) (vr_x1 s) /\ Forall (fun v => exists z, v = IZR z) (vr_x2 s) /\ Forall (fun v => exists z, v = IZR z) (vr_z s)) (vs_log r).
Proof. exact main_C128_integers_partial. Qed.
Print Assumptions C128_integers_partial.

(** a float64 starting point is handled as modelled for C62 and the other properties of VRTOS, for every arithmetic *)
Theorem C128_float_partial : forall (K : Num) (P : problem K) (x0 : vec K) (step : K) prox1 prox2 ptr1 ptr2 max_iter (tol : K) perms,
  minimize_vrtos_cast P (fun v => v) x0 step prox1 prox2 ptr1 ptr2 max_iter tol perms = minimize_vrtos P x0 step prox1 prox2 ptr1 ptr2 max_iter tol perms.
Proof. exact main_C128_float_partial. Qed.
Print Assumptions C128_float_partial.

(** the hypotheses of the stuck theorem are met with a gradient that is not zero *)
Example C128_nonvacuous : let P := pin (1 / 4) in
  problem_wf P /\ canonical P /\ length (p_b P) = p_n P /\ partitions (eye_ptr 1) (p_d P) /\ (exists B, make_blocks P (eye_ptr 1) = Ok B) /\ grad_F P [0] 0 = - (1 / 4) /\
  (forall j, (j < p_d P)%nat -> exists i, (i < p_n P)%nat /\ In j (csr_row (p_indices P) (p_indptr P) i)) /\
  (forall i j, (i < p_n P)%nat -> (j < p_d P)%nat -> Rabs (loss_deriv P (zeros (p_d P)) i * ent P i j) <= 1 / 4) /\ 1 * (1 / 2) * ((1 + INR (p_n P)) * (1 / 4)) < 1.
Proof. exact ex_C128. Qed.
