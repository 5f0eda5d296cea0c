(** * C124: starting minimize_saga and minimize_svrg from an integer array *)
From Coq Require Import ZArith List Reals Lra Lia.
From Verif Require Import Num Vec Spec SpecSparse ModelRandomized SpecFiniteSum RandomizedBlocks ModelMemory ModelIntStart IntStartMain.
Import ListNotations.
Local Open Scope R_scope.

(** copt/randomized.py:133, :308 keep the element type of x0.  Refuted: the same starting point, once
    as a float64 and once as an integer array, gives different results; the integer run stays at the
    starting point and reports success.  [pin b] is least squares with one sample, A = [[1]], target b. *)
Theorem C124_refuted : forall step tol : R, 0 < step -> 0 < tol <= 1 / 4 ->
  let b := / (4 * step) in
  exists (ra : epoch_result RN (saga_state RN)) (rv : epoch_result RN (vec RN * vec RN)) (ia : epoch_result RN (saga_state RN)) (iv : epoch_result RN (vec RN * vec RN)),
    problem_wf (pin b) /\ grad_F (pin b) [0] 0 = - b /\
    minimize_saga (pin b) [0] (Some step) None None 1 tol (fun _ => [0%nat]) = Ok ra /\ er_x ra = [1 / 4] /\ er_success ra = false /\
    minimize_svrg (pin b) [0] (Some step) None None 1 tol (fun _ => [0%nat]) = Ok rv /\ er_x rv = [1 / 4] /\ er_success rv = false /\
    minimize_saga_cast (pin b) int_cast [0] (Some step) None None 1 tol (fun _ => [0%nat]) = Ok ia /\ er_x ia = [0] /\ er_success ia = true /\
    minimize_svrg_cast (pin b) int_cast [0] (Some step) None None 1 tol (fun _ => [0%nat]) = Ok iv /\ er_x iv = [0] /\ er_success iv = true.
Proof. exact main_C124_refuted. Qed.
Print Assumptions C124_refuted.

(** for every problem: from an integer array of zeros, SVRG does not move when step n |gradient_j| < 1,
    and reports success after one epoch *)
Theorem C124_svrg_stuck_partial : forall (P : problem RN) (ptr : list nat) (B : blocks RN) (step tol : R) max_iter perms,
  problem_wf P -> partitions ptr (p_d P) -> make_blocks P ptr = Ok B -> 0 < tol -> (0 < max_iter)%nat -> Forall (fun i => (i < p_n P)%nat) (perms 0%nat) ->
  (forall j, (j < p_d P)%nat -> Rabs step * (INR (p_n P) * Rabs (grad_F P (zeros (p_d P)) j)) < 1) ->
  exists r, minimize_svrg_cast P int_cast (zeros (p_d P)) (Some step) None (Some ptr) max_iter tol perms = Ok r /\
    er_x r = zeros (p_d P) /\ er_success r = true /\ er_nit r = 0%nat.
Proof. exact main_C124_svrg_stuck_partial. Qed.
Print Assumptions C124_svrg_stuck_partial.

(** the same for SAGA, with a bound G on the entries of the gradients of the samples *)
Theorem C124_saga_stuck_partial : forall (P : problem RN) (ptr : list nat) (B : blocks RN) (step tol G : R) max_iter perms,
  problem_wf P -> canonical P -> partitions ptr (p_d P) -> make_blocks P ptr = Ok B -> 0 < tol -> (0 < max_iter)%nat -> NoDup (perms 0%nat) -> Forall (fun i => (i < p_n P)%nat) (perms 0%nat) ->
  (forall i j, (i < p_n P)%nat -> (j < p_d P)%nat -> Rabs (loss_deriv P (zeros (p_d P)) i * ent P i j) <= G) -> Rabs step * ((1 + INR (p_n P)) * G) < 1 ->
  exists r, minimize_saga_cast P int_cast (zeros (p_d P)) (Some step) None (Some ptr) max_iter tol perms = Ok r /\
    er_x r = zeros (p_d P) /\ er_success r = true /\ er_nit r = 0%nat.
Proof. exact main_C124_saga_stuck_partial. Qed.
Print Assumptions C124_saga_stuck_partial.

(** every iterate of an integer run without prox is an integer vector *)
Theorem C124_integers_partial : forall (P : problem RN) (x0 : list R) step ptr max_iter tol perms,
  Forall (fun v => exists z, v = IZR z) x0 ->
  (forall r, minimize_saga_cast P int_cast x0 step None ptr max_iter tol perms = Ok r ->
     Forall (fun v => exists z, v = IZR z) (er_x r) /\ Forall (fun s : saga_state RN => Forall (fun v => exists z, v = IZR z) (sa_x s)) (er_log r)) /\
  (forall r, minimize_svrg_cast P int_cast x0 step None ptr max_iter tol perms = Ok r ->
     Forall (fun v => exists z, v = IZR z) (er_x r) /\ Forall (fun s : vec RN * vec RN => Forall (fun v => exists z, v = IZR z) (fst s)) (er_log r)).
Proof. exact main_C124_integers_partial. Qed.
Print Assumptions C124_integers_partial.

(** a float64 starting point is handled as modelled for C15-C29, for every arithmetic *)
Theorem C124_float_partial : forall (K : Num) (P : problem K) (x0 : vec K) step prox ptr max_iter tol perms,
  minimize_saga_cast P (fun v => v) x0 step prox ptr max_iter tol perms = minimize_saga P x0 step prox ptr max_iter tol perms /\
  minimize_svrg_cast P (fun v => v) x0 step prox ptr max_iter tol perms = minimize_svrg P x0 step prox ptr max_iter tol perms.
Proof. exact main_C124_float_partial. Qed.
Print Assumptions C124_float_partial.

(** the hypotheses of the stuck theorems are met with a gradient that is not zero *)
Example C124_nonvacuous : let P := pin (1 / 4) in
  problem_wf P /\ canonical P /\ partitions (eye_ptr 1) (p_d P) /\ (exists B, make_blocks P (eye_ptr 1) = Ok B) /\ grad_F P [0] 0 = - (1 / 4) /\
  (forall j, (j < p_d P)%nat -> Rabs 1 * (INR (p_n P) * Rabs (grad_F P (zeros (p_d P)) j)) < 1) /\
  (forall i j, (i < p_n P)%nat -> (j < p_d P)%nat -> Rabs (loss_deriv P (zeros (p_d P)) i * ent P i j) <= 1 / 4) /\ Rabs 1 * ((1 + INR (p_n P)) * (1 / 4)) < 1.
Proof. exact ex_C124. Qed.
