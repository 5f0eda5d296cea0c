(** * SVRG and SAGA over whole epochs, for every order of the samples (C96, C97, C98)

    No probability: [perms k] is any permutation at all, epoch by epoch.  [lip_losses], [spread], [all_stored]
    and [sample_grads] are in SpecEpochs.v, [finite_sum] and [convex_loss] in SpecFiniteSum.v. *)
From Coq Require Import Reals List Bool Lra Lia Permutation.
From Verif Require Import Num Vec Spec SpecSparse RVec ConvexFacts SpecLoss ModelRandomized SpecFiniteSum SpecEpochs RandomizedRuns2 SvrgRate SagaRate EpochRuns.
Import ListNotations.
Open Scope R_scope.

(** ** C96: SVRG *)
Theorem C96_svrg_descent : forall (P : problem RN) (f : R -> R -> R) (lphi L D step tol : R) (x0 : list R) (max_iter : nat) (perms : nat -> list nat) (r : epoch_result RN (vec RN * vec RN)),
  problem_wf P -> canonical P -> (0 < p_n P)%nat -> 0 <= p_alpha P -> lip_losses P f lphi L -> spread P D -> 1 <= D -> (p_alpha P = 0 \/ all_stored P) ->
  0 < step -> step * INR (p_n P) * (L + p_alpha P * D) <= 1 / 4 -> (forall k, Permutation (perms k) (seq 0 (p_n P))) -> length x0 = p_d P ->
  minimize_svrg P x0 (Some step) None None max_iter tol perms = Ok r ->
  exists xs : nat -> list R, xs 0%nat = x0 /\ er_x r = xs (S (er_nit r)) /\ map fst (rev (er_log r)) = map xs (seq 0 (S (S (er_nit r)))) /\
  forall k g, (k <= er_nit r)%nat -> is_gradient (p_d P) (finite_sum P f) (xs k) g ->
    finite_sum P f (xs (S k)) <= finite_sum P f (xs k) - step * INR (p_n P) / 3 * dot g g /\
    2 / 3 * (step * INR (p_n P) * norm2 g) <= norm2 (vminus (xs (S k)) (xs k)) <= 4 / 3 * (step * INR (p_n P) * norm2 g).
Proof. exact main_C96_svrg_descent. Qed.
Print Assumptions C96_svrg_descent.
Theorem C96_svrg_rate : forall (P : problem RN) (f : R -> R -> R) (lphi L D step tol : R) (x0 : list R) (max_iter : nat) (perms : nat -> list nat) (r : epoch_result RN (vec RN * vec RN)),
  problem_wf P -> canonical P -> (0 < p_n P)%nat -> 0 <= p_alpha P -> lip_losses P f lphi L -> spread P D -> 1 <= D -> (p_alpha P = 0 \/ all_stored P) ->
  0 < step -> step * INR (p_n P) * (L + p_alpha P * D) <= 1 / 4 -> (forall k, Permutation (perms k) (seq 0 (p_n P))) -> length x0 = p_d P ->
  minimize_svrg P x0 (Some step) None None max_iter tol perms = Ok r ->
  exists x g : list R, In x (map fst (er_log r)) /\ is_gradient (p_d P) (finite_sum P f) x g /\
    INR (S (er_nit r)) * (step * INR (p_n P) / 3 * dot g g) <= finite_sum P f x0 - finite_sum P f (er_x r).
Proof. exact main_C96_svrg_rate. Qed.
Print Assumptions C96_svrg_rate.
Theorem C96_svrg_linear : forall (P : problem RN) (f : R -> R -> R) (lphi L D step tol : R) (x0 : list R) (max_iter : nat) (perms : nat -> list nat) (r : epoch_result RN (vec RN * vec RN)),
  problem_wf P -> canonical P -> (0 < p_n P)%nat -> 0 < p_alpha P -> lip_losses P f lphi L -> spread P D -> 1 <= D -> all_stored P ->
  0 < step -> step * INR (p_n P) * (L + p_alpha P * D) <= 1 / 4 -> (forall k, Permutation (perms k) (seq 0 (p_n P))) -> length x0 = p_d P ->
  minimize_svrg P x0 (Some step) None None max_iter tol perms = Ok r -> convex_loss P f ->
  forall y : list R, length y = p_d P ->
  finite_sum P f (er_x r) - finite_sum P f y <= (1 - 2 / 3 * (p_alpha P * (step * INR (p_n P)))) ^ S (er_nit r) * (finite_sum P f x0 - finite_sum P f y).
Proof. exact main_C96_svrg_linear. Qed.
Print Assumptions C96_svrg_linear.
Theorem C96_svrg_success : forall (P : problem RN) (f : R -> R -> R) (lphi L D step tol : R) (x0 : list R) (max_iter : nat) (perms : nat -> list nat) (r : epoch_result RN (vec RN * vec RN)),
  problem_wf P -> canonical P -> (0 < p_n P)%nat -> 0 <= p_alpha P -> lip_losses P f lphi L -> spread P D -> 1 <= D -> (p_alpha P = 0 \/ all_stored P) ->
  0 < step -> step * INR (p_n P) * (L + p_alpha P * D) <= 1 / 4 -> (forall k, Permutation (perms k) (seq 0 (p_n P))) -> length x0 = p_d P ->
  minimize_svrg P x0 (Some step) None None max_iter tol perms = Ok r -> er_success r = true ->
  exists g : list R, is_gradient (p_d P) (finite_sum P f) (er_x r) g /\ norm2 g < 2 * tol / (step * INR (p_n P)).
Proof. exact main_C96_svrg_success. Qed.
Print Assumptions C96_svrg_success.
Theorem C96_svrg_terminates : forall (P : problem RN) (f : R -> R -> R) (lphi L D step tol low : R) (x0 : list R) (max_iter : nat) (perms : nat -> list nat),
  problem_wf P -> canonical P -> (exists i j, (i < p_n P)%nat /\ stores P i j) -> 0 <= p_alpha P -> lip_losses P f lphi L -> spread P D -> 1 <= D -> (p_alpha P = 0 \/ all_stored P) ->
  0 < step -> step * INR (p_n P) * (L + p_alpha P * D) <= 1 / 4 -> (forall k, Permutation (perms k) (seq 0 (p_n P))) -> length x0 = p_d P -> 0 < tol ->
  (forall y : list R, length y = p_d P -> low <= finite_sum P f y) ->
  16 * (INR (p_d P) * (step * INR (p_n P))) * (finite_sum P f x0 - low) < 3 * (tol * tol) * INR max_iter ->
  exists r, minimize_svrg P x0 (Some step) None None max_iter tol perms = Ok r /\ er_success r = true.
Proof. exact main_C96_svrg_terminates. Qed.
Print Assumptions C96_svrg_terminates.

(** ** C97: SAGA; [ws k] measures the age of the gradient memory at the start of epoch k *)
Theorem C97_saga_energy : forall (P : problem RN) (f : R -> R -> R) (lphi L D step tol G0 : R) (x0 : list R) (max_iter : nat) (perms : nat -> list nat) (r : epoch_result RN (saga_state RN)),
  problem_wf P -> canonical P -> (0 < p_n P)%nat -> 0 <= p_alpha P -> lip_losses P f lphi L -> spread P D -> 1 <= D -> (p_alpha P = 0 \/ all_stored P) ->
  0 < step -> step * INR (p_n P) * ((2 + D) * L + p_alpha P * D) <= 1 / 16 -> (forall k, Permutation (perms k) (seq 0 (p_n P))) -> length x0 = p_d P -> sample_grads P x0 G0 ->
  minimize_saga P x0 (Some step) None None max_iter tol perms = Ok r ->
  exists (xs : nat -> list R) (ws : nat -> R), xs 0%nat = x0 /\ ws 0%nat = (1 + D) * G0 /\ er_x r = xs (S (er_nit r)) /\ map sa_x (rev (er_log r)) = map xs (seq 0 (S (S (er_nit r)))) /\
  forall k g, (k <= er_nit r)%nat -> is_gradient (p_d P) (finite_sum P f) (xs k) g ->
    finite_sum P f (xs (S k)) + 2 * (step * INR (p_n P)) * (ws (S k) * ws (S k)) <=
    finite_sum P f (xs k) + 2 * (step * INR (p_n P)) * (ws k * ws k) - step * INR (p_n P) / 2 * (dot g g + ws k * ws k) /\
    norm2 (vminus (xs (S k)) (xs k)) <= 16 / 15 * (step * INR (p_n P) * (norm2 g + ws k)).
Proof. exact main_C97_saga_energy. Qed.
Print Assumptions C97_saga_energy.
Theorem C97_saga_rate : forall (P : problem RN) (f : R -> R -> R) (lphi L D step tol G0 : R) (x0 : list R) (max_iter : nat) (perms : nat -> list nat) (r : epoch_result RN (saga_state RN)),
  problem_wf P -> canonical P -> (0 < p_n P)%nat -> 0 <= p_alpha P -> lip_losses P f lphi L -> spread P D -> 1 <= D -> (p_alpha P = 0 \/ all_stored P) ->
  0 < step -> step * INR (p_n P) * ((2 + D) * L + p_alpha P * D) <= 1 / 16 -> (forall k, Permutation (perms k) (seq 0 (p_n P))) -> length x0 = p_d P -> sample_grads P x0 G0 ->
  minimize_saga P x0 (Some step) None None max_iter tol perms = Ok r ->
  exists x g : list R, In x (map sa_x (er_log r)) /\ is_gradient (p_d P) (finite_sum P f) x g /\
    INR (S (er_nit r)) * (step * INR (p_n P) / 2 * dot g g) <= finite_sum P f x0 - finite_sum P f (er_x r) + 2 * (step * INR (p_n P)) * ((1 + D) * G0 * ((1 + D) * G0)).
Proof. exact main_C97_saga_rate. Qed.
Print Assumptions C97_saga_rate.
Theorem C97_saga_linear : forall (P : problem RN) (f : R -> R -> R) (lphi L D step tol G0 : R) (x0 : list R) (max_iter : nat) (perms : nat -> list nat) (r : epoch_result RN (saga_state RN)),
  problem_wf P -> canonical P -> (0 < p_n P)%nat -> 0 < p_alpha P -> lip_losses P f lphi L -> spread P D -> 1 <= D -> all_stored P ->
  0 < step -> step * INR (p_n P) * ((2 + D) * L + p_alpha P * D) <= 1 / 16 -> (forall k, Permutation (perms k) (seq 0 (p_n P))) -> length x0 = p_d P -> sample_grads P x0 G0 ->
  minimize_saga P x0 (Some step) None None max_iter tol perms = Ok r -> convex_loss P f ->
  forall y : list R, length y = p_d P ->
  finite_sum P f (er_x r) - finite_sum P f y <=
  (1 - p_alpha P * (step * INR (p_n P))) ^ S (er_nit r) * (finite_sum P f x0 - finite_sum P f y + 2 * (step * INR (p_n P)) * ((1 + D) * G0 * ((1 + D) * G0))).
Proof. exact main_C97_saga_linear. Qed.
Print Assumptions C97_saga_linear.
Theorem C97_saga_terminates : forall (P : problem RN) (f : R -> R -> R) (lphi L D step tol G0 low : R) (x0 : list R) (max_iter : nat) (perms : nat -> list nat),
  problem_wf P -> canonical P -> (exists i j, (i < p_n P)%nat /\ stores P i j) -> 0 <= p_alpha P -> lip_losses P f lphi L -> spread P D -> 1 <= D -> (p_alpha P = 0 \/ all_stored P) ->
  0 < step -> step * INR (p_n P) * ((2 + D) * L + p_alpha P * D) <= 1 / 16 -> (forall k, Permutation (perms k) (seq 0 (p_n P))) -> length x0 = p_d P -> sample_grads P x0 G0 -> 0 < tol ->
  (forall y : list R, length y = p_d P -> low <= finite_sum P f y) ->
  5 * (INR (p_d P) * (step * INR (p_n P))) * (finite_sum P f x0 - low + 2 * (step * INR (p_n P)) * ((1 + D) * G0 * ((1 + D) * G0))) < tol * tol * INR max_iter ->
  exists r, minimize_saga P x0 (Some step) None None max_iter tol perms = Ok r /\ er_success r = true.
Proof. exact main_C97_saga_terminates. Qed.
Print Assumptions C97_saga_terminates.

(** ** C98: success of SAGA *)
Theorem C98_saga_success_refuted : forall step tol G : R, 0 < step <= 1 / 100 -> 0 < tol ->
  exists (P : problem RN) (x0 : list R) (r : epoch_result RN (saga_state RN)) (g : list R),
    problem_wf P /\ canonical P /\ lip_losses P half_sq 1 1 /\ convex_loss P half_sq /\ spread P 1 /\ p_alpha P = 0 /\ step * INR (p_n P) * ((2 + 1) * 1 + p_alpha P * 1) <= 1 / 16 /\ length x0 = p_d P /\
    (forall max_iter, (0 < max_iter)%nat -> minimize_saga P x0 (Some step) None None max_iter tol (fun _ => seq 0 (p_n P)) = Ok r) /\ er_success r = true /\
    is_gradient (p_d P) (finite_sum P half_sq) (er_x r) g /\ norm2 g >= G.
Proof. exact main_C98_saga_success_refuted. Qed.
Print Assumptions C98_saga_success_refuted.
(** full claim: success implies a gradient of order tol / (step n); missing: the age of the memory enters the bound *)
Theorem C98_saga_success_partial : forall (P : problem RN) (f : R -> R -> R) (lphi L D step tol G0 sg : R) (x0 : list R) (max_iter : nat) (perms : nat -> list nat) (r : epoch_result RN (saga_state RN)) (s' s : saga_state RN) (log : list (saga_state RN)),
  problem_wf P -> canonical P -> (0 < p_n P)%nat -> 0 <= p_alpha P -> lip_losses P f lphi L -> spread P D -> 1 <= D -> (p_alpha P = 0 \/ all_stored P) ->
  0 < step -> step * INR (p_n P) * ((2 + D) * L + p_alpha P * D) <= 1 / 16 -> (forall k, Permutation (perms k) (seq 0 (p_n P))) -> length x0 = p_d P -> sample_grads P x0 G0 ->
  minimize_saga P x0 (Some step) None None max_iter tol perms = Ok r -> er_success r = true -> er_log r = s' :: s :: log -> 0 <= sg ->
  (forall i, (i < p_n P)%nat -> (nth i (sa_mem s) 0 - loss_deriv P (sa_x s) i) * (nth i (sa_mem s) 0 - loss_deriv P (sa_x s) i) * Rsum (map (fun j => ent P i j * ent P i j) (seq 0 (p_d P))) <= sg * sg) ->
  exists g : list R, is_gradient (p_d P) (finite_sum P f) (er_x r) g /\ norm2 g < 2 * tol / (step * INR (p_n P)) + 2 * ((1 + D) * sg).
Proof. exact main_C98_saga_success_partial. Qed.
Print Assumptions C98_saga_success_partial.

(** two samples with different supports, ridge 1/4, alternating orders *)
Example C96_nonvacuous : problem_wf twin /\ canonical twin /\ lip_losses twin half_sq 1 2 /\ spread twin 2 /\ all_stored twin /\ convex_loss twin half_sq /\
  (exists i j, (i < p_n twin)%nat /\ stores twin i j) /\ (forall y, length y = 2%nat -> 0 <= finite_sum twin half_sq y) /\
  exists r, (0 < p_n twin)%nat /\ 0 < p_alpha twin /\ 1 <= 2 /\ 1 / 20 * INR (p_n twin) * (2 + p_alpha twin * 2) <= 1 / 4 /\ (forall k, Permutation (swap k) (seq 0 (p_n twin))) /\
    minimize_svrg twin [0; 0] (Some (1 / 20)) None None 2 1 swap = Ok r /\ er_success r = true.
Proof.
  destruct twin_ok as (T1 & T2 & T3 & T4 & T5 & T6 & T7 & T8 & T9 & T10). repeat (split; [assumption|]). exact ex_svrg_epochs.
Qed.
Example C97_nonvacuous : sample_grads twin [0; 0] 2 /\
  exists r, 1 / 300 * INR (p_n twin) * ((2 + 2) * 2 + p_alpha twin * 2) <= 1 / 16 /\ minimize_saga twin [0; 0] (Some (1 / 300)) None None 20 (1 / 10) swap = Ok r /\ er_success r = true.
Proof. split; [apply twin_ok|exact ex_saga_epochs]. Qed.
(** a successful run and a bound on the age of the memory of its last epoch *)
Example C98_nonvacuous : exists (r : epoch_result RN (saga_state RN)) (s' s : saga_state RN) (log : list (saga_state RN)) (sg : R),
  minimize_saga twin [0; 0] (Some (1 / 300)) None None 20 (1 / 10) swap = Ok r /\ er_success r = true /\ er_log r = s' :: s :: log /\ 0 <= sg /\
  forall i, (i < p_n twin)%nat -> (nth i (sa_mem s) 0 - loss_deriv twin (sa_x s) i) * (nth i (sa_mem s) 0 - loss_deriv twin (sa_x s) i) * Rsum (map (fun j => ent twin i j * ent twin i j) (seq 0 (p_d twin))) <= sg * sg.
Proof.
  destruct ex_saga_epochs as (r & _ & E & Es). destruct (er_log r) as [|s' [|s log]] eqn:El.
  3:{ set (h := fun i => (nth i (sa_mem s) 0 - loss_deriv twin (sa_x s) i) * (nth i (sa_mem s) 0 - loss_deriv twin (sa_x s) i) * Rsum (map (fun j => ent twin i j * ent twin i j) (seq 0 (p_d twin)))).
    exists r, s', s, log, (1 + Rabs (h 0%nat) + Rabs (h 1%nat)). split; [exact E|]. split; [exact Es|]. split; [exact El|].
    pose proof (Rabs_pos (h 0%nat)) as A0. pose proof (Rabs_pos (h 1%nat)) as A1. split; [lra|].
    intros i Hi. change (h i <= (1 + Rabs (h 0%nat) + Rabs (h 1%nat)) * (1 + Rabs (h 0%nat) + Rabs (h 1%nat))). cbn in Hi.
    assert (B : h i <= 1 + Rabs (h 0%nat) + Rabs (h 1%nat)) by (pose proof (Rle_abs (h i)); destruct i as [|[|i]]; [lra|lra|lia]).
    eapply Rle_trans; [exact B|]. rewrite <- (Rmult_1_l (1 + Rabs (h 0%nat) + Rabs (h 1%nat))) at 1. apply Rmult_le_compat_r; lra. }
  all: exfalso; destruct (RandomizedMain.main_C69_saga_contract _ _ _ _ _ _ _ _ _ _ E) as (_ & _ & S0 & _ & _ & _ & _ & _ & _ & L & _);
    rewrite El in L; apply (f_equal (@length _)) in L; rewrite rev_length, map_length, seq_length in L; cbn in L; lia.
Qed.
