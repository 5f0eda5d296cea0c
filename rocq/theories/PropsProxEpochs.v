(** * SAGA and SVRG with proximal operators over whole epochs, for every order of the samples (C99, C100)

    The objective is F(x) + sum_h g_h(x_h), F the finite sum with its ridge term and h ranging over the blocks.  No
    probability: [perms k] is any permutation at all, epoch by epoch.  [block_spread] and [block_dense] are in SpecEpochs.v,
    [touched], [block_penalty] and [sparse_prox_of] in SpecFiniteSum.v. *)
From Coq Require Import ZArith Reals List Bool Lra Lia Permutation.
From Verif Require Import Num Vec Spec SpecSparse RVec ConvexFacts PenaltyFacts PenaltyFacts2 PenaltyFacts3 ModelPenalty SpecLoss ModelRandomized SpecFiniteSum SpecEpochs RandomizedRuns2 RandomizedProx RandomizedMain3 EpochRuns ProxEpochsMain ProxEpochsRuns.
Import ListNotations.
Open Scope R_scope.

(** ** C99: SAGA *)
Theorem C99_saga_prox_bounded : forall (P : problem RN) (ptr : list nat) (B : blocks RN) (g : nat -> list R -> R) (prox : sprox RN) (f : R -> R -> R) (lphi L D step tol G0 : R) (x0 : list R) (max_iter : nat) (perms : nat -> list nat) (r : epoch_result RN (saga_state RN)),
  problem_wf P -> canonical P -> (0 < p_n P)%nat -> 0 <= p_alpha P -> partitions ptr (p_d P) -> make_blocks P ptr = Ok B ->
  (forall h, (S h < length ptr)%nat -> convex_on (length (blk ptr h)) (fun _ => True) (g h)) -> sparse_prox_of P ptr B g prox -> in_place prox ->
  lip_losses P f lphi L -> 0 < L -> block_spread P ptr D -> 1 <= D -> 0 < step -> step * D * (INR (p_n P) * (20 * L + p_alpha P)) <= 1 ->
  (forall k, Permutation (perms k) (seq 0 (p_n P))) -> length x0 = p_d P -> sample_grads P x0 G0 ->
  minimize_saga P x0 (Some step) (Some prox) (Some ptr) max_iter tol perms = Ok r ->
  forall x : list R, In x (map sa_x (er_log r)) -> finite_sum P f x + block_penalty ptr g x <= finite_sum P f x0 + block_penalty ptr g x0 + 2 * (G0 * G0 / L).
Proof. exact main_C99_saga_prox_bounded. Qed.
Print Assumptions C99_saga_prox_bounded.
Theorem C99_saga_prox_rate : forall (P : problem RN) (ptr : list nat) (B : blocks RN) (g : nat -> list R -> R) (prox : sprox RN) (f : R -> R -> R) (lphi L D step tol G0 : R) (x0 : list R) (max_iter : nat) (perms : nat -> list nat) (r : epoch_result RN (saga_state RN)),
  problem_wf P -> canonical P -> (0 < p_n P)%nat -> 0 <= p_alpha P -> partitions ptr (p_d P) -> make_blocks P ptr = Ok B ->
  (forall h, (S h < length ptr)%nat -> convex_on (length (blk ptr h)) (fun _ => True) (g h)) -> sparse_prox_of P ptr B g prox -> in_place prox ->
  lip_losses P f lphi L -> 0 < L -> block_spread P ptr D -> 1 <= D -> 0 < step -> step * D * (INR (p_n P) * (20 * L + p_alpha P)) <= 1 ->
  (forall k, Permutation (perms k) (seq 0 (p_n P))) -> length x0 = p_d P -> sample_grads P x0 G0 ->
  minimize_saga P x0 (Some step) (Some prox) (Some ptr) max_iter tol perms = Ok r -> convex_loss P f ->
  exists x w : list R, In x (map sa_x (er_log r)) /\ length w = p_d P /\
    INR (S (er_nit r)) * dot w w <= 24 * (D / step) * (finite_sum P f x0 + block_penalty ptr g x0 + 2 * (G0 * G0 / L) - (finite_sum P f (er_x r) + block_penalty ptr g (er_x r))) /\
    forall z : list R, length z = p_d P -> (forall j, (j < p_d P)%nat -> ~ touched P ptr j -> nth j z 0 = nth j x0 0) ->
      finite_sum P f x + block_penalty ptr g x <= finite_sum P f z + block_penalty ptr g z + dot w (vminus z x).
Proof. exact main_C99_saga_prox_rate. Qed.
Print Assumptions C99_saga_prox_rate.
Theorem C99_saga_prox_linear : forall (P : problem RN) (ptr : list nat) (B : blocks RN) (g : nat -> list R -> R) (prox : sprox RN) (f : R -> R -> R) (lphi L D step tol G0 : R) (x0 : list R) (max_iter : nat) (perms : nat -> list nat) (r : epoch_result RN (saga_state RN)),
  problem_wf P -> canonical P -> (0 < p_n P)%nat -> 0 < p_alpha P -> partitions ptr (p_d P) -> make_blocks P ptr = Ok B ->
  (forall h, (S h < length ptr)%nat -> convex_on (length (blk ptr h)) (fun _ => True) (g h)) -> sparse_prox_of P ptr B g prox -> in_place prox ->
  lip_losses P f lphi L -> 0 < L -> block_spread P ptr D -> 1 <= D -> 0 < step -> step * D * (INR (p_n P) * (20 * L + p_alpha P)) <= 1 ->
  (forall k, Permutation (perms k) (seq 0 (p_n P))) -> length x0 = p_d P -> sample_grads P x0 G0 ->
  minimize_saga P x0 (Some step) (Some prox) (Some ptr) max_iter tol perms = Ok r -> convex_loss P f ->
  forall z : list R, length z = p_d P -> (forall j, (j < p_d P)%nat -> ~ touched P ptr j -> nth j z 0 = nth j x0 0) ->
  finite_sum P f (er_x r) + block_penalty ptr g (er_x r) - (finite_sum P f z + block_penalty ptr g z) <= (1 - p_alpha P * step / (14 * D)) ^ S (er_nit r) * (finite_sum P f x0 + block_penalty ptr g x0 + 2 * (G0 * G0 / L) - (finite_sum P f z + block_penalty ptr g z)).
Proof. exact main_C99_saga_prox_linear. Qed.
Print Assumptions C99_saga_prox_linear.
Theorem C99_saga_prox_terminates : forall (P : problem RN) (ptr : list nat) (B : blocks RN) (g : nat -> list R -> R) (prox : sprox RN) (f : R -> R -> R) (lphi L D step tol G0 : R) (x0 : list R) (max_iter : nat) (perms : nat -> list nat) (low : R),
  problem_wf P -> canonical P -> (0 < p_n P)%nat -> 0 <= p_alpha P -> partitions ptr (p_d P) -> make_blocks P ptr = Ok B ->
  (forall h, (S h < length ptr)%nat -> convex_on (length (blk ptr h)) (fun _ => True) (g h)) -> sparse_prox_of P ptr B g prox -> in_place prox ->
  lip_losses P f lphi L -> 0 < L -> block_spread P ptr D -> 1 <= D -> 0 < step -> step * D * (INR (p_n P) * (20 * L + p_alpha P)) <= 1 ->
  (forall k, Permutation (perms k) (seq 0 (p_n P))) -> length x0 = p_d P -> sample_grads P x0 G0 ->
  (0 < p_d P)%nat -> (0 < max_iter)%nat -> 0 < tol -> (forall y : list R, length y = p_d P -> low <= finite_sum P f y + block_penalty ptr g y) ->
  4 * (step * D * INR (p_n P) * INR (p_d P)) * (finite_sum P f x0 + block_penalty ptr g x0 + 2 * (G0 * G0 / L) - low) < tol * tol * INR max_iter ->
  exists r, minimize_saga P x0 (Some step) (Some prox) (Some ptr) max_iter tol perms = Ok r /\ er_success r = true.
Proof. exact main_C99_saga_prox_terminates. Qed.
Print Assumptions C99_saga_prox_terminates.
Theorem C99_saga_lasso_linear : forall (P : problem RN) (f : R -> R -> R) (lam lphi L D step tol G0 : R) (x0 : list R) (max_iter : nat) (perms : nat -> list nat) (r : epoch_result RN (saga_state RN)),
  problem_wf P -> canonical P -> (exists i j, (i < p_n P)%nat /\ stores P i j) -> 0 < p_alpha P -> 0 <= lam ->
  lip_losses P f lphi L -> 0 < L -> spread P D -> 1 <= D -> 0 < step -> step * D * (INR (p_n P) * (20 * L + p_alpha P)) <= 1 ->
  (forall k, Permutation (perms k) (seq 0 (p_n P))) -> length x0 = p_d P -> sample_grads P x0 G0 ->
  minimize_saga P x0 (Some step) (Some (l1norm_sparse_prox (K:=RN) lam)) (Some (eye_ptr (p_d P))) max_iter tol perms = Ok r -> convex_loss P f ->
  forall z : list R, length z = p_d P -> (forall j, (j < p_d P)%nat -> (forall i, (i < p_n P)%nat -> ~ stores P i j) -> nth j z 0 = nth j x0 0) ->
  finite_sum P f (er_x r) + lam * l1 (er_x r) - (finite_sum P f z + lam * l1 z) <= (1 - p_alpha P * step / (14 * D)) ^ S (er_nit r) * (finite_sum P f x0 + lam * l1 x0 + 2 * (G0 * G0 / L) - (finite_sum P f z + lam * l1 z)).
Proof. exact main_C99_saga_lasso_linear. Qed.
Print Assumptions C99_saga_lasso_linear.
Theorem C99_saga_lasso_terminates : forall (P : problem RN) (f : R -> R -> R) (lam lphi L D step tol G0 : R) (x0 : list R) (max_iter : nat) (perms : nat -> list nat) (low : R),
  problem_wf P -> canonical P -> (exists i j, (i < p_n P)%nat /\ stores P i j) -> 0 <= p_alpha P -> 0 <= lam ->
  lip_losses P f lphi L -> 0 < L -> spread P D -> 1 <= D -> 0 < step -> step * D * (INR (p_n P) * (20 * L + p_alpha P)) <= 1 ->
  (forall k, Permutation (perms k) (seq 0 (p_n P))) -> length x0 = p_d P -> sample_grads P x0 G0 ->
  (0 < max_iter)%nat -> 0 < tol -> (forall y : list R, length y = p_d P -> low <= finite_sum P f y + lam * l1 y) ->
  4 * (step * D * INR (p_n P) * INR (p_d P)) * (finite_sum P f x0 + lam * l1 x0 + 2 * (G0 * G0 / L) - low) < tol * tol * INR max_iter ->
  exists r, minimize_saga P x0 (Some step) (Some (l1norm_sparse_prox (K:=RN) lam)) (Some (eye_ptr (p_d P))) max_iter tol perms = Ok r /\ er_success r = true.
Proof. exact main_C99_saga_lasso_terminates. Qed.
Print Assumptions C99_saga_lasso_terminates.
Theorem C99_saga_group_linear : forall (P : problem RN) (B : blocks RN) (groups : list (list Z)) (data : list Z) (ptr : list nat) (f : R -> R -> R) (lam lphi L D step tol G0 : R) (x0 : list R) (max_iter : nat) (perms : nat -> list nat) (r : epoch_result RN (saga_state RN)),
  problem_wf P -> canonical P -> (0 < p_n P)%nat -> 0 < p_alpha P -> 0 <= lam -> group_init groups = Ok groups -> groups_within (p_d P) groups -> group_blocks groups (p_d P) = Ok (data, ptr) -> make_blocks P ptr = Ok B ->
  lip_losses P f lphi L -> 0 < L -> block_spread P ptr D -> 1 <= D -> 0 < step -> step * D * (INR (p_n P) * (20 * L + p_alpha P)) <= 1 ->
  (forall k, Permutation (perms k) (seq 0 (p_n P))) -> length x0 = p_d P -> sample_grads P x0 G0 ->
  minimize_saga P x0 (Some step) (Some (group_sparse_prox (K:=RN) lam data ptr)) (Some ptr) max_iter tol perms = Ok r -> convex_loss P f ->
  let pen := block_penalty ptr (fun h v => if existsb (fun g => if list_eq_dec Nat.eq_dec (map Z.to_nat g) (blk ptr h) then true else false) groups then lam * norm2 v else 0) in
  forall z : list R, length z = p_d P -> (forall j, (j < p_d P)%nat -> ~ touched P ptr j -> nth j z 0 = nth j x0 0) ->
  finite_sum P f (er_x r) + pen (er_x r) - (finite_sum P f z + pen z) <= (1 - p_alpha P * step / (14 * D)) ^ S (er_nit r) * (finite_sum P f x0 + pen x0 + 2 * (G0 * G0 / L) - (finite_sum P f z + pen z)).
Proof. exact main_C99_saga_group_linear. Qed.
Print Assumptions C99_saga_group_linear.

(** ** C100: SVRG, on blocks that every sample stores in full or not at all *)
Theorem C100_svrg_prox_descent : forall (P : problem RN) (ptr : list nat) (B : blocks RN) (g : nat -> list R -> R) (prox : sprox RN) (f : R -> R -> R) (lphi L D step tol : R) (x0 : list R) (max_iter : nat) (perms : nat -> list nat) (r : epoch_result RN (vec RN * vec RN)),
  problem_wf P -> canonical P -> (0 < p_n P)%nat -> 0 <= p_alpha P -> partitions ptr (p_d P) -> make_blocks P ptr = Ok B ->
  (forall h, (S h < length ptr)%nat -> convex_on (length (blk ptr h)) (fun _ => True) (g h)) -> sparse_prox_of P ptr B g prox -> in_place prox -> block_dense P ptr ->
  lip_losses P f lphi L -> 0 < L -> block_spread P ptr D -> 1 <= D -> 0 < step -> step * D * (INR (p_n P) * (20 * L + p_alpha P)) <= 1 ->
  (forall k, Permutation (perms k) (seq 0 (p_n P))) -> length x0 = p_d P ->
  minimize_svrg P x0 (Some step) (Some prox) (Some ptr) max_iter tol perms = Ok r ->
  forall (k : nat) (x x' : list R), nth_error (map fst (rev (er_log r))) k = Some x -> nth_error (map fst (rev (er_log r))) (S k) = Some x' -> finite_sum P f x' + block_penalty ptr g x' + norm2 (vminus x' x) * norm2 (vminus x' x) / (4 * (step * D * INR (p_n P))) <= finite_sum P f x + block_penalty ptr g x.
Proof. exact main_C100_svrg_prox_descent. Qed.
Print Assumptions C100_svrg_prox_descent.
Theorem C100_svrg_prox_rate : forall (P : problem RN) (ptr : list nat) (B : blocks RN) (g : nat -> list R -> R) (prox : sprox RN) (f : R -> R -> R) (lphi L D step tol : R) (x0 : list R) (max_iter : nat) (perms : nat -> list nat) (r : epoch_result RN (vec RN * vec RN)),
  problem_wf P -> canonical P -> (0 < p_n P)%nat -> 0 <= p_alpha P -> partitions ptr (p_d P) -> make_blocks P ptr = Ok B ->
  (forall h, (S h < length ptr)%nat -> convex_on (length (blk ptr h)) (fun _ => True) (g h)) -> sparse_prox_of P ptr B g prox -> in_place prox -> block_dense P ptr ->
  lip_losses P f lphi L -> 0 < L -> block_spread P ptr D -> 1 <= D -> 0 < step -> step * D * (INR (p_n P) * (20 * L + p_alpha P)) <= 1 ->
  (forall k, Permutation (perms k) (seq 0 (p_n P))) -> length x0 = p_d P ->
  minimize_svrg P x0 (Some step) (Some prox) (Some ptr) max_iter tol perms = Ok r -> convex_loss P f ->
  exists x w : list R, In x (map fst (er_log r)) /\ length w = p_d P /\
    INR (S (er_nit r)) * dot w w <= 24 * (D / step) * (finite_sum P f x0 + block_penalty ptr g x0 - (finite_sum P f (er_x r) + block_penalty ptr g (er_x r))) /\
    forall z : list R, length z = p_d P -> (forall j, (j < p_d P)%nat -> ~ touched P ptr j -> nth j z 0 = nth j x0 0) ->
      finite_sum P f x + block_penalty ptr g x <= finite_sum P f z + block_penalty ptr g z + dot w (vminus z x).
Proof. exact main_C100_svrg_prox_rate. Qed.
Print Assumptions C100_svrg_prox_rate.
Theorem C100_svrg_prox_linear : forall (P : problem RN) (ptr : list nat) (B : blocks RN) (g : nat -> list R -> R) (prox : sprox RN) (f : R -> R -> R) (lphi L D step tol : R) (x0 : list R) (max_iter : nat) (perms : nat -> list nat) (r : epoch_result RN (vec RN * vec RN)),
  problem_wf P -> canonical P -> (0 < p_n P)%nat -> 0 < p_alpha P -> partitions ptr (p_d P) -> make_blocks P ptr = Ok B ->
  (forall h, (S h < length ptr)%nat -> convex_on (length (blk ptr h)) (fun _ => True) (g h)) -> sparse_prox_of P ptr B g prox -> in_place prox -> block_dense P ptr ->
  lip_losses P f lphi L -> 0 < L -> block_spread P ptr D -> 1 <= D -> 0 < step -> step * D * (INR (p_n P) * (20 * L + p_alpha P)) <= 1 ->
  (forall k, Permutation (perms k) (seq 0 (p_n P))) -> length x0 = p_d P ->
  minimize_svrg P x0 (Some step) (Some prox) (Some ptr) max_iter tol perms = Ok r -> convex_loss P f ->
  forall z : list R, length z = p_d P -> (forall j, (j < p_d P)%nat -> ~ touched P ptr j -> nth j z 0 = nth j x0 0) ->
  finite_sum P f (er_x r) + block_penalty ptr g (er_x r) - (finite_sum P f z + block_penalty ptr g z) <= (1 - p_alpha P * step / (14 * D)) ^ S (er_nit r) * (finite_sum P f x0 + block_penalty ptr g x0 - (finite_sum P f z + block_penalty ptr g z)).
Proof. exact main_C100_svrg_prox_linear. Qed.
Print Assumptions C100_svrg_prox_linear.
Theorem C100_svrg_prox_terminates : forall (P : problem RN) (ptr : list nat) (B : blocks RN) (g : nat -> list R -> R) (prox : sprox RN) (f : R -> R -> R) (lphi L D step tol : R) (x0 : list R) (max_iter : nat) (perms : nat -> list nat) (low : R),
  problem_wf P -> canonical P -> (0 < p_n P)%nat -> 0 <= p_alpha P -> partitions ptr (p_d P) -> make_blocks P ptr = Ok B ->
  (forall h, (S h < length ptr)%nat -> convex_on (length (blk ptr h)) (fun _ => True) (g h)) -> sparse_prox_of P ptr B g prox -> in_place prox -> block_dense P ptr ->
  lip_losses P f lphi L -> 0 < L -> block_spread P ptr D -> 1 <= D -> 0 < step -> step * D * (INR (p_n P) * (20 * L + p_alpha P)) <= 1 ->
  (forall k, Permutation (perms k) (seq 0 (p_n P))) -> length x0 = p_d P ->
  (0 < p_d P)%nat -> (0 < max_iter)%nat -> 0 < tol -> (forall y : list R, length y = p_d P -> low <= finite_sum P f y + block_penalty ptr g y) ->
  4 * (step * D * INR (p_n P) * INR (p_d P)) * (finite_sum P f x0 + block_penalty ptr g x0 - low) < tol * tol * INR max_iter ->
  exists r, minimize_svrg P x0 (Some step) (Some prox) (Some ptr) max_iter tol perms = Ok r /\ er_success r = true.
Proof. exact main_C100_svrg_prox_terminates. Qed.
Print Assumptions C100_svrg_prox_terminates.
Theorem C100_svrg_lasso_linear : forall (P : problem RN) (f : R -> R -> R) (lam lphi L D step tol : R) (x0 : list R) (max_iter : nat) (perms : nat -> list nat) (r : epoch_result RN (vec RN * vec RN)),
  problem_wf P -> canonical P -> (exists i j, (i < p_n P)%nat /\ stores P i j) -> 0 < p_alpha P -> 0 <= lam ->
  lip_losses P f lphi L -> 0 < L -> spread P D -> 1 <= D -> 0 < step -> step * D * (INR (p_n P) * (20 * L + p_alpha P)) <= 1 ->
  (forall k, Permutation (perms k) (seq 0 (p_n P))) -> length x0 = p_d P ->
  minimize_svrg P x0 (Some step) (Some (l1norm_sparse_prox (K:=RN) lam)) (Some (eye_ptr (p_d P))) max_iter tol perms = Ok r -> convex_loss P f ->
  forall z : list R, length z = p_d P -> (forall j, (j < p_d P)%nat -> (forall i, (i < p_n P)%nat -> ~ stores P i j) -> nth j z 0 = nth j x0 0) ->
  finite_sum P f (er_x r) + lam * l1 (er_x r) - (finite_sum P f z + lam * l1 z) <= (1 - p_alpha P * step / (14 * D)) ^ S (er_nit r) * (finite_sum P f x0 + lam * l1 x0 - (finite_sum P f z + lam * l1 z)).
Proof. exact main_C100_svrg_lasso_linear. Qed.
Print Assumptions C100_svrg_lasso_linear.
Theorem C100_svrg_lasso_terminates : forall (P : problem RN) (f : R -> R -> R) (lam lphi L D step tol : R) (x0 : list R) (max_iter : nat) (perms : nat -> list nat) (low : R),
  problem_wf P -> canonical P -> (exists i j, (i < p_n P)%nat /\ stores P i j) -> 0 <= p_alpha P -> 0 <= lam ->
  lip_losses P f lphi L -> 0 < L -> spread P D -> 1 <= D -> 0 < step -> step * D * (INR (p_n P) * (20 * L + p_alpha P)) <= 1 ->
  (forall k, Permutation (perms k) (seq 0 (p_n P))) -> length x0 = p_d P ->
  (0 < max_iter)%nat -> 0 < tol -> (forall y : list R, length y = p_d P -> low <= finite_sum P f y + lam * l1 y) ->
  4 * (step * D * INR (p_n P) * INR (p_d P)) * (finite_sum P f x0 + lam * l1 x0 - low) < tol * tol * INR max_iter ->
  exists r, minimize_svrg P x0 (Some step) (Some (l1norm_sparse_prox (K:=RN) lam)) (Some (eye_ptr (p_d P))) max_iter tol perms = Ok r /\ er_success r = true.
Proof. exact main_C100_svrg_lasso_terminates. Qed.
Print Assumptions C100_svrg_lasso_terminates.

(** lasso with ridge 1/4 on two samples with different supports, alternating orders; then the group lasso *)
Example C99_nonvacuous : problem_wf twin /\ canonical twin /\ lip_losses twin half_sq 1 2 /\ spread twin 2 /\ block_spread twin (eye_ptr (p_d twin)) 2 /\ convex_loss twin half_sq /\ sample_grads twin [0; 0] 2 /\ 0 < p_alpha twin /\
  (forall k, Permutation (swap k) (seq 0 (p_n twin))) /\
  (exists r, 1 / 200 * 2 * (INR (p_n twin) * (20 * 2 + p_alpha twin)) <= 1 /\
    minimize_saga twin [0; 0] (Some (1 / 200)) (Some (l1norm_sparse_prox (K:=RN) (1 / 10))) (Some (eye_ptr (p_d twin))) 4 (1 / 2) swap = Ok r /\ er_success r = true) /\
  exists B r, let groups := [[0; 1]]%Z in group_init groups = Ok groups /\ groups_within (p_d twin) groups /\ group_blocks groups (p_d twin) = Ok ([1; 1]%Z, [0; 2]%nat) /\ make_blocks twin [0; 2]%nat = Ok B /\
    block_spread twin [0; 2]%nat 1 /\ 1 / 200 * 1 * (INR (p_n twin) * (20 * 2 + p_alpha twin)) <= 1 /\
    minimize_saga twin [0; 0] (Some (1 / 200)) (Some (group_sparse_prox (K:=RN) (1 / 10) [1; 1]%Z [0; 2]%nat)) (Some [0; 2]%nat) 4 (1 / 2) swap = Ok r.
Proof.
  destruct twin_ok as (T1 & T2 & T3 & T4 & T5 & T6 & T7 & T8 & T9 & T10). split; [exact T1|]. split; [exact T2|]. split; [exact T3|]. split; [exact T4|]. split; [apply eye_spread; assumption|].
  split; [exact T6|]. split; [exact T7|]. split; [cbn; lra|]. split; [exact swap_perm|]. split; [exact ex_saga_lasso|exact ex_saga_group].
Qed.
Example C100_nonvacuous : problem_wf twin /\ block_dense twin (eye_ptr (p_d twin)) /\ (forall k, Permutation (swap k) (seq 0 (p_n twin))) /\
  exists r, 1 / 200 * 2 * (INR (p_n twin) * (20 * 2 + p_alpha twin)) <= 1 /\
    minimize_svrg twin [0; 0] (Some (1 / 200)) (Some (l1norm_sparse_prox (K:=RN) (1 / 10))) (Some (eye_ptr (p_d twin))) 4 (1 / 2) swap = Ok r /\ er_success r = true.
Proof. split; [apply twin_ok|]. split; [apply eye_dense, twin_ok|]. split; [exact swap_perm|exact ex_svrg_lasso]. Qed.
