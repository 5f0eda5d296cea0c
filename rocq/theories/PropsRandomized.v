(** * Properties of copt/randomized.py: _support_matrix, SAGA, SVRG, VRTOS (C55-C63, C69, C83-C86)

    A reachable state is the state after any list [hist] of sample indices (repetitions allowed, any
    length); random permutations are instances.  [problem_wf]: CSR arrays read in bounds; rows may be
    empty, unsorted or repeat a column index.  [partitions ptr d]: the blocks are consecutive non-empty
    slices covering the d features, as built by the factories of copt/penalty.py. *)
From Coq Require Import ZArith QArith Bool List Lia Permutation Reals Lra.
From Verif Require Import Num Vec Spec SpecSparse RVec ConvexFacts ModelPenalty PenaltyFacts PenaltyFacts2 PenaltyFacts3 ModelRandomized SpecFiniteSum ProxGradMain SplittingRuns RandomizedMain RandomizedMain2 RandomizedMain3 RandomizedMain4 RandomizedMain5 RandomizedRuns RandomizedRuns2.
Import ListNotations.
Local Notation zero := (n0 : carrier F64).
Local Notation one := (n1 : carrier F64).
Local Notation half := (nlit (K:=F64) 1 2).
Local Open Scope nat_scope.

(** C55: support matrix *)
Theorem C55_support_rows : forall (n d nb : nat) (indices indptr rb : list nat),
  csr_wf n d indices indptr -> d <= length rb -> (forall c, c < d -> nth c rb 0 < nb) ->
  exists bsi bsp, support_matrix indices indptr rb nb = Ok (bsi, bsp) /\
    length bsp = S n /\ nth 0 bsp 0 = 0 /\ nth n bsp 0 = length bsi /\ (forall i, i < n -> nth i bsp 0 <= nth (S i) bsp 0) /\
    (forall i, i < n -> csr_row bsi bsp i = firsts (map (fun c => nth c rb 0) (csr_row indices indptr i))) /\
    (forall i, i < n -> NoDup (csr_row bsi bsp i)) /\
    (forall i h, i < n -> (In h (csr_row bsi bsp i) <-> exists c, In c (csr_row indices indptr i) /\ nth c rb 0 = h)).
Proof. exact main_C55_support_rows. Qed.
Print Assumptions C55_support_rows.
Theorem C55_block_map : forall (ptr : list nat) (d : nat), partitions ptr d ->
  length (rblocks ptr) = d /\
  forall c h, c < d -> (nth c (rblocks ptr) 0 = h <-> S h < length ptr /\ In c (blk ptr h)).
Proof. exact main_C55_block_map. Qed.
Print Assumptions C55_block_map.
Theorem C55_make_blocks : forall (K : Num) (P : problem K) (ptr : list nat), problem_wf P -> partitions ptr (p_d P) ->
  ((forall i, i < p_n P -> csr_row (p_indices P) (p_indptr P) i = []) -> make_blocks P ptr = Err ValueError) /\
  ((exists i, i < p_n P /\ csr_row (p_indices P) (p_indptr P) i <> []) ->
   exists B, make_blocks P ptr = Ok B /\ k_ptr B = ptr /\
     forall i h, i < p_n P -> (In h (csr_row (k_bsi B) (k_bsp B) i) <->
       S h < length ptr /\ exists c, In c (csr_row (p_indices P) (p_indptr P) i) /\ In c (blk ptr h))).
Proof. exact main_C55_make_blocks. Qed.
Print Assumptions C55_make_blocks.
Example C55_nonvacuous : csr_wf 2 3 [2; 0; 2]%nat [0; 3; 3]%nat /\
  support_matrix [2; 0; 2]%nat [0; 3; 3]%nat [0; 0; 1]%nat 2 = Ok ([1; 0]%nat, [0; 2; 2]%nat).
Proof. split; [unfold csr_wf; wf_solve|reflexivity]. Qed.

(** C56: weights *)
Theorem C56_weights : forall (K : Num) (P : problem K) (ptr : list nat) (B : blocks K) (h : nat),
  problem_wf P -> partitions ptr (p_d P) -> make_blocks P ptr = Ok B ->
  let users := filter (fun i => if in_dec Nat.eq_dec h (csr_row (k_bsi B) (k_bsp B) i) then true else false) (seq 0 (p_n P)) in
  (users <> [] -> h < length (k_d B) /\ nth h (k_d B) n0 = ndiv K (nofnat (p_n P)) (nofnat (length users))) /\
  (users = [] -> h < length (k_d B) -> nth h (k_d B) n0 = n1).
Proof. exact main_C56_weights. Qed.
Print Assumptions C56_weights.
Theorem C56_weights_mean : forall (P : problem RN) (ptr : list nat) (B : blocks RN) (h : nat),
  problem_wf P -> partitions ptr (p_d P) -> make_blocks P ptr = Ok B ->
  (exists i, i < p_n P /\ In h (csr_row (k_bsi B) (k_bsp B) i)) ->
  (/ INR (p_n P) * Rsum (map (fun i => if in_dec Nat.eq_dec h (csr_row (k_bsi B) (k_bsp B) i) then nth h (k_d B) 0 else 0) (seq 0 (p_n P))) = 1)%R.
Proof. exact main_C56_weights_mean. Qed.
Print Assumptions C56_weights_mean.
Example C56_nonvacuous : problem_wf stale_problem /\ partitions [0; 2]%nat (p_d stale_problem) /\
  exists B, make_blocks stale_problem [0; 2]%nat = Ok B /\ In 0%nat (csr_row (k_bsi B) (k_bsp B) 1).
Proof.
  split; [unfold problem_wf, csr_wf; cbn [stale_problem p_n p_d p_indices p_indptr p_data p_b]; wf_solve|].
  split; [unfold partitions; cbn [length]; split; [reflexivity|]; split; [lia|]; split; [reflexivity|]; intros h Hh; destruct h; [cbn; lia|lia]|].
  eexists. split; [rcomp; reflexivity|]. cbn. auto.
Qed.

(** C69.  The values; that x0 is not modified (line 133: copy) is in PropsMemory.v. *)
Theorem C69_saga_contract : forall (K : Num) (P : problem K) (x0 : vec K) (step : option K) (prox : option (sprox K)) (ptr : option (list nat))
  (max_iter : nat) (tol : K) (perms : nat -> list nat) (r : epoch_result K (saga_state K)),
  minimize_saga P x0 step prox ptr max_iter tol perms = Ok r ->
  exists (st : K) (B : blocks K) (states : nat -> saga_state K),
    step = Some st /\ make_blocks P (match ptr with Some q => q | None => eye_ptr (p_d P) end) = Ok B /\
    states 0 = mkSaga x0 (vzeros (p_n P)) (vzeros (p_d P)) (vzeros (p_d P)) /\
    (forall k, k <= er_nit r -> saga_epoch P B (match prox with Some q => q | None => no_prox end) st (perms k) (states k) = Ok (states (S k))) /\
    er_nit r < max_iter /\ er_x r = sa_x (states (S (er_nit r))) /\
    er_log r = rev (map states (seq 0 (S (S (er_nit r))))) /\
    (forall k, k < er_nit r -> nltb K (vnorm1 (vsub (sa_x (states (S k))) (sa_x (states k)))) tol = false) /\
    er_success r = nltb K (vnorm1 (vsub (sa_x (states (S (er_nit r)))) (sa_x (states (er_nit r))))) tol /\
    (er_success r = false -> S (er_nit r) = max_iter).
Proof. exact main_C69_saga_contract. Qed.
Print Assumptions C69_saga_contract.
Theorem C69_svrg_contract : forall (K : Num) (P : problem K) (x0 : vec K) (step : option K) (prox : option (sprox K)) (ptr : option (list nat))
  (max_iter : nat) (tol : K) (perms : nat -> list nat) (r : epoch_result K (vec K * vec K)),
  minimize_svrg P x0 step prox ptr max_iter tol perms = Ok r ->
  exists (st : K) (B : blocks K) (states : nat -> vec K * vec K),
    step = Some st /\ make_blocks P (match ptr with Some q => q | None => eye_ptr (p_d P) end) = Ok B /\
    states 0 = (x0, vzeros (p_d P)) /\
    (forall k, k <= er_nit r -> exists g, full_grad P (fst (states k)) = Ok g /\
       svrg_epoch P B (match prox with Some q => q | None => no_prox end) st (fst (states k)) g (perms k) (states k) = Ok (states (S k))) /\
    er_nit r < max_iter /\ er_x r = fst (states (S (er_nit r))) /\
    er_log r = rev (map states (seq 0 (S (S (er_nit r))))) /\
    (forall k, k < er_nit r -> nltb K (vnorm1 (vsub (fst (states (S k))) (fst (states k)))) tol = false) /\
    er_success r = nltb K (vnorm1 (vsub (fst (states (S (er_nit r)))) (fst (states (er_nit r))))) tol /\
    (er_success r = false -> S (er_nit r) = max_iter).
Proof. exact main_C69_svrg_contract. Qed.
Print Assumptions C69_svrg_contract.
Theorem C69_degenerate : forall (K : Num) (P : problem K) (x0 : vec K) (step : option K) (prox : option (sprox K)) (ptr : option (list nat)) (tol : K) (perms : nat -> list nat) (max_iter : nat),
  minimize_saga P x0 None prox ptr max_iter tol perms = Err ValueError /\ minimize_svrg P x0 None prox ptr max_iter tol perms = Err ValueError /\
  (forall r, minimize_saga P x0 step prox ptr 0 tol perms <> Ok r) /\ (forall r, minimize_svrg P x0 step prox ptr 0 tol perms <> Ok r).
Proof. exact main_C69_degenerate. Qed.
Print Assumptions C69_degenerate.
Example C69_nonvacuous : exists rs, minimize_saga (K:=F64) one_problem [n1] (Some (nlit 1 2)) None None 3 (nlit 1 2) (fun _ => [0%nat]) = Ok rs /\ er_success rs = true.
Proof. apply run_check. vm_compute. reflexivity. Qed.

Local Open Scope R_scope.
(** C57: the memory of SAGA, in every reachable state and so in every state of a run *)
Theorem C57_saga_memory : forall (P : problem RN) (ptr : list nat) (B : blocks RN) (prox : sprox RN) (step : R) (x0 : list R) (hist : list nat) (s : saga_state RN),
  problem_wf P -> partitions ptr (p_d P) -> make_blocks P ptr = Ok B -> in_place prox -> length x0 = p_d P ->
  Forall (fun i => (i < p_n P)%nat) hist -> saga_epoch P B prox step hist (saga_init P x0) = Ok s ->
  (forall j, (j < p_d P)%nat -> nth j (sa_avg s) 0 = / INR (p_n P) * Rsum (map (fun i => nth i (sa_mem s) 0 * ent P i j) (seq 0 (p_n P)))) /\
  sa_tmp s = repeat 0 (p_d P) /\
  (forall i, (i < p_n P)%nat -> ~ In i hist -> nth i (sa_mem s) 0 = 0) /\
  (forall i h1 h2, (i < p_n P)%nat -> hist = h1 ++ i :: h2 -> ~ In i h2 ->
     exists s1, saga_epoch P B prox step h1 (saga_init P x0) = Ok s1 /\ nth i (sa_mem s) 0 = p_fd P (adot P i (sa_x s1)) (nth i (p_b P) 0)).
Proof. exact main_C57_saga_memory. Qed.
Print Assumptions C57_saga_memory.
Theorem C57_saga_runs : forall (K : Num) (P : problem K) (x0 : vec K) (step : K) (prox : option (sprox K)) (ptr : option (list nat))
  (max_iter : nat) (tol : K) (perms : nat -> list nat) (r : epoch_result K (saga_state K)) (s : saga_state K),
  minimize_saga P x0 (Some step) prox ptr max_iter tol perms = Ok r -> In s (er_log r) ->
  exists (B : blocks K) (k : nat), make_blocks P (match ptr with Some q => q | None => eye_ptr (p_d P) end) = Ok B /\
    saga_epoch P B (match prox with Some q => q | None => no_prox end) step (concat (map perms (seq 0 k))) (saga_init P x0) = Ok s.
Proof. exact main_C57_saga_runs. Qed.
Print Assumptions C57_saga_runs.
Example C57_nonvacuous : exists s, saga_epoch lasso1 lasso1_B (l1norm_sparse_prox (K:=RN) 1) 1 ([0] ++ [0])%nat (saga_init lasso1 [1]) = Ok s.
Proof. destruct ex_saga as (s & _ & _ & _ & _ & _ & _ & E & _). exists s. exact E. Qed.

(** C58.  Full property (false as stated, for all data): the average over the samples of the SAGA
    direction is the gradient on every feature of a touched block.  Proved for data without repeated
    column indices in a row; the code assigns grad_tmp[j] = ... instead of adding, so with an entry
    stored twice the direction is 2 and the gradient 4. *)
Theorem C58_saga_step_then_prox : forall (K : Num) (P : problem K) (B : blocks K) (prox : sprox K) (step : K) (i : nat) (s s1 : saga_state K),
  saga_sample P B no_prox step i s = Ok s1 ->
  saga_sample P B prox step i s = (x2 <- prox (sa_x s1) i (k_bsi B) (k_bsp B) (k_d B) step ;; Ok (mkSaga x2 (sa_mem s1) (sa_avg s1) (sa_tmp s1))).
Proof. exact main_C58_saga_step_then_prox. Qed.
Print Assumptions C58_saga_step_then_prox.
Theorem C58_saga_unbiased_partial : forall (P : problem RN) (ptr : list nat) (B : blocks RN) (prox : sprox RN) (step : R) (x0 : list R) (hist : list nat) (s : saga_state RN) (j : nat),
  problem_wf P -> canonical P -> partitions ptr (p_d P) -> make_blocks P ptr = Ok B -> in_place prox -> length x0 = p_d P ->
  Forall (fun i => (i < p_n P)%nat) hist -> saga_epoch P B prox step hist (saga_init P x0) = Ok s -> touched P ptr j ->
  exists dir : nat -> list R,
    (forall i, (i < p_n P)%nat -> exists s1, saga_sample P B no_prox step i s = Ok s1 /\ length (sa_x s1) = p_d P /\
       forall c, (c < p_d P)%nat -> nth c (sa_x s1) 0 = nth c (sa_x s) 0 - step * nth c (dir i) 0) /\
    / INR (p_n P) * Rsum (map (fun i => nth j (dir i) 0) (seq 0 (p_n P))) =
      / INR (p_n P) * Rsum (map (fun i => p_fd P (adot P i (sa_x s)) (nth i (p_b P) 0) * ent P i j) (seq 0 (p_n P))) + p_alpha P * nth j (sa_x s) 0.
Proof. exact main_C58_saga_unbiased_partial. Qed.
Print Assumptions C58_saga_unbiased_partial.
Theorem C58_saga_unbiased_refuted :
  exists (P : problem RN) (B : blocks RN) (x0 : list R) (s : saga_state RN),
    problem_wf P /\ make_blocks P (eye_ptr (p_d P)) = Ok B /\ length x0 = p_d P /\ touched P (eye_ptr (p_d P)) 0 /\
    p_n P = 1%nat /\ p_alpha P = 0 /\
    saga_sample P B no_prox 1 0 (saga_init P x0) = Ok s /\
    nth 0 x0 0 - nth 0 (sa_x s) 0 = 2 /\
    / INR (p_n P) * Rsum (map (fun i => p_fd P (adot P i x0) (nth i (p_b P) 0) * ent P i 0) (seq 0 (p_n P))) = 4.
Proof. exact main_C58_saga_unbiased_refuted. Qed.
Print Assumptions C58_saga_unbiased_refuted.
Example C58_nonvacuous : problem_wf lasso1 /\ canonical lasso1 /\ make_blocks lasso1 (eye_ptr 1) = Ok lasso1_B /\ touched lasso1 (eye_ptr 1) 0 /\
  exists s, saga_epoch lasso1 lasso1_B (l1norm_sparse_prox (K:=RN) 1) 1 [0%nat] (saga_init lasso1 [1]) = Ok s.
Proof.
  destruct ex_saga as (s & A & B & C & D & _). repeat (split; [assumption|]). eexists. unfold saga_epoch. cbn [forM]. change (saga_init lasso1 [1]) with (mkSaga (K:=RN) [1] [0] [0] [0]). rewrite (lasso1_saga 0 0) by auto. reflexivity.
Qed.

(** C59.  Full property (false): the returned point is optimal for all features.  Proved: an update
    changes only the blocks of the sample.  So a feature stored in no sample keeps its initial value:
    with alpha = 1 both solvers return success with a point that is not a minimizer. *)
Theorem C59_saga_local_partial : forall (K : Num) (P : problem K) (ptr : list nat) (B : blocks K) (prox : sprox K) (step : K) (x0 : vec K) (hist : list nat) (s : saga_state K) (j : nat),
  problem_wf P -> partitions ptr (p_d P) -> make_blocks P ptr = Ok B -> in_place prox -> local_prox P ptr B (fun x i a b c _ => prox x i a b c step) -> length x0 = p_d P ->
  Forall (fun i => (i < p_n P)%nat) hist -> saga_epoch P B prox step hist (saga_init P x0) = Ok s ->
  (forall i, In i hist -> ~ sample_block P ptr i j) -> nth j (sa_x s) n0 = nth j x0 n0.
Proof. exact main_C59_saga_local_partial. Qed.
Print Assumptions C59_saga_local_partial.
Theorem C59_svrg_local_partial : forall (K : Num) (P : problem K) (ptr : list nat) (B : blocks K) (prox : sprox K) (step : K) (snap gavg : vec K) (hist : list nat) (x tmp x' tmp' : vec K) (j : nat),
  problem_wf P -> partitions ptr (p_d P) -> make_blocks P ptr = Ok B -> in_place prox -> local_prox P ptr B (fun x i a b c _ => prox x i a b c step) ->
  length snap = p_d P -> length x = p_d P -> length tmp = p_d P -> full_grad P snap = Ok gavg ->
  Forall (fun i => (i < p_n P)%nat) hist -> svrg_epoch P B prox step snap gavg hist (x, tmp) = Ok (x', tmp') ->
  (forall i, In i hist -> ~ sample_block P ptr i j) -> nth j x' n0 = nth j x n0.
Proof. exact main_C59_svrg_local_partial. Qed.
Print Assumptions C59_svrg_local_partial.
Theorem C59_factory_local : forall (P : problem RN) (ptr : list nat) (B : blocks RN) (g : nat -> list R -> R) (prox : sprox RN) (step : R),
  problem_wf P -> partitions ptr (p_d P) -> make_blocks P ptr = Ok B -> sparse_prox_of P ptr B g prox -> 0 <= step ->
  local_prox P ptr B (fun x i a b c _ => prox x i a b c step).
Proof. exact main_C59_factory_local. Qed.
Print Assumptions C59_factory_local.
Theorem C59_optimal_refuted : forall (step tol : R) (max_iter : nat) (perms : nat -> list nat),
  0 < tol -> perms 0%nat = [0%nat] ->
  exists (P : problem RN) (f : R -> R -> R) (x0 : list R) (rs : epoch_result RN (saga_state RN)) (rv : epoch_result RN (vec RN * vec RN)),
    problem_wf P /\ canonical P /\ length x0 = p_d P /\ 0 < p_alpha P /\
    (forall p q b, f q b >= f p b + p_fd P p b * (q - p)) /\ (forall p b, derivable_pt_lim (fun q => f q b) p (p_fd P p b)) /\
    minimize_saga P x0 (Some step) None None (S max_iter) tol perms = Ok rs /\ er_success rs = true /\
    minimize_svrg P x0 (Some step) None None (S max_iter) tol perms = Ok rv /\ er_success rv = true /\
    exists y, length y = p_d P /\ finite_sum P f y < finite_sum P f (er_x rs) /\ finite_sum P f y < finite_sum P f (er_x rv).
Proof. exact main_C59_optimal_refuted. Qed.
Print Assumptions C59_optimal_refuted.
Example C59_nonvacuous : problem_wf untouched_problem /\ ~ sample_block untouched_problem (eye_ptr 2) 0 1.
Proof.
  split; [exact untouched_wf|]. intros (h & c & Hh & H1 & H2 & H3). cbn in H3. destruct H3 as [<-|[]].
  destruct h as [|[|h]]; cbn in *; try lia; destruct H1 as [H1|[]], H2 as [H2|[]]; discriminate.
Qed.

(** C60.  Full property (false for blocks larger than one feature): the SVRG direction is unbiased.
    grad_tmp is never cleared: proved the exact bias, share * grad_tmp[j], where share = 0 when every
    sample of the block stores feature j; so unbiased for separable penalties. *)
Theorem C60_svrg_bias_partial : forall (P : problem RN) (ptr : list nat) (B : blocks RN) (step : R) (snap gavg x tmp : list R) (xs : nat -> vec RN * vec RN) (j : nat),
  problem_wf P -> canonical P -> partitions ptr (p_d P) -> make_blocks P ptr = Ok B ->
  length snap = p_d P -> length x = p_d P -> length tmp = p_d P -> full_grad P snap = Ok gavg ->
  (forall i, (i < p_n P)%nat -> svrg_sample P B no_prox step snap gavg i (x, tmp) = Ok (xs i)) -> touched P ptr j ->
  exists share, 0 <= share <= 1 /\
    ((forall i, (i < p_n P)%nat -> sample_block P ptr i j -> In j (csr_row (p_indices P) (p_indptr P) i)) -> share = 0) /\
    / INR (p_n P) * Rsum (map (fun i => nth j x 0 - nth j (fst (xs i)) 0) (seq 0 (p_n P))) =
    step * (/ INR (p_n P) * Rsum (map (fun i => p_fd P (adot P i x) (nth i (p_b P) 0) * ent P i j) (seq 0 (p_n P))) + p_alpha P * nth j x 0 + share * nth j tmp 0).
Proof. exact main_C60_svrg_bias_partial. Qed.
Print Assumptions C60_svrg_bias_partial.
Theorem C60_svrg_unbiased_separable_partial : forall (P : problem RN) (B : blocks RN) (step : R) (snap gavg x tmp : list R) (hist : list nat) (xs : nat -> vec RN * vec RN) (prox : sprox RN) (j : nat),
  problem_wf P -> canonical P -> make_blocks P (eye_ptr (p_d P)) = Ok B -> in_place prox ->
  length snap = p_d P -> full_grad P snap = Ok gavg -> Forall (fun i => (i < p_n P)%nat) hist ->
  (exists t0 : list R, length t0 = p_d P /\ svrg_epoch P B prox step snap gavg hist (snap, t0) = Ok (x, tmp)) ->
  (forall i, (i < p_n P)%nat -> svrg_sample P B no_prox step snap gavg i (x, tmp) = Ok (xs i)) -> touched P (eye_ptr (p_d P)) j ->
  / INR (p_n P) * Rsum (map (fun i => nth j x 0 - nth j (fst (xs i)) 0) (seq 0 (p_n P))) =
  step * (/ INR (p_n P) * Rsum (map (fun i => p_fd P (adot P i x) (nth i (p_b P) 0) * ent P i j) (seq 0 (p_n P))) + p_alpha P * nth j x 0).
Proof. exact main_C60_svrg_unbiased_separable_partial. Qed.
Print Assumptions C60_svrg_unbiased_separable_partial.
Theorem C60_svrg_unbiased_refuted :
  exists (P : problem RN) (ptr : list nat) (B : blocks RN) (snap gavg x tmp x1 tmp1 x2 tmp2 : list R),
    problem_wf P /\ canonical P /\ partitions ptr (p_d P) /\ make_blocks P ptr = Ok B /\ length snap = p_d P /\
    p_n P = 2%nat /\ p_alpha P = 0 /\ touched P ptr 1 /\
    full_grad P snap = Ok gavg /\ svrg_epoch P B no_prox 1 snap gavg [0; 1]%nat (snap, zeros (p_d P)) = Ok (x, tmp) /\
    svrg_sample P B no_prox 1 snap gavg 0 (x, tmp) = Ok (x1, tmp1) /\ svrg_sample P B no_prox 1 snap gavg 1 (x, tmp) = Ok (x2, tmp2) /\
    / 2 * ((nth 1 x 0 - nth 1 x1 0) + (nth 1 x 0 - nth 1 x2 0)) = 0 /\
    / INR (p_n P) * Rsum (map (fun i => p_fd P (adot P i x) (nth i (p_b P) 0) * ent P i 1) (seq 0 (p_n P))) = / 4.
Proof. exact main_C60_svrg_unbiased_refuted. Qed.
Print Assumptions C60_svrg_unbiased_refuted.
Example C60_nonvacuous : problem_wf lasso1 /\ canonical lasso1 /\ full_grad lasso1 [1] = Ok [-1] /\
  exists x tmp, svrg_epoch lasso1 lasso1_B (l1norm_sparse_prox (K:=RN) 1) 1 [1] [-1] ([0] ++ [0])%nat ([1], zeros 1) = Ok (x, tmp).
Proof. destruct ex_svrg as (A & B & C & D & E & _). repeat (split; [assumption|]). eauto. Qed.

(** C61: memory of VRTOS and the average z *)
Theorem C61_vrtos_memory : forall (P : problem RN) (ptr1 ptr2 : list nat) (B1 B2 : blocks RN) (prox1 prox2 : sprox RN) (step : R) (x0 : list R) (hist : list nat) (s : vr_state RN),
  problem_wf P -> partitions ptr1 (p_d P) -> partitions ptr2 (p_d P) -> make_blocks P ptr1 = Ok B1 -> make_blocks P ptr2 = Ok B2 ->
  in_place prox1 -> in_place prox2 -> length x0 = p_d P -> Forall (fun i => (i < p_n P)%nat) hist ->
  vr_epoch P B1 B2 prox1 prox2 step hist (vr_init P x0) = Ok s ->
  (forall j, (j < p_d P)%nat -> nth j (vr_avg s) 0 = / INR (p_n P) * Rsum (map (fun i => nth i (vr_mem s) 0 * ent P i j) (seq 0 (p_n P)))) /\
  vr_tmp s = repeat 0 (p_d P) /\
  (forall i, (i < p_n P)%nat -> ~ In i hist -> nth i (vr_mem s) 0 = 0) /\
  (forall i h1 h2, (i < p_n P)%nat -> hist = h1 ++ i :: h2 -> ~ In i h2 ->
     exists s1, vr_epoch P B1 B2 prox1 prox2 step h1 (vr_init P x0) = Ok s1 /\ nth i (vr_mem s) 0 = p_fd P (adot P i (vr_z s1)) (nth i (p_b P) 0)).
Proof. exact main_C61_vrtos_memory. Qed.
Print Assumptions C61_vrtos_memory.
Theorem C61_vrtos_average : forall (K : Num) (P : problem K) (ptr1 ptr2 : list nat) (B1 B2 : blocks K) (prox1 prox2 : sprox K) (step : K) (x0 : vec K) (hist : list nat) (s : vr_state K) (j h1 h2 : nat),
  problem_wf P -> partitions ptr1 (p_d P) -> partitions ptr2 (p_d P) -> make_blocks P ptr1 = Ok B1 -> make_blocks P ptr2 = Ok B2 ->
  in_place prox1 -> in_place prox2 -> length x0 = p_d P -> Forall (fun i => (i < p_n P)%nat) hist ->
  vr_epoch P B1 B2 prox1 prox2 step hist (vr_init P x0) = Ok s ->
  (S h1 < length ptr1)%nat -> In j (blk ptr1 h1) -> (S h2 < length ptr2)%nat -> In j (blk ptr2 h2) ->
  ((exists i, In i hist /\ (sample_block P ptr1 i j \/ sample_block P ptr2 i j)) ->
   let w1 := nth h1 (k_d B1) n0 in let w2 := nth h2 (k_d B2) n0 in
   nth j (vr_z s) n0 = ndiv K (nadd K (nmul K (ndiv K n1 w1) (nth j (vr_y0 s) n0)) (nmul K (ndiv K n1 w2) (nth j (vr_y1 s) n0))) (nadd K (ndiv K n1 w1) (ndiv K n1 w2))) /\
  ((forall i, In i hist -> ~ sample_block P ptr1 i j /\ ~ sample_block P ptr2 i j) ->
   nth j (vr_z s) n0 = nth j x0 n0 /\ nth j (vr_y0 s) n0 = n0 /\ nth j (vr_y1 s) n0 = n0).
Proof. exact main_C61_vrtos_average. Qed.
Print Assumptions C61_vrtos_average.
Example C61_nonvacuous : exists s : vr_state RN, problem_wf vr1 /\ vr_epoch vr1 lasso1_B lasso1_B no_prox no_prox (1/2) [0%nat] (vr_init vr1 [1]) = Ok s.
Proof. destruct ex_vrtos as (s & A & _ & E & _). eauto. Qed.

(** C62.  Full property (false): the reweighting vectors are read in bounds.  They stop at the last
    block that occurs in the data: a feature whose own block (in one structure) is unused but whose
    block in the other structure is used reads past the end.  Proved safe when every feature is stored. *)
Theorem C62_vrtos_safe_partial : forall (K : Num) (P : problem K) (ptr1 ptr2 : list nat) (B1 B2 : blocks K) (prox1 prox2 : sprox K) (step tol : K) (x0 : vec K) (max_iter : nat) (perms : nat -> list nat),
  problem_wf P -> length (p_b P) = p_n P -> partitions ptr1 (p_d P) -> partitions ptr2 (p_d P) -> make_blocks P ptr1 = Ok B1 -> make_blocks P ptr2 = Ok B2 ->
  in_place prox1 -> in_place prox2 -> total_prox P B1 prox1 step -> total_prox P B2 prox2 step ->
  (forall j, (j < p_d P)%nat -> exists i, (i < p_n P)%nat /\ In j (csr_row (p_indices P) (p_indptr P) i)) ->
  nltb K step n0 = false -> length x0 = p_d P -> (0 < p_n P)%nat -> (0 < max_iter)%nat -> (forall k, Forall (fun i => (i < p_n P)%nat) (perms k)) ->
  exists r, minimize_vrtos P x0 step (Some prox1) (Some prox2) (Some ptr1) (Some ptr2) max_iter tol perms = Ok r.
Proof. exact main_C62_vrtos_safe_partial. Qed.
Print Assumptions C62_vrtos_safe_partial.
Theorem C62_vrtos_bounds_refuted :
  problem_wf short_problem /\ canonical short_problem /\ partitions [0; 2]%nat (p_d short_problem) /\
  forall (max_iter : nat) (tol : Q) (perms : nat -> list nat),
  minimize_vrtos short_problem [1%Q; 1%Q] (1#2)%Q None None (Some [0; 2]%nat) None max_iter tol perms = Err IndexError.
Proof. exact main_C62_vrtos_bounds_refuted. Qed.
Print Assumptions C62_vrtos_bounds_refuted.
Example C62_nonvacuous : problem_wf one_problem /\ length (p_b one_problem) = p_n one_problem /\
  forall j, (j < p_d one_problem)%nat -> exists i, (i < p_n one_problem)%nat /\ In j (csr_row (p_indices one_problem) (p_indptr one_problem) i).
Proof. split; [apply main_C63_vrtos_run_refuted|]. split; [reflexivity|]. intros j Hj. exists 0%nat. cbn in *. split; [lia|]. left. lia. Qed.

(** C63.  Full property (false): x0 is left unchanged and tol is honoured.  success is False in every run,
    tol has no effect, and x0 is overwritten by x1.  Proved: what the certificate is. *)
Theorem C63_vrtos_certificate_partial : forall (K : Num) (P : problem K) (x0 : vec K) (step : K) (prox1 prox2 : option (sprox K)) (ptr1 ptr2 : option (list nat))
  (max_iter : nat) (tol : K) (perms : nat -> list nat) (r : vr_result K),
  minimize_vrtos P x0 step prox1 prox2 ptr1 ptr2 max_iter tol perms = Ok r ->
  exists s, hd_error (vs_log r) = Some s /\ vs_x r = vr_z s /\ vs_x0 r = vr_x1 s /\
    vs_cert r = nadd K (vnorm (vsub (vr_x1 s) (vr_z s))) (vnorm (vsub (vr_x2 s) (vr_z s))).
Proof. exact main_C63_vrtos_certificate_partial. Qed.
Print Assumptions C63_vrtos_certificate_partial.
Theorem C63_vrtos_never_succeeds_refuted : forall (K : Num) (P : problem K) (x0 : vec K) (step : K) (prox1 prox2 : option (sprox K)) (ptr1 ptr2 : option (list nat))
  (max_iter : nat) (tol : K) (perms : nat -> list nat) (r : vr_result K),
  minimize_vrtos P x0 step prox1 prox2 ptr1 ptr2 max_iter tol perms = Ok r ->
  vs_success r = false /\ S (vs_nit r) = max_iter /\
  forall tol', minimize_vrtos P x0 step prox1 prox2 ptr1 ptr2 max_iter tol' perms = Ok r.
Proof. exact main_C63_vrtos_never_succeeds_refuted. Qed.
Print Assumptions C63_vrtos_never_succeeds_refuted.
Theorem C63_vrtos_run_refuted :
  problem_wf one_problem /\
  (exists r : vr_result F64, minimize_vrtos one_problem [one] half None None None None 1 half (fun _ => [0%nat]) = Ok r /\ neqb F64 (nth 0 (vs_x0 r) zero) one = false) /\
  (exists r : vr_result F64, minimize_vrtos one_problem [zero] half None None None None 3 half (fun _ => [0%nat]) = Ok r /\
     vs_nit r = 2%nat /\ vs_success r = false /\
     Forall (fun s => nltb F64 (nadd F64 (vnorm (vsub (vr_x1 s) (vr_z s))) (vnorm (vsub (vr_x2 s) (vr_z s)))) half = true) (vs_log r)).
Proof. exact main_C63_vrtos_run_refuted. Qed.
Print Assumptions C63_vrtos_run_refuted.

(** C83: if x does not move during two passes over the data, it minimizes the objective over the
    features that occur in the data; for the lasso, over all of them when all occur *)
Theorem C83_saga_fixed_points : forall (P : problem RN) (ptr : list nat) (B : blocks RN) (g : nat -> list R -> R) (prox : sprox RN) (step : R) (f : R -> R -> R) (x0 : list R)
  (hist pass1 pass2 : list nat) (s s' : saga_state RN),
  problem_wf P -> partitions ptr (p_d P) -> make_blocks P ptr = Ok B -> in_place prox ->
  (forall h, (S h < length ptr)%nat -> convex_on (length (blk ptr h)) (fun _ => True) (g h)) ->
  sparse_prox_of P ptr B g prox -> 0 < step -> (forall p q b, f q b >= f p b + p_fd P p b * (q - p)) -> 0 <= p_alpha P -> (0 < p_n P)%nat -> length x0 = p_d P ->
  Forall (fun i => (i < p_n P)%nat) hist -> saga_epoch P B prox step hist (saga_init P x0) = Ok s ->
  Permutation pass1 (seq 0 (p_n P)) -> Permutation pass2 (seq 0 (p_n P)) ->
  saga_epoch P B prox step (pass1 ++ pass2) s = Ok s' ->
  (forall h1 h2 s1, pass1 ++ pass2 = h1 ++ h2 -> saga_epoch P B prox step h1 s = Ok s1 -> sa_x s1 = sa_x s) ->
  forall y : list R, length y = p_d P -> (forall j, (j < p_d P)%nat -> ~ touched P ptr j -> nth j y 0 = nth j (sa_x s) 0) ->
  finite_sum P f (sa_x s) + block_penalty ptr g (sa_x s) <= finite_sum P f y + block_penalty ptr g y.
Proof. exact main_C83_saga_fixed_points. Qed.
Print Assumptions C83_saga_fixed_points.
Theorem C83_saga_lasso : forall (P : problem RN) (B : blocks RN) (lam step : R) (f : R -> R -> R) (x0 : list R) (hist pass1 pass2 : list nat) (s s' : saga_state RN),
  problem_wf P -> make_blocks P (eye_ptr (p_d P)) = Ok B -> 0 <= lam ->
  0 < step -> (forall p q b, f q b >= f p b + p_fd P p b * (q - p)) -> 0 <= p_alpha P -> (0 < p_n P)%nat -> length x0 = p_d P ->
  let prox := l1norm_sparse_prox (K:=RN) lam in
  Forall (fun i => (i < p_n P)%nat) hist -> saga_epoch P B prox step hist (saga_init P x0) = Ok s ->
  Permutation pass1 (seq 0 (p_n P)) -> Permutation pass2 (seq 0 (p_n P)) ->
  saga_epoch P B prox step (pass1 ++ pass2) s = Ok s' ->
  (forall h1 h2 s1, pass1 ++ pass2 = h1 ++ h2 -> saga_epoch P B prox step h1 s = Ok s1 -> sa_x s1 = sa_x s) ->
  (forall j, (j < p_d P)%nat -> exists i, (i < p_n P)%nat /\ In j (csr_row (p_indices P) (p_indptr P) i)) ->
  forall y : list R, length y = p_d P ->
  finite_sum P f (sa_x s) + lam * l1 (sa_x s) <= finite_sum P f y + lam * l1 y.
Proof. exact main_C83_saga_lasso. Qed.
Print Assumptions C83_saga_lasso.
Theorem C83_saga_group : forall (P : problem RN) (B : blocks RN) (lam step : R) (groups : list (list Z)) (data : list Z) (ptr : list nat) (f : R -> R -> R) (x0 : list R) (hist pass1 pass2 : list nat) (s s' : saga_state RN),
  problem_wf P -> group_init groups = Ok groups -> groups_within (p_d P) groups -> group_blocks groups (p_d P) = Ok (data, ptr) ->
  make_blocks P ptr = Ok B -> 0 <= lam ->
  0 < step -> (forall p q b, f q b >= f p b + p_fd P p b * (q - p)) -> 0 <= p_alpha P -> (0 < p_n P)%nat -> length x0 = p_d P ->
  let prox := group_sparse_prox (K:=RN) lam data ptr in
  let pen := block_penalty ptr (fun h v => if existsb (fun g => if list_eq_dec Nat.eq_dec (map Z.to_nat g) (blk ptr h) then true else false) groups then lam * norm2 v else 0) in
  Forall (fun i => (i < p_n P)%nat) hist -> saga_epoch P B prox step hist (saga_init P x0) = Ok s ->
  Permutation pass1 (seq 0 (p_n P)) -> Permutation pass2 (seq 0 (p_n P)) ->
  saga_epoch P B prox step (pass1 ++ pass2) s = Ok s' ->
  (forall h1 h2 s1, pass1 ++ pass2 = h1 ++ h2 -> saga_epoch P B prox step h1 s = Ok s1 -> sa_x s1 = sa_x s) ->
  forall y : list R, length y = p_d P -> (forall j, (j < p_d P)%nat -> ~ touched P ptr j -> nth j y 0 = nth j (sa_x s) 0) ->
  finite_sum P f (sa_x s) + pen (sa_x s) <= finite_sum P f y + pen y.
Proof. exact main_C83_saga_group. Qed.
Print Assumptions C83_saga_group.
Example C83_nonvacuous : exists s, problem_wf lasso1 /\ canonical lasso1 /\ make_blocks lasso1 (eye_ptr 1) = Ok lasso1_B /\ touched lasso1 (eye_ptr 1) 0 /\
  (forall p q b, half_sq q b >= half_sq p b + p_fd lasso1 p b * (q - p)) /\
  saga_epoch lasso1 lasso1_B (l1norm_sparse_prox (K:=RN) 1) 1 [] (saga_init lasso1 [1]) = Ok (saga_init lasso1 [1]) /\
  saga_epoch lasso1 lasso1_B (l1norm_sparse_prox (K:=RN) 1) 1 ([0] ++ [0])%nat (saga_init lasso1 [1]) = Ok s /\
  (forall h1 h2 s1, ([0] ++ [0])%nat = h1 ++ h2 -> saga_epoch lasso1 lasso1_B (l1norm_sparse_prox (K:=RN) 1) 1 h1 (saga_init lasso1 [1]) = Ok s1 -> sa_x s1 = sa_x (saga_init lasso1 [1])) /\
  (forall j, (j < p_d lasso1)%nat -> exists i, (i < p_n lasso1)%nat /\ In j (csr_row (p_indices lasso1) (p_indptr lasso1) i)).
Proof. exact ex_saga. Qed.

(** C84: fixed points of VRTOS, FusedLasso *)
Theorem C84_vrtos_fixed_points : forall (P : problem RN) (ptr1 ptr2 : list nat) (B1 B2 : blocks RN) (g1 g2 : nat -> list R -> R) (prox1 prox2 : sprox RN) (step : R) (f : R -> R -> R) (x0 : list R)
  (hist : list nat) (s : vr_state RN),
  problem_wf P -> partitions ptr1 (p_d P) -> partitions ptr2 (p_d P) -> make_blocks P ptr1 = Ok B1 -> make_blocks P ptr2 = Ok B2 -> in_place prox1 -> in_place prox2 ->
  (forall h, (S h < length ptr1)%nat -> convex_on (length (blk ptr1 h)) (fun _ => True) (g1 h)) ->
  (forall h, (S h < length ptr2)%nat -> convex_on (length (blk ptr2 h)) (fun _ => True) (g2 h)) ->
  sparse_prox_of P ptr1 B1 g1 prox1 -> sparse_prox_of P ptr2 B2 g2 prox2 ->
  0 < step -> (forall p q b, f q b >= f p b + p_fd P p b * (q - p)) -> 0 <= p_alpha P -> (0 < p_n P)%nat -> length x0 = p_d P ->
  Forall (fun i => (i < p_n P)%nat) hist -> vr_epoch P B1 B2 prox1 prox2 step hist (vr_init P x0) = Ok s ->
  (forall i, (i < p_n P)%nat -> nth i (vr_mem s) 0 = p_fd P (adot P i (vr_z s)) (nth i (p_b P) 0)) ->
  (forall i, (i < p_n P)%nat -> exists s', vr_sample P B1 B2 prox1 prox2 step i s = Ok s' /\ vr_z s' = vr_z s /\ vr_y0 s' = vr_y0 s /\ vr_y1 s' = vr_y1 s) ->
  forall y : list R, length y = p_d P -> (forall j, (j < p_d P)%nat -> ~ (touched P ptr1 j /\ touched P ptr2 j) -> nth j y 0 = nth j (vr_z s) 0) ->
  finite_sum P f (vr_z s) + block_penalty ptr1 g1 (vr_z s) + block_penalty ptr2 g2 (vr_z s) <= finite_sum P f y + block_penalty ptr1 g1 y + block_penalty ptr2 g2 y.
Proof. exact main_C84_vrtos_fixed_points. Qed.
Print Assumptions C84_vrtos_fixed_points.
Theorem C84_vrtos_fused_lasso : forall (P : problem RN) (lam : R) (data1 data2 : list Z) (ptr1 ptr2 : list nat) (B1 B2 : blocks RN) (step : R) (f : R -> R -> R) (x0 : list R)
  (hist : list nat) (s : vr_state RN),
  problem_wf P -> (1 <= p_d P)%nat -> fused_blocks_1 (p_d P) = Ok (data1, ptr1) -> fused_blocks_2 (p_d P) = Ok (data2, ptr2) -> 0 <= lam ->
  make_blocks P ptr1 = Ok B1 -> make_blocks P ptr2 = Ok B2 ->
  0 < step -> (forall p q b, f q b >= f p b + p_fd P p b * (q - p)) -> 0 <= p_alpha P -> (0 < p_n P)%nat -> length x0 = p_d P ->
  let prox1 := fused_sparse_prox (K:=RN) lam data1 ptr1 in let prox2 := fused_sparse_prox (K:=RN) lam data2 ptr2 in
  Forall (fun i => (i < p_n P)%nat) hist -> vr_epoch P B1 B2 prox1 prox2 step hist (vr_init P x0) = Ok s ->
  (forall i, (i < p_n P)%nat -> nth i (vr_mem s) 0 = p_fd P (adot P i (vr_z s)) (nth i (p_b P) 0)) ->
  (forall i, (i < p_n P)%nat -> exists s', vr_sample P B1 B2 prox1 prox2 step i s = Ok s' /\ vr_z s' = vr_z s /\ vr_y0 s' = vr_y0 s /\ vr_y1 s' = vr_y1 s) ->
  (forall j, (j < p_d P)%nat -> exists i, (i < p_n P)%nat /\ In j (csr_row (p_indices P) (p_indptr P) i)) ->
  forall y : list R, length y = p_d P -> finite_sum P f (vr_z s) + lam * tv (vr_z s) <= finite_sum P f y + lam * tv y.
Proof. exact main_C84_vrtos_fused_lasso. Qed.
Print Assumptions C84_vrtos_fused_lasso.
Example C84_nonvacuous : exists s : vr_state RN, problem_wf vr1 /\ make_blocks vr1 (eye_ptr 1) = Ok lasso1_B /\
  vr_epoch vr1 lasso1_B lasso1_B no_prox no_prox (1/2) [0%nat] (vr_init vr1 [1]) = Ok s /\ nth 0 (vr_y0 s) 0 = 1 /\
  nth 0 (vr_mem s) 0 = p_fd vr1 (adot vr1 0 (vr_z s)) (nth 0 (p_b vr1) 0) /\
  exists s', vr_sample vr1 lasso1_B lasso1_B no_prox no_prox (1/2) 0 s = Ok s' /\ vr_z s' = vr_z s /\ vr_y0 s' = vr_y0 s /\ vr_y1 s' = vr_y1 s.
Proof. exact ex_vrtos. Qed.

(** C85: SAGA and SVRG never raise on data with a stored entry (without one: ValueError, C55_make_blocks) *)
Theorem C85_saga_total : forall (K : Num) (P : problem K) (ptr : list nat) (B : blocks K) (prox : sprox K) (step tol : K) (x0 : vec K) (max_iter : nat) (perms : nat -> list nat),
  problem_wf P -> partitions ptr (p_d P) -> make_blocks P ptr = Ok B -> in_place prox -> total_prox P B prox step ->
  length x0 = p_d P -> (0 < max_iter)%nat -> (forall k, Forall (fun i => (i < p_n P)%nat) (perms k)) ->
  exists r, minimize_saga P x0 (Some step) (Some prox) (Some ptr) max_iter tol perms = Ok r.
Proof. exact main_C85_saga_total. Qed.
Print Assumptions C85_saga_total.
Theorem C85_svrg_total : forall (K : Num) (P : problem K) (ptr : list nat) (B : blocks K) (prox : sprox K) (step tol : K) (x0 : vec K) (max_iter : nat) (perms : nat -> list nat),
  problem_wf P -> partitions ptr (p_d P) -> make_blocks P ptr = Ok B -> in_place prox -> total_prox P B prox step ->
  length x0 = p_d P -> (0 < max_iter)%nat -> (forall k, Forall (fun i => (i < p_n P)%nat) (perms k)) ->
  exists r, minimize_svrg P x0 (Some step) (Some prox) (Some ptr) max_iter tol perms = Ok r.
Proof. exact main_C85_svrg_total. Qed.
Print Assumptions C85_svrg_total.
Theorem C85_factory_total : forall (P : problem RN) (ptr : list nat) (B : blocks RN) (g : nat -> list R -> R) (prox : sprox RN) (step : R),
  sparse_prox_of P ptr B g prox -> 0 <= step -> total_prox P B prox step.
Proof. exact main_C85_factory_total. Qed.
Print Assumptions C85_factory_total.

(** C86: fixed points of SVRG *)
Theorem C86_svrg_fixed_points : forall (P : problem RN) (ptr : list nat) (B : blocks RN) (g : nat -> list R -> R) (prox : sprox RN) (step : R) (f : R -> R -> R) (x0 : list R)
  (epochs : list (list nat)) (pass1 pass2 : list nat) (x t gavg : list R) (s' : vec RN * vec RN),
  problem_wf P -> partitions ptr (p_d P) -> make_blocks P ptr = Ok B -> in_place prox ->
  (forall h, (S h < length ptr)%nat -> convex_on (length (blk ptr h)) (fun _ => True) (g h)) ->
  sparse_prox_of P ptr B g prox -> 0 < step -> (forall p q b, f q b >= f p b + p_fd P p b * (q - p)) -> 0 <= p_alpha P -> (0 < p_n P)%nat -> length x0 = p_d P ->
  Forall (Forall (fun i => (i < p_n P)%nat)) epochs ->
  forM epochs (fun idx s => gavg <- full_grad P (fst s) ;; svrg_epoch P B prox step (fst s) gavg idx s) (x0, zeros (p_d P)) = Ok (x, t) ->
  Permutation pass1 (seq 0 (p_n P)) -> Permutation pass2 (seq 0 (p_n P)) ->
  full_grad P x = Ok gavg -> svrg_epoch P B prox step x gavg (pass1 ++ pass2) (x, t) = Ok s' ->
  (forall h1 h2 s1, pass1 ++ pass2 = h1 ++ h2 -> svrg_epoch P B prox step x gavg h1 (x, t) = Ok s1 -> fst s1 = x) ->
  forall y : list R, length y = p_d P -> (forall j, (j < p_d P)%nat -> ~ touched P ptr j -> nth j y 0 = nth j x 0) ->
  finite_sum P f x + block_penalty ptr g x <= finite_sum P f y + block_penalty ptr g y.
Proof. exact main_C86_svrg_fixed_points. Qed.
Print Assumptions C86_svrg_fixed_points.
Example C86_nonvacuous : problem_wf lasso1 /\ canonical lasso1 /\ make_blocks lasso1 (eye_ptr 1) = Ok lasso1_B /\ full_grad lasso1 [1] = Ok [-1] /\
  svrg_epoch lasso1 lasso1_B (l1norm_sparse_prox (K:=RN) 1) 1 [1] [-1] ([0] ++ [0])%nat ([1], zeros 1) = Ok ([1], [0]) /\
  (forall h1 h2 s1, ([0] ++ [0])%nat = h1 ++ h2 -> svrg_epoch lasso1 lasso1_B (l1norm_sparse_prox (K:=RN) 1) 1 [1] [-1] h1 ([1], zeros 1) = Ok s1 -> fst s1 = [1]).
Proof. exact ex_svrg. Qed.
