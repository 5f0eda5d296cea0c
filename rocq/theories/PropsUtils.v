(** * Property theorems: copt/utils.py helpers (C27-C31, C76).  Statements only. *)
From Coq Require Import ZArith QArith Reals List Bool Lra Lia Permutation.
From Verif Require Import Num Vec Spec SpecSparse RVec ModelUtils ModelUtilsArr UtilsMain UtilsAdd.
Import ListNotations.
Open Scope R_scope.

(** C27.  Full property (false): besides a callable jac and jac=True, jac="2-point"/False gives a
    finite-difference gradient of a scalar objective.  The first two modes are proved; the last
    one never works. *)
Theorem C27_jac_partial : forall (K : Num) (fn : vec K -> pyret K),
  (forall jac, exists fg, build_func_grad (JCallable jac) fn = Ok fg /\
     forall x, fg x = Ok (Some (fn x, jac x))) /\
  (exists fg, build_func_grad JTrue fn = Ok fg /\
     forall x f g, fn x = RetPair f g -> fg x = Ok (Some (RetScalar f, g))).
Proof. exact main_C27_jac_partial. Qed.
Print Assumptions C27_jac_partial.
Theorem C27_finite_difference_refuted : forall (K : Num) (fn : vec K -> pyret K),
  (forall x, exists f, fn x = RetScalar f) ->
  build_func_grad JFalse fn = Err NotImplementedError /\
  build_func_grad JNone fn = Err NotImplementedError /\
  (exists fg, build_func_grad (JStr str_2point) fn = Ok fg /\ forall x, fg x = Err TypeError).
Proof. exact main_C27_finite_difference_refuted. Qed.
Print Assumptions C27_finite_difference_refuted.
Example C27_nonvacuous : forall x : vec QN, exists f, (fun x : vec QN => RetScalar (vdot x x)) x = RetScalar f.
Proof. intros x. eexists. reflexivity. Qed.

(** C28.  Full property (false): elementwise sum whichever operand is sparse.  [A1 n f] is a 1-D
    array of n entries, [A2 m n f] an m x n array, [Sparse m n f] a scipy.sparse matrix. *)
Theorem C28_sparse_add_partial : forall (K : Num) (n : nat) (u : nat -> K) (w : nat -> nat -> K), (1 <= n)%nat ->
  (* dense 1-D + sparse column or row *)
  (exists h, safe_sparse_add (Dense (A1 n u)) (Sparse n 1 w) = Ok (Dense (A1 n h)) /\
     forall i, (i < n)%nat -> h i = nadd K (u i) (w i 0%nat)) /\
  (exists h, safe_sparse_add (Dense (A1 n u)) (Sparse 1 n w) = Ok (Dense (A1 n h)) /\
     forall i, (i < n)%nat -> h i = nadd K (u i) (w 0%nat i)) /\
  (* sparse row + dense 1-D: a 1 x n result with the same entries *)
  (exists h, safe_sparse_add (Sparse 1 n w) (Dense (A1 n u)) = Ok (Dense (A2 1 n h)) /\
     forall i, (i < n)%nat -> h 0%nat i = nadd K (w 0%nat i) (u i)) /\
  (* both sparse, same shape: sparse result *)
  (forall m w', exists h, safe_sparse_add (Sparse m n w) (Sparse m n w') = Ok (Sparse m n h) /\
     forall i j, h i j = nadd K (w i j) (w' i j)) /\
  (* both dense 1-D *)
  (forall u', exists h, safe_sparse_add (Dense (A1 n u)) (Dense (A1 n u')) = Ok (Dense (A1 n h)) /\
     forall i, (i < n)%nat -> h i = nadd K (u i) (u' i)).
Proof. exact main_C28_sparse_add_partial. Qed.
Print Assumptions C28_sparse_add_partial.
Theorem C28_sparse_add_refuted : forall (K : Num) (n : nat) (u : nat -> K) (w : nat -> nat -> K), (2 <= n)%nat ->
  exists h, safe_sparse_add (Sparse n 1 w) (Dense (A1 n u)) = Ok (Dense (A2 n n h)) /\
    forall i j, (i < n)%nat -> (j < n)%nat -> h i j = nadd K (w i 0%nat) (u j).
Proof. exact main_C28_sparse_add_refuted. Qed.
Print Assumptions C28_sparse_add_refuted.
(** two-dimensional operands: same shape with at most one sparse, and a dense vector added to every row *)
Theorem C28_sparse_add_matrices : forall (K : Num) (m n : nat) (u : nat -> K) (w w' : nat -> nat -> K),
  (* matrices of the same shape, at most one of them sparse *)
  (exists h, safe_sparse_add (Dense (A2 m n w)) (Dense (A2 m n w')) = Ok (Dense (A2 m n h)) /\
     forall i j, (i < m)%nat -> (j < n)%nat -> h i j = nadd K (w i j) (w' i j)) /\
  (exists h, safe_sparse_add (Sparse m n w) (Dense (A2 m n w')) = Ok (Dense (A2 m n h)) /\
     forall i j, (i < m)%nat -> (j < n)%nat -> h i j = nadd K (w i j) (w' i j)) /\
  (exists h, safe_sparse_add (Dense (A2 m n w)) (Sparse m n w') = Ok (Dense (A2 m n h)) /\
     forall i j, (i < m)%nat -> (j < n)%nat -> h i j = nadd K (w i j) (w' i j)) /\
  (* a dense vector is added to every row *)
  (exists h, safe_sparse_add (Dense (A1 n u)) (Dense (A2 m n w)) = Ok (Dense (A2 m n h)) /\
     forall i j, (i < m)%nat -> (j < n)%nat -> h i j = nadd K (u j) (w i j)) /\
  (exists h, safe_sparse_add (Dense (A2 m n w)) (Dense (A1 n u)) = Ok (Dense (A2 m n h)) /\
     forall i j, (i < m)%nat -> (j < n)%nat -> h i j = nadd K (w i j) (u j)) /\
  (exists h, safe_sparse_add (Sparse m n w) (Dense (A1 n u)) = Ok (Dense (A2 m n h)) /\
     forall i j, (i < m)%nat -> (j < n)%nat -> h i j = nadd K (w i j) (u j)).
Proof. exact main_C28_sparse_add_matrices. Qed.
Print Assumptions C28_sparse_add_matrices.
(** operands that do not fit *)
Theorem C28_sparse_add_mismatch : forall (K : Num) (m n m' n' : nat) (u u' : nat -> K) (w w' : nat -> nat -> K),
  (m <> m' \/ n <> n' -> safe_sparse_add (Sparse m n w) (Sparse m' n' w') = Err ValueError) /\
  ((2 <= n)%nat -> (2 <= n')%nat -> n <> n' ->
     safe_sparse_add (Dense (A1 n u)) (Dense (A1 n' u')) = Err ValueError /\
     safe_sparse_add (Dense (A1 n u)) (Sparse n' 1 w') = Err ValueError /\
     safe_sparse_add (Dense (A1 n u)) (Sparse 1 n' w') = Err ValueError /\
     safe_sparse_add (Sparse m n' w) (Dense (A1 n u)) = Err ValueError /\
     safe_sparse_add (Dense (A2 m n w)) (Dense (A2 m n' w')) = Err ValueError /\
     safe_sparse_add (Sparse m n w) (Dense (A2 m n' w')) = Err ValueError).
Proof. exact main_C28_sparse_add_mismatch. Qed.
Print Assumptions C28_sparse_add_mismatch.
(** [[1],[2]] (sparse) + [10, 20]: four entries, among them 1 + 20 *)
Example C28_nonvacuous :
  match safe_sparse_add (K := QN) (Sparse (K := QN) 2 1 (fun i _ => match i return QN with O => 1 | _ => 2 end)%Q)
          (Dense (A1 (K := QN) 2 (fun j => match j return QN with O => 10 | _ => 20 end)%Q)) with
  | Ok (Dense (A2 m n h)) => (m, n, h 0%nat 0%nat, h 0%nat 1%nat, h 1%nat 0%nat, h 1%nat 1%nat) = (2, 2, 11%Q, 21%Q, 12%Q, 22%Q)%nat
  | _ => False
  end.
Proof. reflexivity. Qed.

(** C29: any order of the element writes of the parallel loop gives the same array *)
Theorem C29_sample_batches : forall (n_samples n_batches batch_size : nat) (draw : nat -> list nat) (sched : list (nat * nat)),
  (* every draw is np.random.choice(n_samples, size=batch_size, replace=False) *)
  (forall k, (k < n_batches)%nat -> length (draw k) = batch_size /\ NoDup (draw k) /\ Forall (fun i => (i < n_samples)%nat) (draw k)) ->
  (* any order of the element writes of all loop iterations *)
  Permutation sched (all_writes n_batches batch_size draw) ->
  exists idx, sample_batches n_batches batch_size sched = Ok idx /\
    idx = flat_map draw (seq 0 n_batches) /\
    (forall k, (k < n_batches)%nat ->
       let batch := firstn batch_size (skipn (k * batch_size) idx) in
       batch = draw k /\ NoDup batch /\ Forall (fun i => (i < n_samples)%nat) batch /\ length batch = batch_size).
Proof. exact main_C29_sample_batches. Qed.
Print Assumptions C29_sample_batches.
Example C29_nonvacuous :
  sample_batches 2 2 [(3, 0); (0, 4); (2, 1); (1, 3)]%nat = Ok [4; 3; 1; 0]%nat /\
  Permutation [(3, 0); (0, 4); (2, 1); (1, 3)]%nat
    (all_writes 2 2 (fun k => match k with O => [4; 3] | _ => [1; 0] end)%nat).
Proof.
  split; [reflexivity|]. vm_compute.
  apply (Permutation_trans (l' := [(0, 4); (3, 0); (2, 1); (1, 3)]%nat)); [apply perm_swap|apply perm_skip].
  apply (Permutation_trans (l' := [(3, 0); (1, 3); (2, 1)]%nat)); [apply perm_skip, perm_swap|].
  apply (Permutation_trans (l' := [(1, 3); (3, 0); (2, 1)]%nat)); [apply perm_swap|apply perm_skip, perm_swap].
Qed.

(** C30: index safety in every arithmetic; the dense products over the reals.
    [csr_entry data indptr indices i c] is entry (i, c) of the represented matrix, repeated
    column indices being summed. *)
Theorem C30_in_bounds : forall (K : Num) (data : vec K) (indptr indices : list nat) (d : nat) (idx : list nat) (x w : vec K),
  Forall (csr_row_wf (length data) indptr indices d) idx -> length x = d -> length w = length idx ->
  (exists r, fast_csr_mv data indptr indices x idx = Ok r /\ length r = length idx) /\
  (exists r, fast_csr_vm w data indptr indices d idx = Ok r /\ length r = d).
Proof. exact main_C30_in_bounds. Qed.
Print Assumptions C30_in_bounds.
Theorem C30_matvec : forall (data : list R) (indptr indices : list nat) (x : list R) (idx : list nat),
  Forall (csr_row_wf (length data) indptr indices (length x)) idx ->
  exists r, fast_csr_mv (K:=RN) data indptr indices x idx = Ok r /\ length r = length idx /\
    forall k, (k < length idx)%nat ->
      nth k r 0 = Rsum (map (fun c => csr_entry data indptr indices (nth k idx 0%nat) c * nth c x 0) (seq 0 (length x))).
Proof. exact main_C30_matvec. Qed.
Print Assumptions C30_matvec.
Theorem C30_vecmat : forall (data : list R) (indptr indices : list nat) (w : list R) (d : nat) (idx : list nat),
  length w = length idx -> Forall (csr_row_wf (length data) indptr indices d) idx ->
  exists r, fast_csr_vm (K:=RN) w data indptr indices d idx = Ok r /\ length r = d /\
    forall c, (c < d)%nat ->
      nth c r 0 = Rsum (map (fun k => nth k w 0 * csr_entry data indptr indices (nth k idx 0%nat) c) (seq 0 (length idx))).
Proof. exact main_C30_vecmat. Qed.
Print Assumptions C30_vecmat.
(** rows [1 0 2+3], [0 4 0] with a repeated column index; index list with repetition *)
Example C30_nonvacuous :
  Forall (csr_row_wf 4 [0;3;4]%nat [2;0;2;1]%nat 3) [1;0;1]%nat /\
  fast_csr_mv (K := QN) [2;1;3;4]%Q [0;3;4]%nat [2;0;2;1]%nat [1;1;(1#2)]%Q [1;0;1]%nat = Ok [4; (7#2); 4]%Q /\
  fast_csr_vm (K := QN) [1;1;2]%Q [2;1;3;4]%Q [0;3;4]%nat [2;0;2;1]%nat 3 [1;0;1]%nat = Ok [1; 12; 5]%Q.
Proof.
  split; [|split; vm_compute; reflexivity].
  repeat constructor; simpl; try lia; unfold csr_row; simpl; repeat constructor; lia.
Qed.

(** C31: [run_ops] runs an arbitrary history of array allocations, in-place writes by the solver
    and callback calls. *)
Theorem C31_trace_lengths : forall (K : Num) (V : Type) (f : option (vec K -> V)) (freq : nat) (ops : list (op K)) h t,
  (1 <= freq)%nat ->
  run_ops ops ([], trace_init f freq) = Ok (h, t) ->
  let calls := length (filter (fun o => match o with OpCall _ _ _ => true | _ => false end) ops) in
  let m := ((calls + (freq - 1)) / freq)%nat in
  length (tr_step t) = m /\ length (tr_time t) = m /\
  match f with Some _ => length (tr_fx t) = m | None => length (tr_x t) = m end.
Proof. exact main_C31_trace_lengths. Qed.
Print Assumptions C31_trace_lengths.
Theorem C31_trace_by_value : forall (K : Num) (V : Type) (f : option (vec K -> V)) (freq k : nat)
  (before after : list (op K)) (r : nat) (step delta : K) h' t',
  (1 <= freq)%nat ->
  (* the (k*freq)-th call (counting from 0) of an arbitrary history *)
  run_ops (before ++ OpCall r step delta :: after) ([], trace_init f freq) = Ok (h', t') ->
  length (filter (fun o => match o with OpCall _ _ _ => true | _ => false end) before) = (k * freq)%nat ->
  exists h t w x, run_ops before ([], trace_init f freq) = Ok (h, t) /\
    nth_error h r = Some (w, x) /\           (* x: the content of the solver's array at that call *)
    nth_error (tr_step t') k = Some step /\ nth_error (tr_time t') k = Some delta /\
    match f with
    | Some f => nth_error (tr_fx t') k = Some (f x)
    | None => exists ref, nth_error (tr_x t') k = Some ref /\ nth_error h' ref = Some (OwnTrace, x)
    end.
Proof. exact main_C31_trace_by_value. Qed.
Print Assumptions C31_trace_by_value.
(** three calls with freq = 2 around in-place changes of the solver's array *)
Example C31_nonvacuous :
  run_ops (K := QN) (V := QN) [@OpNew QN [1%Q]; @OpCall QN 0 (1#2)%Q 0%Q; @OpWrite QN 0 [2%Q]; @OpCall QN 0 (1#2)%Q 1%Q; @OpWrite QN 0 [3%Q];
       @OpCall QN 0 (1#3)%Q 2%Q; @OpWrite QN 0 [4%Q]] ([], trace_init None 2)
  = Ok ([(OwnSolver, [4%Q] : vec QN); (OwnTrace, [1%Q]); (OwnTrace, [3%Q])],
        @mkTrace QN QN 3 2 None [1;2]%nat [] [(1#2); (1#3)]%Q [0;2]%Q).
Proof. reflexivity. Qed.

(** C76.  Full property (false): a number is taken as a fixed step, a pair as a pair, and an
    unknown string is rejected. *)
Theorem C76_parse_step_partial :
  (forall a b, parse_step_size (PTuple [a; b]) = Ok (PPair a b)) /\
  parse_step_size PFloat = Ok PFixed /\
  parse_step_size PCallable = Ok (POne PCallable) /\
  (forall s, parse_step_size (PStr s) = Ok (POne (PStr s)) <-> s = str_adaptive) /\
  (forall s, length s <> 2%nat -> s <> str_adaptive -> parse_step_size (PStr s) = Err ValueError) /\
  (forall l, length l <> 2%nat -> parse_step_size (PTuple l) = Err ValueError) /\
  parse_step_size POther = Err ValueError.
Proof. exact main_C76_parse_step_partial. Qed.
Print Assumptions C76_parse_step_partial.
Theorem C76_parse_step_refuted :
  (* an int is not a float: step_size=1 is rejected *)
  parse_step_size PInt = Err ValueError /\
  (* any two-letter string, e.g. "DR", is taken apart *)
  (forall a b, parse_step_size (PStr [a; b]) = Ok (PPair (PStr [a]) (PStr [b]))).
Proof. exact main_C76_parse_step_refuted. Qed.
Print Assumptions C76_parse_step_refuted.
