(** * Model of copt/utils.py: array helpers (safe_sparse_add, sample_batches, fast_csr_vm,
    fast_csr_mv) and the Trace callback *)
From Coq Require Import ZArith Bool List.
From Verif Require Import Num Vec.
Import ListNotations.
Set Implicit Arguments.

(** ** copt/utils.py:60-75  safe_sparse_add
    Arrays of dimension 1 and 2 with numpy broadcasting; an array is its shape and its entries. *)
Section SparseAdd.
Context {K : Num}.
Local Open Scope num_scope.
Inductive arr : Type :=
| A1 (n : nat) (f : nat -> K)
| A2 (m n : nat) (f : nat -> nat -> K).
(** a scipy.sparse matrix is always 2-D *)
Inductive operand : Type := Dense (a : arr) | Sparse (m n : nat) (f : nat -> nat -> K).
(** numpy broadcasting of one axis: resulting extent, and the index read in an operand *)
Definition bc (a b : nat) : result nat :=
  if Nat.eqb a b then Ok a else if Nat.eqb a 1 then Ok b else if Nat.eqb b 1 then Ok a else Err ValueError.
Definition bi (extent i : nat) : nat := if Nat.eqb extent 1 then 0 else i.
(** numpy [a + b] *)
Definition np_add (a b : arr) : result arr :=
  match a, b with
  | A1 n f, A1 k g => e <- bc n k ;; Ok (A1 e (fun i => f (bi n i) + g (bi k i)))
  | A2 m n f, A1 k g => e <- bc n k ;; Ok (A2 m e (fun i j => f i (bi n j) + g (bi k j)))
  | A1 k g, A2 m n f => e <- bc k n ;; Ok (A2 m e (fun i j => g (bi k j) + f i (bi n j)))
  | A2 m n f, A2 m' n' g => e <- bc m m' ;; e' <- bc n n' ;;
      Ok (A2 e e' (fun i j => f (bi m i) (bi n j) + g (bi m' i) (bi n' j)))
  end.
(** ndarray.ravel of a C-ordered array *)
Definition ravel (a : arr) : arr :=
  match a with A1 _ _ => a | A2 m n f => A1 (m * n) (fun k => f (Nat.div k n) (Nat.modulo k n)) end.
Definition ndim (a : arr) : nat := match a with A1 _ _ => 1 | A2 _ _ _ => 2 end.
Definition toarray (m n : nat) (f : nat -> nat -> K) : arr := A2 m n f.
Definition safe_sparse_add (a b : operand) : result operand :=
  match a, b with
  | Sparse m n f, Sparse m' n' g =>                                              (* lines 61-63 *)
      if Nat.eqb m m' && Nat.eqb n n' then Ok (Sparse m n (fun i j => f i j + g i j)) else Err ValueError
  | Sparse m n f, Dense b =>                                                     (* lines 67-70 *)
      let a := toarray m n f in
      (* line 70: the value of [b.ravel()] is dropped *)
      let b := if Nat.eqb (ndim a) 2 && Nat.eqb (ndim b) 1 then b else b in
      c <- np_add a b ;; Ok (Dense c)
  | Dense a, Sparse m n g =>                                                     (* lines 71-74 *)
      let b := toarray m n g in
      let b := if Nat.eqb (ndim b) 2 && Nat.eqb (ndim a) 1 then ravel b else b in
      c <- np_add a b ;; Ok (Dense c)
  | Dense a, Dense b => c <- np_add a b ;; Ok (Dense c)
  end.
End SparseAdd.
Arguments arr K : clear implicits.
Arguments operand K : clear implicits.

(** ** copt/utils.py:78-83  sample_batches
    Iteration k of the parallel loop performs the element writes of the slice assignment; the
    iterations run in parallel, so a run executes some interleaving of all element writes. *)
Definition batch_writes (batch_size : nat) (draw : nat -> list nat) (k : nat) : list (nat * nat) :=
  map (fun j => ((k * batch_size + j)%nat, nth j (draw k) 0)) (seq 0 batch_size).
Definition all_writes (n_batches batch_size : nat) (draw : nat -> list nat) : list (nat * nat) :=
  flat_map (batch_writes batch_size draw) (seq 0 n_batches).
(** [sched]: the order in which the writes happen *)
Definition sample_batches (n_batches batch_size : nat) (sched : list (nat * nat)) : result (list nat) :=
  forM sched (fun w idx => set idx (fst w) (snd w)) (repeat 0 (n_batches * batch_size)).

Section Csr.
Context {K : Num}.
Local Open Scope num_scope.
(** Python [enumerate] *)
Definition enumerate {A} (l : list A) : list (nat * A) := combine (seq 0 (length l)) l.
(** ** copt/utils.py:86-107  fast_csr_vm *)
Definition fast_csr_vm (x data : vec K) (indptr indices : list nat) (d : nat) (idx : list nat) : result (vec K) :=
  if negb (Nat.eqb (length x) (length idx)) then Err AssertionError else
  forM (enumerate idx) (fun ki res =>
    let '(k, i) := ki in
    lo <- get indptr i ;; hi <- get indptr (S i) ;;
    forM (range lo hi) (fun j res =>
      j_idx <- get indices j ;;
      xk <- get x k ;; dj <- get data j ;;
      r <- get res j_idx ;; set res j_idx (r + xk * dj)) res) (vzeros d).
(** ** copt/utils.py:110-128  fast_csr_mv *)
Definition fast_csr_mv (data : vec K) (indptr indices : list nat) (x : vec K) (idx : list nat) : result (vec K) :=
  forM (enumerate idx) (fun ir res =>
    let '(i, row_idx) := ir in
    lo <- get indptr row_idx ;; hi <- get indptr (S row_idx) ;;
    forM (range lo hi) (fun j res =>
      j_idx <- get indices j ;;
      xj <- get x j_idx ;; dj <- get data j ;;
      r <- get res i ;; set res i (r + xj * dj)) res) (vzeros (length idx)).
End Csr.

(** ** copt/utils.py:143-164  Trace
    Arrays live in a heap; an array reference is its position.  Cells are owned by the solver,
    which may overwrite them at any time, or by the Trace object, whose references are never
    passed to the solver ([trace_x] is not in [dl]). *)
Section Trace.
Context {K : Num} {V : Type}.
Inductive owner : Type := OwnSolver | OwnTrace.
Definition heap := list (owner * vec K).
Record trace : Type := mkTrace {
  tr_counter : nat; tr_freq : nat; tr_f : option (vec K -> V);
  tr_x : list nat;             (* trace_x: references, oldest first *)
  tr_fx : list V; tr_step : list K; tr_time : list K
}.
(** lines 145-153 *)
Definition trace_init (f : option (vec K -> V)) (freq : nat) : trace := mkTrace 0 freq f [] [] [] [].
(** lines 155-164: call with [dl["x"] = x_ref], [dl["step_size"] = step], elapsed time [delta] *)
Definition trace_call (h : heap) (t : trace) (x_ref : nat) (step delta : K) : result (heap * trace) :=
  if Nat.eqb (tr_freq t) 0 then Err ZeroDivisionError else
  if Nat.eqb (Nat.modulo (tr_counter t) (tr_freq t)) 0 then
    '(_, x) <- get h x_ref ;;
    match tr_f t with
    | Some f => Ok (h, mkTrace (S (tr_counter t)) (tr_freq t) (tr_f t) (tr_x t) (tr_fx t ++ [f x])
                         (tr_step t ++ [step]) (tr_time t ++ [delta]))
    | None => Ok (h ++ [(OwnTrace, x)],                     (* .copy() allocates a new array *)
                  mkTrace (S (tr_counter t)) (tr_freq t) (tr_f t) (tr_x t ++ [length h]) (tr_fx t)
                         (tr_step t ++ [step]) (tr_time t ++ [delta]))
    end
  else Ok (h, mkTrace (S (tr_counter t)) (tr_freq t) (tr_f t) (tr_x t) (tr_fx t) (tr_step t) (tr_time t)).

(** what the rest of the program can do between two calls *)
Inductive op : Type :=
| OpNew (v : vec K)                          (* the solver allocates an array *)
| OpWrite (r : nat) (v : vec K)              (* the solver overwrites one of its arrays in place *)
| OpCall (r : nat) (step delta : K).         (* callback(locals()) *)
Definition run_op (o : op) (s : heap * trace) : result (heap * trace) :=
  let '(h, t) := s in
  match o with
  | OpNew v => Ok (h ++ [(OwnSolver, v)], t)
  | OpWrite r v => '(o, _) <- get h r ;;
      match o with OwnSolver => Ok (upd h r (OwnSolver, v), t) | OwnTrace => Err TypeError end
  | OpCall r step delta => trace_call h t r step delta
  end.
(** a run: the final heap and trace *)
Definition run_ops (ops : list op) (s : heap * trace) : result (heap * trace) := forM ops run_op s.
End Trace.
Arguments heap K : clear implicits.
Arguments op K : clear implicits.
Arguments trace K V : clear implicits.
