(** * Model of copt/randomized.py: _support_matrix, minimize_saga, minimize_svrg, minimize_vrtos

    Random draws are inputs: [perms it] is the order of the samples in epoch [it], i.e. the value
    of [idx] after [np.random.shuffle(idx)], or of [np.random.permutation(n_samples)].  [f_deriv],
    called on arrays of length one, is a function of two numbers.  Arrays mutated in place are
    passed and returned.  Every array access is checked; the compiled code does not check.  The
    value returned by a callback is ignored by these solvers; the record of the calls is [log].
    Progress messages and the conversion of dense data to CSR are not modelled: [A] is given by
    [data], [indices], [indptr] and its shape. *)
From Coq Require Import ZArith Bool List.
From Verif Require Import Num Vec SpecSparse.
Import ListNotations.
Set Implicit Arguments.

(** ** copt/randomized.py:10-55  _support_matrix (BS_data = ones(counter_indptr) is not returned) *)
Record bs_state : Type := mkBs {
  bs_idx : list nat;      (* BS_indices *)
  bs_p : list nat;        (* BS_indptr *)
  bs_seen : list nat;     (* seen_blocks *)
  bs_count : nat          (* counter_indptr *)
}.
(** lines 42-48: one stored entry [j] *)
Definition support_entry (A_indices rblocks : list nat) (j : nat) (s : bs_state) : result bs_state :=
  c <- get A_indices j ;;
  g_idx <- get rblocks c ;;
  seen <- get (bs_seen s) g_idx ;;
  if Nat.eqb seen 0 then
    idx <- set (bs_idx s) (bs_count s) g_idx ;;
    seen' <- set (bs_seen s) g_idx 1%nat ;;
    Ok (mkBs idx (bs_p s) seen' (S (bs_count s)))
  else Ok s.
(** lines 39-52: one row *)
Definition support_row (A_indices A_indptr rblocks : list nat) (i : nat) (s : bs_state) : result bs_state :=
  low <- get A_indptr i ;;
  high <- get A_indptr (S i) ;;
  s1 <- forM (range low high) (support_entry A_indices rblocks) s ;;
  p <- set (bs_p s1) (S i) (bs_count s1) ;;
  from <- get p i ;;
  seen <- forM (range from (bs_count s1)) (fun j seen => g <- get (bs_idx s1) j ;; set seen g 0%nat) (bs_seen s1) ;;
  Ok (mkBs (bs_idx s1) p seen (bs_count s1)).
(** lines 34-38, 53-55 *)
Definition support_matrix (A_indices A_indptr rblocks : list nat) (n_blocks : nat) : result (list nat * list nat) :=
  p <- set (repeat 0%nat (length A_indptr)) 0 0%nat ;;
  s <- forM (range 0 (length A_indptr - 1)) (support_row A_indices A_indptr rblocks)
         (mkBs (repeat 0%nat (length A_indices)) p (repeat 0%nat n_blocks) 0) ;;
  Ok (firstn (bs_count s) (bs_idx s), bs_p s).

(** lines 158, 333, 578, 584: [blocks.T.tocsr().indices] of a block matrix whose column indices are
    0,1,..,n_features-1 (as built by the penalty factories and by sparse.eye): the block of each
    feature *)
Definition rblocks (ptr : list nat) : list nat :=
  flat_map (fun h => map (fun _ => h) (blk ptr h)) (seq 0 (length ptr - 1)).
(** lines 145, 320, 490, 495: [sparse.eye(n_features, n_features, format="csr").indptr] *)
Definition eye_ptr (n : nat) : list nat := seq 0 (S n).

Section Randomized.
Context {K : Num}.
Local Open Scope num_scope.

(** lines 163-169, 338-344, 582-599: [csr_matrix((bs_data, bs_indices, bs_indptr))] with the inferred number of columns
    max(bs_indices) + 1 (ValueError when there is no entry), column sums (all data are 1) and
    diagonal reweighting *)
Definition block_weights (n_samples : nat) (bs_indices : list nat) : result (vec K) :=
  match bs_indices with
  | [] => Err ValueError
  | _ =>
      Ok (map (fun h => let c := count_occ Nat.eq_dec bs_indices h in
                        if Nat.eqb c 0 then n1 else nofnat n_samples / nofnat c)
              (seq 0 (S (list_max bs_indices))))
  end.

(** a sparse proximal operator [prox(x, i, indices, indptr, d, step_size)] working in place on x *)
Definition sprox : Type := vec K -> nat -> list nat -> list nat -> vec K -> K -> result (vec K).
(** lines 147-151: the default *)
Definition no_prox : sprox := fun x _ _ _ _ _ => Ok x.

(** ** Problem data: A (CSR arrays and shape), b, f_deriv, alpha *)
Record problem : Type := mkP {
  p_data : vec K; p_indices : list nat; p_indptr : list nat;
  p_n : nat;                  (* n_samples *)
  p_d : nat;                  (* n_features *)
  p_b : vec K; p_fd : K -> K -> K; p_alpha : K
}.
Variable P : problem.
Let data := p_data P.
Let indices := p_indices P.
Let indptr := p_indptr P.
Let alpha := p_alpha P.

(** [for j in range(A_indptr[i], A_indptr[i+1]): j_idx = A_indices[j]; ... A_data[j] ...] *)
Definition row_loop {St} (i : nat) (body : nat -> K -> St -> result St) (s : St) : result St :=
  lo <- get indptr i ;; hi <- get indptr (S i) ;;
  forM (range lo hi) (fun j s => c <- get indices j ;; a <- get data j ;; body c a s) s.
(** [for h_j in range(bs_indptr[i], bs_indptr[i+1]): h = bs_indices[h_j];
     for b_j in range(blocks_indptr[h], blocks_indptr[h+1]): ...] *)
Definition block_loop {St} (bs_indices bs_indptr ptr : list nat) (i : nat) (body : nat -> nat -> St -> result St) (s : St) : result St :=
  lo <- get bs_indptr i ;; hi <- get bs_indptr (S i) ;;
  forM (range lo hi) (fun hj s =>
    h <- get bs_indices hj ;;
    from <- get ptr h ;; to <- get ptr (S h) ;;
    forM (range from to) (fun bj s => body h bj s) s) s.
(** lines 177-180, 350-353, 366-371, 616-619: the product of row i with a vector *)
Definition row_dot (x : vec K) (i : nat) : result K :=
  row_loop i (fun c a p => xc <- get x c ;; Ok (p + xc * a)) n0.
(** lines 182-184, 375-377, 623-625: [grad_tmp[j_idx] = (grad_i - old) * A_data[j]] *)
Definition set_tmp (i : nat) (diff : K) (g : vec K) : result (vec K) :=
  row_loop i (fun c a g => set g c (diff * a)) g.

(** the block structure used by an epoch *)
Record blocks : Type := mkB { k_ptr : list nat; k_bsi : list nat; k_bsp : list nat; k_d : vec K }.
(** lines 158-169, 333-344, 575-599 *)
Definition make_blocks (ptr : list nat) : result blocks :=
  '(bsi, bsp) <- support_matrix indices indptr (rblocks ptr) (length ptr - 1) ;;
  d <- block_weights (p_n P) bsi ;;
  Ok (mkB ptr bsi bsp d).
(** lines 188-193, 381-386: the gradient step on the blocks of sample i *)
Definition coef_update (B : blocks) (step : K) (gavg gtmp : vec K) (i : nat) (x : vec K) : result (vec K) :=
  block_loop (k_bsi B) (k_bsp B) (k_ptr B) i (fun h bj x =>
    dh <- get (k_d B) h ;;
    ga <- get gavg bj ;; xb <- get x bj ;; gt <- get gtmp bj ;;
    let bias_term := dh * (ga + alpha * xb) in
    set x bj (xb - step * (gt + bias_term))) x.

(** ** minimize_saga, lines 58-224 *)
Record saga_state : Type := mkSaga {
  sa_x : vec K; sa_mem : vec K; sa_avg : vec K; sa_tmp : vec K
}.
(** lines 197-202, 688-692 *)
Definition saga_memory (i : nat) (diff : K) (avg tmp : vec K) : result (vec K * vec K) :=
  row_loop i (fun c a st => let '(avg, tmp) := st in
    g <- get avg c ;; avg' <- set avg c (g + diff * a / nofnat (p_n P)) ;;
    tmp' <- set tmp c n0 ;; Ok (avg', tmp')) (avg, tmp).
(** lines 174-203: one sample *)
Definition saga_sample (B : blocks) (prox : sprox) (step : K) (i : nat) (s : saga_state) : result saga_state :=
  p <- row_dot (sa_x s) i ;;
  bi <- get (p_b P) i ;;
  let grad_i := p_fd P p bi in
  mem_i <- get (sa_mem s) i ;;
  tmp <- set_tmp i (grad_i - mem_i) (sa_tmp s) ;;
  x1 <- coef_update B step (sa_avg s) tmp i (sa_x s) ;;
  x2 <- prox x1 i (k_bsi B) (k_bsp B) (k_d B) step ;;
  '(avg', tmp') <- saga_memory i (grad_i - mem_i) (sa_avg s) tmp ;;
  mem' <- set (sa_mem s) i grad_i ;;
  Ok (mkSaga x2 mem' avg' tmp').
Definition saga_epoch (B : blocks) (prox : sprox) (step : K) (idx : list nat) (s : saga_state) : result saga_state :=
  forM idx (saga_sample B prox step) s.
(** lines 206-208 *)
Definition saga_init (x0 : vec K) : saga_state := mkSaga x0 (vzeros (p_n P)) (vzeros (p_d P)) (vzeros (p_d P)).

(** [ep_log]: the states seen by the callback calls, newest first *)
Record epoch_result (St : Type) : Type := mkER { er_x : vec K; er_success : bool; er_nit : nat; er_log : list St }.
(** lines 213-224; [k] epochs remain *)
Fixpoint saga_loop (B : blocks) (prox : sprox) (step tol : K) (perms : nat -> list nat) (k it : nat)
    (s : saga_state) (log : list saga_state) : result (epoch_result saga_state) :=
  match k with
  | O => Err UnboundLocalError            (* only for max_iter = 0: [it] is unbound at line 224 *)
  | S k' =>
      s' <- saga_epoch B prox step (perms it) s ;;
      let diff_norm := vnorm1 (vsub (sa_x s') (sa_x s)) in
      if diff_norm <? tol then Ok (mkER (sa_x s') true it (s' :: log))
      else match k' with
           | O => Ok (mkER (sa_x s') false it (s' :: log))
           | S _ => saga_loop B prox step tol perms k' (S it) s' (s' :: log)
           end
  end.
(** [ptr]: indptr of the block matrix, [None] when prox is not a pair *)
Definition minimize_saga (x0 : vec K) (step : option K) (prox : option sprox) (ptr : option (list nat))
    (max_iter : nat) (tol : K) (perms : nat -> list nat) : result (epoch_result saga_state) :=
  match step with
  | None => Err ValueError                                                       (* line 139 *)
  | Some step =>
      B <- make_blocks (match ptr with Some q => q | None => eye_ptr (p_d P) end) ;;
      let prox := match prox with Some q => q | None => no_prox end in
      saga_loop B prox step tol perms max_iter 0 (saga_init x0) [saga_init x0]
  end.

(** ** minimize_svrg, lines 227-406 *)
(** lines 346-359: full_grad *)
Definition full_grad (x : vec K) : result (vec K) :=
  forM (range 0 (p_n P)) (fun i grad =>
    p <- row_dot x i ;;
    bi <- get (p_b P) i ;;
    let grad_i := p_fd P p bi in
    row_loop i (fun c a grad => g <- get grad c ;; set grad c (g + grad_i * a / nofnat (p_n P))) grad) (vzeros (length x)).
(** lines 365-387: one sample; the state is (x, grad_tmp), [snap] = x_snapshot *)
Definition svrg_sample (B : blocks) (prox : sprox) (step : K) (snap gavg : vec K) (i : nat) (s : vec K * vec K) : result (vec K * vec K) :=
  let '(x, tmp) := s in
  p <- row_dot x i ;;
  p_old <- row_dot snap i ;;
  bi <- get (p_b P) i ;;
  let grad_i := p_fd P p bi in
  let old_grad_i := p_fd P p_old bi in
  tmp' <- set_tmp i (grad_i - old_grad_i) tmp ;;
  x1 <- coef_update B step gavg tmp' i x ;;
  x2 <- prox x1 i (k_bsi B) (k_bsp B) (k_d B) step ;;
  Ok (x2, tmp').
Definition svrg_epoch (B : blocks) (prox : sprox) (step : K) (snap gavg : vec K) (idx : list nat) (s : vec K * vec K) :=
  forM idx (svrg_sample B prox step snap gavg) s.
(** lines 394-406 *)
Fixpoint svrg_loop (B : blocks) (prox : sprox) (step tol : K) (perms : nat -> list nat) (k it : nat)
    (x tmp : vec K) (log : list (vec K * vec K)) : result (epoch_result (vec K * vec K)) :=
  match k with
  | O => Err UnboundLocalError
  | S k' =>
      gavg <- full_grad x ;;
      '(x', tmp') <- svrg_epoch B prox step x gavg (perms it) (x, tmp) ;;
      if vnorm1 (vsub x' x) <? tol then Ok (mkER x' true it ((x', tmp') :: log))
      else match k' with
           | O => Ok (mkER x' false it ((x', tmp') :: log))
           | S _ => svrg_loop B prox step tol perms k' (S it) x' tmp' ((x', tmp') :: log)
           end
  end.
Definition minimize_svrg (x0 : vec K) (step : option K) (prox : option sprox) (ptr : option (list nat))
    (max_iter : nat) (tol : K) (perms : nat -> list nat) : result (epoch_result (vec K * vec K)) :=
  match step with
  | None => Err ValueError
  | Some step =>
      B <- make_blocks (match ptr with Some q => q | None => eye_ptr (p_d P) end) ;;
      let prox := match prox with Some q => q | None => no_prox end in
      svrg_loop B prox step tol perms max_iter 0 x0 (vzeros (p_d P)) [(x0, vzeros (p_d P))]
  end.

(** ** minimize_vrtos, lines 409-563, and _factory_sparse_vrtos, lines 566-695 *)
Record vr_state : Type := mkVr {
  vr_y0 : vec K; vr_y1 : vec K;       (* Y[0], Y[1] *)
  vr_x1 : vec K;                      (* x1: the array x0 of the caller (line 531) *)
  vr_x2 : vec K;
  vr_z : vec K;
  vr_mem : vec K; vr_avg : vec K; vr_tmp : vec K
}.
(** lines 628-638 and 648-658: one of the two x updates *)
Definition vr_xupdate (B : blocks) (step : K) (z y avg tmp : vec K) (i : nat) (x : vec K) : result (vec K) :=
  block_loop (k_bsi B) (k_bsp B) (k_ptr B) i (fun h bj x =>
    dh <- get (k_d B) h ;;
    ga <- get avg bj ;; zb <- get z bj ;;
    let bias_term := dh * (ga + alpha * zb) in
    yb <- get y bj ;; gt <- get tmp bj ;;
    set x bj (nofZ K 2 * zb - yb - step * nlit 1 2 * (gt + bias_term))) x.
(** lines 643-646 and 663-666 *)
Definition vr_yupdate (B : blocks) (z x : vec K) (i : nat) (y : vec K) : result (vec K) :=
  block_loop (k_bsi B) (k_bsp B) (k_ptr B) i (fun h bj y =>
    xb <- get x bj ;; zb <- get z bj ;; yb <- get y bj ;; set y bj (yb + (xb - zb))) y.
(** lines 669-676 and 678-685: z over the blocks of one structure *)
Definition vr_zupdate (B B1 B2 : blocks) (y0 y1 : vec K) (i : nat) (z : vec K) : result (vec K) :=
  block_loop (k_bsi B) (k_bsp B) (k_ptr B) i (fun h bj z =>
    h1 <- get (rblocks (k_ptr B1)) bj ;; d1 <- get (k_d B1) h1 ;;
    h2 <- get (rblocks (k_ptr B2)) bj ;; d2 <- get (k_d B2) h2 ;;
    let da := n1 / d1 in let db := n1 / d2 in
    a <- get y0 bj ;; b <- get y1 bj ;;
    set z bj ((da * a + db * b) / (da + db))) z.
(** lines 615-693: one sample *)
Definition vr_sample (B1 B2 : blocks) (prox1 prox2 : sprox) (step : K) (i : nat) (s : vr_state) : result vr_state :=
  p <- row_dot (vr_z s) i ;;
  bi <- get (p_b P) i ;;
  let grad_i := p_fd P p bi in
  mem_i <- get (vr_mem s) i ;;
  tmp <- set_tmp i (grad_i - mem_i) (vr_tmp s) ;;
  x1 <- vr_xupdate B1 step (vr_z s) (vr_y0 s) (vr_avg s) tmp i (vr_x1 s) ;;
  x1 <- prox1 x1 i (k_bsi B1) (k_bsp B1) (k_d B1) step ;;
  y0 <- vr_yupdate B1 (vr_z s) x1 i (vr_y0 s) ;;
  x2 <- vr_xupdate B2 step (vr_z s) (vr_y1 s) (vr_avg s) tmp i (vr_x2 s) ;;
  x2 <- prox2 x2 i (k_bsi B2) (k_bsp B2) (k_d B2) step ;;
  y1 <- vr_yupdate B2 (vr_z s) x2 i (vr_y1 s) ;;
  z <- vr_zupdate B1 B1 B2 y0 y1 i (vr_z s) ;;
  z <- vr_zupdate B2 B1 B2 y0 y1 i z ;;
  '(avg', tmp') <- saga_memory i (grad_i - mem_i) (vr_avg s) tmp ;;
  mem' <- set (vr_mem s) i grad_i ;;
  Ok (mkVr y0 y1 x1 x2 z mem' avg' tmp').
Definition vr_epoch (B1 B2 : blocks) (prox1 prox2 : sprox) (step : K) (idx : list nat) (s : vr_state) :=
  forM idx (vr_sample B1 B2 prox1 prox2 step) s.
(** [vs_x0]: the contents of the caller's array x0 on return *)
Record vr_result : Type := mkVrR {
  vs_x : vec K; vs_success : bool; vs_nit : nat; vs_cert : K; vs_x0 : vec K; vs_log : list vr_state
}.
(** lines 544-563; success is set to False at line 482 and never again *)
Fixpoint vr_loop (B1 B2 : blocks) (prox1 prox2 : sprox) (step : K) (perms : nat -> list nat) (k it : nat)
    (s : vr_state) (log : list vr_state) : result vr_result :=
  match k with
  | O => Err UnboundLocalError
  | S k' =>
      s' <- vr_epoch B1 B2 prox1 prox2 step (perms it) s ;;
      let certificate := vnorm (vsub (vr_x1 s') (vr_z s')) + vnorm (vsub (vr_x2 s') (vr_z s')) in
      match k' with
      | O => Ok (mkVrR (vr_z s') false it certificate (vr_x1 s') (s' :: log))
      | S _ => vr_loop B1 B2 prox1 prox2 step perms k' (S it) s' (s' :: log)
      end
  end.
Definition vr_init (x0 : vec K) : vr_state :=
  mkVr (vzeros (length x0)) (vzeros (length x0)) x0 x0 x0 (vzeros (p_n P)) (vzeros (p_d P)) (vzeros (p_d P)).
(** [tol] is not used *)
Definition minimize_vrtos (x0 : vec K) (step : K) (prox1 prox2 : option sprox) (ptr1 ptr2 : option (list nat))
    (max_iter : nat) (tol : K) (perms : nat -> list nat) : result vr_result :=
  if negb (Nat.eqb (p_n P) (length (p_b P))) then Err AssertionError else        (* line 500 *)
  if step <? n0 then Err ValueError else                                         (* lines 502-503 *)
  B1 <- make_blocks (match ptr1 with Some q => q | None => eye_ptr (p_d P) end) ;;
  B2 <- make_blocks (match ptr2 with Some q => q | None => eye_ptr (p_d P) end) ;;
  let prox1 := match prox1 with Some q => q | None => no_prox end in
  let prox2 := match prox2 with Some q => q | None => no_prox end in
  s <- vr_epoch B1 B2 prox1 prox2 step [0%nat] (vr_init x0) ;;                   (* lines 529-539 *)
  vr_loop B1 B2 prox1 prox2 step perms max_iter 0 s [s].
End Randomized.
Arguments problem K : clear implicits.
Arguments blocks K : clear implicits.
Arguments sprox K : clear implicits.
Arguments saga_state K : clear implicits.
Arguments vr_state K : clear implicits.
Arguments vr_result K : clear implicits.
Arguments epoch_result K St : clear implicits.
