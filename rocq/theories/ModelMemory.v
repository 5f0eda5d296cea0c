(** * Arrays as memory: which statements of the solvers write where, and with which element type

    The solver models treat arrays as values.  Here the arrays that the solvers of copt/proximal_gradient.py,
    copt/splitting.py and copt/randomized.py update in place live in a heap, and an assignment [a[:] = v] into an
    array converts v to the element type of a ([cast], applied to each element: the identity for float64, truncation
    towards zero for the integer types).  All other arithmetic is that of the value models, whose step functions are
    used unchanged.  Temporaries that no statement writes to in place stay values. *)
From Coq Require Import ZArith Bool List.
From Verif Require Import Num Vec ModelUtils ModelProxGrad ModelSplitting ModelRandomized.
Import ListNotations.
Set Implicit Arguments.

Section Heap.
Context {K : Num}.
(** a location is an index into the heap; arrays are never freed *)
Definition heap : Type := list (vec K).
Definition loc : Type := nat.
Definition load (h : heap) (l : loc) : vec K := nth l h [].
Definition alloc (h : heap) (v : vec K) : heap * loc := (h ++ [v], length h).
(** [a[:] = v] and the writes [a[j] = ...] of a loop over a *)
Fixpoint store (h : heap) (l : loc) (v : vec K) : heap :=
  match h, l with
  | [], _ => []
  | _ :: h', O => v :: h'
  | w :: h', S l' => w :: store h' l' v
  end.
End Heap.
Arguments heap K : clear implicits.

(** ** minimize_proximal_gradient, not accelerated: [x] is one array for the whole run *)
Section PgMem.
Context {K : Num}.
Variable fg : vec K -> K * vec K.
Variable prox : vec K -> K -> vec K.
Variable cb : option (list (event K) -> bool).
Variable step : strategy K.
Variable tol : K.
Variable max_iter max_bt : nat.
Variable factor : K.
Variable cast : K -> K.

Definition pg_set_x (s : pg_state K) (x : vec K) (n : nat) (log : list (event K)) : pg_state K :=
  mkPg x (st_f s) (st_grad s) (st_step s) n (st_cert s) (st_certs s) log (st_iters s).
(** copt/proximal_gradient.py:141-192 with line 181 [x[:] = x_next] as a write to [lx]; [refs]: the array shown by
    [locals()] to each callback call (lines 142-144), newest first *)
Fixpoint pgm_loop (fuel : nat) (tc : bool) (lx : loc) (h : heap K) (refs : list loc) (s : pg_state K)
  : result (heap K * list loc * pg_result K) :=
  match fuel with
  | O => Err OutOfFuel
  | S fuel' =>
      let '(stop, log1) := call_cb cb (st_log s) (pg_locals s) in
      let refs1 := match cb with None => refs | Some _ => lx :: refs end in
      if stop then Ok (h, refs1, pg_return (pg_set_x s (load h lx) (st_n s) log1) false false)
      else
        s' <- pg_step fg prox step max_bt factor tc s log1 ;;
        let h' := store h lx (map cast (st_x s')) in                              (* line 181 *)
        let s1 := pg_set_x s' (load h' lx) (st_n s') (st_log s') in
        match st_cert s' with
        | Some c =>
            if nltb K c tol then Ok (h', refs1, pg_return s1 true false)
            else if Nat.leb max_iter (st_n s') then Ok (h', refs1, pg_return s1 false false)
            else pgm_loop fuel' tc lx h' refs1 (pg_set_x s' (load h' lx) (S (st_n s')) (st_log s'))
        | None => Err UnboundLocalError
        end
  end.
(** lines 112-140, accelerated=False: [x = np.asarray(x0).flatten()] is a new array of the element type of x0.  (With
    accelerated=True no array is written in place: x is rebound to [x_next.copy()], lines 225 and 258.) *)
Definition minimize_pg_mem (tc : bool) (h : heap K) (x0 : loc) : result (heap K * list loc * pg_result K) :=
  if Nat.eqb max_bt 0 then Err ValueError
  else
    let '(h1, lx) := alloc h (load h x0) in
    let '(f0, g0) := fg (load h1 lx) in
    pgm_loop (S max_iter) tc lx h1 []
      (mkPg (load h1 lx) f0 g0 (init_step fg step (load h x0)) 0 None [] [EvEval (load h1 lx)] []).
End PgMem.

(** ** minimize_primal_dual: [x] and [y] are one array each *)
Section PdMem.
Context {K : Num}.
Local Open Scope num_scope.
Variable fg : vec K -> K * vec K.
Variables prox_1 prox_2 : vec K -> K -> vec K.
Variables matvec rmatvec : vec K -> vec K.
Variable tol : K.
Variable line_search : bool.
Variable ls_fuel : nat.
Variable ss_ratio : K.
Variable cb : option (list (pd_locals K) -> bool).
Variable max_iter : nat.
(** element types of the arrays x and y *)
Variables cast_x cast_y : K -> K.

(** copt/splitting.py:294-333, with lines 323-324 [x[:] = x_next[:]; y[:] = y_next[:]] as writes *)
Fixpoint pdm_loop (k it : nat) (lx ly : loc) (h : heap K) (s : pd_state K) : result (heap K * pd_result K) :=
  match k with
  | O => Err UnboundLocalError
  | S k' =>
      let y_next := pd_prox_2_conj prox_2 (vadd (pd_y s) (vscale (pd_tau s) (matvec (pd_x s)))) (pd_tau s) in
      o <- pd_primal fg prox_1 matvec rmatvec line_search ls_fuel ss_ratio (pd_x s) (pd_y s) y_next (pd_f s) (pd_grad s) (pd_sigma s) (pd_tau s) (pd_theta s) ;;
      let incr := vnorm (vsub (ps_x o) (pd_x s)) + vnorm (vsub y_next (pd_y s)) in
      let norm_incr := if Nat.eqb (Nat.modulo it 100) 0 then Some incr else pd_norm s in
      let i := mkPdI (pd_x s) (pd_y s) (pd_grad s) (pd_tau s) (pd_theta s) y_next o incr in
      let h' := store (store h lx (map cast_x (ps_x o))) ly (map cast_y y_next) in        (* lines 323-324 *)
      let s1 log := mkPdS (load h' lx) (load h' ly) (fst (ps_fg o)) (snd (ps_fg o)) (ps_sigma o) (ps_tau o) (ps_theta o)
                  norm_incr log (i :: pd_iters s) in
      if match norm_incr with Some c => c <? tol | None => false end
      then Ok (h', pd_finish max_iter (s1 (pd_log s)) it true PdTol)
      else
        let l := mkPdL (load h' lx) (load h' ly) it norm_incr in
        let '(stop, log) := match cb with None => (false, pd_log s) | Some c => (c (l :: pd_log s), l :: pd_log s) end in
        if stop then Ok (h', pd_finish max_iter (s1 log) it false PdCallback)
        else match k' with
             | O => Ok (h', pd_finish max_iter (s1 log) it false PdMaxIter)
             | S _ => pdm_loop k' (S it) lx ly h' (s1 log)
             end
  end.
End PdMem.
(** how [L.matvec] delivers its result: in a new array (matrices, products), or as the very array it was given
    (scipy's IdentityOperator, a LinearOperator built from [lambda v: v]) *)
Inductive delivery : Type := Fresh | SameArray.
(** lines 251-258: [x = np.array(x0, copy=True)], [y = L.matvec(x)] *)
Definition minimize_primal_dual_mem {K : Num} (cast_x cast_y : K -> K) (dl : delivery) (fg : vec K -> K * vec K) (h : heap K) (x0 : loc)
    (prox_1 prox_2 : option (vec K -> K -> vec K)) (L : option ((vec K -> vec K) * (vec K -> vec K)))
    (tol : K) (max_iter : nat) (cb : option (list (pd_locals K) -> bool)) (step_size : K) (step_size2 : option K)
    (line_search : bool) (max_iter_ls ls_fuel : nat) : result (heap K * pd_result K) :=
  let '(matvec, rmatvec) := match L with Some l => l | None => (fun x => x, fun x => x) end in
  if Nat.eqb max_iter_ls 0 then Err ValueError else
  let p1 := match prox_1 with Some p => p | None => fun x _ => x end in
  let p2 := match prox_2 with Some p => p | None => fun x _ => x end in
  let '(tau, ss_ratio) := match step_size2 with
    | None => ((nlit 1 2 * step_size)%num, nlit 1 2)
    | Some t => (t, (t / step_size)%num) end in
  let '(h1, lx) := alloc h (load h x0) in
  let '(h2, ly) := match dl with Fresh => alloc h1 (matvec (load h1 lx)) | SameArray => (h1, lx) end in
  let '(f0, g0) := fg (load h2 lx) in
  pdm_loop fg p1 p2 matvec rmatvec tol line_search ls_fuel ss_ratio cb max_iter cast_x cast_y max_iter 0 lx ly h2
    (mkPdS (load h2 lx) (load h2 ly) f0 g0 step_size tau n1 None [] []).

(** ** minimize_saga and minimize_svrg: every array of the state is updated in place *)
Section RandMem.
Context {K : Num}.
Local Open Scope num_scope.
Variable P : problem K.
(** locations of x, memory_gradient, gradient_average, grad_tmp (copt/randomized.py:133, 206-208) *)
Record saga_locs : Type := mkSL { sl_x : loc; sl_mem : loc; sl_avg : loc; sl_tmp : loc }.
Definition saga_view (L : saga_locs) (h : heap K) : saga_state K := mkSaga (load h (sl_x L)) (load h (sl_mem L)) (load h (sl_avg L)) (load h (sl_tmp L)).
(** lines 174-203: one sample; x, gradient_average, grad_tmp and memory_gradient are written *)
Definition saga_sample_mem (B : blocks K) (prox : sprox K) (step : K) (L : saga_locs) (i : nat) (h : heap K) : result (heap K) :=
  s' <- saga_sample P B prox step i (saga_view L h) ;;
  Ok (store (store (store (store h (sl_x L) (sa_x s')) (sl_mem L) (sa_mem s')) (sl_avg L) (sa_avg s')) (sl_tmp L) (sa_tmp s')).
Record mem_result : Type := mkMR { mr_heap : heap K; mr_x : loc; mr_success : bool; mr_nit : nat }.
(** lines 213-224 *)
Fixpoint saga_loop_mem (B : blocks K) (prox : sprox K) (step tol : K) (perms : nat -> list nat) (L : saga_locs) (k it : nat) (h : heap K) : result mem_result :=
  match k with
  | O => Err UnboundLocalError
  | S k' =>
      let '(h0, l_old) := alloc h (load h (sl_x L)) in                            (* line 214: x_old = x.copy() *)
      h1 <- forM (perms it) (saga_sample_mem B prox step L) h0 ;;
      let diff_norm := vnorm1 (vsub (load h1 (sl_x L)) (load h1 l_old)) in
      if diff_norm <? tol then Ok (mkMR h1 (sl_x L) true it)
      else match k' with
           | O => Ok (mkMR h1 (sl_x L) false it)
           | S _ => saga_loop_mem B prox step tol perms L k' (S it) h1
           end
  end.
Definition minimize_saga_mem (h : heap K) (x0 : loc) (step : option K) (prox : option (sprox K)) (ptr : option (list nat))
    (max_iter : nat) (tol : K) (perms : nat -> list nat) : result mem_result :=
  match step with
  | None => Err ValueError
  | Some step =>
      B <- make_blocks P (match ptr with Some q => q | None => eye_ptr (p_d P) end) ;;
      let prox := match prox with Some q => q | None => no_prox end in
      let '(h1, lx) := alloc h (load h x0) in                                     (* line 133: .copy() *)
      let '(h2, lm) := alloc h1 (vzeros (p_n P)) in
      let '(h3, la) := alloc h2 (vzeros (p_d P)) in
      let '(h4, lt) := alloc h3 (vzeros (p_d P)) in
      saga_loop_mem B prox step tol perms (mkSL lx lm la lt) max_iter 0 h4
  end.
(** lines 365-387: x and grad_tmp are written; x_snapshot is read from its array at every sample *)
Definition svrg_sample_mem (B : blocks K) (prox : sprox K) (step : K) (lx lt lsnap : loc) (gavg : vec K) (i : nat) (h : heap K) : result (heap K) :=
  s' <- svrg_sample P B prox step (load h lsnap) gavg i (load h lx, load h lt) ;;
  Ok (store (store h lx (fst s')) lt (snd s')).
(** lines 394-406 *)
Fixpoint svrg_loop_mem (B : blocks K) (prox : sprox K) (step tol : K) (perms : nat -> list nat) (lx lt : loc) (k it : nat) (h : heap K) : result mem_result :=
  match k with
  | O => Err UnboundLocalError
  | S k' =>
      let '(h0, lsnap) := alloc h (load h lx) in                                  (* line 395: x_snapshot = x.copy() *)
      gavg <- full_grad P (load h0 lsnap) ;;
      h1 <- forM (perms it) (svrg_sample_mem B prox step lx lt lsnap gavg) h0 ;;
      if vnorm1 (vsub (load h1 lx) (load h1 lsnap)) <? tol then Ok (mkMR h1 lx true it)
      else match k' with
           | O => Ok (mkMR h1 lx false it)
           | S _ => svrg_loop_mem B prox step tol perms lx lt k' (S it) h1
           end
  end.
Definition minimize_svrg_mem (h : heap K) (x0 : loc) (step : option K) (prox : option (sprox K)) (ptr : option (list nat))
    (max_iter : nat) (tol : K) (perms : nat -> list nat) : result mem_result :=
  match step with
  | None => Err ValueError
  | Some step =>
      B <- make_blocks P (match ptr with Some q => q | None => eye_ptr (p_d P) end) ;;
      let prox := match prox with Some q => q | None => no_prox end in
      let '(h1, lx) := alloc h (load h x0) in                                     (* line 308: .copy() *)
      let '(h2, lt) := alloc h1 (vzeros (p_d P)) in
      svrg_loop_mem B prox step tol perms lx lt max_iter 0 h2
  end.
End RandMem.
Arguments mem_result K : clear implicits.

(** conversion of a float to an integer type: truncation towards zero (values inside the range of the type) *)
From Coq Require Import Reals.
Definition int_cast (x : R) : R := if Rlt_dec x 0 then Ropp (IZR (Int_part (Ropp x))) else IZR (Int_part x).
