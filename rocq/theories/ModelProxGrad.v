(** * Model of copt/proximal_gradient.py: minimize_proximal_gradient

    User callables ([fun]/[jac] as [fg], [prox], [step], [callback]) are parameters.  The
    callback and the step rule receive the complete event log of the run so far (newest event
    first), hence every deterministic, possibly stateful, callable is covered.  Callables that
    write into the solver's arrays are not modelled.  Warnings are not modelled except the
    final one of the accelerated branch.  [max_iter] is an int (the code also admits floats). *)
From Coq Require Import ZArith Bool List.
From Verif Require Import Num Vec ModelUtils.
Import ListNotations.
Set Implicit Arguments.

Section PG.
Context {K : Num}.
Local Open Scope num_scope.

(** what [locals()] shows to a callable *)
Record locals : Type := mkLocals {
  lc_x : vec K; lc_grad : vec K; lc_step : option K; lc_n : nat; lc_cert : option K
}.
Inductive event : Type :=
| EvEval (x : vec K)          (* func_and_grad was called at x *)
| EvCallback (l : locals)     (* callback(locals()) *)
| EvStep (l : locals).        (* step(locals()) *)

Inductive strategy : Type :=
| SCallable (f : list event -> K)
| SBacktracking
| SFixed
| SOther.

Variable fg : vec K -> K * vec K.
Variable prox : vec K -> K -> vec K.
(** [None]: no callback; [Some c]: [c log = true] iff the callback returns False *)
Variable cb : option (list event -> bool).
Variable step : strategy.
Variable tol : K.
Variable max_iter : nat.
Variable max_bt : nat.              (* max_iter_backtracking *)
Variable factor : K.                (* backtracking_factor *)

(** one performed iteration (ghost record): x, the gradient and value used at x, the parameter
    passed to the last prox call, the value of step_size afterwards, the new point, and whether
    the line search succeeded *)
Record iter : Type := mkIter {
  it_x : vec K; it_f : K; it_grad : vec K; it_prox : K; it_step : K; it_next : vec K; it_found : bool
}.

(** copt/proximal_gradient.py:148, 152, 168  [prox(x - step_size * grad_fk, step_size)] *)
Definition prox_step (x grad : vec K) (s : K) : vec K := prox (vsub x (vscale s grad)) s.

(** lines 157-161 *)
Definition bt_rhs (fk : K) (grad d : vec K) (s : K) : K :=
  fk + vdot grad d + vdot d d / (nofZ K 2 * s).

(** result of the line search: x_next, (f_next, grad_next), parameter of the last prox call,
    step_size, found?, evaluated points (newest first) *)
Record ls_out : Type := mkLs {
  ls_x : vec K; ls_fg : K * vec K; ls_prox : K; ls_step : K; ls_found : bool; ls_evals : list (vec K)
}.
(** lines 155-171.  On exhaustion (k = 0) the loop leaves [f_next, grad_next] at the point
    evaluated before the last reduction. *)
Fixpoint backtrack (k : nat) (x : vec K) (fk : K) (grad : vec K)
    (sp s : K) (x_next : vec K) (prev : K * vec K) (evals : list (vec K)) : ls_out :=
  match k with
  | O => mkLs x_next prev sp s false evals
  | S k' =>
      let fgn := fg x_next in
      let d := vsub x_next x in
      if fst fgn <=? bt_rhs fk grad d s then mkLs x_next fgn sp s true (x_next :: evals)
      else
        let s' := s * factor in
        backtrack k' x fk grad s' s' (prox_step x grad s') fgn (x_next :: evals)
  end.
(** lines 151-171 *)
Definition line_search (x : vec K) (fk : K) (grad : vec K) (s : K) : ls_out :=
  backtrack max_bt x fk grad s (s * nlit 11 10) (prox_step x grad s) (fk, grad) [].

Record pg_state : Type := mkPg {
  st_x : vec K; st_f : K; st_grad : vec K; st_step : option K; st_n : nat; st_cert : option K;
  st_certs : list K;                 (* certificate_list, newest first *)
  st_log : list event;               (* ghost, newest first *)
  st_iters : list iter               (* ghost, newest first *)
}.
Definition pg_locals (s : pg_state) : locals :=
  mkLocals (st_x s) (st_grad s) (st_step s) (st_n s) (st_cert s).

Record pg_result : Type := mkRes {
  r_x : vec K; r_success : bool; r_cert : option K; r_nit : nat; r_step : option K;
  r_certs : list K; r_warned : bool; r_log : list event; r_iters : list iter
}.
Definition pg_return (s : pg_state) (success warned : bool) : pg_result :=
  mkRes (st_x s) success (st_cert s) (st_n s) (st_step s) (rev (st_certs s)) warned (st_log s) (st_iters s).

(** lines 142-144: [Some s']: go on with the extended log; [true] flag = stop *)
Definition call_cb (log : list event) (l : locals) : bool * list event :=
  match cb with
  | None => (false, log)
  | Some c => let log' := EvCallback l :: log in (c log', log')
  end.

(** lines 145-177: the step of one iteration *)
Definition pg_step (trace_certificate : bool) (s : pg_state) (log : list event) : result pg_state :=
  let finish (xn : vec K) (fn : K * vec K) (sp ss : K) (found : bool) (log' : list event) : result pg_state :=
    let cert := vnorm (vdivs (vsub (st_x s) xn) ss) in                       (* line 178 *)
    Ok (mkPg xn (fst fn) (snd fn) (Some ss) (st_n s) (Some cert)
          (if trace_certificate then cert :: st_certs s else st_certs s)
          log' (mkIter (st_x s) (st_f s) (st_grad s) sp ss xn found :: st_iters s)) in
  match step with
  | SCallable f =>
      let log1 := EvStep (pg_locals s) :: log in
      let ss := f log1 in                                                     (* line 147 *)
      let xn := prox_step (st_x s) (st_grad s) ss in
      finish xn (fg xn) ss ss true (EvEval xn :: log1)
  | SBacktracking =>
      match st_step s with
      | Some s0 =>
          let o := line_search (st_x s) (st_f s) (st_grad s) s0 in
          finish (ls_x o) (ls_fg o) (ls_prox o) (ls_step o) (ls_found o)
             (map EvEval (ls_evals o) ++ log)
      | None => Err TypeError
      end
  | SFixed => Err TypeError        (* line 173: None * grad_fk *)
  | SOther => Err ValueError       (* line 177 *)
  end.

(** lines 141-192 (not accelerated).  [fuel] bounds the [while True]. *)
Fixpoint pg_loop (fuel : nat) (tc : bool) (s : pg_state) : result pg_result :=
  match fuel with
  | O => Err OutOfFuel
  | S fuel' =>
      let '(stop, log1) := call_cb (st_log s) (pg_locals s) in
      if stop then Ok (pg_return (mkPg (st_x s) (st_f s) (st_grad s) (st_step s) (st_n s) (st_cert s) (st_certs s) log1 (st_iters s)) false false)
      else
        s' <- pg_step tc s log1 ;;
        match st_cert s' with
        | Some c =>
            if c <? tol then Ok (pg_return s' true false)                     (* lines 185-187 *)
            else if Nat.leb max_iter (st_n s') then Ok (pg_return s' false false)  (* lines 189-190 *)
            else pg_loop fuel' tc (mkPg (st_x s') (st_f s') (st_grad s') (st_step s') (S (st_n s')) (st_cert s') (st_certs s') (st_log s') (st_iters s'))
        | None => Err UnboundLocalError
        end
  end.

(** ** accelerated branch, lines 199-273 *)
Record acc_state : Type := mkAcc { ac_st : pg_state; ac_tk : K; ac_yk : vec K }.

(** lines 230-246 *)
Fixpoint acc_backtrack (k : nat) (yk grad : vec K) (s : K) (x_next : vec K) (evals : list (vec K))
  : vec K * K * bool * list (vec K) :=
  match k with
  | O => (x_next, s, false, evals)
  | S k' =>
      let d := vsub x_next yk in
      let evals' := yk :: x_next :: evals in
      if fst (fg x_next) <=? bt_rhs (fst (fg yk)) grad d s then (x_next, s, true, evals')
      else let s' := s * factor in acc_backtrack k' yk grad s' (prox_step yk grad s') evals'
  end.

(** lines 213-214, 247-248 *)
Definition t_next (tk : K) : K := (n1 + nsqrt K (n1 + nofZ K 4 * tk * tk)) / nofZ K 2.
Definition extrap (tk : K) (x_next x : vec K) : vec K :=
  vadd x_next (vscale ((tk - n1) / t_next tk) (vsub x_next x)).

(** lines 219-226, 250-258: certificate and update, [ss] = current_step_size.  The certificate
    compares the previous x with the prox step taken from the new x_next. *)
Definition acc_finish (tc : bool) (a : acc_state) (grad xn : vec K) (ss : K) (found : bool) (log : list event) : acc_state :=
  let s := ac_st a in
  let x_prox := prox_step xn (snd (fg xn)) ss in
  let cert := vnorm (vdivs (vsub (st_x s) x_prox) ss) in
  mkAcc (mkPg xn (st_f s) grad (st_step s) (st_n s) (Some cert)
           (if tc then cert :: st_certs s else st_certs s) (EvEval xn :: log)
           (mkIter (ac_yk a) (fst (fg (ac_yk a))) grad ss ss xn found :: st_iters s))
        (t_next (ac_tk a)) (extrap (ac_tk a) xn (st_x s)).

Definition acc_step (tc : bool) (a : acc_state) (grad : vec K) (log : list event) : acc_state :=
  let s := ac_st a in
  match step with
  | SCallable f =>
      let log1 := EvStep (pg_locals s) :: log in
      let ss := f log1 in
      let xn := prox_step (ac_yk a) grad ss in
      acc_finish false a grad xn ss true log1                    (* lines 210-225: no trace *)
  | SBacktracking =>
      match st_step s with
      | Some s0 =>
          let '(xn, ss, found, evals) := acc_backtrack max_bt (ac_yk a) grad s0 (prox_step (ac_yk a) grad s0) [] in
          acc_finish tc a grad xn ss found (map EvEval evals ++ log)
      | None => a
      end
  | _ => mkAcc (mkPg (st_x s) (st_f s) grad (st_step s) (st_n s) (st_cert s) (st_certs s) log (st_iters s))
           (ac_tk a) (ac_yk a)      (* neither branch is taken: nothing happens *)
  end.

Fixpoint acc_loop (fuel : nat) (tc : bool) (a : acc_state) : result pg_result :=
  match fuel with
  | O => Err OutOfFuel
  | S fuel' =>
      let s := ac_st a in
      let grad := snd (fg (ac_yk a)) in                            (* line 204 *)
      let log0 := EvEval (ac_yk a) :: st_log s in
      let s0 := mkPg (st_x s) (st_f s) grad (st_step s) (st_n s) (st_cert s) (st_certs s) log0 (st_iters s) in
      let '(stop, log1) := call_cb log0 (pg_locals s0) in
      (* line 269: the warning is issued whenever n_iterations >= max_iter, whatever the exit *)
      let ret (s : pg_state) (success : bool) := Ok (pg_return s success (Nat.leb max_iter (st_n s))) in
      if stop then ret (mkPg (st_x s) (st_f s) grad (st_step s) (st_n s) (st_cert s) (st_certs s) log1 (st_iters s)) false
      else
        let a' := acc_step tc (mkAcc s0 (ac_tk a) (ac_yk a)) grad log1 in
        let s' := ac_st a' in
        if match st_cert s' with Some c => c <? tol | None => false (* nan < tol *) end
        then ret s' true
        else if Nat.leb max_iter (st_n s') then ret s' false
        else acc_loop fuel' tc
               (mkAcc (mkPg (st_x s') (st_f s') (st_grad s') (st_step s') (S (st_n s')) (st_cert s') (st_certs s') (st_log s') (st_iters s'))
                  (ac_tk a') (ac_yk a'))
  end.

(** initial step size, lines 129-133 *)
Definition init_step (x0 : vec K) : option K :=
  match step with
  | SBacktracking => Some (nlit 18 10 / init_lipschitz fg x0)
  | _ => None
  end.

(** lines 112-282.  The evaluations made by init_lipschitz are not logged. *)
Definition minimize_pg (accelerated tc : bool) (x0 : vec K) : result pg_result :=
  if Nat.eqb max_bt 0 then Err ValueError                                     (* lines 113-114 *)
  else if accelerated then
    acc_loop (S max_iter) tc
      (mkAcc (mkPg x0 n0 (snd (fg x0)) (init_step x0) 0 None [] [] []) n1 x0)
  else
    let '(f0, g0) := fg x0 in                                                 (* line 140 *)
    pg_loop (S max_iter) tc (mkPg x0 f0 g0 (init_step x0) 0 None [] [EvEval x0] []).
End PG.
Arguments locals K : clear implicits.
Arguments event K : clear implicits.
Arguments strategy K : clear implicits.
Arguments iter K : clear implicits.
Arguments pg_result K : clear implicits.
Arguments pg_state K : clear implicits.
