(** * Model of copt/splitting.py

    [fg] is f_grad (the calls with return_gradient=False use its first component); prox_1, prox_2
    and the callback are arbitrary.  The callback receives the list of the local variables shown
    to it so far, newest first, hence may be stateful.  args_prox, verbosity and array dtypes are
    not modelled. *)
From Coq Require Import ZArith Bool List.
From Verif Require Import Num Vec ModelUtils.
Import ListNotations.
Set Implicit Arguments.

Section ThreeSplit.
Context {K : Num}.
Local Open Scope num_scope.
Variable fg : vec K -> K * vec K.
Variables prox_1 prox_2 : vec K -> K -> vec K.
Variable tol : K.
Variable max_iter : nat.
Variable line_search : bool.
Variable max_bt : nat.
Variable factor : K.
Variable hL : option K.                    (* h_Lipschitz *)

(** line 121: LS_EPS = np.finfo(float).eps = 2^-52 *)
Definition ls_EPS : K := nlit 1 4503599627370496.

(** lines 130 and 136: [prox_1(z - step_size * (u + grad_fk), step_size)] *)
Definition ts_prox1 (z u grad : vec K) (s : K) : vec K := prox_1 (vsub z (vscale s (vadd u grad))) s.

(** lines 135-147: the line search; [S k] trials remain.  Result: x, norm_incr, ls_tol, the step of
    the last prox_1 call, step_size afterwards, found? *)
Record ts_ls : Type := mkTsLs {
  tl_x : vec K; tl_norm : K; tl_tol : K; tl_prox : K; tl_step : K; tl_found : bool
}.
Fixpoint ts_search (k : nat) (z u : vec K) (fk : K) (grad : vec K) (s : K) : ts_ls :=
  let x := ts_prox1 z u grad s in
  let incr := vsub x z in
  let norm_incr := vnorm incr in
  let rhs := fk + vdot grad incr + nsq norm_incr / (nofZ K 2 * s) in
  let ls_tol := fst (fg x) - rhs in
  if ls_tol <=? ls_EPS then mkTsLs x norm_incr ls_tol s s true
  else match k with
       | O => mkTsLs x norm_incr ls_tol s (s * factor) false
       | S k' => ts_search k' z u fk grad (s * factor)
       end.

(** what the callback sees *)
Record ts_locals : Type := mkTsL {
  tsl_x : vec K; tsl_z : vec K; tsl_u : vec K; tsl_step : K; tsl_it : nat; tsl_cert : K
}.
(** one performed iteration (ghost) *)
Record ts_iter : Type := mkTsI {
  ti_z : vec K; ti_u : vec K; ti_in : K;       (* z, u, step_size at the start *)
  ti_x : vec K; ti_prox : K;                   (* x and the step of the prox_1 call that gave it *)
  ti_ls : bool; ti_found : bool;               (* line search performed / accepted *)
  ti_step : K;                                 (* step_size at the prox_2 call *)
  ti_znext : vec K; ti_unext : vec K; ti_cert : K;
  ti_out : K                                   (* step_size at the end *)
}.
Record ts_state : Type := mkTsS {
  ts_z : vec K; ts_u : vec K; ts_step : K; ts_log : list ts_locals; ts_iters : list ts_iter
}.
Inductive ts_exit : Type := TsCallback | TsTol | TsMaxIter.
Record ts_result : Type := mkTsR {
  tr_x : vec K; tr_success : bool; tr_nit : nat; tr_cert : K; tr_stepsize : K;
  (* ghost *)
  tr_exit : ts_exit; tr_log : list ts_locals; tr_iters : list ts_iter
}.
Variable cb : option (list ts_locals -> bool).    (* [true]: the callback returned False *)

(** lines 153-159: step-size update *)
Definition ts_update (ls : bool) (s ls_tol : K) : K :=
  match ls, hL with
  | true, Some h =>
      if h =? n0 then s * nlit 102 100
      else
        let tmp := nsqrt K (nsq s + (nofZ K 2 * s / nsq h) * (- ls_tol)) in
        nminpy tmp (s * nlit 102 100)
  | _, _ => s
  end.

(** lines 129-151: one iteration up to the certificate *)
Definition ts_body (s : ts_state) : ts_iter :=
  let '(fk, grad) := fg (ts_z s) in                                              (* line 129 *)
  let x := ts_prox1 (ts_z s) (ts_u s) grad (ts_step s) in
  let norm_incr := vnorm (vsub x (ts_z s)) in
  let ls := (nlit 1 10000000 <? norm_incr) && line_search in                     (* line 133 *)
  let o := if ls then ts_search (Nat.pred max_bt) (ts_z s) (ts_u s) fk grad (ts_step s)
           else mkTsLs x norm_incr n0 (ts_step s) (ts_step s) true in
  let st := tl_step o in
  let zn := prox_2 (vadd (tl_x o) (vscale st (ts_u s))) st in                    (* line 149 *)
  let un := vadd (ts_u s) (vdivs (vsub (tl_x o) zn) st) in                       (* line 150 *)
  mkTsI (ts_z s) (ts_u s) (ts_step s) (tl_x o) (tl_prox o) ls (tl_found o) st zn un
    (tl_norm o / st)                                                             (* line 151 *)
    (ts_update ls st (tl_tol o)).

(** lines 127-167; [k] iterations remain *)
Fixpoint ts_loop (k it : nat) (s : ts_state) : result ts_result :=
  match k with
  | O => Err UnboundLocalError           (* only for max_iter = 0: [it] is unbound at line 169 *)
  | S k' =>
      let i := ts_body s in
      let l := mkTsL (ti_x i) (ti_znext i) (ti_unext i) (ti_out i) it (ti_cert i) in
      let '(stop, log) := match cb with None => (false, ts_log s) | Some c => (c (l :: ts_log s), l :: ts_log s) end in
      let iters := i :: ts_iters s in
      if stop then Ok (mkTsR (ti_x i) false it (ti_cert i) (ti_out i) TsCallback log iters)    (* lines 161-163 *)
      else if Nat.ltb 0 it && (ti_cert i <? tol)
      then Ok (mkTsR (ti_x i) true it (ti_cert i) (ti_out i) TsTol log iters)                  (* lines 165-167 *)
      else match k' with
           | O => Ok (mkTsR (ti_x i) false it (ti_cert i) (ti_out i) TsMaxIter log iters)
           | S _ => ts_loop k' (S it) (mkTsS (ti_znext i) (ti_unext i) (ti_out i) log iters)
           end
  end.

(** lines 8-171.  [step_size = None] switches the line search on (by the caller below). *)
Definition three_split_from (x0 : vec K) (step : K) : result ts_result :=
  let z := prox_2 x0 step in                                                     (* line 120 *)
  let x := prox_1 (vsub z (vscale step (snd (fg z)))) step in                    (* lines 123-124 *)
  ts_loop max_iter 0 (mkTsS z (vzeros (length x)) step [] []).                   (* line 125 *)
End ThreeSplit.
Arguments ts_locals K : clear implicits.
Arguments ts_iter K : clear implicits.
Arguments ts_state K : clear implicits.
Arguments ts_result K : clear implicits.

(** copt/splitting.py:8-171  minimize_three_split *)
Definition minimize_three_split {K : Num} (fg : vec K -> K * vec K) (x0 : vec K)
    (prox_1 prox_2 : option (vec K -> K -> vec K)) (tol : K) (max_iter : nat)
    (cb : option (list (ts_locals K) -> bool)) (line_search : bool) (step_size : option K)
    (max_bt : nat) (factor : K) (hL : option K) : result (ts_result K) :=
  if Nat.eqb max_bt 0 then Err ValueError else                                   (* lines 103-104 *)
  let p1 := match prox_1 with Some p => p | None => fun x _ => x end in          (* lines 106-114 *)
  let p2 := match prox_2 with Some p => p | None => fun x _ => x end in
  match step_size with
  | None => three_split_from fg p1 p2 tol max_iter true max_bt factor hL cb x0 (n1 / init_lipschitz fg x0)%num  (* lines 116-118 *)
  | Some s => three_split_from fg p1 p2 tol max_iter line_search max_bt factor hL cb x0 s
  end.

(** ** copt/splitting.py:174-343  minimize_primal_dual *)
Section PrimalDual.
Context {K : Num}.
Local Open Scope num_scope.
Variable fg : vec K -> K * vec K.
Variables prox_1 prox_2 : vec K -> K -> vec K.
Variables matvec rmatvec : vec K -> vec K.       (* the linear operator L and its transpose *)
Variable tol : K.
Variable line_search : bool.
Variable ls_fuel : nat.                          (* bound on the rounds of the [while True] *)
Variable ss_ratio : K.

(** lines 276-277 *)
Definition pd_prox_2_conj (x : vec K) (ss : K) : vec K :=
  vsub x (vscale ss (prox_2 (vdivs x ss) (n1 / ss))).

(** lines 296-318: the primal step.  Result: x_next, (f_next, grad_next), sigma, tau,
    theta *)
Record pd_step : Type := mkPdStep {
  ps_x : vec K; ps_fg : K * vec K; ps_sigma : K; ps_tau : K; ps_theta : K; ps_ybar : vec K
}.
(** lines 298-314, the [while True]; theta and sigma are those of the last round *)
Fixpoint pd_search (fuel : nat) (x y y_next : vec K) (fk : K) (grad : vec K) (tau tau_next : K) : result pd_step :=
  match fuel with
  | O => Err OutOfFuel
  | S fuel' =>
      let theta := tau_next / tau in                                             (* line 299 *)
      let sigma := ss_ratio * tau_next in                                        (* line 300 *)
      let y_bar := vadd y_next (vscale theta (vsub y_next y)) in                 (* line 301 *)
      let x_next := prox_1 (vsub x (vscale sigma (vadd (rmatvec y_bar) grad))) sigma in
      let incr_x := vnorm (vsub (matvec x_next) (matvec x)) in                   (* line 303 *)
      let fgn := fg x_next in                                                    (* line 304 *)
      if incr_x <=? nlit 1 10000000000 then Ok (mkPdStep x_next fgn sigma tau theta y_bar)   (* lines 305-306 *)
      else
        let tmp := (sigma * tau_next) * nsq incr_x
                   + nofZ K 2 * sigma * (fst fgn - fk - vdot grad (vsub x_next x)) in
        if tmp / nlit 1 2 <=? nsq incr_x then Ok (mkPdStep x_next fgn sigma tau_next theta y_bar)  (* lines 310-312 *)
        else pd_search fuel' x y y_next fk grad tau (tau_next * nlit 9 10)
  end.
Definition pd_primal (x y y_next : vec K) (fk : K) (grad : vec K) (sigma tau theta : K) : result pd_step :=
  if line_search then
    pd_search ls_fuel x y y_next fk grad tau (tau * (n1 + nsqrt K (n1 + theta)) / nofZ K 2)   (* line 297 *)
  else
    let y_bar := vsub (vscale (nofZ K 2) y_next) y in                            (* line 316 *)
    let x_next := prox_1 (vsub x (vscale sigma (vadd (rmatvec y_bar) grad))) sigma in
    Ok (mkPdStep x_next (fg x_next) sigma tau theta y_bar).

Record pd_locals : Type := mkPdL { pl_x : vec K; pl_y : vec K; pl_it : nat; pl_norm : option K }.
(** one performed iteration (ghost): the values before, the step, the values after *)
Record pd_iter : Type := mkPdI {
  pi_x : vec K; pi_y : vec K; pi_grad : vec K; pi_tau : K; pi_theta : K; pi_ynext : vec K; pi_step : pd_step;
  pi_incr : K           (* norm(x_next - x) + norm(y_next - y) *)
}.
Record pd_state : Type := mkPdS {
  pd_x : vec K; pd_y : vec K; pd_f : K; pd_grad : vec K; pd_sigma : K; pd_tau : K; pd_theta : K;
  pd_norm : option K;       (* norm_incr; None = np.inf *)
  pd_log : list pd_locals; pd_iters : list pd_iter
}.
Inductive pd_exit : Type := PdTol | PdCallback | PdMaxIter.
Record pd_result : Type := mkPdR {
  pr_x : vec K; pr_success : bool; pr_nit : nat; pr_cert : option K; pr_step : K; pr_warned : bool;
  (* ghost *)
  pr_y : vec K; pr_exit : pd_exit; pr_log : list pd_locals; pr_iters : list pd_iter
}.
Variable cb : option (list pd_locals -> bool).
Variable max_iter : nat.

Definition pd_finish (s : pd_state) (it : nat) (success : bool) (ex : pd_exit) : pd_result :=
  mkPdR (pd_x s) success it (pd_norm s) (pd_sigma s) (Nat.leb max_iter it)       (* lines 335-343 *)
    (pd_y s) ex (pd_log s) (pd_iters s).

(** lines 294-333; [k] iterations remain *)
Fixpoint pd_loop (k it : nat) (s : pd_state) : result pd_result :=
  match k with
  | O => Err UnboundLocalError           (* only for max_iter = 0: [it] is unbound at line 335 *)
  | S k' =>
      let y_next := pd_prox_2_conj (vadd (pd_y s) (vscale (pd_tau s) (matvec (pd_x s)))) (pd_tau s) in   (* line 295 *)
      o <- pd_primal (pd_x s) (pd_y s) y_next (pd_f s) (pd_grad s) (pd_sigma s) (pd_tau s) (pd_theta s) ;;
      let incr := vnorm (vsub (ps_x o) (pd_x s)) + vnorm (vsub y_next (pd_y s)) in
      let norm_incr := if Nat.eqb (Nat.modulo it 100) 0 then Some incr else pd_norm s in    (* lines 320-321 *)
      let i := mkPdI (pd_x s) (pd_y s) (pd_grad s) (pd_tau s) (pd_theta s) y_next o incr in
      let s1 := mkPdS (ps_x o) y_next (fst (ps_fg o)) (snd (ps_fg o)) (ps_sigma o) (ps_tau o) (ps_theta o)
                  norm_incr (pd_log s) (i :: pd_iters s) in                      (* lines 323-325 *)
      if match norm_incr with Some c => c <? tol | None => false (* inf < tol *) end
      then Ok (pd_finish s1 it true PdTol)                                       (* lines 327-329 *)
      else
        let l := mkPdL (ps_x o) y_next it norm_incr in
        let '(stop, log) := match cb with None => (false, pd_log s) | Some c => (c (l :: pd_log s), l :: pd_log s) end in
        let s2 := mkPdS (ps_x o) y_next (fst (ps_fg o)) (snd (ps_fg o)) (ps_sigma o) (ps_tau o) (ps_theta o)
                  norm_incr log (i :: pd_iters s) in
        if stop then Ok (pd_finish s2 it false PdCallback)                       (* lines 331-333 *)
        else match k' with
             | O => Ok (pd_finish s2 it false PdMaxIter)
             | S _ => pd_loop k' (S it) s2
             end
  end.
End PrimalDual.
Arguments pd_locals K : clear implicits.
Arguments pd_iter K : clear implicits.
Arguments pd_state K : clear implicits.
Arguments pd_result K : clear implicits.
Arguments pd_step K : clear implicits.

(** copt/splitting.py:174-343.  [L = None] is the identity (lines 255-257). *)
Definition minimize_primal_dual {K : Num} (fg : vec K -> K * vec K) (x0 : vec K)
    (prox_1 prox_2 : option (vec K -> K -> vec K)) (L : option ((vec K -> vec K) * (vec K -> vec K)))
    (tol : K) (max_iter : nat) (cb : option (list (pd_locals K) -> bool)) (step_size : K) (step_size2 : option K)
    (line_search : bool) (max_iter_ls ls_fuel : nat) : result (pd_result K) :=
  let '(matvec, rmatvec) := match L with Some l => l | None => (fun x => x, fun x => x) end in
  if Nat.eqb max_iter_ls 0 then Err ValueError else                              (* lines 262-263 *)
  let p1 := match prox_1 with Some p => p | None => fun x _ => x end in          (* lines 265-273 *)
  let p2 := match prox_2 with Some p => p | None => fun x _ => x end in
  let '(tau, ss_ratio) := match step_size2 with                                  (* lines 283-288 *)
    | None => ((nlit 1 2 * step_size)%num, nlit 1 2)
    | Some t => (t, (t / step_size)%num) end in
  let '(f0, g0) := fg x0 in                                                      (* line 290 *)
  pd_loop fg p1 p2 matvec rmatvec tol line_search ls_fuel ss_ratio cb max_iter max_iter 0
    (mkPdS x0 (matvec x0) f0 g0 step_size tau n1 None [] []).
