(** * Model of copt/frank_wolfe.py

    User callables are parameters; callbacks and step rules receive the event log of the run so
    far (newest first).  Divisions by zero follow the arithmetic [K] (IEEE in [F64]; over the
    reals the theorems assume the divisor non-zero).  Printing, warnings and verbosity are not
    modelled. *)
From Coq Require Import ZArith Bool List.
From Verif Require Import Num Vec ModelConstraint.
Import ListNotations.
Set Implicit Arguments.

Section FW.
Context {K : Num}.
Local Open Scope num_scope.

(** copt/frank_wolfe.py:10  EPS = np.finfo(np.float32).eps = 2^-23 *)
Definition fw_EPS : K := nlit 1 8388608.

(** ** lines 13-94  backtracking_step_size
    Result: step_size_t, lipschitz_t, (f_next, grad_next), and whether the loop was left by
    [break].  [k] is the number of remaining trials; [last] holds the values of the previous
    trial (returned when the trials are exhausted). *)
Record bt_out : Type := mkBt {
  bt_step : K; bt_lip : K; bt_fg : K * vec K; bt_found : bool
}.
(** lines 75-83: trial step and right-hand side *)
Definition fw_trial (cert lip max_step norm_d : K) : K * K :=
  let s := cert / (norm_d * lip) in
  if s <? max_step then (s, - nlit 1 2 * s * cert)
  else (max_step, - max_step * cert + nlit 1 2 * nsq max_step * lip * norm_d).
Fixpoint fw_bt_loop (fg : vec K -> K * vec K) (k : nat) (x : vec K) (f_t cert lip max_step : K)
    (d : vec K) (norm_d : K) (last : K * (K * vec K)) : bt_out :=
  match k with
  | O => mkBt (fst last) lip (snd last) false
  | S k' =>
      let '(s, rhs) := fw_trial cert lip max_step norm_d in
      let fgn := fg (vadd x (vscale s d)) in                                     (* line 84 *)
      if fst fgn - f_t <=? rhs + fw_EPS then mkBt s lip fgn true                 (* lines 85-89 *)
      else fw_bt_loop fg k' x f_t cert (lip * nofZ K 2) max_step d norm_d (s, fgn)
  end.
(** lines 71-73: update of the estimate from the last decrease *)
Definition fw_lip_update (f_t : K) (old_f_t : option K) (cert lip norm_d : K) : K :=
  match old_f_t with
  | Some old =>
      let tmp := nsq cert / (nofZ K 2 * (old - f_t) * norm_d) in
      nmaxpy (nminpy tmp lip) (lip * nlit 9 10)
  | None => lip
  end.
Definition fw_backtracking (fg : vec K -> K * vec K) (x : vec K) (f_t : K) (old_f_t : option K)
    (cert lip max_step : K) (d : vec K) (norm_d : K) : bt_out :=
  fw_bt_loop fg 100 x f_t cert (fw_lip_update f_t old_f_t cert lip norm_d) max_step d norm_d (n0, (n0, [])).

(** ** lines 97-112  update_active_set, on a collections.defaultdict(float)
    A dict is an association list in insertion order; keys (sign, index) are compared with ==. *)
Definition rep_eqb (a b : rep K) : bool := (fst a =? fst b) && Nat.eqb (snd a) (snd b).
Fixpoint dfind (d : active K) (k : rep K) : option K :=
  match d with [] => None | (k', v) :: d' => if rep_eqb k k' then Some v else dfind d' k end.
(** [d[k] = v]: replaces in place, or appends *)
Fixpoint dset (d : active K) (k : rep K) (v : K) : active K :=
  match d with
  | [] => [(k, v)]
  | (k', v') :: d' => if rep_eqb k k' then (k', v) :: d' else (k', v') :: dset d' k v
  end.
(** [d[k]] on a defaultdict: a missing key is inserted with value 0.0 *)
Definition dget (d : active K) (k : rep K) : K * active K :=
  match dfind d k with Some v => (v, d) | None => (n0, dset d k n0) end.
(** [del d[k]] *)
Fixpoint ddel (d : active K) (k : rep K) : active K :=
  match d with [] => [] | (k', v') :: d' => if rep_eqb k k' then d' else (k', v') :: ddel d' k end.
Definition update_active_set (d : active K) (fw away : rep K) (step : K) : result (active K) :=
  let '(_, d) := dget d away in                                                  (* line 101 *)
  let '(v, d) := dget d fw in let d := dset d fw (v + step) in                   (* line 102 *)
  let '(v, d) := dget d away in let d := dset d away (v - step) in               (* line 103 *)
  let '(v, d) := dget d away in
  let d := if v =? n0 then ddel d away else d in                                 (* lines 105-107 *)
  let '(v, d) := dget d away in                                                  (* line 108 *)
  if v <? n0 then Err ValueError else Ok d.                                      (* lines 108-112 *)

(** ** lines 115-309  minimize_frank_wolfe *)
Inductive fw_variant : Type := Vanilla | Pairwise (x0_rep : rep K) | OtherVariant.
Record fw_locals : Type := mkFwL {
  fl_x : vec K; fl_f : K; fl_grad : vec K; fl_it : nat; fl_cert : K; fl_step : option K;
  fl_next : option (K * vec K); fl_active : option (active K)
}.
Inductive fw_event : Type :=
| FwEval (x : vec K) | FwCallback (l : fw_locals) | FwStep (l : fw_locals).
Inductive fw_strategy : Type :=
| FSCallable (f : list fw_event -> K) | FSBacktracking | FSDR | FSSublinear | FSOther.
(** an LMO is called with (u, x, active_set); one that only takes (u, x) raises TypeError *)
Inductive lmo_fun : Type :=
| Lmo3 (f : vec K -> vec K -> option (active K) -> result (lmo_out K))
| Lmo2 (f : vec K -> vec K -> result (lmo_out K)).
Definition call_lmo (l : lmo_fun) (u x : vec K) (a : option (active K)) : result (lmo_out K) :=
  match l with Lmo3 f => f u x a | Lmo2 _ => Err TypeError end.

Variable fg : vec K -> K * vec K.
Variable lmo : lmo_fun.
Variable step : fw_strategy.
Variable lipschitz : option K.
Variable tol : K.
Variable max_iter : nat.
(** [Some c]: [c log = true] iff the callback returns False *)
Variable cb : option (list fw_event -> bool).

(** one completed iteration (ghost) *)
Record fw_iter : Type := mkFwI {
  fi_x : vec K; fi_f : K; fi_grad : vec K; fi_lmo : lmo_out K; fi_cert : K;
  fi_lip : K;            (* lipschitz_t after the step-size selection *)
  fi_step : K; fi_next : vec K; fi_found : bool; fi_it : nat
}.
Inductive fw_exit : Type := ExitGap | ExitCallback | ExitMaxIter.
Record fw_state : Type := mkFwS {
  fs_x : vec K; fs_f : K; fs_grad : vec K; fs_old : option K; fs_lip : option K;
  fs_active : option (active K); fs_step : option K; fs_log : list fw_event; fs_iters : list fw_iter
}.
Record fw_result : Type := mkFwR {
  fr_x : vec K; fr_nit : nat; fr_cert : K; fr_active : option (active K);
  (* ghost *)
  fr_exit : fw_exit; fr_log : list fw_event; fr_iters : list fw_iter; fr_lmo : lmo_out K
}.

(** line 254: [np.dot(update_direction, -grad)] *)
Definition fw_cert (d grad : vec K) : K := vdot d (vopp grad).
(** lines 258-263: first estimate of lipschitz_t *)
Definition fw_lip_init (x grad d : vec K) (norm_d : K) : K :=
  let eps := nlit 1 1000 in
  let grad_eps := snd (fg (vadd x (vscale eps d))) in
  vnorm (vsub grad grad_eps) / (eps * nsqrt K norm_d).

(** lines 268-296: selection of the step.  Result: step_size, lipschitz_t, (f_next, grad_next),
    line-search success, log *)
Definition fw_select (s : fw_state) (it : nat) (cert lip : K) (d : vec K) (norm_d max_step : K)
  : result (K * K * (K * vec K) * bool * list fw_event) :=
  let at_step (ss : K) (log : list fw_event) :=
    let xn := vadd (fs_x s) (vscale ss d) in
    Ok (ss, lip, fg xn, true, FwEval xn :: log) in
  match step with
  | FSCallable f =>
      let log1 := FwStep (mkFwL (fs_x s) (fs_f s) (fs_grad s) it cert (fs_step s) None (fs_active s)) :: fs_log s in
      at_step (f log1) log1
  | FSBacktracking =>
      let o := fw_backtracking fg (fs_x s) (fs_f s) (fs_old s) cert lip max_step d norm_d in
      Ok (bt_step o, bt_lip o, bt_fg o, bt_found o, fs_log s)
  | FSDR =>
      match lipschitz with
      | None => Err ValueError                                                   (* line 285 *)
      | Some _ => at_step (nminpy (cert / (norm_d * lip)) max_step) (fs_log s)   (* lines 286-289 *)
      end
  | FSSublinear => at_step (nofZ K 2 / nofnat (it + 2)) (fs_log s)               (* lines 290-294 *)
  | FSOther => Err ValueError                                                    (* line 296 *)
  end.

(** lines 306-309: final callback and result; [exit], [it], [cert] as at the end of the loop *)
Definition fw_finish (s : fw_state) (it : nat) (cert : K) (o : lmo_out K) (nxt : option (K * vec K)) (ex : fw_exit) : fw_result :=
  let log := match cb with
             | None => fs_log s
             | Some _ => FwCallback (mkFwL (fs_x s) (fs_f s) (fs_grad s) it cert (fs_step s) nxt (fs_active s)) :: fs_log s
             end in
  mkFwR (fs_x s) it cert (fs_active s) ex log (fs_iters s) o.

(** the loop, lines 251-305; [k] iterations remain, [it] is the loop variable *)
Fixpoint fw_loop (k it : nat) (s : fw_state) : result fw_result :=
  match k with
  | O => Err UnboundLocalError              (* only for max_iter = 0: [it] is unbound at line 308 *)
  | S k' =>
      o <- call_lmo lmo (vopp (fs_grad s)) (fs_x s) (fs_active s) ;;             (* line 252 *)
      let d := lmo_dir o in
      let norm_d := nsq (vnorm d) in                                             (* line 253 *)
      let cert := fw_cert d (fs_grad s) in                                       (* line 254 *)
      let lip := match fs_lip s with Some l => l | None => fw_lip_init (fs_x s) (fs_grad s) d norm_d end in
      let s1 := mkFwS (fs_x s) (fs_f s) (fs_grad s) (fs_old s) (Some lip) (fs_active s) (fs_step s) (fs_log s) (fs_iters s) in
      if cert <=? tol then Ok (fw_finish s1 it cert o None ExitGap)              (* lines 266-267 *)
      else
        '(ss, lip', fgn, found, log1) <- fw_select s1 it cert lip d norm_d (lmo_max_step o) ;;
        let l := mkFwL (fs_x s) (fs_f s) (fs_grad s) it cert (Some ss) (Some fgn) (fs_active s) in
        let '(stop, log2) := match cb with None => (false, log1) | Some c => (c (FwCallback l :: log1), FwCallback l :: log1) end in
        let s2 := mkFwS (fs_x s) (fs_f s) (fs_grad s) (fs_old s) (Some lip') (fs_active s) (Some ss) log2 (fs_iters s) in
        if stop then Ok (fw_finish s2 it cert o (Some fgn) ExitCallback)         (* lines 297-299 *)
        else
          let xn := vadd (fs_x s) (vscale ss d) in                               (* line 300 *)
          act <- match fs_active s with                                          (* lines 301-303 *)
                 | None => Ok None
                 | Some a =>
                     match lmo_fw o, lmo_away o with
                     | Some fwr, Some awr => a' <- update_active_set a fwr awr ss ;; Ok (Some a')
                     | _, _ => Err TypeError     (* None as a dictionary key is not modelled *)
                     end
                 end ;;
          let s3 := mkFwS xn (fst fgn) (snd fgn) (Some (fs_f s)) (Some lip') act (Some ss) log2
                      (mkFwI (fs_x s) (fs_f s) (fs_grad s) o cert lip' ss xn found it :: fs_iters s) in
          match k' with
          | O => Ok (fw_finish s3 it cert o (Some fgn) ExitMaxIter)
          | S _ => fw_loop k' (S it) s3
          end
  end.

(** lines 227-309 *)
Definition minimize_fw (variant : fw_variant) (x0 : vec K) : result fw_result :=
  if tol <? n0 then Err ValueError else                                          (* lines 228-229 *)
  a <- match variant with                                                        (* lines 232-239 *)
       | Vanilla => Ok None
       | Pairwise r => Ok (Some [(r, n1)])
       | OtherVariant => Err ValueError
       end ;;
  let '(f0, g0) := fg x0 in                                                      (* line 248 *)
  fw_loop max_iter 0 (mkFwS x0 f0 g0 None lipschitz a None [FwEval x0] []).
End FW.
(** The oracles of copt/constraint.py as they are passed to minimize_frank_wolfe:
    L1Ball.lmo (u, x, active_set=None), L1Ball.lmo_pairwise (u, x, active_set) and
    SimplexConstraint.lmo (u, x), which has no third parameter. *)
Definition l1_oracle {K : Num} (alpha : K) : lmo_fun := Lmo3 (fun u x _ => l1_lmo alpha u x).
Definition l1_pairwise_oracle {K : Num} (alpha : K) : lmo_fun :=
  Lmo3 (fun u x a => match a with Some act => l1_lmo_pairwise alpha u x act | None => Err AttributeError end).
Definition simplex_oracle {K : Num} (s : K) : lmo_fun := Lmo2 (fun u x => simplex_lmo s u x).
Arguments fw_locals K : clear implicits.
Arguments fw_event K : clear implicits.
Arguments fw_strategy K : clear implicits.
Arguments fw_variant K : clear implicits.
Arguments fw_iter K : clear implicits.
Arguments fw_state K : clear implicits.
Arguments fw_result K : clear implicits.
Arguments lmo_fun K : clear implicits.
Arguments bt_out K : clear implicits.
