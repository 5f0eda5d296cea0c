(** * Model of copt/utils.py: solver helpers (init_lipschitz, parse_step_size, build_func_grad) *)
From Coq Require Import ZArith Bool List.
From Verif Require Import Num Vec.
Import ListNotations.
Set Implicit Arguments.

Section Lipschitz.
Context {K : Num}.
Local Open Scope num_scope.
(** objective and gradient, as one pure function *)
Variable fg : vec K -> K * vec K.

(** copt/utils.py:174, 180  [x0 - (1.0 / L0) * grad0] *)
Definition lip_trial (x0 grad0 : vec K) (L : K) : vec K := vsub x0 (vscale (n1 / L) grad0).

(** copt/utils.py:176-182: [k] remaining rounds of the loop; [f_tilde] is f at the trial point
    for the current [L0]. *)
Fixpoint init_lip_loop (k : nat) (x0 grad0 : vec K) (f0 L f_tilde : K) : K :=
  match k with
  | O => L
  | S k' =>
      if f_tilde <=? f0 then L
      else let L' := L * nofZ K 10 in
           init_lip_loop k' x0 grad0 f0 L' (fst (fg (lip_trial x0 grad0 L')))
  end.
(** copt/utils.py:167-182  init_lipschitz, for dense x0 and dense gradients (the sparse
    conversions of lines 170-173 change the container, not the values). *)
Definition init_lipschitz (x0 : vec K) : K :=
  let L0 := nlit 1 1000 in                                        (* 1e-3 *)
  let '(f0, grad0) := fg x0 in
  init_lip_loop 100 x0 grad0 f0 L0 (fst (fg (lip_trial x0 grad0 L0))).
End Lipschitz.

(** ** copt/utils.py:131-140  parse_step_size
    The argument is a Python value; the cases below are the ones the code distinguishes. *)
Inductive pyval : Type :=
| PStr (s : list nat)            (* a string, as the list of its characters *)
| PFloat                         (* a float *)
| PInt                           (* an int (not a float, no __len__) *)
| PTuple (l : list pyval)        (* any sequence *)
| PCallable
| POther.
(** "adaptive" *)
Definition str_adaptive : list nat := [97; 100; 97; 112; 116; 105; 118; 101].
Inductive parsed : Type :=
| PPair (a b : pyval)            (* returns two values *)
| PFixed                         (* returns (step_size, "fixed") *)
| POne (s : pyval).              (* returns (1, step_size) *)
Definition parse_step_size (v : pyval) : result parsed :=
  match v with
  | PTuple [a; b] => Ok (PPair a b)
  | PStr [a; b] => Ok (PPair (PStr [a]) (PStr [b]))
  | PFloat => Ok PFixed
  | PCallable => Ok (POne v)
  | PStr s => if list_eq_dec Nat.eq_dec s str_adaptive then Ok (POne v) else Err ValueError
  | _ => Err ValueError
  end.

(** ** copt/utils.py:35-57  build_func_grad
    A Python objective may return a scalar or a pair (value, gradient). *)
Section BuildFuncGrad.
Context {K : Num}.
Inductive pyret : Type := RetScalar (f : K) | RetPair (f : K) (g : vec K).
Inductive jac_arg : Type :=
| JCallable (j : vec K -> vec K) | JTrue | JFalse | JNone | JStr (s : list nat).
(** "2-point" *)
Definition str_2point : list nat := [50; 45; 112; 111; 105; 110; 116].
(** [bool(jac)] *)
Definition truthy (j : jac_arg) : bool :=
  match j with JCallable _ => true | JTrue => true | JFalse => false | JNone => false
             | JStr s => negb (Nat.eqb (length s) 0) end.
(** scipy.optimize.MemoizeJac: calls fun once, keeps [fg[0]] and [fg[1]]; indexing a scalar
    raises TypeError *)
Definition memoize_jac (fn : vec K -> pyret) (x : vec K) : result (K * vec K) :=
  match fn x with RetPair f g => Ok (f, g) | RetScalar _ => Err TypeError end.
(** the returned closure: [Ok None] is a Python None (lines 45-49 have no return statement) *)
Definition build_func_grad (j : jac_arg) (fn : vec K -> pyret)
  : result (vec K -> result (option (pyret * vec K))) :=
  match j with
  | JCallable jac => Ok (fun x => Ok (Some (fn x, jac x)))                       (* lines 53-56 *)
  | _ =>
      if truthy j then                                                           (* lines 37-39 *)
        Ok (fun x => fg <- memoize_jac fn x ;; Ok (Some (RetScalar (fst fg), snd fg)))
      else match j with
           | JStr s => if list_eq_dec Nat.eq_dec s str_2point
                       then Ok (fun _ => Ok None)                                (* lines 40-41, 45-49 *)
                       else Err NotImplementedError
           | _ => Err NotImplementedError                                        (* line 43 *)
           end
  end.
End BuildFuncGrad.
Arguments pyret K : clear implicits.
Arguments jac_arg K : clear implicits.
