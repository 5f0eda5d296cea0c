(** * Model of minimize_sfw with lmo_variant='pairwise' when None is a key of the active set

    copt/randomized.py:740 x0_rep defaults to None and line 867 stores it as a key; the away vertex
    returned by L1Ball.lmo (copt/constraint.py:128) is None, and update_active_set uses it as a key.
    ModelSfw.v has no such keys; here a key is [option (rep K)] as in ModelFwNone.v.  An iteration is
    [sfw_step] with an oracle that is given the dictionary (lines 898, 911, 917; it does not change
    before line 926), followed by update_active_set (lines 925-927); the field sw_active is unused. *)
From Coq Require Import ZArith Bool List.
From Verif Require Import Num Vec ModelConstraint ModelUtilsArr ModelFrankWolfe ModelRandomized ModelSfw ModelFwNone.
Import ListNotations.
Set Implicit Arguments.

Section None.
Context {K : Num}.
Local Open Scope num_scope.
Variable pow23 : K -> K.
Variable P : problem K.
Variable lmo : vec K -> vec K -> oactive K -> result (lmo_out K).
Variable variant : sfw_variant.
Variable rule : sfw_rule.
Variable lipschitz : option K.
Variable bs : nat.
Variable tol : K.

(** copt/randomized.py:884-927 *)
Definition sfwo_step (it : nat) (batch : list nat) (s : sfw_state K) (a : oactive K) : result (sfw_iter K * oactive K) :=
  r <- sfw_step pow23 P (Lmo3 (fun u x _ => lmo u x a)) variant rule lipschitz bs it batch s ;;
  a' <- update_active_set_o a (lmo_fw (si_lmo r)) (lmo_away (si_lmo r)) (si_gamma r) ;;
  Ok (r, a').
(** copt/randomized.py:880-936 *)
Fixpoint sfwo_while (fuel : nat) (idx : list nat) (it i : nat) (s : sfw_state K) (a : oactive K) (success : bool) (log : list (sfw_iter K))
  : result (sfw_state K * oactive K * bool * list (sfw_iter K)) :=
  match fuel with
  | O => Err OutOfFuel
  | S fuel' =>
      if Nat.ltb i (length idx) then
        '(r, a') <- sfwo_step it (slice idx i (Nat.min (i + bs) (p_n P))) s a ;;
        if sfw_moved r <? tol then Ok (si_next r, a', true, r :: log)
        else sfwo_while fuel' idx it (i + bs) (sfw_tick (si_next r)) a' success (r :: log)
      else Ok (s, a, success, log)
  end.
(** copt/randomized.py:872-939 *)
Fixpoint sfwo_epochs (draws : nat -> list nat) (k it : nat) (s : sfw_state K) (a : oactive K) (success : bool) (log : list (sfw_iter K))
  : result (sfw_result K * oactive K) :=
  match k with
  | O => Err UnboundLocalError
  | S k' =>
      if Nat.eqb bs 0 then Err ZeroDivisionError else
      '(s', a', success', log') <- sfwo_while (S (length (draws it))) (draws it) it 0 s a success log ;;
      match k' with
      | O => Ok (mkSfwR (sw_x s') success' it log' s', a')
      | S _ => sfwo_epochs draws k' (S it) s' a' success' log'
      end
  end.
(** copt/randomized.py:734-939 with lmo_variant='pairwise'; [x0_rep] is None by default *)
Definition minimize_sfw_pairwise (x0_rep : okey K) (max_iter : nat) (draws : nat -> list nat) (x0 : vec K)
  : result (sfw_result K * oactive K) :=
  match variant with OtherSfw => Err ValueError | _ =>                           (* lines 824-826 *)
  if negb (Nat.eqb (length x0) (p_d P)) then Err ValueError else                 (* line 832 *)
  s <- sfw_init P variant x0 None ;;
  match rule, lipschitz with
  | SDR, None => Err ValueError                                                  (* lines 857-858 *)
  | _, _ => sfwo_epochs draws max_iter 0 s [(x0_rep, n1)] false []
  end
  end.
End None.
