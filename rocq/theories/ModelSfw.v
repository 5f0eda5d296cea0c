(** * Model of copt/randomized.py: step_size_sfw, step_size_DR and minimize_sfw

    Random draws are inputs: [draws it] is the array [idx] of epoch [it] (lines 874-878), i.e. the
    value of [np.random.randint] for batch_size = 1 and of [utils.sample_batches] otherwise.
    [f_deriv] works elementwise on arrays.  [x ** (2/3)] is the parameter [pow23].  The callback
    cannot influence the run (its value is ignored); what it sees is recorded, newest first, as
    one [sfw_iter] per call.  The problem data are those of ModelRandomized ([p_alpha] is unused).
    The key [None] of the active set (pairwise without x0_rep) is not modelled. *)
From Coq Require Import ZArith Bool List.
From Verif Require Import Num Vec ModelConstraint ModelPenalty ModelUtilsArr ModelFrankWolfe ModelRandomized.
Import ListNotations.
Set Implicit Arguments.

Inductive sfw_variant : Type := SAG | SAGA | MHK | LF | OtherSfw.
(** line 741 step_size; [SOther]: a callable, or any other string *)
Inductive sfw_rule : Type := SSublinear | SDR | SOther.
(** Python slice [l[a:b]] *)
Definition slice {A} (l : list A) (a b : nat) : list A := firstn (b - a) (skipn a l).

Section Sfw.
Context {K : Num}.
Local Open Scope num_scope.
Variable pow23 : K -> K.
Variable P : problem K.
Variable lmo : lmo_fun K.
Variable variant : sfw_variant.
Variable rule : sfw_rule.
Variable lipschitz : option K.
Variable bs : nat.                     (* batch_size *)
Variable tol : K.

(** ** lines 698-719  step_size_sfw: (step_size_x, step_size_agg) at counter [t] *)
Definition sfw_sizes (n t : nat) : K * option K :=
  match variant with
  | SAG | SAGA => (nofZ K 2 / nofnat (t + 2), None)
  | MHK => let sx := nofZ K 2 / nofnat (t + 8) in (sx, Some (pow23 sx))
  | LF =>
      let m := nofnat n / nofnat bs in
      let t := nofnat t in
      (nofZ K 2 * (nofZ K 2 * m + t) / ((t + n1) * (nofZ K 4 * m + t)), Some (nofZ K 2 * m / (nofZ K 2 * m + t + n1)))
  | OtherSfw => (n0, None)             (* not reached: line 824 *)
  end.
(** ** lines 722-726  step_size_DR *)
Definition sfw_DR (certificate : K) (d : vec K) (L max_step : K) : K :=
  nminpy (certificate / (vsum (map nsq d) * L)) max_step.

Record sfw_state : Type := mkSfw {
  sw_x : vec K;
  sw_dual : vec K;                     (* dual_var *)
  sw_agg : vec K;                      (* grad_agg *)
  sw_sigma : vec K;                    (* agg, variant LF only *)
  sw_active : option (active K);
  sw_t : nat                           (* step *)
}.
Record sfw_iter : Type := mkSfwI {
  si_epoch : nat;
  si_batch : list nat;
  si_prev : sfw_state;                 (* at the start of the iteration *)
  si_est : vec K;                      (* the gradient estimate given, negated, to the lmo *)
  si_lmo : lmo_out K;
  si_gamma : K;                        (* step_size_x *)
  si_next : sfw_state                  (* as seen by the callback *)
}.

Let mv (x : vec K) (idx : list nat) := fast_csr_mv (p_data P) (p_indptr P) (p_indices P) x idx.
Let vm (w : vec K) (idx : list nat) := fast_csr_vm w (p_data P) (p_indptr P) (p_indices P) (p_d P) idx.
(** [f_deriv(p, b[batch_idx])] *)
Definition sfw_fd (p : vec K) (batch : list nat) : result (vec K) :=
  bb <- gather (p_b P) batch ;; Ok (map2 (p_fd P) p bb).
Definition inv_n : K := n1 / nofnat (p_n P).

(** lines 889-903: the new dual_var, agg, and for LF the lmo output with the gradient it was given *)
Definition sfw_dual_update (agg_size : option K) (batch : list nat) (s : sfw_state)
  : result (vec K * vec K * option (vec K * lmo_out K)) :=
  match variant with
  | SAG | SAGA =>
      p <- mv (sw_x s) batch ;;
      g <- sfw_fd p batch ;;
      dual <- scatter (sw_dual s) batch (vscale inv_n g) ;;
      Ok (dual, sw_sigma s, None)
  | MHK =>
      p <- mv (sw_x s) batch ;;
      old <- gather (sw_dual s) batch ;;
      match agg_size with
      | None => Err UnboundLocalError            (* step_size_agg with step_size = 'DR' *)
      | Some a =>
          g <- sfw_fd p batch ;;
          dual <- scatter (sw_dual s) batch (vadd old (vscale a (vsub g old))) ;;
          Ok (dual, sw_sigma s, None)
      end
  | LF =>
      o <- call_lmo lmo (vopp (sw_agg s)) (sw_x s) (sw_active s) ;;
      let extr_point := vadd (lmo_dir o) (sw_x s) in
      old <- gather (sw_sigma s) batch ;;
      match agg_size with
      | None => Err UnboundLocalError
      | Some a =>
          p <- mv extr_point batch ;;
          sigma <- scatter (sw_sigma s) batch (vadd old (vscale a (vsub p old))) ;;
          sg <- gather sigma batch ;;
          g <- sfw_fd sg batch ;;
          dual <- scatter (sw_dual s) batch (vscale inv_n g) ;;
          Ok (dual, sigma, Some (sw_agg s, o))
      end
  | OtherSfw => Err ValueError
  end.

(** lines 884-930, up to the stopping test; the counter is not yet incremented *)
Definition sfw_step (it : nat) (batch : list nat) (s : sfw_state) : result (sfw_iter) :=
  sizes <- match rule with                                                        (* lines 885-886 *)
           | SSublinear => Ok (Some (sfw_sizes (p_n P) (sw_t s)))
           | SDR => Ok None
           | SOther => Err UnboundLocalError                                     (* step_size_fun *)
           end ;;
  prev <- gather (sw_dual s) batch ;;                                            (* line 887 *)
  '(dual, sigma, lf) <- sfw_dual_update (match sizes with Some (_, a) => a | None => None end) batch s ;;
  new <- gather dual batch ;;
  u <- vm (vsub new prev) batch ;;                                               (* lines 906-907 *)
  let agg := vadd (sw_agg s) u in                                                (* line 908 *)
  '(est, o) <- match variant, lf with                                            (* lines 910-917 *)
               | LF, Some eo => Ok eo
               | SAGA, _ =>
                   let est := vadd agg (vscale (nofnat (p_n P - 1)) u) in
                   o <- call_lmo lmo (vopp est) (sw_x s) (sw_active s) ;; Ok (est, o)
               | _, _ => o <- call_lmo lmo (vopp agg) (sw_x s) (sw_active s) ;; Ok (agg, o)
               end ;;
  let d := lmo_dir o in
  let gamma := match sizes with
               | Some (sx, _) => sx
               | None => sfw_DR (vdot (vopp agg) d) d (match lipschitz with Some L => L | None => n1 end)
                           (lmo_max_step o)                                      (* lines 919-921 *)
               end in
  let x := vadd (sw_x s) (vscale gamma d) in                                     (* line 923 *)
  act <- match sw_active s with                                                  (* lines 925-927 *)
         | None => Ok None
         | Some a =>
             match lmo_fw o, lmo_away o with
             | Some fwr, Some awr => a' <- update_active_set a fwr awr gamma ;; Ok (Some a')
             | _, _ => Err TypeError             (* None as a dictionary key is not modelled *)
             end
         end ;;
  Ok (mkSfwI it batch s est o gamma (mkSfw x dual agg sigma act (sw_t s))).

(** lines 880-936: the inner loop; [success] as on entry *)
Definition sfw_tick (s : sfw_state) : sfw_state :=
  mkSfw (sw_x s) (sw_dual s) (sw_agg s) (sw_sigma s) (sw_active s) (S (sw_t s)).
Definition sfw_moved (r : sfw_iter) : K := vnorm1 (vsub (sw_x (si_next r)) (sw_x (si_prev r))).
Fixpoint sfw_while (fuel : nat) (idx : list nat) (it i : nat) (s : sfw_state) (success : bool) (log : list sfw_iter)
  : result (sfw_state * bool * list sfw_iter) :=
  match fuel with
  | O => Err OutOfFuel
  | S fuel' =>
      if Nat.ltb i (length idx) then
        r <- sfw_step it (slice idx i (Nat.min (i + bs) (p_n P))) s ;;
        if sfw_moved r <? tol then Ok (si_next r, true, r :: log)                (* lines 932-934: break *)
        else sfw_while fuel' idx it (i + bs) (sfw_tick (si_next r)) success (r :: log)
      else Ok (s, success, log)
  end.

Record sfw_result : Type := mkSfwR {
  sr_x : vec K; sr_success : bool; sr_nit : nat;
  sr_log : list sfw_iter; sr_state : sfw_state                                   (* ghost *)
}.
(** lines 872-936: [k] epochs remain *)
Fixpoint sfw_epochs (draws : nat -> list nat) (k it : nat) (s : sfw_state) (success : bool) (log : list sfw_iter)
  : result sfw_result :=
  match k with
  | O => Err UnboundLocalError          (* only for max_iter = 0: [it] is unbound at line 939 *)
  | S k' =>
      if Nat.eqb bs 0 then Err ZeroDivisionError else                            (* line 878 *)
      '(s', success', log') <- sfw_while (S (length (draws it))) (draws it) it 0 s success log ;;
      match k' with
      | O => Ok (mkSfwR (sw_x s') success' it log' s')
      | S _ => sfw_epochs draws k' (S it) s' success' log'
      end
  end.

(** ** lines 734-939  minimize_sfw *)
Definition sfw_init (x0 : vec K) (a : option (active K)) : result sfw_state :=
  sigma <- match variant with
           | LF => mv x0 (seq 0 (p_n P))        (* line 846, [safe_sparse_dot(A, x)], all rows *)
           | _ => Ok []
           end ;;
  Ok (mkSfw x0 (vzeros (p_n P)) (vzeros (p_d P)) sigma a 0).
Definition minimize_sfw (lmo_variant : fw_variant K) (max_iter : nat) (draws : nat -> list nat) (x0 : vec K)
  : result sfw_result :=
  match variant with OtherSfw => Err ValueError | _ =>                           (* lines 824-826 *)
  a <- match lmo_variant with                                                    (* lines 827-829, 862-867 *)
       | Vanilla => Ok None
       | Pairwise r => Ok (Some [(r, n1)])
       | OtherVariant => Err ValueError
       end ;;
  if negb (Nat.eqb (length x0) (p_d P)) then Err ValueError else                 (* line 832 *)
  s <- sfw_init x0 a ;;
  match rule, lipschitz with
  | SDR, None => Err ValueError                                                  (* lines 857-858 *)
  | _, _ => sfw_epochs draws max_iter 0 s false []
  end
  end.
End Sfw.
Arguments sfw_state K : clear implicits.
Arguments sfw_iter K : clear implicits.
Arguments sfw_result K : clear implicits.
