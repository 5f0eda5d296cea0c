(** * Model of minimize_vrtos for an x0 of any element type

    copt/randomized.py:498 [z = x0.copy()], :525 [x1 = x0.copy()] and the array x0 itself (passed as
    x1 of the epoch, lines 529-539 and 545-555) keep the element type of x0; the epoch writes to all three (lines 634, 654,
    676, 685), converting the value: [cast], the identity for float64, truncation towards zero for
    integers.  Y, memory_gradient, gradient_average and grad_tmp are float64 by construction (lines
    497, 523-526).  A sparse proximal operator is a parameter, with its own writes. *)
From Coq Require Import ZArith Bool List.
From Verif Require Import Num Vec ModelRandomized.
Import ListNotations.
Set Implicit Arguments.

Section IntVrtos.
Context {K : Num}.
Local Open Scope num_scope.
Variable P : problem K.
Variable cast : K -> K.

(** lines 628-638 and 648-658 *)
Definition vr_xupdate_cast (B : blocks K) (step : K) (z y avg tmp : vec K) (i : nat) (x : vec K) : result (vec K) :=
  block_loop (k_bsi B) (k_bsp B) (k_ptr B) i (fun h bj x =>
    dh <- get (k_d B) h ;;
    ga <- get avg bj ;; zb <- get z bj ;;
    let bias_term := dh * (ga + p_alpha P * zb) in
    yb <- get y bj ;; gt <- get tmp bj ;;
    set x bj (cast (nofZ K 2 * zb - yb - step * nlit 1 2 * (gt + bias_term)))) x.
(** lines 669-676 and 678-685 *)
Definition vr_zupdate_cast (B B1 B2 : blocks K) (y0 y1 : vec K) (i : nat) (z : vec K) : result (vec K) :=
  block_loop (k_bsi B) (k_bsp B) (k_ptr B) i (fun h bj z =>
    h1 <- get (rblocks (k_ptr B1)) bj ;; d1 <- get (k_d B1) h1 ;;
    h2 <- get (rblocks (k_ptr B2)) bj ;; d2 <- get (k_d B2) h2 ;;
    let da := n1 / d1 in let db := n1 / d2 in
    a <- get y0 bj ;; b <- get y1 bj ;;
    set z bj (cast ((da * a + db * b) / (da + db)))) z.
(** lines 615-693 *)
Definition vr_sample_cast (B1 B2 : blocks K) (prox1 prox2 : sprox K) (step : K) (i : nat) (s : vr_state K) : result (vr_state K) :=
  p <- row_dot P (vr_z s) i ;;
  bi <- get (p_b P) i ;;
  let grad_i := p_fd P p bi in
  mem_i <- get (vr_mem s) i ;;
  tmp <- set_tmp P i (grad_i - mem_i) (vr_tmp s) ;;
  x1 <- vr_xupdate_cast B1 step (vr_z s) (vr_y0 s) (vr_avg s) tmp i (vr_x1 s) ;;
  x1 <- prox1 x1 i (k_bsi B1) (k_bsp B1) (k_d B1) step ;;
  y0 <- vr_yupdate B1 (vr_z s) x1 i (vr_y0 s) ;;
  x2 <- vr_xupdate_cast B2 step (vr_z s) (vr_y1 s) (vr_avg s) tmp i (vr_x2 s) ;;
  x2 <- prox2 x2 i (k_bsi B2) (k_bsp B2) (k_d B2) step ;;
  y1 <- vr_yupdate B2 (vr_z s) x2 i (vr_y1 s) ;;
  z <- vr_zupdate_cast B1 B1 B2 y0 y1 i (vr_z s) ;;
  z <- vr_zupdate_cast B2 B1 B2 y0 y1 i z ;;
  '(avg', tmp') <- saga_memory P i (grad_i - mem_i) (vr_avg s) tmp ;;
  mem' <- set (vr_mem s) i grad_i ;;
  Ok (mkVr y0 y1 x1 x2 z mem' avg' tmp').
(** lines 544-563 *)
Fixpoint vr_loop_cast (B1 B2 : blocks K) (prox1 prox2 : sprox K) (step : K) (perms : nat -> list nat) (k it : nat)
    (s : vr_state K) (log : list (vr_state K)) : result (vr_result K) :=
  match k with
  | O => Err UnboundLocalError
  | S k' =>
      s' <- forM (perms it) (vr_sample_cast B1 B2 prox1 prox2 step) s ;;
      let certificate := vnorm (vsub (vr_x1 s') (vr_z s')) + vnorm (vsub (vr_x2 s') (vr_z s')) in
      match k' with
      | O => Ok (mkVrR (vr_z s') false it certificate (vr_x1 s') (s' :: log))
      | S _ => vr_loop_cast B1 B2 prox1 prox2 step perms k' (S it) s' (s' :: log)
      end
  end.
(** lines 481-563 *)
Definition minimize_vrtos_cast (x0 : vec K) (step : K) (prox1 prox2 : option (sprox K)) (ptr1 ptr2 : option (list nat))
    (max_iter : nat) (tol : K) (perms : nat -> list nat) : result (vr_result K) :=
  if negb (Nat.eqb (p_n P) (length (p_b P))) then Err AssertionError else
  if step <? n0 then Err ValueError else
  B1 <- make_blocks P (match ptr1 with Some q => q | None => eye_ptr (p_d P) end) ;;
  B2 <- make_blocks P (match ptr2 with Some q => q | None => eye_ptr (p_d P) end) ;;
  let prox1 := match prox1 with Some q => q | None => no_prox end in
  let prox2 := match prox2 with Some q => q | None => no_prox end in
  s <- forM [0%nat] (vr_sample_cast B1 B2 prox1 prox2 step) (vr_init P x0) ;;
  vr_loop_cast B1 B2 prox1 prox2 step perms max_iter 0 s [s].
End IntVrtos.
