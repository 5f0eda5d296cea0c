(** * Model of minimize_saga and minimize_svrg for an x0 of any element type

    copt/randomized.py:133 and :308 [x = np.ascontiguousarray(x0).copy()] keeps the element type of
    x0, and every [x[b_j] -= ...] (lines 193, 386) converts the value to that type: [cast], the
    identity for float64, truncation towards zero for integers.  A sparse proximal operator writes
    to the same array; it is a parameter, so its own writes are those of the parameter.  The other
    arrays (memory_gradient, gradient_average, grad_tmp, lines 206-208, 347, 390) are float64 by
    construction. *)
From Coq Require Import ZArith Bool List.
From Verif Require Import Num Vec ModelRandomized.
Import ListNotations.
Set Implicit Arguments.

Section IntStart.
Context {K : Num}.
Local Open Scope num_scope.
Variable P : problem K.
Variable cast : K -> K.

(** lines 188-193, 381-386, with the conversion of the stored value *)
Definition coef_update_cast (B : blocks K) (step : K) (gavg gtmp : vec K) (i : nat) (x : vec K) : result (vec K) :=
  block_loop (k_bsi B) (k_bsp B) (k_ptr B) i (fun h bj x =>
    dh <- get (k_d B) h ;;
    ga <- get gavg bj ;; xb <- get x bj ;; gt <- get gtmp bj ;;
    let bias_term := dh * (ga + p_alpha P * xb) in
    set x bj (cast (xb - step * (gt + bias_term)))) x.

(** lines 174-203 *)
Definition saga_sample_cast (B : blocks K) (prox : sprox K) (step : K) (i : nat) (s : saga_state K) : result (saga_state K) :=
  p <- row_dot P (sa_x s) i ;;
  bi <- get (p_b P) i ;;
  let grad_i := p_fd P p bi in
  mem_i <- get (sa_mem s) i ;;
  tmp <- set_tmp P i (grad_i - mem_i) (sa_tmp s) ;;
  x1 <- coef_update_cast B step (sa_avg s) tmp i (sa_x s) ;;
  x2 <- prox x1 i (k_bsi B) (k_bsp B) (k_d B) step ;;
  '(avg', tmp') <- saga_memory P i (grad_i - mem_i) (sa_avg s) tmp ;;
  mem' <- set (sa_mem s) i grad_i ;;
  Ok (mkSaga x2 mem' avg' tmp').
(** lines 213-224 *)
Fixpoint saga_loop_cast (B : blocks K) (prox : sprox K) (step tol : K) (perms : nat -> list nat) (k it : nat)
    (s : saga_state K) (log : list (saga_state K)) : result (epoch_result K (saga_state K)) :=
  match k with
  | O => Err UnboundLocalError
  | S k' =>
      s' <- forM (perms it) (saga_sample_cast B prox step) s ;;
      let diff_norm := vnorm1 (vsub (sa_x s') (sa_x s)) in
      if diff_norm <? tol then Ok (mkER (sa_x s') true it (s' :: log))
      else match k' with
           | O => Ok (mkER (sa_x s') false it (s' :: log))
           | S _ => saga_loop_cast B prox step tol perms k' (S it) s' (s' :: log)
           end
  end.
(** lines 133-224; [x0] holds the values of the array given by the caller *)
Definition minimize_saga_cast (x0 : vec K) (step : option K) (prox : option (sprox K)) (ptr : option (list nat))
    (max_iter : nat) (tol : K) (perms : nat -> list nat) : result (epoch_result K (saga_state K)) :=
  match step with
  | None => Err ValueError
  | Some step =>
      B <- make_blocks P (match ptr with Some q => q | None => eye_ptr (p_d P) end) ;;
      let prox := match prox with Some q => q | None => no_prox end in
      saga_loop_cast B prox step tol perms max_iter 0 (saga_init P x0) [saga_init P x0]
  end.

(** lines 365-387 *)
Definition svrg_sample_cast (B : blocks K) (prox : sprox K) (step : K) (snap gavg : vec K) (i : nat) (s : vec K * vec K) : result (vec K * vec K) :=
  let '(x, tmp) := s in
  p <- row_dot P x i ;;
  p_old <- row_dot P snap i ;;
  bi <- get (p_b P) i ;;
  let grad_i := p_fd P p bi in
  let old_grad_i := p_fd P p_old bi in
  tmp' <- set_tmp P i (grad_i - old_grad_i) tmp ;;
  x1 <- coef_update_cast B step gavg tmp' i x ;;
  x2 <- prox x1 i (k_bsi B) (k_bsp B) (k_d B) step ;;
  Ok (x2, tmp').
(** lines 394-406 *)
Fixpoint svrg_loop_cast (B : blocks K) (prox : sprox K) (step tol : K) (perms : nat -> list nat) (k it : nat)
    (x tmp : vec K) (log : list (vec K * vec K)) : result (epoch_result K (vec K * vec K)) :=
  match k with
  | O => Err UnboundLocalError
  | S k' =>
      gavg <- full_grad P x ;;
      '(x', tmp') <- forM (perms it) (svrg_sample_cast B prox step x gavg) (x, tmp) ;;
      if vnorm1 (vsub x' x) <? tol then Ok (mkER x' true it ((x', tmp') :: log))
      else match k' with
           | O => Ok (mkER x' false it ((x', tmp') :: log))
           | S _ => svrg_loop_cast B prox step tol perms k' (S it) x' tmp' ((x', tmp') :: log)
           end
  end.
(** lines 308-406 *)
Definition minimize_svrg_cast (x0 : vec K) (step : option K) (prox : option (sprox K)) (ptr : option (list nat))
    (max_iter : nat) (tol : K) (perms : nat -> list nat) : result (epoch_result K (vec K * vec K)) :=
  match step with
  | None => Err ValueError
  | Some step =>
      B <- make_blocks P (match ptr with Some q => q | None => eye_ptr (p_d P) end) ;;
      let prox := match prox with Some q => q | None => no_prox end in
      svrg_loop_cast B prox step tol perms max_iter 0 x0 (vzeros (p_d P)) [(x0, vzeros (p_d P))]
  end.
End IntStart.
