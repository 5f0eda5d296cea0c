(** * ModelLoss: copt/loss.py

    A data matrix (dense or sparse) is the list of its rows with its number of columns; the order of
    the additions inside products is not modelled.  [np_exp], [np_log1p], [sc_expit] stand for np.exp,
    np.log1p, scipy.special.expit; [svds1] for the call splinalg.svds(A, k=1, ...)[0]. *)
From Coq Require Import ZArith Bool List Lia.
From Verif Require Import Num Vec ModelPenalty ModelTv.
Import ListNotations.
Set Implicit Arguments.

Record matrix (K : Num) : Type := mkMat { m_rows : list (vec K); m_cols : nat }.
Arguments mkMat {K} _ _.
Arguments m_rows {K} _.
Arguments m_cols {K} _.

(** what f_grad returns: the loss, the pair (loss, gradient), or (intercept) the gradient alone *)
Inductive fg_ret (K : Num) : Type :=
| RLoss (l : K)
| RPair (l : K) (g : vec K)
| RGrad (g : vec K).
Arguments RLoss {K} _.
Arguments RPair {K} _ _.
Arguments RGrad {K} _.

Section Loss.
Context {K : Num}.
Variables (np_exp np_log1p sc_expit : K -> K) (svds1 : matrix K -> result K).
Local Open Scope num_scope.

Definition n_samples (A : matrix K) : nat := length (m_rows A).
(** sparse.eye(n, n) *)
Definition eye (n : nat) : matrix K := mkMat (map (fun i => map (fun j => if Nat.eqb i j then n1 else n0) (seq 0 n)) (seq 0 n)) n.
(** A.dot(x); ValueError when the shapes do not match *)
Definition mat_dot (A : matrix K) (x : vec K) : result (vec K) :=
  if Nat.eqb (length x) (m_cols A) then Ok (map (fun r => vdot r x) (m_rows A)) else Err ValueError.
(** A.T.dot(u): the rows weighted by u *)
Definition rows_sum (d : nat) (rows : list (vec K)) (u : vec K) : vec K :=
  fold_left vadd (map2 vscale u rows) (vzeros d).
Definition tmat_dot (A : matrix K) (u : vec K) : result (vec K) :=
  if Nat.eqb (length u) (n_samples A) then Ok (rows_sum (m_cols A) (m_rows A) u) else Err ValueError.
(** u - v with numpy broadcasting of 1-D arrays *)
Definition np_sub (u v : vec K) : result (vec K) :=
  if Nat.eqb (length u) (length v) then Ok (vsub u v) else
  match u, v with
  | _, [b] => Ok (map (fun a => a - b) u)
  | [a], _ => Ok (map (fun b => a - b) v)
  | _, _ => Err ValueError
  end.
(** np.min: ValueError when empty, nan if some entry is nan *)
Definition npmin (v : vec K) : result K :=
  match v with
  | [] => Err ValueError
  | x :: v' => Ok (fold_left (fun m y => if nisnan m then m else if nisnan y then y else if y <? m then y else m) v' x)
  end.

(** ** LogLoss *)
(** copt/loss.py:27-37  LogLoss.__init__: the matrix stored, or the exception *)
Definition log_init (A : option (matrix K)) (b : vec K) : result (matrix K) :=
  let A := match A with Some A => A | None => eye (length b) end in
  mx <- npmax b ;;
  if n1 <? mx then Err ValueError else
  mn <- npmin b ;;
  if mn <? n0 then Err ValueError else
  if negb (Nat.eqb (n_samples A) (length b)) then Err ValueError else Ok A.

(** copt/loss.py:42-48  LogLoss._sigma, one entry; [pos]: idx at this entry *)
Definition log_sigma (pos : bool) (z : K) : K :=
  if pos then n1 / (n1 + np_exp (- z)) else np_exp z / (n1 + np_exp z).
(** copt/loss.py:50-61  LogLoss.logsig, one entry (a nan is in none of the four masks) *)
Definition logsig (x : K) : K :=
  if x <? nofZ K (-33) then x else
  if (nofZ K (-33) <=? x) && (x <? nofZ K (-18)) then x - np_exp x else
  if (nofZ K (-18) <=? x) && (x <? nofZ K 37) then - np_log1p (np_exp (- x)) else
  if nofZ K 37 <=? x then - np_exp (- x) else n0.
(** copt/loss.py:63-73  LogLoss.expit_b, one entry *)
Definition expit_b (x b : K) : K :=
  if x <? n0 then ((n1 - b) * np_exp x - b) / (n1 + np_exp x)
  else ((n1 - b) - b * np_exp (- x)) / (n1 + np_exp (- x)).

(** x[:-1], x[-1] *)
Definition split_intercept (intercept : bool) (x : vec K) : result (vec K * K) :=
  if intercept then (c <- match rev x with c :: _ => Ok c | [] => Err IndexError end ;; Ok (removelast x, c))
  else Ok (x, n0).

(** copt/loss.py:75-98  LogLoss.f_grad *)
Definition log_f_grad (A : matrix K) (b : vec K) (alpha : K) (intercept : bool) (x : vec K) (return_gradient : bool) : result (fg_ret K) :=
  '(x_, c) <- split_intercept intercept x ;;
  ax <- mat_dot A x_ ;;
  let z := map (fun t => t + c) ax in
  let loss := vmean (map2 (fun bi zi => (n1 - bi) * zi - logsig zi) b z) in
  let penalty := vdot x_ x_ in
  let loss := loss + nlit 1 2 * alpha * penalty in
  if negb return_gradient then Ok (RLoss loss) else
  let z0_b := map2 expit_b z b in
  g <- tmat_dot A z0_b ;;
  let grad := vadd (vdivs g (nofnat (n_samples A))) (vscale alpha x_) in
  let grad_c := vmean z0_b in
  if intercept then Ok (RGrad (grad ++ [grad_c])) else Ok (RPair loss grad).
(** copt/loss.py:39-40  LogLoss.__call__ *)
Definition log_call (A : matrix K) (b : vec K) (alpha : K) (intercept : bool) (x : vec K) : result (fg_ret K) :=
  log_f_grad A b alpha intercept x false.

(** copt/loss.py:100-138  LogLoss.hessian_mv, and 140-178 hessian_trace (same code): the product with s, for s of
    length n_features (+ 1 with an intercept; other lengths are not modelled).  The dense and the sparse
    branch compute the same dX. *)
Definition log_hessian_mv (A : matrix K) (alpha : K) (intercept : bool) (x : vec K) (s : vec K) : result (vec K) :=
  '(x_, c) <- split_intercept intercept x ;;
  ax <- mat_dot A x_ ;;
  let z := map (fun t => sc_expit (t + c)) ax in
  let d := map (fun zi => zi * (n1 - zi)) z in
  let dX := mkMat (map2 vscale d (m_rows A)) (m_cols A) in
  let s_ := firstn (m_cols A) s in
  v <- mat_dot dX s_ ;;
  h <- tmat_dot A v ;;
  let ret := vadd h (vscale alpha s_) in
  if intercept then
    let dd_intercept := rows_sum (m_cols A) (m_rows dX) (repeat n1 (n_samples A)) in
    s_last <- match rev s with c :: _ => Ok c | [] => Err IndexError end ;;
    let ret := vadd ret (vscale s_last dd_intercept) in
    Ok (vdivs (ret ++ [vdot dd_intercept s_ + vsum d * s_last]) (nofnat (n_samples A)))
  else Ok (vdivs ret (nofnat (n_samples A))).

(** copt/loss.py:180-197  LogLoss.partial_deriv: [sched] is the order in which the parallel loop runs its
    iterations *)
Definition log_partial_deriv (sched : list nat) (p y : vec K) : result (vec K) :=
  forM sched (fun i out =>
    pi <- get p i ;;
    yi <- get y i ;;
    set out i (if pi <? n0 then ((n1 - yi) * np_exp pi - yi) / (n1 + np_exp pi)
               else ((n1 - yi) - yi * np_exp (- pi)) / (n1 + np_exp (- pi)))) (vzeros (length p)).

(** copt/loss.py:199-202  LogLoss.lipschitz *)
Definition log_lipschitz (A : matrix K) (alpha : K) : result K :=
  s <- svds1 A ;; Ok (nlit 1 4 * (s * s) / nofnat (n_samples A) + alpha).
(** copt/loss.py:204-210  LogLoss.max_lipschitz *)
Definition log_max_lipschitz (A : matrix K) (alpha : K) : result K :=
  m <- npmax (map (fun r => vdot r r) (m_rows A)) ;; Ok (nlit 1 4 * m + alpha).

(** ** SquareLoss *)
(** copt/loss.py:223-229  SquareLoss.__init__ *)
Definition sq_init (A : option (matrix K)) (b : vec K) : matrix K := match A with Some A => A | None => eye (length b) end.
(** copt/loss.py:231-234  SquareLoss.__call__ *)
Definition sq_call (A : matrix K) (b : vec K) (alpha : K) (x : vec K) : result K :=
  ax <- mat_dot A x ;;
  z <- np_sub ax b ;;
  let pen := alpha * vdot x x in
  Ok (nlit 1 2 * vmean (vmul z z) + nlit 1 2 * pen).
(** copt/loss.py:236-243  SquareLoss.f_grad *)
Definition sq_f_grad (A : matrix K) (b : vec K) (alpha : K) (x : vec K) (return_gradient : bool) : result (fg_ret K) :=
  ax <- mat_dot A x ;;
  z <- np_sub ax b ;;
  let pen := alpha * vdot x x in
  let loss := nlit 1 2 * vmean (vmul z z) + nlit 1 2 * pen in
  if negb return_gradient then Ok (RLoss loss) else
  g <- tmat_dot A z ;;
  Ok (RPair loss (vadd (vdivs g (nofnat (n_samples A))) (vscale alpha x))).
(** copt/loss.py:245-250  SquareLoss.partial_deriv *)
Definition sq_partial_deriv (p y : vec K) : result (vec K) := np_sub p y.
(** copt/loss.py:252-255  SquareLoss.lipschitz *)
Definition sq_lipschitz (A : matrix K) (alpha : K) : result K :=
  s <- svds1 A ;; Ok (s * s / nofnat (n_samples A) + alpha).
(** copt/loss.py:257-263  SquareLoss.max_lipschitz *)
Definition sq_max_lipschitz (A : matrix K) (alpha : K) : result K :=
  m <- npmax (map (fun r => vdot r r) (m_rows A)) ;; Ok (m + alpha).

(** ** HuberLoss *)
(** boolean masks: v[idx] *)
Fixpoint mask {T} (idx : list bool) (v : list T) : list T :=
  match idx, v with
  | b :: idx', x :: v' => if b then x :: mask idx' v' else mask idx' v'
  | _, _ => []
  end.
(** copt/loss.py:275-293  HuberLoss.f_grad *)
Definition hub_f_grad (A : matrix K) (b : vec K) (alpha delta : K) (x : vec K) (return_gradient : bool) : result (fg_ret K) :=
  ax <- mat_dot A x ;;
  z <- np_sub ax b ;;
  let idx := map (fun t => nabs K t <? delta) z in
  let nidx := map negb idx in
  let loss := nlit 1 2 * vsum (vmul (mask idx z) (mask idx z)) in
  let loss := loss + vsum (map (fun t => delta * (nabs K t - nlit 1 2 * delta)) (mask nidx z)) in
  let loss := loss / nofnat (length z) + nlit 1 2 * alpha * vdot x x in
  if negb return_gradient then Ok (RLoss loss) else
  if negb (Nat.eqb (length z) (n_samples A)) then Err IndexError else       (* boolean index of the wrong length *)
  let n := nofnat (n_samples A) in
  let grad := vadd (vdivs (rows_sum (m_cols A) (mask idx (m_rows A)) (mask idx z)) n) (vscale alpha x) in
  let grad := vadd grad (vdivs (rows_sum (m_cols A) (mask nidx (m_rows A)) (map (fun t => delta * nsign t) (mask nidx z))) n) in
  Ok (RPair loss grad).
(** copt/loss.py:272-273  HuberLoss.__call__ *)
Definition hub_call (A : matrix K) (b : vec K) (alpha delta : K) (x : vec K) : result (fg_ret K) :=
  hub_f_grad A b alpha delta x false.
(** copt/loss.py:295-298  HuberLoss.lipschitz *)
Definition hub_lipschitz (A : matrix K) (alpha : K) : result K :=
  s <- svds1 A ;; Ok (s * s / nofnat (n_samples A) + alpha).

End Loss.
