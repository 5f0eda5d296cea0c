(** * Model of LogLoss for arrays of any element type

    LogLoss allocates its results with np.zeros_like / np.empty_like of an argument (copt/loss.py:53,
    67, 126), so what is written there is converted to the element type of the argument.  [Integral] is
    an integer type of unlimited range, [Floating] is float64; [cast] is the conversion of a float to
    the integer type.  Overflow of integer types and float32 are not modelled. *)
From Coq Require Import ZArith Bool List.
From Verif Require Import Num Vec ModelPenalty ModelTv ModelLoss ModelTorch.
Import ListNotations.
Set Implicit Arguments.

Section IntLoss.
Context {K : Num}.
Variables (np_exp np_log1p sc_expit : K -> K) (cast : K -> K).
Local Open Scope num_scope.

(** what is stored when a float is written into an array of element type t *)
Definition store (t : dtype) (v : K) : K := match t with Floating => v | Integral => cast v end.
(** numpy's result type of an operation on two arrays (or array and scalar) *)
Definition promote (t u : dtype) : dtype := match t, u with Integral, Integral => Integral | _, _ => Floating end.

(** copt/loss.py:77-81  the element type of [z = safe_sparse_dot(A, x_).ravel() + c]: c is x[-1] with an
    intercept, the float 0.0 without *)
Definition z_type (tA tx : dtype) (intercept : bool) : dtype := promote (promote tA tx) (if intercept then tx else Floating).

(** copt/loss.py:76-97  LogLoss.f_grad; logsig (lines 51-62) and expit_b (lines 64-74) fill an array
    with the element type of z *)
Definition log_f_grad_typed (tA tx : dtype) (A : matrix K) (b : vec K) (alpha : K) (intercept : bool) (x : vec K) (return_gradient : bool) : result (fg_ret K) :=
  '(x_, c) <- split_intercept intercept x ;;
  ax <- mat_dot A x_ ;;
  let z := map (fun t => t + c) ax in
  let tz := z_type tA tx intercept in
  let loss := vmean (map2 (fun bi zi => (n1 - bi) * zi - store tz (logsig np_exp np_log1p zi)) b z) in
  let penalty := vdot x_ x_ in
  let loss := loss + nlit 1 2 * alpha * penalty in
  if negb return_gradient then Ok (RLoss loss) else
  let z0_b := map2 (fun zi bi => store tz (expit_b np_exp zi bi)) z b in
  g <- tmat_dot A z0_b ;;
  let grad := vadd (vdivs g (nofnat (n_samples A))) (vscale alpha x_) in
  let grad_c := vmean z0_b in
  if intercept then Ok (RGrad (grad ++ [grad_c])) else Ok (RPair loss grad).

(** copt/loss.py:99-137  LogLoss.hessian_mv, 139-177 hessian_trace (same code).  [ts]: element type of s;
    [talpha]: type of alpha (the default 0.0 is a float).  [ret = np.empty_like(s)]: the product is
    converted at line 127; [ret += v] with an integer ret and a float v raises UFuncTypeError, a
    TypeError (lines 128, 132, 134). *)
Definition log_hessian_mv_typed (ts talpha : dtype) (A : matrix K) (alpha : K) (intercept : bool) (x : vec K) (s : vec K) : result (vec K) :=
  '(x_, c) <- split_intercept intercept x ;;
  ax <- mat_dot A x_ ;;
  let z := map (fun t => sc_expit (t + c)) ax in
  let d := map (fun zi => zi * (n1 - zi)) z in
  let dX := mkMat (map2 vscale d (m_rows A)) (m_cols A) in
  let s_ := firstn (m_cols A) s in
  v <- mat_dot dX s_ ;;
  h <- tmat_dot A v ;;
  let ret := map (store ts) h in                                                 (* line 127 *)
  ret <- match ts, promote talpha ts with                                        (* line 128 *)
         | Integral, Floating => Err TypeError
         | _, _ => Ok (vadd ret (vscale alpha s_))
         end ;;
  if intercept then
    let dd_intercept := rows_sum (m_cols A) (m_rows dX) (repeat n1 (n_samples A)) in
    s_last <- match rev s with c :: _ => Ok c | [] => Err IndexError end ;;
    match ts with
    | Integral => Err TypeError                                                  (* line 132 *)
    | Floating =>
        let ret := vadd ret (vscale s_last dd_intercept) in
        Ok (vdivs (ret ++ [vdot dd_intercept s_ + vsum d * s_last]) (nofnat (n_samples A)))
    end
  else Ok (vdivs ret (nofnat (n_samples A))).
End IntLoss.
