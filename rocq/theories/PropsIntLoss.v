(** * C126: LogLoss on integer arrays.
    [log_f_grad_typed ... tA tx] is f_grad for a matrix of element type tA and a point of element type tx; [int_cast] is truncation towards zero. *)
From Coq Require Import Reals ZArith List Bool Lra Lia.
From Verif Require Import Num Vec Spec RVec SpecLoss LossFacts LossScalar LossHess ModelTv ModelLoss ModelTorch ModelMemory ModelIntLoss IntLossMain.
Import ListNotations.
Local Open Scope R_scope.
Local Notation log1pR := (fun t : R => ln (1 + t)) (only parsing).

(** Refuted: the same point, once as a float64 and once as an integer array, gives different losses and gradients *)
Theorem C126_refuted : exists (A : matrix RN) (b x : list R),
  log_init (K:=RN) (Some A) b = Ok A /\
  log_f_grad_typed (K:=RN) exp log1pR int_cast Floating Floating A b 0 true x false = Ok (RLoss (K:=RN) (ln 2)) /\
  log_f_grad_typed (K:=RN) exp log1pR int_cast Integral Integral A b 0 true x false = Ok (RLoss (K:=RN) 0) /\
  log_f_grad_typed (K:=RN) exp log1pR int_cast Floating Floating A b 0 true x true = Ok (RGrad (K:=RN) [- (1 / 2); - (1 / 2)]) /\
  log_f_grad_typed (K:=RN) exp log1pR int_cast Integral Integral A b 0 true x true = Ok (RGrad (K:=RN) [0; 0]).
Proof. exact main_C126_refuted. Qed.
Print Assumptions C126_refuted.
(** with an intercept, integer data and an integer point the loss is piecewise linear, whatever the data *)
Theorem C126_value_partial : forall (A : matrix RN) (b : list R) (alpha : R) (w : list R) (c : R),
  rect (m_cols A) (m_rows A) -> length w = m_cols A -> length b = length (m_rows A) ->
  Forall (Forall (fun v => exists k, v = IZR k)) (m_rows A) -> Forall (fun v => exists k, v = IZR k) w -> (exists k, c = IZR k) ->
  log_f_grad_typed (K:=RN) exp log1pR int_cast Integral Integral A b alpha true (w ++ [c]) false =
    Ok (RLoss (K:=RN) (Rsum (map2 (fun bi z => (1 - bi) * Rmax z 0 + bi * Rmax (- z) 0) b (map (fun r => dot r w + c) (m_rows A))) / INR (length b) + alpha / 2 * dot w w)).
Proof. exact main_C126_value_partial. Qed.
Print Assumptions C126_value_partial.
(** and the gradient is the gradient of the penalty: the data do not occur in it *)
Theorem C126_gradient_partial : forall (A : matrix RN) (b : list R) (alpha : R) (w : list R) (c : R),
  rect (m_cols A) (m_rows A) -> length w = m_cols A -> length b = length (m_rows A) -> Forall (fun t => 0 <= t <= 1) b ->
  log_f_grad_typed (K:=RN) exp log1pR int_cast Integral Integral A b alpha true (w ++ [c]) true = Ok (RGrad (K:=RN) (smul alpha w ++ [0])).
Proof. exact main_C126_gradient_partial. Qed.
Print Assumptions C126_gradient_partial.
(** hessian_mv(x)(s) for an integer s raises, unless alpha is an integer and there is no intercept; then the product is truncated *)
Theorem C126_hessian_partial : forall (A : matrix RN) (alpha : R) (talpha : dtype) (x s : list R),
  rect (m_cols A) (m_rows A) -> m_rows A <> [] ->
  (length x = m_cols A -> length s = m_cols A ->
   log_hessian_mv_typed (K:=RN) sigma int_cast Integral Floating A alpha false x s = Err TypeError /\
   log_hessian_mv_typed (K:=RN) sigma int_cast Integral Integral A alpha false x s =
     Ok (smul (/ INR (length (m_rows A))) (vplus (map int_cast (smul (INR (length (m_rows A))) (mhess (m_cols A) (m_rows A) x s))) (smul alpha s)))) /\
  (length x = S (m_cols A) -> length s = S (m_cols A) ->
   log_hessian_mv_typed (K:=RN) sigma int_cast Integral talpha A alpha true x s = Err TypeError).
Proof. exact main_C126_hessian_partial. Qed.
Print Assumptions C126_hessian_partial.
(** float64 matrix or point, or no intercept: as in C19-C25, for every arithmetic *)
Theorem C126_float_partial : forall (K : Num) (np_exp np_log1p sc_expit cast : K -> K) (tA tx talpha : dtype) (A : matrix K) (b : vec K) (alpha : K) (intercept : bool) (x s : vec K) (rg : bool),
  (tA = Floating \/ tx = Floating \/ intercept = false ->
   log_f_grad_typed np_exp np_log1p cast tA tx A b alpha intercept x rg = log_f_grad np_exp np_log1p A b alpha intercept x rg) /\
  log_hessian_mv_typed sc_expit cast Floating talpha A alpha intercept x s = log_hessian_mv sc_expit A alpha intercept x s.
Proof. exact main_C126_float_partial. Qed.
Print Assumptions C126_float_partial.
Example C126_nonvacuous : let A := mkMat (K:=RN) [[1; -2]; [3; 0]] 2 in
  rect (m_cols A) (m_rows A) /\ m_rows A <> [] /\ length ([4; 1] : list R) = m_cols A /\ length ([0; 1] : list R) = length (m_rows A) /\
  Forall (Forall (fun v => exists k, v = IZR k)) (m_rows A) /\ Forall (fun v => exists k, v = IZR k) [4; 1] /\ (exists k, -7 = IZR k) /\ Forall (fun t => 0 <= t <= 1) [0; 1].
Proof.
  assert (I : forall k, exists k', IZR k = IZR k') by (intros k; exists k; reflexivity).
  cbn. split; [repeat constructor|]. split; [discriminate|]. split; [reflexivity|]. split; [reflexivity|].
  split; [repeat constructor; apply I|]. split; [repeat constructor; apply I|]. split; [apply I|]. repeat constructor; lra.
Qed.
