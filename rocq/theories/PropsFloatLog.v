(** * C117, C118: the logistic loss over IEEE binary64.
    [F64], [fin], [fv] as in PropsFloat.  np.exp and np.log1p are arbitrary functions on floats with relative error at most d (plus the
    smallest positive float, for underflow): [exp_accurate d], [log1p_accurate d]; a correctly rounded library has d = 2^-53. *)
From Coq Require Import Reals Lra Lia List Bool ZArith Permutation.
From Coq Require Import Floats.SpecFloat.
From Verif Require Import Num Vec Spec RVec SpecLoss ModelTv ModelLoss FloatBase FloatLogistic FloatLogistic2 FloatLogValue FloatLogInter.
Import ListNotations.
Local Open Scope R_scope.

(** LogLoss.logsig: the relative error is at most 3 d + 4 2^-53 for every finite input, on the four branches *)
Theorem C117_logsig : forall (d : R) (np_exp np_log1p : F64 -> F64) (x : F64),
  0 <= d <= 1 / 1000 -> exp_accurate d np_exp -> log1p_accurate d np_log1p -> fin x ->
  fin (logsig np_exp np_log1p x) /\
  Rabs (fv (logsig np_exp np_log1p x) - ln (sigma (fv x))) <= (3 * d + 4 * / 2 ^ 53) * Rabs (ln (sigma (fv x))) + powerRZ 2 (-1074).
Proof. exact main_C117_logsig. Qed.
Print Assumptions C117_logsig.
(** LogLoss.expit_b: absolute error at most 2 d + 6 2^-53 for labels in [0,1], relative error at most 2 d + 4 2^-53 for labels 0 and 1 *)
Theorem C117_expit : forall (d : R) (np_exp : F64 -> F64) (x b : F64),
  0 <= d <= 1 / 1000 -> exp_accurate d np_exp -> fin x -> fin b -> 0 <= fv b <= 1 ->
  fin (expit_b np_exp x b) /\
  Rabs (fv (expit_b np_exp x b) - (sigma (fv x) - fv b)) <= 2 * d + 6 * / 2 ^ 53 /\
  (fv b = 0 \/ fv b = 1 ->
    Rabs (fv (expit_b np_exp x b) - (sigma (fv x) - fv b)) <= (2 * d + 4 * / 2 ^ 53) * Rabs (sigma (fv x) - fv b) + powerRZ 2 (-1073)).
Proof. exact main_C117_expit. Qed.
Print Assumptions C117_expit.
(** the same formula in LogLoss.partial_deriv, for every schedule of the parallel loop *)
Theorem C117_partial_deriv : forall (d : R) (np_exp : F64 -> F64) (sched : list nat) (p y : list F64),
  0 <= d <= 1 / 1000 -> exp_accurate d np_exp -> length y = length p -> Permutation sched (seq 0 (length p)) ->
  Forall fin p -> Forall fin y -> Forall (fun b => 0 <= fv b <= 1) y ->
  exists out, log_partial_deriv np_exp sched p y = Ok out /\ length out = length p /\
    forall i, (i < length p)%nat -> fin (nth i out n0) /\
      Rabs (fv (nth i out n0) - (sigma (nth i (map fv p) 0) - nth i (map fv y) 0)) <= 2 * d + 6 * / 2 ^ 53.
Proof. exact main_C117_partial_deriv. Qed.
Print Assumptions C117_partial_deriv.
Example C117_nonvacuous : 0 <= / 2 ^ 53 <= 1 / 1000 /\ exp_accurate (/ 2 ^ 53) cr_exp /\ log1p_accurate (/ 2 ^ 53) cr_log1p /\
  Forall fin [nofZ F64 3; nofZ F64 (-6)] /\ Forall fin [n1 (n:=F64); n0] /\ Forall (fun c => 0 <= fv c <= 1) [n1 (n:=F64); n0] /\
  Permutation [1; 0]%nat (seq 0 2).
Proof.
  destruct run_C118 as (H1 & H2 & H3 & _ & _ & H4 & H5 & H6 & _). repeat (split; [assumption|]). apply perm_swap.
Qed.

(** an infinite margin on the right side of its label makes the loss nan *)
Theorem C118_infinite_margin : forall (np_exp np_log1p : F64 -> F64) (A : matrix F64) (b : list F64) (alpha : F64) (x z : list F64) (i : nat) (sg : bool),
  mat_dot A x = Ok z -> length b = length z -> (i < length z)%nat -> fin (nth i b n0) ->
  nth i z n0 = S754_infinity sg -> fv (nth i b n0) = (if sg then 0 else 1) ->
  log_call np_exp np_log1p A b alpha false x = Ok (RLoss (K:=F64) S754_nan).
Proof. exact main_C118_infinite_margin. Qed.
Print Assumptions C118_infinite_margin.
Theorem C118_refuted :
  exists (A : matrix F64) (b x : list F64), log_init (Some A) b = Ok A /\ Forall (Forall fin) (m_rows A) /\ Forall fin b /\ Forall fin x /\
    0 <= mean_loss log_term (map (map fv) (m_rows A)) (map fv b) (map fv x) <= 1 /\
    forall (np_exp np_log1p : F64 -> F64) (alpha : F64), log_call np_exp np_log1p A b alpha false x = Ok (RLoss (K:=F64) S754_nan).
Proof. exact main_C118_refuted. Qed.
Print Assumptions C118_refuted.
(** with finite margins z the value is close to the exact mean of the logistic terms at z *)
Theorem C118_value_partial : forall (d : R) (np_exp np_log1p : F64 -> F64) (A : matrix F64) (b x z : list F64) (Z : R),
  0 <= d <= 1 / 1000 -> exp_accurate d np_exp -> log1p_accurate d np_log1p ->
  mat_dot A x = Ok z -> fin (vdot x x) -> length b = length z -> b <> [] ->
  Forall fin b -> Forall (fun c => 0 <= fv c <= 1) b -> Forall fin z -> Forall (fun c => Rabs (fv c) <= Z) z ->
  INR (length b) <= 2 ^ 50 -> INR (length b) * (3 * (Z + 1)) <= powerRZ 2 1020 ->
  exists L, log_call np_exp np_log1p A b n0 false x = Ok (RLoss L) /\ fin L /\
    Rabs (fv L - Rsum (map2 log_term (map fv b) (map fv z)) / INR (length b))
    <= (3 * d + (6 * INR (length b) + 14) * / 2 ^ 53) * (Z + 1).
Proof. exact main_C118_value_partial. Qed.
Print Assumptions C118_value_partial.
Example C118_nonvacuous : let A := mkMat [[n1 (n:=F64)]; [nofZ F64 (-2)]] 1 in let x := [nofZ F64 3] in let z := [nofZ F64 3; nofZ F64 (-6)] in let b := [n1 (n:=F64); n0] in
  0 <= / 2 ^ 53 <= 1 / 1000 /\ exp_accurate (/ 2 ^ 53) cr_exp /\ log1p_accurate (/ 2 ^ 53) cr_log1p /\
  mat_dot A x = Ok z /\ fin (vdot x x) /\ Forall fin b /\ Forall (fun c => 0 <= fv c <= 1) b /\ Forall fin z /\ Forall (fun c => Rabs (fv c) <= 6) z /\
  INR 2 <= 2 ^ 50 /\ INR 2 * (3 * (6 + 1)) <= powerRZ 2 1020.
Proof. exact run_C118. Qed.
(** any alpha: the value against the documented loss at the exact margins; the error bound [log_val_err] is in FloatLogValue.v *)
Theorem C118_ridge_partial : forall (d : R) (np_exp np_log1p : F64 -> F64) (A : matrix F64) (b : list F64) (alpha : F64) (x z : list F64) (Z : R),
  0 <= d <= 1 / 1000 -> exp_accurate d np_exp -> log1p_accurate d np_log1p ->
  Forall (fun r => length r = m_cols A) (m_rows A) -> length b = length (m_rows A) -> b <> [] -> INR (length b) <= 2 ^ 50 ->
  Forall (Forall fin) (m_rows A) -> Forall fin b -> Forall (fun c => 0 <= fv c <= 1) b -> Forall fin x -> fin alpha ->
  mat_dot A x = Ok z -> Forall fin z -> Forall (fun c => Rabs (fv c) <= Z) z -> INR (length b) * (3 * (Z + 1)) <= powerRZ 2 1020 ->
  exists (L : F64) (g : list F64), log_call np_exp np_log1p A b alpha false x = Ok (RLoss L) /\ log_f_grad np_exp np_log1p A b alpha false x true = Ok (RPair L g) /\
    (fin L -> Rabs (fv L - ridge (fv alpha) (mean_loss log_term (map (map fv) (m_rows A)) (map fv b)) (map fv x)) <= log_val_err d alpha x (m_rows A) Z).
Proof. exact main_C118_ridge_partial. Qed.
Print Assumptions C118_ridge_partial.
(** and it is finite away from the overflow threshold *)
Theorem C118_finite_partial : forall (d : R) (np_exp np_log1p : F64 -> F64) (A : matrix F64) (b : list F64) (alpha : F64) (x z : list F64) (Z : R) (L : F64),
  0 <= d <= 1 / 1000 -> exp_accurate d np_exp -> log1p_accurate d np_log1p ->
  length b = length (m_rows A) -> b <> [] -> INR (length b) <= 2 ^ 50 -> INR (length x) <= 2 ^ 50 ->
  Forall fin b -> Forall (fun c => 0 <= fv c <= 1) b -> Forall fin x -> fin alpha ->
  mat_dot A x = Ok z -> Forall fin z -> Forall (fun c => Rabs (fv c) <= Z) z -> INR (length b) * (3 * (Z + 1)) <= powerRZ 2 1020 ->
  dot (map fv x) (map fv x) <= powerRZ 2 1000 -> Rabs (fv alpha) <= powerRZ 2 1000 -> Rabs (fv alpha) * dot (map fv x) (map fv x) <= powerRZ 2 1000 ->
  log_call np_exp np_log1p A b alpha false x = Ok (RLoss L) -> fin L.
Proof. exact main_C118_finite_partial. Qed.
Print Assumptions C118_finite_partial.
Example C118_ridge_nonvacuous : let A := mkMat [[n1 (n:=F64)]; [nofZ F64 (-2)]] 1 in let x := [nofZ F64 3] in let b := [n1 (n:=F64); n0] in
  Forall (fun r => length r = m_cols A) (m_rows A) /\ length b = length (m_rows A) /\ b <> [] /\ Forall (Forall fin) (m_rows A) /\ Forall fin x /\ fin (n1 (n:=F64)) /\ INR (length x) <= 2 ^ 50 /\
  dot (map fv x) (map fv x) <= powerRZ 2 1000 /\ Rabs (fv (n1 (n:=F64))) <= powerRZ 2 1000 /\ Rabs (fv (n1 (n:=F64))) * dot (map fv x) (map fv x) <= powerRZ 2 1000.
Proof. exact run_C118_ridge. Qed.
(** with an intercept *)
Theorem C118_intercept_partial : forall (d : R) (np_exp np_log1p : F64 -> F64) (A : matrix F64) (b : list F64) (alpha : F64) (w : list F64) (c : F64) (ax z : list F64) (Z : R),
  0 <= d <= 1 / 1000 -> exp_accurate d np_exp -> log1p_accurate d np_log1p ->
  Forall (fun r => length r = m_cols A) (m_rows A) -> length b = length (m_rows A) -> b <> [] -> INR (length b) <= 2 ^ 50 ->
  Forall (Forall fin) (m_rows A) -> Forall fin b -> Forall (fun v => 0 <= fv v <= 1) b -> Forall fin w -> fin c -> fin alpha ->
  mat_dot A w = Ok ax -> z = map (fun t => nadd F64 t c) ax -> Forall fin z -> Forall (fun v => Rabs (fv v) <= Z) z -> INR (length b) * (3 * (Z + 1)) <= powerRZ 2 1020 ->
  exists L : F64, log_call np_exp np_log1p A b alpha true (w ++ [c]) = Ok (RLoss L) /\
    (fin L -> Rabs (fv L - (mean_loss_c log_term (map (map fv) (m_rows A)) (map fv b) (map fv w) (fv c) + fv alpha / 2 * dot (map fv w) (map fv w))) <= log_val_err d alpha w (m_rows A) Z + 2 * / 2 ^ 53 * Z).
Proof. exact main_C118_intercept_partial. Qed.
Print Assumptions C118_intercept_partial.
Example C118_intercept_nonvacuous : let ax := [nofZ F64 3; nofZ F64 (-6)] in let z := [nofZ F64 4; nofZ F64 (-5)] in
  z = map (fun t => nadd F64 t n1) ax /\ fin (n1 (n:=F64)) /\ Forall fin z /\ Forall (fun v => Rabs (fv v) <= 6) z.
Proof. exact run_C118_inter. Qed.
