(** * C125: the gradient of the logistic loss over IEEE binary64.
    [F64], [fin], [fv], [csr_err] as in PropsFloat, [exp_accurate] as in PropsFloatLog.
    [grad_err d x rows j] = (csr_err n (2 sum_i |A_ij|) + sum_i (2 d + 6 2^-53 + csr_err (length x) (sum_k |A_ik x_k|) / 4) |A_ij|) / n. *)
From Coq Require Import Reals Lra Lia List Bool ZArith.
From Coq Require Import Floats.SpecFloat.
From Verif Require Import Num Vec Spec RVec SpecLoss ModelTv ModelLoss FloatBase FloatSum FloatLogistic FloatLogistic2 FloatGrad FloatGradMain FloatLogInter FloatGradInter.
Import ListNotations.
Local Open Scope R_scope.

(** every finite component of the returned gradient is close to the component of the exact gradient of the exact penalised mean loss *)
Theorem C125_gradient : forall (d : R) (np_exp np_log1p : F64 -> F64) (A : matrix F64) (b : list F64) (alpha : F64) (x z : list F64),
  0 <= d <= 1 / 1000 -> exp_accurate d np_exp ->
  Forall (fun r => length r = m_cols A) (m_rows A) -> length b = length (m_rows A) -> b <> [] -> (Z.of_nat (length b) < 2 ^ 53)%Z ->
  Forall (Forall fin) (m_rows A) -> Forall fin b -> Forall (fun c => 0 <= fv c <= 1) b -> Forall fin x -> fin alpha ->
  mat_dot A x = Ok z -> Forall fin z ->
  exists (L : F64) (g : list F64) (G : list R), log_f_grad np_exp np_log1p A b alpha false x true = Ok (RPair L g) /\ length g = m_cols A /\
    is_gradient (m_cols A) (ridge (fv alpha) (mean_loss log_term (map (map fv) (m_rows A)) (map fv b))) (map fv x) G /\
    forall j, (j < m_cols A)%nat -> fin (nth j g n0) ->
      Rabs (fv (nth j g n0) - nth j G 0)
      <= grad_err d x (m_rows A) j
         + 3 * / 2 ^ 53 * (Rsum (map (fun r => Rabs (fv (nth j r n0))) (m_rows A)) / INR (length b) + grad_err d x (m_rows A) j + Rabs (fv alpha * fv (nth j x n0)))
         + 4 * powerRZ 2 (-1075).
Proof. exact main_C125_gradient. Qed.
Print Assumptions C125_gradient.
(** and the components are finite unless the column sums or the ridge term are astronomically large *)
Theorem C125_finite : forall (d : R) (np_exp np_log1p : F64 -> F64) (A : matrix F64) (b : list F64) (alpha : F64) (x z : list F64),
  0 <= d <= 1 / 1000 -> exp_accurate d np_exp ->
  Forall (fun r => length r = m_cols A) (m_rows A) -> length b = length (m_rows A) -> b <> [] -> INR (length b) <= 2 ^ 50 ->
  Forall (Forall fin) (m_rows A) -> Forall fin b -> Forall (fun c => 0 <= fv c <= 1) b -> Forall fin x -> fin alpha ->
  mat_dot A x = Ok z -> Forall fin z ->
  exists (L : F64) (g : list F64), log_f_grad np_exp np_log1p A b alpha false x true = Ok (RPair L g) /\ length g = m_cols A /\
    forall j, (j < m_cols A)%nat -> Rsum (map (fun r => Rabs (fv (nth j r n0))) (m_rows A)) <= powerRZ 2 1000 -> Rabs (fv alpha * fv (nth j x n0)) <= powerRZ 2 1000 ->
      fin (nth j g n0).
Proof. exact main_C125_finite. Qed.
Print Assumptions C125_finite.
Example C125_nonvacuous : let A := mkMat [[n1 (n:=F64)]; [nofZ F64 (-2)]] 1 in let x := [nofZ F64 3] in let z := [nofZ F64 3; nofZ F64 (-6)] in let b := [n1 (n:=F64); n0] in
  0 <= / 2 ^ 53 <= 1 / 1000 /\ exp_accurate (/ 2 ^ 53) cr_exp /\ Forall (fun r => length r = m_cols A) (m_rows A) /\ length b = length (m_rows A) /\
  (Z.of_nat (length b) < 2 ^ 53)%Z /\ INR (length b) <= 2 ^ 50 /\
  Forall (Forall fin) (m_rows A) /\ Forall fin b /\ Forall (fun c => 0 <= fv c <= 1) b /\ Forall fin x /\ fin (n1 (n:=F64)) /\
  mat_dot A x = Ok z /\ Forall fin z /\ Rsum (map (fun r => Rabs (fv (nth 0 r n0))) (m_rows A)) <= powerRZ 2 1000 /\ Rabs (fv (n1 (n:=F64)) * fv (nth 0 x n0)) <= powerRZ 2 1000.
Proof. exact run_C125. Qed.
(** with an intercept c the margin of row r has error at most [marg_err w c r] = csr_err (length w) D + 2^-53 (D + csr_err (length w) D + |c|), D = sum_k |r_k w_k|;
    [sampc_err d w c r] = 2 d + 6 2^-53 + marg_err w c r / 4; [gradc_err d w c rows j] = (csr_err n (2 sum_i |A_ij|) + sum_i sampc_err d w c A_i |A_ij|) / n *)
Theorem C125_intercept : forall (d : R) (np_exp np_log1p : F64 -> F64) (A : matrix F64) (b : list F64) (alpha : F64) (w : list F64) (c : F64) (ax z : list F64),
  0 <= d <= 1 / 1000 -> exp_accurate d np_exp ->
  Forall (fun r => length r = m_cols A) (m_rows A) -> length b = length (m_rows A) -> b <> [] -> INR (length b) <= 2 ^ 50 ->
  Forall (Forall fin) (m_rows A) -> Forall fin b -> Forall (fun v => 0 <= fv v <= 1) b -> Forall fin w -> fin c -> fin alpha ->
  mat_dot A w = Ok ax -> z = map (fun t => nadd F64 t c) ax -> Forall fin z ->
  exists (g : list F64) (G : list R), log_f_grad np_exp np_log1p A b alpha true (w ++ [c]) true = Ok (RGrad g) /\ length g = S (m_cols A) /\
    is_gradient (S (m_cols A)) (fun y => mean_loss_c log_term (map (map fv) (m_rows A)) (map fv b) (removelast y) (last y 0) + fv alpha / 2 * dot (removelast y) (removelast y)) (map fv (w ++ [c])) G /\
    (forall j, (j < m_cols A)%nat -> fin (nth j g n0) ->
      Rabs (fv (nth j g n0) - nth j G 0)
      <= gradc_err d w c (m_rows A) j
         + 3 * / 2 ^ 53 * (Rsum (map (fun r => Rabs (fv (nth j r n0))) (m_rows A)) / INR (length b) + gradc_err d w c (m_rows A) j + Rabs (fv alpha * fv (nth j w n0)))
         + 4 * powerRZ 2 (-1075)) /\
    fin (nth (m_cols A) g n0) /\
    Rabs (fv (nth (m_cols A) g n0) - nth (m_cols A) G 0) <= Rsum (map (sampc_err d w c) (m_rows A)) / INR (length b) + (4 * INR (length b) + 4) * / 2 ^ 53.
Proof. exact main_C125_intercept. Qed.
Print Assumptions C125_intercept.
Example C125_intercept_nonvacuous : let A := mkMat [[n1 (n:=F64)]; [nofZ F64 (-2)]] 1 in let ax := [nofZ F64 3; nofZ F64 (-6)] in let z := [nofZ F64 4; nofZ F64 (-5)] in
  mat_dot A [nofZ F64 3] = Ok ax /\ z = map (fun t => nadd F64 t n1) ax /\ fin (n1 (n:=F64)) /\ Forall fin z.
Proof. destruct run_C118_inter as (H1 & H2 & H3 & _). split; [reflexivity|]. split; [exact H1|]. split; [exact H2|exact H3]. Qed.
