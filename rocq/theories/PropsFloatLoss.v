(** * C134: the gradients of SquareLoss and HuberLoss over IEEE binary64.
    [F64], [fin], [fv], [csr_err] as in PropsFloat.  [rsd x r c] = r.x - c is the exact residual of a sample,
    [rsd_err x r c] = e + 2^-53 (|rsd x r c| + e) with e = csr_err (length x) (sum_k |r_k x_k|), and
    [loss_grad_err psi alpha x rows b j] = (sum_i rsd_err_i |A_ij| + s) / n + 5 2^-53 ((B + s) / n + |alpha x_j|) + 6 2^-1075
    with B = sum_i (|psi (rsd_i)| + rsd_err_i) |A_ij| and s = 2 csr_err n B. *)
From Coq Require Import Reals Lra Lia List Bool ZArith.
From Coq Require Import Floats.SpecFloat.
From Verif Require Import Num Vec Spec RVec SpecLoss ModelTv ModelLoss FloatBase FloatSum FloatGrad FloatLoss FloatLossMain FloatLossFin.
Import ListNotations.
Local Open Scope R_scope.

(** every finite component of the gradient returned by SquareLoss is close to that of the exact gradient of the documented loss *)
Theorem C134_square : forall (A : matrix F64) (b : list F64) (alpha : F64) (x ax z : list F64),
  Forall (fun r => length r = m_cols A) (m_rows A) -> length b = length (m_rows A) -> b <> [] -> (Z.of_nat (length b) < 2 ^ 53)%Z ->
  Forall (Forall fin) (m_rows A) -> Forall fin b -> Forall fin x -> fin alpha ->
  mat_dot A x = Ok ax -> np_sub ax b = Ok z -> Forall fin z ->
  exists (L : F64) (g : list F64) (G : list R), sq_f_grad A b alpha x true = Ok (RPair L g) /\ length g = m_cols A /\
    is_gradient (m_cols A) (fun y => / (2 * INR (length b)) * dist2 (matvec (map (map fv) (m_rows A)) y) (map fv b) + fv alpha / 2 * dot y y) (map fv x) G /\
    forall j, (j < m_cols A)%nat -> fin (nth j g n0) ->
      Rabs (fv (nth j g n0) - nth j G 0) <= loss_grad_err (fun t => t) alpha x (m_rows A) b j.
Proof. exact main_C134_square. Qed.
Print Assumptions C134_square.
(** the same for HuberLoss, although the branch of every sample is decided on the rounded residual ([clip d t] is t cut to [-d, d]) *)
Theorem C134_huber : forall (A : matrix F64) (b : list F64) (alpha delta : F64) (x ax z : list F64),
  Forall (fun r => length r = m_cols A) (m_rows A) -> length b = length (m_rows A) -> b <> [] -> (Z.of_nat (length b) < 2 ^ 53)%Z ->
  Forall (Forall fin) (m_rows A) -> Forall fin b -> Forall fin x -> fin alpha -> fin delta -> 0 < fv delta ->
  mat_dot A x = Ok ax -> np_sub ax b = Ok z -> Forall fin z ->
  exists (L : F64) (g : list F64) (G : list R), hub_f_grad A b alpha delta x true = Ok (RPair L g) /\ length g = m_cols A /\
    is_gradient (m_cols A) (ridge (fv alpha) (mean_loss (hub_term (fv delta)) (map (map fv) (m_rows A)) (map fv b))) (map fv x) G /\
    forall j, (j < m_cols A)%nat -> fin (nth j g n0) ->
      Rabs (fv (nth j g n0) - nth j G 0) <= loss_grad_err (clip (fv delta)) alpha x (m_rows A) b j.
Proof. exact main_C134_huber. Qed.
Print Assumptions C134_huber.
(** and the components are finite unless the weighted column sums or the ridge term are astronomically large *)
Theorem C134_finite : forall (A : matrix F64) (b : list F64) (alpha delta : F64) (x ax z : list F64),
  Forall (fun r => length r = m_cols A) (m_rows A) -> length b = length (m_rows A) -> b <> [] -> INR (length b) <= 2 ^ 50 ->
  Forall (Forall fin) (m_rows A) -> Forall fin b -> Forall fin x -> fin alpha -> fin delta -> 0 < fv delta ->
  mat_dot A x = Ok ax -> np_sub ax b = Ok z -> Forall fin z ->
  exists (L L' : F64) (g g' : list F64), sq_f_grad A b alpha x true = Ok (RPair L g) /\ hub_f_grad A b alpha delta x true = Ok (RPair L' g') /\
    forall j, (j < m_cols A)%nat -> weighted z (m_rows A) j <= powerRZ 2 1000 -> Rabs (fv alpha * fv (nth j x n0)) <= powerRZ 2 1000 ->
      fin (nth j g n0) /\ fin (nth j g' n0).
Proof. exact main_C134_finite. Qed.
Print Assumptions C134_finite.
Example C134_nonvacuous : let A := mkMat [[n1 (n:=F64)]; [nofZ F64 (-2)]] 1 in let x := [nofZ F64 3] in let b := [n1 (n:=F64); n0] in
  let ax := [nofZ F64 3; nofZ F64 (-6)] in let z := [nofZ F64 2; nofZ F64 (-6)] in
  Forall (fun r => length r = m_cols A) (m_rows A) /\ length b = length (m_rows A) /\ b <> [] /\ (Z.of_nat (length b) < 2 ^ 53)%Z /\ INR (length b) <= 2 ^ 50 /\
  Forall (Forall fin) (m_rows A) /\ Forall fin b /\ Forall fin x /\ fin (n1 (n:=F64)) /\ fin (nofZ F64 4) /\ 0 < fv (nofZ F64 4) /\
  mat_dot A x = Ok ax /\ np_sub ax b = Ok z /\ Forall fin z /\ weighted z (m_rows A) 0 <= powerRZ 2 1000 /\ Rabs (fv (n1 (n:=F64)) * fv (nth 0 x n0)) <= powerRZ 2 1000.
Proof. exact run_C134. Qed.
