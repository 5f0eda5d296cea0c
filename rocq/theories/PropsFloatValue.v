(** * C136: the values of SquareLoss and HuberLoss over IEEE binary64.
    [F64], [fin], [fv], [csr_err] as in PropsFloat, [rsd] and [rsd_err] as in PropsFloatLoss.  For sample losses f that move by at most m r e when
    the residual moves from r by e, [sum_err m] = sum_i m (rsd_i) (rsd_err_i) and [sum_bound f m] = sum_i f (rsd_i) + sum_err m.
    [loss_val_err N E C alpha x n] = (E + C) / n + |alpha| Cx / 2 + 6 2^-53 ((N + C) / n + |alpha| (X + Cx) / 2) + 8 2^-1075 (1 + X + Cx)
    with X = x.x and Cx = csr_err (length x) X.  [sq_val_err] is the case m r e = e (|r| + e/2), C = csr_err n (2 N); [hub_val_err] the case
    m r e = delta e, C = 2 csr_err n (2 N + t) + 4 2^-53 N + t with t = 2 n delta 2^-1075. *)
From Coq Require Import Reals Lra Lia List Bool ZArith.
From Coq Require Import Floats.SpecFloat.
From Verif Require Import Num Vec Spec RVec SpecLoss ModelTv ModelLoss FloatBase FloatSum FloatGrad FloatLoss FloatLossMain FloatValue FloatValueMain FloatValueHub FloatValueFin.
Import ListNotations.
Local Open Scope R_scope.

(** __call__ and both forms of f_grad of SquareLoss return the same number; when it is finite it is close to the documented loss *)
Theorem C136_square : forall (A : matrix F64) (b : list F64) (alpha : F64) (x ax z : list F64),
  Forall (fun r => length r = m_cols A) (m_rows A) -> length b = length (m_rows A) -> b <> [] -> (Z.of_nat (length b) < 2 ^ 53)%Z ->
  Forall (Forall fin) (m_rows A) -> Forall fin b -> Forall fin x -> fin alpha ->
  mat_dot A x = Ok ax -> np_sub ax b = Ok z -> Forall fin z ->
  exists (L : F64) (g : list F64), sq_call A b alpha x = Ok L /\ sq_f_grad A b alpha x false = Ok (RLoss L) /\ sq_f_grad A b alpha x true = Ok (RPair L g) /\
    (fin L -> Rabs (fv L - ridge (fv alpha) (mean_loss sq_term (map (map fv) (m_rows A)) (map fv b)) (map fv x)) <= sq_val_err alpha x (m_rows A) b).
Proof. exact main_C136_square. Qed.
Print Assumptions C136_square.
(** the same for HuberLoss, although the branch of every sample is decided on the rounded residual *)
Theorem C136_huber : forall (A : matrix F64) (b : list F64) (alpha delta : F64) (x ax z : list F64),
  Forall (fun r => length r = m_cols A) (m_rows A) -> length b = length (m_rows A) -> b <> [] -> (Z.of_nat (length b) < 2 ^ 53)%Z ->
  Forall (Forall fin) (m_rows A) -> Forall fin b -> Forall fin x -> fin alpha -> fin delta -> 0 < fv delta ->
  mat_dot A x = Ok ax -> np_sub ax b = Ok z -> Forall fin z ->
  exists (L : F64) (g : list F64), hub_call A b alpha delta x = Ok (RLoss L) /\ hub_f_grad A b alpha delta x true = Ok (RPair L g) /\
    (fin L -> Rabs (fv L - ridge (fv alpha) (mean_loss (hub_term (fv delta)) (map (map fv) (m_rows A)) (map fv b)) (map fv x)) <= hub_val_err alpha delta x (m_rows A) b).
Proof. exact main_C136_huber. Qed.
Print Assumptions C136_huber.
(** rounding never makes either loss negative *)
Theorem C136_nonneg : forall (A : matrix F64) (b : list F64) (alpha delta : F64) (x ax z : list F64) (L L' : F64),
  length b = length (m_rows A) -> b <> [] -> (Z.of_nat (length b) < 2 ^ 53)%Z ->
  Forall fin x -> fin alpha -> 0 <= fv alpha -> fin delta -> 0 < fv delta ->
  mat_dot A x = Ok ax -> np_sub ax b = Ok z -> Forall fin z ->
  sq_call A b alpha x = Ok L -> hub_call A b alpha delta x = Ok (RLoss L') ->
  (fin L -> 0 <= fv L) /\ (fin L' -> 0 <= fv L').
Proof. exact main_C136_nonneg. Qed.
Print Assumptions C136_nonneg.
(** and the numbers are finite unless the residuals, the point or the penalty are astronomically large *)
Theorem C136_finite : forall (A : matrix F64) (b : list F64) (alpha delta : F64) (x ax z : list F64) (L L' : F64),
  length b = length (m_rows A) -> b <> [] -> INR (length b) <= 2 ^ 50 -> INR (length x) <= 2 ^ 50 ->
  Forall fin x -> fin alpha -> fin delta -> 0 < fv delta ->
  mat_dot A x = Ok ax -> np_sub ax b = Ok z -> Forall fin z ->
  dot (map fv z) (map fv z) <= powerRZ 2 1000 -> dot (map fv x) (map fv x) <= powerRZ 2 1000 -> Rabs (fv alpha) <= powerRZ 2 1000 -> Rabs (fv alpha) * dot (map fv x) (map fv x) <= powerRZ 2 1000 ->
  sq_call A b alpha x = Ok L -> hub_call A b alpha delta x = Ok (RLoss L') -> fin L /\ fin L'.
Proof. exact main_C136_finite. Qed.
Print Assumptions C136_finite.
Example C136_nonvacuous : let A := mkMat [[n1 (n:=F64)]; [nofZ F64 (-2)]] 1 in let x := [nofZ F64 3] in let b := [n1 (n:=F64); n0] in
  let ax := [nofZ F64 3; nofZ F64 (-6)] in let z := [nofZ F64 2; nofZ F64 (-6)] in
  Forall (fun r => length r = m_cols A) (m_rows A) /\ length b = length (m_rows A) /\ b <> [] /\ (Z.of_nat (length b) < 2 ^ 53)%Z /\ INR (length b) <= 2 ^ 50 /\ INR (length x) <= 2 ^ 50 /\
  Forall (Forall fin) (m_rows A) /\ Forall fin b /\ Forall fin x /\ fin (n1 (n:=F64)) /\ 0 <= fv (n1 (n:=F64)) /\ fin (nofZ F64 4) /\ 0 < fv (nofZ F64 4) /\
  mat_dot A x = Ok ax /\ np_sub ax b = Ok z /\ Forall fin z /\
  dot (map fv z) (map fv z) <= powerRZ 2 1000 /\ dot (map fv x) (map fv x) <= powerRZ 2 1000 /\ Rabs (fv (n1 (n:=F64))) <= powerRZ 2 1000 /\ Rabs (fv (n1 (n:=F64))) * dot (map fv x) (map fv x) <= powerRZ 2 1000 /\
  sq_call A b n1 x = Ok (nlit 29 2) /\ hub_call A b n1 (nofZ F64 4) x = Ok (RLoss (nlit 27 2)) /\ fin (nlit (K:=F64) 29 2) /\ fin (nlit (K:=F64) 27 2).
Proof. exact run_C136. Qed.
