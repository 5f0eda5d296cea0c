(** * C137: max_lipschitz over IEEE binary64.
    [F64], [fin], [fv], [csr_err] as in PropsFloat.  [lip_err q alpha r] = q C + 3 2^-53 (q (X + C) + |alpha|) + 2 2^-1075 with X = |r|^2 and
    C = csr_err (length r) X, the rounding error of the squared norm of the row r; q = 1/4 for the logistic loss, 1 for the square loss. *)
From Coq Require Import Reals Lra Lia List Bool ZArith.
From Coq Require Import Floats.SpecFloat.
From Verif Require Import Num Vec Spec RVec SpecLoss ModelTv ModelLoss ModelMaxLip FloatBase FloatSum FloatLip.
Import ListNotations.
Local Open Scope R_scope.

Theorem C137_refuted : exists (A B : matrix F64) (alpha L L' L0 L0' : F64) (r s : list F64), In r (m_rows A) /\ In s (m_rows B) /\ Forall (Forall fin) (m_rows A) /\ Forall (Forall fin) (m_rows B) /\ fin alpha /\ 0 <= fv alpha /\
  log_max_lipschitz A alpha = Ok L /\ get_max_lipschitz A NLogloss alpha = Ok L /\ fin L /\ fv L < / 4 * dot (map fv r) (map fv r) + fv alpha /\
  sq_max_lipschitz A alpha = Ok L' /\ fin L' /\ fv L' < dot (map fv r) (map fv r) + fv alpha /\
  log_max_lipschitz B alpha = Ok L0 /\ sq_max_lipschitz B alpha = Ok L0' /\ fv L0 = 0 /\ fv L0' = 0 /\ 0 < dot (map fv s) (map fv s).
Proof. exact main_C137_refuted. Qed.
Print Assumptions C137_refuted.
Theorem C137_log_partial : forall (A : matrix F64) (alpha L : F64), Forall (Forall fin) (m_rows A) -> Forall (fun r => fin (vdot (K:=F64) r r)) (m_rows A) -> fin alpha ->
  log_max_lipschitz A alpha = Ok L -> get_max_lipschitz A NLogloss alpha = Ok L /\
  (fin L -> (forall r, In r (m_rows A) -> / 4 * dot (map fv r) (map fv r) + fv alpha <= fv L + lip_err (/ 4) alpha r) /\
    exists r, In r (m_rows A) /\ Rabs (fv L - (/ 4 * dot (map fv r) (map fv r) + fv alpha)) <= lip_err (/ 4) alpha r).
Proof. exact main_C137_log_partial. Qed.
Print Assumptions C137_log_partial.
Theorem C137_square_partial : forall (A : matrix F64) (alpha L : F64), Forall (Forall fin) (m_rows A) -> Forall (fun r => fin (vdot (K:=F64) r r)) (m_rows A) -> fin alpha ->
  sq_max_lipschitz A alpha = Ok L ->
  fin L -> (forall r, In r (m_rows A) -> dot (map fv r) (map fv r) + fv alpha <= fv L + lip_err 1 alpha r) /\
    exists r, In r (m_rows A) /\ Rabs (fv L - (dot (map fv r) (map fv r) + fv alpha)) <= lip_err 1 alpha r.
Proof. exact main_C137_square_partial. Qed.
Print Assumptions C137_square_partial.
Example C137_nonvacuous : let A := mkMat [[n1 (n:=F64); n0]; [n1; nofZ F64 (-2)]] 2 in
  Forall (Forall fin) (m_rows A) /\ Forall (fun r => fin (vdot (K:=F64) r r)) (m_rows A) /\ fin (n1 (n:=F64)) /\
  log_max_lipschitz A n1 = Ok (nlit 9 4) /\ sq_max_lipschitz A n1 = Ok (nofZ F64 6) /\ fin (nlit (K:=F64) 9 4) /\ fin (nofZ F64 6).
Proof. exact run_C137. Qed.
