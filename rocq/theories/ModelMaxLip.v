(** * copt/utils.py: get_max_lipschitz *)
From Coq Require Import List ZArith.
From Verif Require Import Num Vec ModelTv ModelLoss.
Import ListNotations.

(** the values of the argument [loss] that the code distinguishes (utils.py:194, 201-205) *)
Inductive loss_name : Type := NLogloss | NHuber | NSquare | NOther.

Section MaxLip.
Context {K : Num}.
Local Open Scope num_scope.
Local Open Scope res_scope.

(** copt/utils.py:185-206  get_max_lipschitz; sklearn's row_norms(A, squared=True) is the list of the
    squared row norms, and [.max()] of an empty array is a ValueError *)
Definition get_max_lipschitz (A : matrix K) (loss : loss_name) (alpha : K) : result K :=
  m <- npmax (map (fun r => vdot r r) (m_rows A)) ;;             (* line 199 *)
  match loss with
  | NLogloss => Ok (nlit 1 4 * m + alpha)%num                        (* lines 201-202 *)
  | NHuber | NSquare => Err NotImplementedError                  (* lines 203-204 *)
  | NOther => Err NotImplementedError                            (* line 205 *)
  end.
End MaxLip.
