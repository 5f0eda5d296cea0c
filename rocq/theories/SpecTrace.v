(** * SpecTrace: matrices as flat row-major lists of reals, singular value
    decompositions and the nuclear norm, independent of the model. *)
From Coq Require Import Reals List Lra Lia Arith.
From Verif Require Import Spec.
Import ListNotations.
Open Scope R_scope.

(** The flat matrix with entries a_i b_j. *)
Definition outer (a b : list R) : list R := concat (map (fun x => map (Rmult x) b) a).

(** The operator norm of the m x n matrix Z is at most c:  a' Z b <= c |a| |b|. *)
Definition op_le (m n : nat) (Z : list R) (c : R) : Prop :=
  length Z = (m * n)%nat /\
  forall a b, length a = m -> length b = n -> dot Z (outer a b) <= c * (norm2 a * norm2 b).

(** The nuclear norm as the dual of the operator norm: t = sup { <Y, Z> : |Z|_op <= 1 }. *)
Definition is_nuc (m n : nat) (Y : list R) (t : R) : Prop :=
  is_lub (fun r => exists Z, op_le m n Z 1 /\ r = dot Y Z) t.

(** A family of orthonormal vectors of length n. *)
Definition orthonormal (n : nat) (vs : list (list R)) : Prop :=
  Forall (fun v => length v = n) vs /\
  forall i j, (i < length vs)%nat -> (j < length vs)%nat ->
    dot (nth i vs []) (nth j vs []) = if Nat.eqb i j then 1 else 0.

Definition column (j : nat) (U : list (list R)) : list R := map (fun r => nth j r 0) U.
Definition columns (k : nat) (U : list (list R)) : list (list R) := map (fun j => column j U) (seq 0 k).

(** (U, s, Vt) is a thin singular value decomposition of the m x n matrix x:
    orthonormal columns of U and rows of Vt, non-negative s, and
    x_ij = sum_k U_ik s_k Vt_kj. *)
Definition is_svd (m n k : nat) (x : list R) (U : list (list R)) (s : list R) (Vt : list (list R)) : Prop :=
  length x = (m * n)%nat /\ length U = m /\ Forall (fun r => length r = k) U /\
  length s = k /\ length Vt = k /\ Forall (fun v => 0 <= v) s /\
  orthonormal m (columns k U) /\ orthonormal n Vt /\
  forall i j, (i < m)%nat -> (j < n)%nat ->
    nth (i * n + j) x 0 = Rsum (map (fun l => nth l (nth i U []) 0 * nth l s 0 * nth j (nth l Vt []) 0) (seq 0 k)).

(** (a, b) is a leading pair of singular vectors of the m x n matrix u: unit
    vectors at which the bilinear form attains the operator norm. *)
Definition is_top_pair (m n : nat) (u a b : list R) : Prop :=
  length a = m /\ length b = n /\ norm2 a = 1 /\ norm2 b = 1 /\ op_le m n u (dot u (outer a b)).

(** The nuclear ball of radius alpha. *)
Definition nuc_ball (m n : nat) (alpha : R) (y : list R) : Prop := exists t, is_nuc m n y t /\ t <= alpha.

(** What the library routines promise at the matrix with flat contents x. *)
Definition matrix_of (m n : nat) (x : list R) (X : list (list R)) : Prop :=
  length X = m /\ Forall (fun r => length r = n) X /\ concat X = x.
Definition svd_at (m n : nat) (svd : list (list R) -> list (list R) * list R * list (list R)) (x : list R) : Prop :=
  forall X, matrix_of m n x X -> exists k, is_svd m n k x (fst (fst (svd X))) (snd (fst (svd X))) (snd (svd X)).
Definition svals_at (m n : nat) (svdvals : list (list R) -> list R) (x : list R) : Prop :=
  forall X, matrix_of m n x X -> exists k U Vt, is_svd m n k x U (svdvals X) Vt.
Definition svds_at (m n : nat) (svds : list (list R) -> list R * list R) (u : list R) : Prop :=
  forall X, matrix_of m n u X -> is_top_pair m n u (fst (svds X)) (snd (svds X)).
