(** * Vec: exceptions, checked array access and the numpy vector primitives used by copt.

    1-D numpy arrays are lists.  Elementwise operations on arrays of different length raise
    ValueError in numpy; here [map2] truncates, and every theorem that uses these operations
    carries the equal-length hypothesis. *)
From Coq Require Import ZArith Bool List Lia.
From Verif Require Import Num.
Import ListNotations.
Set Implicit Arguments.

(** ** Python exceptions as values *)
Inductive exc : Type :=
| ValueError | IndexError | AssertionError | TypeError | KeyError
| UnboundLocalError | AttributeError | NameError | RuntimeError | NotImplementedError | ZeroDivisionError
| FileExistsError | FileNotFoundError | OutOfFuel.

Inductive result (A : Type) : Type :=
| Ok : A -> result A
| Err : exc -> result A.
Arguments Ok {A} _.
Arguments Err {A} _.

Definition bind {A B} (m : result A) (f : A -> result B) : result B :=
  match m with Ok a => f a | Err e => Err e end.
Declare Scope res_scope.
Delimit Scope res_scope with res.
Notation "x <- m ;; f" := (bind m (fun x => f))
  (at level 61, m at next level, right associativity) : res_scope.
Notation "' p <- m ;; f" := (bind m (fun x => match x with p => f end))
  (at level 61, p pattern, m at next level, right associativity) : res_scope.
Open Scope res_scope.

(** A Python [for x in l: body] loop over an exception-raising body. *)
Fixpoint forM {A S} (l : list A) (body : A -> S -> result S) (s : S) : result S :=
  match l with
  | [] => Ok s
  | a :: l' => s' <- body a s ;; forM l' body s'
  end.

(** ** Checked array access (numpy raises IndexError; numba does not check). *)
Definition get {A} (l : list A) (i : nat) : result A :=
  match nth_error l i with Some x => Ok x | None => Err IndexError end.

Fixpoint upd {A} (l : list A) (i : nat) (x : A) : list A :=
  match l, i with
  | [], _ => []
  | _ :: t, O => x :: t
  | h :: t, S i' => h :: upd t i' x
  end.

Definition set {A} (l : list A) (i : nat) (x : A) : result (list A) :=
  if Nat.ltb i (length l) then Ok (upd l i x) else Err IndexError.

(** Python [range(lo, hi)]. *)
Definition range (lo hi : nat) : list nat := seq lo (hi - lo).

Fixpoint map2 {A B C} (f : A -> B -> C) (u : list A) (v : list B) : list C :=
  match u, v with
  | a :: u', b :: v' => f a b :: map2 f u' v'
  | _, _ => []
  end.

(** np.argmax: index of the first maximal entry (a nan counts as maximal). *)
Section NumVec.
Context {K : Num}.
Local Open Scope num_scope.
Definition vec := list K.

Definition vzeros (n : nat) : vec := repeat n0 n.
Definition vadd (u v : vec) : vec := map2 (nadd K) u v.
Definition vsub (u v : vec) : vec := map2 (nsub K) u v.
Definition vmul (u v : vec) : vec := map2 (nmul K) u v.
Definition vscale (c : K) (v : vec) : vec := map (nmul K c) v.
Definition vdivs (v : vec) (c : K) : vec := map (fun x => x / c) v.
Definition vopp (v : vec) : vec := map (nopp K) v.
Definition vabs (v : vec) : vec := map (nabs K) v.
(** np.sum, left to right (numpy uses pairwise summation for long arrays and BLAS for dot
    products; the order only matters for rounding). *)
Definition vsum (v : vec) : K := fold_left (nadd K) v n0.
Definition vdot (u v : vec) : K := vsum (vmul u v).
(** np.linalg.norm *)
Definition vnorm (v : vec) : K := nsqrt K (vdot v v).
Definition vnorm1 (v : vec) : K := vsum (vabs v).
(** np.mean *)
Definition vmean (v : vec) : K := vsum v / nofnat (length v).

(** [better b a]: does np.argmax move from the current best [a] to a later [b]? *)
Definition argmax_better (b a : K) : bool :=
  negb (nisnan a) && (nisnan b || (a <? b)).
Fixpoint argmax_from (best : K) (bi i : nat) (v : vec) : nat :=
  match v with
  | [] => bi
  | x :: v' => if argmax_better x best then argmax_from x i (S i) v'
               else argmax_from best bi (S i) v'
  end.
(** np.argmax raises ValueError on an empty array. *)
Definition argmax (v : vec) : result nat :=
  match v with
  | [] => Err ValueError
  | x :: v' => Ok (argmax_from x 0 1 v')
  end.

(** np.cumsum *)
Fixpoint cumsum_from (acc : K) (v : vec) : vec :=
  match v with
  | [] => []
  | x :: v' => (acc + x) :: cumsum_from (acc + x) v'
  end.
Definition cumsum (v : vec) : vec :=
  match v with [] => [] | x :: v' => x :: cumsum_from x v' end.

(** np.sort(v)[::-1] : decreasing order (insertion sort; the value of a sort does not depend
    on the algorithm for totally ordered entries). *)
Fixpoint insert_desc (x : K) (l : vec) : vec :=
  match l with
  | [] => [x]
  | y :: l' => if x <? y then y :: insert_desc x l' else x :: y :: l'
  end.
Definition sort_desc (v : vec) : vec := fold_right insert_desc [] v.

End NumVec.
Arguments vec K : clear implicits.
Ltac rn ::= unfold vec in *;
  cbn [carrier n0 n1 nadd nsub nmul ndiv nopp nabs nsqrt nltb nleb neqb nofZ RN] in *.
