(** * SpecSparse: index sets of compressed rows and restriction of a vector to an index set.

    A compressed-sparse-row structure (indptr, indices) stores, for row [i], the column
    indices [indices[indptr[i] .. indptr[i+1])].  A block structure over 0..n-1 is the same
    thing with [indices = 0,1,..,n-1]. *)
From Coq Require Import Reals List.
From Verif Require Import Vec.
Import ListNotations.

(** column indices stored in row [i] *)
Definition csr_row (indices indptr : list nat) (i : nat) : list nat :=
  map (fun j => nth j indices 0%nat) (range (nth i indptr 0%nat) (nth (S i) indptr 0%nat)).
(** features of block [h] *)
Definition blk (ptr : list nat) (h : nat) : list nat :=
  range (nth h ptr 0%nat) (nth (S h) ptr 0%nat).
(** [v[g]] *)
Definition sub (v : list R) (g : list nat) : list R := map (fun i => nth i v 0%R) g.
(** [ptr] cuts 0..n-1 into consecutive non-empty blocks *)
Definition partitions (ptr : list nat) (n : nat) : Prop :=
  nth 0 ptr 0 = 0 /\ 1 <= length ptr /\ nth (length ptr - 1) ptr 0 = n /\
  (forall h, S h < length ptr -> nth h ptr 0 < nth (S h) ptr 0).
(** a row of a CSR structure whose entries are read in bounds *)
Definition row_ok (indices indptr : list nat) (i : nat) : Prop :=
  S i < length indptr /\ nth (S i) indptr 0 <= length indices.
(** entry (i, c) of the represented matrix: repeated column indices are summed *)
Definition csr_entry (data : list R) (indptr indices : list nat) (i c : nat) : R :=
  fold_right Rplus 0%R
    (map (fun j => if Nat.eqb (nth j indices 0%nat) c then nth j data 0%R else 0%R)
         (range (nth i indptr 0%nat) (nth (S i) indptr 0%nat))).
(** row [i] of a CSR triple with [d] columns is well formed (duplicates, any order and empty rows
    allowed) *)
Definition csr_row_wf (ndata : nat) (indptr indices : list nat) (d i : nat) : Prop :=
  S i < length indptr /\ nth (S i) indptr 0 <= length indices /\ length indices = ndata /\
  Forall (fun c => c < d) (csr_row indices indptr i).
(** a CSR structure with [n] rows and [d] columns, every array access in bounds; duplicate column
    indices, unsorted rows and empty rows are allowed *)
Definition csr_wf (n d : nat) (indices indptr : list nat) : Prop :=
  length indptr = S n /\
  (forall i, i < n -> nth i indptr 0 <= nth (S i) indptr 0) /\
  nth n indptr 0 <= length indices /\
  Forall (fun c => c < d) indices.
(** the elements of [l], each once, in order of first occurrence *)
Definition firsts (l : list nat) : list nat := rev (nodup Nat.eq_dec (rev l)).
