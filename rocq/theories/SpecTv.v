(** * SpecTv: two-dimensional total variation, independent of the model.

    An image with [rows] rows and [cols] columns is given as a raveled vector: pixel (i, j) is entry i * cols + j. *)
From Coq Require Import Reals List.
From Verif Require Import Spec.
Import ListNotations.
Open Scope R_scope.

Definition img_col (rows cols : nat) (x : list R) (j : nat) : list R := map (fun i => nth (i * cols + j) x 0) (seq 0 rows).
Definition img_row (cols : nat) (x : list R) (i : nat) : list R := map (fun j => nth (i * cols + j) x 0) (seq 0 cols).
(** the sum of the 1-D total variations of the columns, of the rows, and of both *)
Definition tv_cols (rows cols : nat) (x : list R) : R := Rsum (map (fun j => tv (img_col rows cols x j)) (seq 0 cols)).
Definition tv_rows (rows cols : nat) (x : list R) : R := Rsum (map (fun i => tv (img_row cols x i)) (seq 0 rows)).
Definition tv2 (rows cols : nat) (x : list R) : R := tv_cols rows cols x + tv_rows rows cols x.
