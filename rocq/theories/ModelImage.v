(** * Model of copt/datasets.py:24-33  load_img1

    The image file is its parsed column of numbers ([np.loadtxt] of one number per line).  The
    interpolation done by PIL is a parameter.  [int(np.sqrt(n))] is the exact integer square root
    (true of doubles below 2^52). *)
From Coq Require Import List Arith Bool.
From Verif Require Import Vec.
Import ListNotations.
Set Implicit Arguments.

Section Image.
Variable V : Type.
(** [grid.reshape((d, d))] of a flat array: rows of length [d], row by row *)
Fixpoint rows_of (rows cols : nat) (l : list V) : list (list V) :=
  match rows with
  | O => []
  | S rows' => firstn cols l :: rows_of rows' cols (skipn cols l)
  end.
Definition reshape2 (rows cols : nat) (l : list V) : result (list (list V)) :=
  if Nat.eqb (rows * cols) (length l) then Ok (rows_of rows cols l) else Err ValueError.

(** PIL: [Image.fromarray(a)] of an array with r rows and c columns is an image of width c and
    height r; [resize((w, h))] takes the width first, refuses a zero size, and copies when the size
    does not change; [np.array] of an image of width w and height h has h rows and w columns.
    [interp w h a]: the pixels of the resampled image. *)
Variable interp : nat -> nat -> list (list V) -> list (list V).
Definition width (a : list (list V)) : nat := length (nth 0 a []).
Definition height (a : list (list V)) : nat := length a.
Definition pil_resize (size : nat * nat) (a : list (list V)) : result (list (list V)) :=
  let '(w, h) := size in
  if Nat.eqb w 0 || Nat.eqb h 0 then Err ValueError
  else if Nat.eqb w (width a) && Nat.eqb h (height a) then Ok a
  else Ok (interp w h a).

(** lines 24-33 *)
Definition load_img1 (grid : list V) (n_rows n_cols : nat) : result (list (list V)) :=
  let dim1 := Nat.sqrt (length grid) in                                        (* line 30 *)
  img <- reshape2 dim1 dim1 grid ;;                                            (* line 31 *)
  pil_resize (n_rows, n_cols) img.                                             (* lines 32-33 *)
End Image.
