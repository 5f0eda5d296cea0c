(** * load_img1: the shape of the image (C107) *)
From Coq Require Import List Arith Bool Lia.
From Verif Require Import Vec ModelImage ImageMain.
Import ListNotations.

Theorem C107_shape_refuted : forall (V : Type) interp (grid : list V) k n_rows n_cols,
  interp_ok interp -> length grid = (k * k)%nat -> (0 < k)%nat -> (0 < n_rows)%nat -> (0 < n_cols)%nat -> n_rows <> n_cols ->
  exists a, load_img1 interp grid n_rows n_cols = Ok a /\ has_shape n_cols n_rows a /\ ~ has_shape n_rows n_cols a.
Proof. exact main_C107_shape_refuted. Qed.
Print Assumptions C107_shape_refuted.
Theorem C107_square_partial : forall (V : Type) interp (grid : list V) k,
  interp_ok interp -> length grid = (k * k)%nat -> (0 < k)%nat ->
  (forall m, (0 < m)%nat -> exists a, load_img1 interp grid m m = Ok a /\ has_shape m m a) /\
  exists a, load_img1 interp grid k k = Ok a /\ forall (d : V) i j, (i < k)%nat -> (j < k)%nat -> nth j (nth i a []) d = nth (i * k + j) grid d.
Proof. exact main_C107_square_partial. Qed.
Print Assumptions C107_square_partial.
Theorem C107_errors : forall (V : Type) interp (grid : list V) n_rows n_cols,
  (0 < length grid)%nat ->
  (load_img1 interp grid n_rows n_cols = Err ValueError <->
     (forall k, length grid <> (k * k)%nat) \/ n_rows = 0%nat \/ n_cols = 0%nat) /\
  (load_img1 interp grid n_rows n_cols <> Err ValueError -> exists a, load_img1 interp grid n_rows n_cols = Ok a).
Proof. exact main_C107_errors. Qed.
Print Assumptions C107_errors.
(** an interpolation with the right shape; a 2x2 file; the 1x2 request comes back 2x1; a file of 3 numbers raises *)
Example C107_nonvacuous : interp_ok (fun w h (_ : list (list nat)) => repeat (repeat 5 w) h) /\
  load_img1 (fun w h _ => repeat (repeat 5 w) h) [1; 2; 3; 4] 2 2 = Ok [[1; 2]; [3; 4]] /\
  load_img1 (fun w h _ => repeat (repeat 5 w) h) [1; 2; 3; 4] 1 2 = Ok [[5]; [5]] /\
  load_img1 (fun w h _ => repeat (repeat 5 w) h) [1; 2; 3] 1 2 = Err ValueError /\
  load_img1 (fun w h _ => repeat (repeat 5 w) h) [1; 2; 3; 4] 0 2 = Err ValueError.
Proof.
  split; [|repeat split]. intros w h a. split; [apply repeat_length|]. apply Forall_forall. intros x H. apply repeat_spec in H. subst. apply repeat_length.
Qed.
