(** * Model of copt/tv_prox.py, FusedLasso.prox and TotalVariation2D (copt/penalty.py)

    Arrays created with np.empty are lists of [option K]: reading an entry that was never written is an
    error (RuntimeError stands for "garbage value").  Divisions by a difference of indices are
    checked.  While loops carry fuel; running out of it is the error OutOfFuel.  Not modelled: the
    dtype test of prox_tv1d (lines 37-38), int32 overflow of the index arrays, strides ([incr] is 1). *)
From Coq Require Import ZArith Bool List Lia.
From Verif Require Import Num Vec ModelPenalty.
Import ListNotations.
Set Implicit Arguments.

Section Tv.
Context {K : Num}.
Local Open Scope num_scope.

(** read of an entry of an np.empty array *)
Definition rd (l : list (option K)) (i : nat) : result K :=
  o <- get l i ;; match o with Some x => Ok x | None => Err RuntimeError end.
(** a / (i - j) with integers i, j (numba: ZeroDivisionError) *)
Definition idiv (a : K) (i j : nat) : result K :=
  if Nat.eqb i j then Err ZeroDivisionError else Ok (a / nofZ K (Z.of_nat i - Z.of_nat j)).

(** index_low, slope_low, s_low, c_low (resp. index_up, slope_up, s_up, c_up) *)
Record hull := mkH { h_idx : list nat; h_slp : list K; h_s : nat; h_c : nat }.
(** the two hulls and index, z, c *)
Record taut := mkT { t_low : hull; t_up : hull; t_ix : list nat; t_z : list K; t_c : nat }.

(** the comparison used for the lower hull (<=) and for the upper hull (>=) *)
Definition cmp (up : bool) (a b : K) : bool := if up then b <=? a else a <=? b.

(** copt/tv_prox.py:54-68  y_low (first = input[0] - step_size, last entry += step_size) and y_up
    (first = input[0] + step_size, last entry -= step_size) *)
Definition fill_tube (first : K) (fix_last : K -> K) (input : list K) : result (list (option K)) :=
  let width := S (length input) in
  y <- set (repeat None width) 0 (Some n0) ;;
  y <- set y 1 (Some first) ;;
  y <- forM (range 2 width) (fun i y => a <- rd y (i - 1) ;; b <- get input (i - 1) ;; set y i (Some (a + b))) y ;;
  a <- rd y (width - 1) ;;
  set y (width - 1) (Some (fix_last a)).

(** copt/tv_prox.py:78-88 (up = false) and 91-99 (up = true): the hull is popped while its last two
    segments are in the wrong order; [ix], [z], [c] are index, z, c *)
Fixpoint pop (fuel : nat) (up : bool) (y : list (option K)) (i : nat) (ix : list nat) (z : list K) (c : nat) (h : hull) : result hull :=
  match fuel with
  | O => Err OutOfFuel
  | S fuel =>
      if Nat.ltb (h_s h + 1) (h_c h) then
        a <- get (h_slp h) (Nat.max (h_s h) (h_c h - 1)) ;;
        b <- get (h_slp h) (h_c h) ;;
        if cmp up a b then
          let c' := (h_c h - 1)%nat in
          idx <- set (h_idx h) c' i ;;
          yi <- rd y i ;;
          v <- (if Nat.ltb (h_s h + 1) c'
                then j <- get idx (c' - 1) ;; yj <- rd y j ;; idiv (yi - yj) i j
                else zc <- get z c ;; kc <- get ix c ;; idiv (yi - zc) i kc) ;;
          slp <- set (h_slp h) c' v ;;
          pop fuel up y i ix z c (mkH idx slp (h_s h) c')
        else Ok h
      else Ok h
  end.

(** copt/tv_prox.py:74-77 and 90: the new point is pushed, then the hull is popped *)
Definition push (up : bool) (y : list (option K)) (i : nat) (ix : list nat) (z : list K) (c : nat) (h : hull) : result hull :=
  let c' := (h_c h + 1)%nat in
  idx <- set (h_idx h) c' i ;;
  a <- rd y i ;; b <- rd y (i - 1) ;;
  slp <- set (h_slp h) c' (a - b) ;;
  pop (S c') up y i ix z c (mkH idx slp (h_s h) c').

(** copt/tv_prox.py:101-111 (up = false: [h1] is the lower hull, [h2] the upper one) and 112-122
    (up = true: the roles are exchanged): while [h1] is one segment that crosses the first segment of
    [h2], that segment becomes part of the string.  [y1], [y2] are the bounds of [h1], [h2]. *)
Fixpoint advance (fuel : nat) (up : bool) (y1 y2 : list (option K)) (i : nat) (h1 h2 : hull) (ix : list nat) (z : list K) (c : nat)
  : result (hull * hull * list nat * list K * nat) :=
  match fuel with
  | O => Err OutOfFuel
  | S fuel =>
      if Nat.eqb (h_c h1) (h_s h1 + 1) && Nat.ltb (h_s h2 + 1) (h_c h2) then
        a <- get (h_slp h1) (h_c h1) ;;
        b <- get (h_slp h2) (h_s h2 + 1) ;;
        if cmp (negb up) a b then
          let c' := (c + 1)%nat in
          let s2 := (h_s h2 + 1)%nat in
          k <- get (h_idx h2) s2 ;;
          ix <- set ix c' k ;;
          v <- rd y2 k ;;
          z <- set z c' v ;;
          idx1 <- set (h_idx h1) (h_s h1) k ;;
          yi <- rd y1 i ;;
          m <- idiv (yi - v) i k ;;
          slp1 <- set (h_slp h1) (h_c h1) m ;;
          advance fuel up y1 y2 i (mkH idx1 slp1 (h_s h1) (h_c h1)) (mkH (h_idx h2) (h_slp h2) s2 (h_c h2)) ix z c'
        else Ok (h1, h2, ix, z, c)
      else Ok (h1, h2, ix, z, c)
  end.

(** copt/tv_prox.py:74-122  one iteration of the main loop *)
Definition taut_step (ylo yup : list (option K)) (i : nat) (t : taut) : result taut :=
  low <- push false ylo i (t_ix t) (t_z t) (t_c t) (t_low t) ;;
  up <- push true yup i (t_ix t) (t_z t) (t_c t) (t_up t) ;;
  '(low, up, ix, z, c) <- advance (S (h_c up)) false ylo yup i low up (t_ix t) (t_z t) (t_c t) ;;
  '(up, low, ix, z, c) <- advance (S (h_c low)) true yup ylo i up low ix z c ;;
  Ok (mkT low up ix z c).

(** copt/tv_prox.py:124-127  the lower hull is appended to the string *)
Definition flush (ylo : list (option K)) (t : taut) : result (list nat * list K * nat) :=
  let low := t_low t in
  '(ix, z) <- forM (range 1 (h_c low - h_s low + 1)) (fun i '(ix, z) =>
      k <- get (h_idx low) (h_s low + i) ;;
      ix <- set ix (t_c t + i) k ;;
      v <- rd ylo k ;;
      z <- set z (t_c t + i) v ;;
      Ok (ix, z)) (t_ix t, t_z t) ;;
  Ok (ix, z, (t_c t + h_c low - h_s low)%nat).

(** copt/tv_prox.py:128-135  output[j] = slope of the string on its segment *)
Definition emit (ix : list nat) (z : list K) (c : nat) (out : list (option K)) : result (list (option K)) :=
  '(_, out) <- forM (range 1 (c + 1)) (fun i '(j, out) =>
      zi <- get z i ;; zp <- get z (i - 1) ;; ki <- get ix i ;; kp <- get ix (i - 1) ;;
      a <- idiv (zi - zp) ki kp ;;
      out <- forM (range j ki) (fun j o => set o j (Some a)) out ;;
      Ok (Nat.max j ki, out)) (0%nat, out) ;;
  Ok out.

(** the returned array, provided every entry was written *)
Definition written (l : list (option K)) : result (list K) :=
  mapM (fun o => match o with Some x => Ok x | None => Err RuntimeError end) l.

(** copt/tv_prox.py:45-136  _prox_tv1d; [pinf], [ninf] are np.inf and -np.inf (lines 69-70) *)
Definition low_tv1d (pinf ninf step : K) (input : list K) : result (list (option K)) :=
  let width := S (length input) in
  x0 <- get input 0 ;;
  ylo <- fill_tube (x0 - step) (fun a => a + step) input ;;
  yup <- fill_tube (x0 + step) (fun a => a - step) input ;;
  slo <- set (repeat n0 width) 0 pinf ;;
  sup <- set (repeat n0 width) 0 ninf ;;
  y0 <- rd ylo 0 ;;
  z <- set (repeat n0 width) 0 y0 ;;
  t <- forM (range 1 width) (taut_step ylo yup)
         (mkT (mkH (repeat 0%nat width) slo 0 0) (mkH (repeat 0%nat width) sup 0 0) (repeat 0%nat width) z 0) ;;
  '(ix, z, c) <- flush ylo t ;;
  emit ix z c (repeat None (length input)).

(** copt/tv_prox.py:14-42 *)
Definition prox_tv1d (pinf ninf : K) (w : list K) (step : K) : result (list K) :=
  o <- low_tv1d pinf ninf step w ;; written o.

(** copt/penalty.py:161-165  FusedLasso.prox *)
Definition fused_prox (pinf ninf alpha : K) (x : list K) (step : K) : result (list K) :=
  prox_tv1d pinf ninf x (step * alpha).

(** ** two dimensions *)
(** positions in the raveled array of column [j] and row [i] *)
Definition col_idx (rows cols j : nat) : list nat := map (fun i => (i * cols + j)%nat) (seq 0 rows).
Definition row_idx (cols i : nat) : list nat := map (fun j => (i * cols + j)%nat) (seq 0 cols).

(** copt/tv_prox.py:139-158  prox_tv1d_cols / prox_tv1d_rows: [lines] are the positions of the columns
    / rows; the views A[:, i], out[:, i] are gather and scatter *)
Definition prox_lines (pinf ninf step : K) (rows cols : nat) (lines : list (list nat)) (a : list K) : result (list K) :=
  if negb (Nat.eqb (length a) (rows * cols)) then Err ValueError else             (* reshape *)
  out <- forM lines (fun ids out =>
           v <- gather a ids ;; o <- low_tv1d pinf ninf step v ;; scatter out ids o) (repeat None (length a)) ;;
  written out.
Definition prox_cols (pinf ninf step : K) (a : list K) (rows cols : nat) : result (list K) :=
  prox_lines pinf ninf step rows cols (map (col_idx rows cols) (seq 0 cols)) a.
Definition prox_rows (pinf ninf step : K) (a : list K) (rows cols : nat) : result (list K) :=
  prox_lines pinf ninf step rows cols (map (row_idx cols) (seq 0 rows)) a.

(** np.max of an array: ValueError when empty, nan if some entry is nan *)
Definition npmax (v : list K) : result K :=
  match v with
  | [] => Err ValueError
  | x :: v' => Ok (fold_left (fun m y => if nisnan m then m else if nisnan y then y else if m <? y then y else m) v' x)
  end.

Record dykstra := mkD { d_x : list K; d_y : list K; d_p : list K; d_q : list K }.
(** copt/tv_prox.py:172-177 *)
Definition dykstra_step (pinf ninf step : K) (rows cols : nat) (s : dykstra) : result dykstra :=
  y <- prox_cols pinf ninf step (vadd (d_x s) (d_p s)) rows cols ;;
  let p := vadd (d_p s) (vsub (d_x s) y) in
  x <- prox_rows pinf ninf step (vadd y (d_q s)) rows cols ;;
  let q := vadd (d_q s) (vsub y x) in
  Ok (mkD x y p q).
(** copt/tv_prox.py:171-188: the loop and its else branch; the result is x and whether a warning was
    issued.  [acc]: whether accuracy is bound. *)
Fixpoint dykstra_loop (pinf ninf step : K) (rows cols : nat) (tol : K) (n : nat) (acc : bool) (s : dykstra) : result (dykstra * bool) :=
  match n with
  | O => if acc then Ok (s, true) else Err UnboundLocalError
  | S n =>
      s <- dykstra_step pinf ninf step rows cols s ;;
      m <- npmax (vabs (vsub (d_y s) (d_x s))) ;;
      if m <? tol then Ok (s, false) else dykstra_loop pinf ninf step rows cols tol n true s
  end.
(** copt/tv_prox.py:161-225  prox_tv2d, c_prox_tv2d; an array of the wrong size raises ValueError (except that
    numpy broadcasts an array of size 1, which is not modelled) *)
Definition prox_tv2d (pinf ninf : K) (w : list K) (step : K) (rows cols max_iter : nat) (tol : K) : result (list K * bool) :=
  if negb (Nat.eqb (length w) (rows * cols)) then (match max_iter with O => Err UnboundLocalError | _ => Err ValueError end) else
  '(s, warned) <- dykstra_loop pinf ninf step rows cols tol max_iter false
      (mkD w [] (vzeros (rows * cols)) (vzeros (rows * cols))) ;;
  Ok (d_x s, warned).

(** copt/penalty.py:290-294  TotalVariation2D.__call__ (np.diff along both axes) *)
Definition tv2d_call (alpha : K) (rows cols : nat) (x : list K) : result K :=
  if negb (Nat.eqb (length x) (rows * cols)) then Err ValueError else
  d1 <- mapM (fun k => a <- get x k ;; b <- get x (k + cols) ;; Ok (nabs K (b - a)))
             (flat_map (fun i => map (fun j => (i * cols + j)%nat) (seq 0 cols)) (seq 0 (rows - 1))) ;;
  d2 <- mapM (fun k => a <- get x k ;; b <- get x (k + 1) ;; Ok (nabs K (b - a)))
             (flat_map (fun i => map (fun j => (i * cols + j)%nat) (seq 0 (cols - 1))) (seq 0 rows)) ;;
  Ok (alpha * (vsum d1 + vsum d2)).
(** copt/penalty.py:296-307  TotalVariation2D.prox *)
Definition tv2d_prox (pinf ninf alpha : K) (rows cols max_iter : nat) (tol : K) (x : list K) (step : K) : result (list K * bool) :=
  prox_tv2d pinf ninf x (step * alpha) rows cols max_iter tol.

(** copt/tv_prox.py:228-256  tv2d_linear_operator: the rows of L *)
Definition diff_row (size i j : nat) : result (list K) :=
  r <- set (vzeros size) i n1 ;; set r j (- n1).
Definition tv2d_rows (rows cols : nat) : result (list (list K)) :=
  l <- mapM (fun i => l <- mapM (fun j =>
         r1 <- (if Nat.ltb i (rows - 1) then r <- diff_row (rows * cols) (i * cols + j) ((i + 1) * cols + j) ;; Ok [r] else Ok []) ;;
         r2 <- (if Nat.ltb j (cols - 1) then r <- diff_row (rows * cols) (i * cols + j) (i * cols + (j + 1)) ;; Ok [r] else Ok []) ;;
         Ok (r1 ++ r2)) (seq 0 cols) ;; Ok (concat l)) (seq 0 rows) ;;
  Ok (concat l).

End Tv.
Arguments hull K : clear implicits.
Arguments taut K : clear implicits.
Arguments dykstra K : clear implicits.
