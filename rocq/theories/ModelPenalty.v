(** * Model of copt/penalty.py: L1Norm, GroupL1, FusedLasso (sparse factories)

    FusedLasso.prox and TotalVariation2D.prox are in ModelTv.v, TraceNorm in ModelTrace.v. *)
From Coq Require Import ZArith Bool List.
From Verif Require Import Num Vec.
Import ListNotations.
Set Implicit Arguments.

(** Python integer indexing of an axis of length [n]: negative indices count from the end. *)
Definition pyidx (n : nat) (z : Z) : result nat :=
  if (0 <=? z)%Z && (z <? Z.of_nat n)%Z then Ok (Z.to_nat z)
  else if (- Z.of_nat n <=? z)%Z && (z <? 0)%Z then Ok (Z.to_nat (z + Z.of_nat n))
  else Err IndexError.

Fixpoint mapM {A B} (f : A -> result B) (l : list A) : result (list B) :=
  match l with
  | [] => Ok []
  | a :: l' => b <- f a ;; bs <- mapM f l' ;; Ok (b :: bs)
  end.

(** fancy indexing [x[g]] and assignment [out[g] = vals] (later writes win) *)
Definition gather {A} (x : list A) (g : list nat) : result (list A) := mapM (get x) g.
Fixpoint scatter {A} (x : list A) (g : list nat) (vals : list A) : result (list A) :=
  match g, vals with
  | i :: g', v :: vals' => x' <- set x i v ;; scatter x' g' vals'
  | _, _ => Ok x
  end.

(** np.all(np.diff(g) == 1)  (copt/penalty.py:72) *)
Fixpoint diff_all_one (g : list Z) : bool :=
  match g with
  | a :: ((b :: _) as g') => (b - a =? 1)%Z && diff_all_one g'
  | _ => true
  end.

Definition last_opt (g : list Z) : result Z :=
  match rev g with [] => Err IndexError | a :: _ => Ok a end.
Definition head_opt (g : list Z) : result Z :=
  match g with [] => Err IndexError | a :: _ => Ok a end.

(** copt/penalty.py:68-76  GroupL1.__init__: ValueError unless every group is contiguous and
    the groups are increasing; an empty group next to another one raises IndexError. *)
Fixpoint check_groups (prev : option (list Z)) (groups : list (list Z)) : result unit :=
  match groups with
  | [] => Ok tt
  | g :: rest =>
      if negb (diff_all_one g) then Err ValueError
      else
        ok <- match prev with
              | None => Ok true
              | Some p => pl <- last_opt p ;; gh <- head_opt g ;; Ok (negb (gh <=? pl)%Z)
              end ;;
        if ok : bool then check_groups (Some g) rest else Err ValueError
  end.
Definition group_init (groups : list (list Z)) : result (list (list Z)) :=
  _ <- check_groups None groups ;; Ok groups.

Section Penalty.
Context {K : Num}.
Local Open Scope num_scope.

(** copt/penalty.py:22-23  L1Norm.__call__ *)
Definition l1norm_call (alpha : K) (x : vec K) : K := alpha * vsum (vabs x).

(** copt/penalty.py:32-34, 49-51: the scalar soft threshold [fmax(x - t, 0) - fmax(-x - t, 0)] *)
Definition soft_thr (t x : K) : K := nfmax (x - t) n0 - nfmax (- x - t) n0.

(** copt/penalty.py:25-34  L1Norm.prox *)
Definition l1norm_prox (alpha : K) (x : vec K) (step : K) : vec K :=
  map (soft_thr (alpha * step)) x.

(** copt/penalty.py:45-51  L1Norm.prox_factory: _prox_L1, run for row [i] of a CSR block
    support (indices, indptr).  The returned block matrix is the identity (line 53). *)
Definition l1norm_sparse_prox (alpha : K) (x : vec K) (i : nat) (indices indptr : list nat)
    (d : vec K) (step : K) : result (vec K) :=
  lo <- get indptr i ;; hi <- get indptr (S i) ;;
  forM (range lo hi) (fun j x =>
    j_idx <- get indices j ;;
    xj <- get x j_idx ;; dj <- get d j_idx ;;
    let a := xj - alpha * dj * step in
    let b := (- xj) - alpha * dj * step in
    set x j_idx (nfmax a n0 - nfmax b n0)) x.

(** [np.linalg.norm(x[g])] for a group of (possibly negative) integer indices *)
Definition group_idx (n : nat) (g : list Z) : result (list nat) := mapM (pyidx n) g.

(** copt/penalty.py:78-79  GroupL1.__call__ *)
Definition group_call (alpha : K) (groups : list (list Z)) (x : vec K) : result K :=
  norms <- mapM (fun g => gi <- group_idx (length x) g ;; xs <- gather x gi ;; Ok (vnorm xs)) groups ;;
  Ok (alpha * vsum norms).

(** copt/penalty.py:83-89: one group of GroupL1.prox.  [out[g] -= e] reads out[g], subtracts
    and writes back. *)
Definition group_prox_one (alpha : K) (x : vec K) (step : K) (g : list Z) (out : vec K)
  : result (vec K) :=
  gi <- group_idx (length x) g ;;
  xs <- gather x gi ;;
  let norm := vnorm xs in
  if (alpha * step) <? norm then
    os <- gather out gi ;;
    scatter out gi (map (fun o => o - step * alpha * o / norm) os)
  else scatter out gi (map (fun _ => n0) gi).
(** copt/penalty.py:81-90  GroupL1.prox *)
Definition group_prox (alpha : K) (groups : list (list Z)) (x : vec K) (step : K) : result (vec K) :=
  forM groups (group_prox_one alpha x step) x.

(** ** GroupL1.prox_factory (copt/penalty.py:92-143).
    B_data holds the floats 0.0 / 1.0 / -1.0, written here as integers.  B_indices is
    [arange(n_features)]. *)
Record gstate : Type := mkG { gdata : list Z; gptr : list nat; fp : nat; bp : nat }.

(** lines 101-105 and 113-116: append a non-penalised singleton block *)
Definition push_single (s : gstate) : result gstate :=
  data <- set (gdata s) (fp s) (-1)%Z ;;
  c <- get (gptr s) (bp s) ;;
  ptr <- set (gptr s) (S (bp s)) (S c) ;;
  Ok (mkG data ptr (S (fp s)) (S (bp s))).
(** lines 107-110: append one feature to the current penalised block *)
Definition push_feature (s : gstate) : result gstate :=
  data <- set (gdata s) (fp s) 1%Z ;;
  c <- get (gptr s) (S (bp s)) ;;
  ptr <- set (gptr s) (S (bp s)) (S c) ;;
  Ok (mkG data ptr (S (fp s)) (bp s)).
(** lines 99-111: one group.  The [while feature_pointer < g[0]] loop runs
    max(0, g[0] - feature_pointer) times. *)
Definition push_group (g : list Z) (s : gstate) : result gstate :=
  g0 <- head_opt g ;;
  s1 <- forM (seq 0 (Z.to_nat (g0 - Z.of_nat (fp s)))) (fun _ s => push_single s) s ;;
  c <- get (gptr s1) (bp s1) ;;
  ptr <- set (gptr s1) (S (bp s1)) c ;;
  s3 <- forM g (fun _ s => push_feature s) (mkG (gdata s1) ptr (fp s1) (bp s1)) ;;
  Ok (mkG (gdata s3) (gptr s3) (fp s3) (S (bp s3))).
(** lines 93-118: the block structure (B_data, B_indptr); B_indices = arange(n_features) *)
Definition group_blocks (groups : list (list Z)) (n_features : nat) : result (list Z * list nat) :=
  s <- forM groups push_group (mkG (repeat 0%Z n_features) (repeat 0%nat (S n_features)) 0 0) ;;
  s' <- forM (range (fp s) n_features) (fun _ s => push_single s) s ;;
  Ok (gdata s', firstn (S (bp s')) (gptr s')).

(** copt/penalty.py:128-141: one block [h] of _prox_gl.  B_indices[j] = j (arange). *)
Definition gl_block (alpha : K) (bdata : list Z) (bptr : list nat) (d : vec K) (step : K)
    (h : nat) (x : vec K) : result (vec K) :=
  lo <- get bptr h ;;
  flag <- get bdata lo ;;                                   (* line 126 *)
  if (flag <=? 0)%Z then Ok x
  else
    dh <- get d h ;;
    let ss := step * dh in                                  (* line 128 *)
    hi <- get bptr (S h) ;;
    sq <- forM (range lo hi) (fun j acc => xj <- get x j ;; Ok (acc + nsq xj)) n0 ;;
    let norm := nsqrt K sq in                               (* lines 129-133 *)
    if (alpha * ss) <? norm then
      forM (range lo hi) (fun j x => xj <- get x j ;;
         set x j (xj * (n1 - alpha * ss / norm))) x         (* lines 135-137 *)
    else
      forM (range lo hi) (fun j x => set x j n0) x.         (* lines 139-141 *)
(** copt/penalty.py:122-141  _prox_gl *)
Definition group_sparse_prox (alpha : K) (bdata : list Z) (bptr : list nat)
    (x : vec K) (i : nat) (indices indptr : list nat) (d : vec K) (step : K) : result (vec K) :=
  lo <- get indptr i ;; hi <- get indptr (S i) ;;
  forM (range lo hi) (fun b x => h <- get indices b ;; gl_block alpha bdata bptr d step h x) x.

(** ** FusedLasso *)
(** copt/penalty.py:158-159  FusedLasso.__call__ *)
Fixpoint diffs (x : vec K) : vec K :=
  match x with
  | a :: ((b :: _) as x') => (b - a) :: diffs x'
  | _ => []
  end.
Definition fused_call (alpha : K) (x : vec K) : K := alpha * vsum (vabs (diffs x)).

(** copt/penalty.py:168-173  prox_1_factory blocks: (B_1_data, B_1_indptr).
    [np.arange(0, n+1, 2)] has n/2+1 entries. *)
Definition fused_blocks_1 (n : nat) : result (list Z * list nat) :=
  let data := repeat 1%Z n in
  let ptr := map (fun k => 2 * k)%nat (seq 0 (S (n / 2))) in
  if Nat.eqb (n mod 2) 1 then
    data' <- set data (n - 1) (-1)%Z ;;
    Ok (data', ptr ++ [S (last ptr 0%nat)])
  else Ok (data, ptr).

(** copt/penalty.py:202-209  prox_2_factory blocks.  [np.arange(1, n+2, 2)] has (n+2)/2
    entries; [B_2_data[0] = -1] raises IndexError for n = 0. *)
Definition fused_blocks_2 (n : nat) : result (list Z * list nat) :=
  let ptr := 0%nat :: map (fun k => 2 * k + 1)%nat (seq 0 ((n + 2) / 2)) in
  data <- set (repeat 1%Z n) 0 (-1)%Z ;;
  if Nat.eqb (n mod 2) 0 then
    data' <- set data (n - 1) (-1)%Z ;;
    ptr' <- set ptr (length ptr - 1) (last ptr 0%nat - 1)%nat ;;
    Ok (data', ptr')
  else Ok (data, ptr).

(** copt/penalty.py:183-197 and 219-233: one block of _prox_1_fl / _prox_2_fl *)
Definition fl_block (alpha : K) (bdata : list Z) (bptr : list nat) (d : vec K) (step : K)
    (h : nat) (x : vec K) : result (vec K) :=
  j <- get bptr h ;;                       (* B_indices[B_indptr[h]] with B_indices = arange *)
  flag <- get bdata j ;;
  if (flag <=? 0)%Z then Ok x
  else
    dh <- get d h ;;
    let ss := step * dh * alpha in
    xj <- get x j ;; xk <- get x (S j) ;;
    if (xk + ss) <=? (xj - ss) then
      x' <- set x j (xj - ss) ;; set x' (S j) (xk + ss)
    else if (xj + ss) <=? (xk - ss) then
      x' <- set x j (xj + ss) ;; set x' (S j) (xk - ss)
    else
      let avg := (xj + xk) / nofZ K 2 in
      x' <- set x j avg ;; set x' (S j) avg.
(** copt/penalty.py:180-197, 216-233 *)
Definition fused_sparse_prox (alpha : K) (bdata : list Z) (bptr : list nat)
    (x : vec K) (i : nat) (indices indptr : list nat) (d : vec K) (step : K) : result (vec K) :=
  lo <- get indptr i ;; hi <- get indptr (S i) ;;
  forM (range lo hi) (fun b x => h <- get indices b ;; fl_block alpha bdata bptr d step h x) x.

End Penalty.
