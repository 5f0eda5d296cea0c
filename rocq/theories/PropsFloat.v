(** * C110-C115: the model over IEEE binary64.
    [F64] is the instance of the model with float64 arithmetic (rounding to nearest, ties to even); [fv x] is the real value
    of a finite float, [fin x] says that x is finite, [datum x] that x is any float64 (finite, infinite or nan);
    [nearest r w]: w is a finite float, and no float64 number is closer to r. *)
From Coq Require Import Reals Lra Lia List Bool ZArith.
From Coq Require Import Floats.SpecFloat.
From Verif Require Import Num Vec Spec SpecSparse RVec ModelUtils ModelUtilsArr ModelConstraint ModelPenalty ModelProxGrad
  FloatBase FloatProx FloatNan FloatSum FloatSimplex3 FloatSimplex4 FloatSimplex5 FloatRuns.
Import ListNotations.
Local Open Scope R_scope.

(** L1Norm.prox is the correctly rounded soft threshold at t = alpha*step (the rounded product), entry by entry,
    whatever the other entries are: within 2^-53 of it relatively, zero exactly when |x_i| <= t *)
Theorem C110_prox : forall (alpha step : F64) (x : list F64),
  fin (nmul F64 alpha step) -> 0 <= fv (nmul F64 alpha step) ->
  length (l1norm_prox alpha x step) = length x /\
  forall i, (i < length x)%nat -> fin (nth i x n0) ->
  let t := fv (nmul F64 alpha step) in
  let xi := fv (nth i x n0) in
  let wi := nth i (l1norm_prox alpha x step) n0 in
  nearest (shrink t xi) wi /\
  Rabs (fv wi - shrink t xi) <= / 9007199254740992 * Rabs (shrink t xi) /\
  (fv wi = 0 <-> Rabs xi <= t) /\
  Rabs (fv wi) <= Rabs xi /\ 0 <= fv wi * xi.
Proof. exact main_C110_prox. Qed.
Print Assumptions C110_prox.
Theorem C110_overflow : forall (alpha step : F64) (x : list F64),
  nmul F64 alpha step = S754_infinity false -> Forall fin x ->
  Forall (fun w => fin w /\ fv w = 0) (l1norm_prox alpha x step).
Proof. exact main_C110_overflow. Qed.
Print Assumptions C110_overflow.
Theorem C110_monotone : forall (alpha step : F64) (x : list F64) i j,
  fin (nmul F64 alpha step) -> 0 <= fv (nmul F64 alpha step) ->
  (i < length x)%nat -> (j < length x)%nat -> fin (nth i x n0) -> fin (nth j x n0) ->
  fv (nth i x n0) <= fv (nth j x n0) ->
  fv (nth i (l1norm_prox alpha x step) n0) <= fv (nth j (l1norm_prox alpha x step) n0).
Proof. exact main_C110_monotone. Qed.
Print Assumptions C110_monotone.
Example C110_nonvacuous : fin (nmul F64 n1 ftenth) /\ 0 <= fv (nmul F64 n1 ftenth) /\
  l1norm_prox n1 [nlit 3 10; nlit (-1) 20; fm1] ftenth
  = [S754_finite false 7205759403792793 (-55); S754_zero false; S754_finite true 8106479329266893 (-53)].
Proof. exact run_C110. Qed.

(** LinfBall.prox commits no rounding error, handles infinities and keeps nan *)
Theorem C111_clip : forall (alpha : F64) (x : list F64),
  fin alpha -> 0 <= fv alpha ->
  length (linf_prox alpha x) = length x /\
  forall i, (i < length x)%nat ->
  let xi := nth i x n0 in
  let wi := nth i (linf_prox alpha x) n0 in
  (fin xi -> fin wi /\ - fv alpha <= fv wi <= fv alpha /\
     (forall z, - fv alpha <= z <= fv alpha -> Rabs (fv wi - fv xi) <= Rabs (z - fv xi)) /\
     (Rabs (fv xi) <= fv alpha -> wi = xi)) /\
  (xi = S754_infinity false -> wi = alpha) /\
  (xi = S754_infinity true -> wi = nopp F64 alpha) /\
  (nisnan xi = true -> nisnan wi = true).
Proof. exact main_C111_clip. Qed.
Print Assumptions C111_clip.
Theorem C111_idempotent : forall (alpha : F64) (x : list F64),
  fin alpha -> 0 <= fv alpha -> Forall fin x ->
  linf_prox alpha (linf_prox alpha x) = linf_prox alpha x.
Proof. exact main_C111_idempotent. Qed.
Print Assumptions C111_idempotent.
Example C111_nonvacuous : fin f3 /\ 0 <= fv f3 /\
  linf_prox f3 [nofZ F64 7; fm1; S754_infinity true; S754_nan] = [f3; fm1; nopp F64 f3; S754_nan].
Proof. exact run_C111. Qed.

(** nan: np.fmax drops it, so L1Norm.prox maps nan to 0 and minimize_proximal_gradient, fed with nothing but nan gradients,
    reports success at the zero vector *)
Theorem C112_prox_refuted : forall (alpha step : F64) (x : list F64) i,
  (i < length x)%nat -> nisnan (nth i x n0) = true ->
  nth i (l1norm_prox alpha x step) n0 = n0.
Proof. exact main_C112_prox_refuted. Qed.
Print Assumptions C112_prox_refuted.
Theorem C112_solver_refuted : forall (fg : list F64 -> F64 * list F64) (alpha s tol factor : F64)
    (max_iter max_bt : nat) (tc : bool) (x0 : list F64),
  (forall x, length (snd (fg x)) = length x /\ Forall (fun a => nisnan a = true) (snd (fg x))) ->
  fin s -> 0 < fv s -> fin tol -> 0 < fv tol -> (0 < max_iter)%nat -> (0 < max_bt)%nat ->
  exists r, minimize_pg (K:=F64) fg (l1norm_prox alpha) None (SCallable (K:=F64) (fun _ => s))
              tol max_iter max_bt factor false tc x0 = Ok r /\
    r_success r = true /\ r_x r = vzeros (length x0).
Proof. exact main_C112_solver_refuted. Qed.
Print Assumptions C112_solver_refuted.
Theorem C112_backtracking_refuted :
  exists r, minimize_pg (K:=F64) nan_fg (l1norm_prox n1) None (SBacktracking (K:=F64))
     (nlit 1 1000000) 500 100 (nlit 6 10) false false [n1] = Ok r /\ r_success r = true /\ r_x r = [n0].
Proof. exact main_C112_backtracking_refuted. Qed.
Print Assumptions C112_backtracking_refuted.
(** what success does exclude *)
Theorem C112_success_partial : forall (fg : list F64 -> F64 * list F64) (prox : list F64 -> F64 -> list F64)
    cb step tol factor (max_iter max_bt : nat) (tc : bool) (x0 : list F64) r,
  (forall x, length (snd (fg x)) = length x) -> (forall x s, length (prox x s) = length x) ->
  minimize_pg (K:=F64) fg prox cb step tol max_iter max_bt factor false tc x0 = Ok r ->
  r_success r = true ->
  length (r_x r) = length x0 /\ Forall (fun a => nisnan a = false) (r_x r).
Proof. exact main_C112_success_partial. Qed.
Print Assumptions C112_success_partial.
Example C112_nonvacuous : (forall x, length (snd (nan_fg x)) = length x /\ Forall (fun a => nisnan a = true) (snd (nan_fg x))) /\
  fin fhalf /\ 0 < fv fhalf.
Proof.
  split; [|split; [apply fin_c; vm_compute; reflexivity|rewrite fhalf_v; lra]].
  intros x. split; [apply map_length|]. apply Forall_forall. intros y Hy. apply in_map_iff in Hy as (z & <- & _). reflexivity.
Qed.

(** fast_csr_mv and fast_csr_vm: every finite entry of the result is within ((1+2^-53)^(m+1) - 1) * |A||x| + m (1+2^-53)^m 2^-1075
    of the exact product, m the number of stored entries that take part *)
Theorem C113_matvec : forall (data : list F64) (indptr indices : list nat) (x : list F64) (idx : list nat),
  Forall datum data -> Forall datum x ->
  Forall (csr_row_wf (length data) indptr indices (length x)) idx ->
  exists r, fast_csr_mv (K:=F64) data indptr indices x idx = Ok r /\ length r = length idx /\
    forall k, (k < length idx)%nat -> fin (nth k r n0) ->
      let i := nth k idx 0%nat in
      Rabs (fv (nth k r n0)
            - Rsum (map (fun c => csr_entry (map fv data) indptr indices i c * fv (nth c x n0)) (seq 0 (length x))))
      <= csr_err (nth (S i) indptr 0%nat - nth i indptr 0%nat)
           (Rsum (map (fun c => csr_entry (fabs data) indptr indices i c * Rabs (fv (nth c x n0))) (seq 0 (length x)))).
Proof. exact main_C113_matvec. Qed.
Print Assumptions C113_matvec.
Theorem C113_vecmat : forall (data : list F64) (indptr indices : list nat) (w : list F64) (d : nat) (idx : list nat),
  Forall datum data -> Forall datum w -> length w = length idx ->
  Forall (csr_row_wf (length data) indptr indices d) idx ->
  exists r, fast_csr_vm (K:=F64) w data indptr indices d idx = Ok r /\ length r = d /\
    forall c, (c < d)%nat -> fin (nth c r n0) ->
      Rabs (fv (nth c r n0)
            - Rsum (map (fun k => fv (nth k w n0) * csr_entry (map fv data) indptr indices (nth k idx 0%nat) c) (seq 0 (length idx))))
      <= csr_err (length (filter (Nat.eqb c) (flat_map (csr_row indices indptr) idx)))
           (Rsum (map (fun k => Rabs (fv (nth k w n0)) * csr_entry (fabs data) indptr indices (nth k idx 0%nat) c) (seq 0 (length idx)))).
Proof. exact main_C113_vecmat. Qed.
Print Assumptions C113_vecmat.
Example C113_nonvacuous :
  Forall datum drun /\ Forall datum vrun /\ Forall (csr_row_wf 4 [0;3;4]%nat [2;0;2;1]%nat 3) [1;0;1]%nat /\
  (exists r, fast_csr_mv (K:=F64) drun [0;3;4]%nat [2;0;2;1]%nat vrun [1;0;1]%nat = Ok r /\ Forall fin r) /\
  (exists r, fast_csr_vm (K:=F64) vrun drun [0;3;4]%nat [2;0;2;1]%nat 3 [1;0;1]%nat = Ok r /\ Forall fin r).
Proof. exact run_C113. Qed.

(** the projections on the simplex and on the l1 ball, against the exact projections: error at most
    10 n (|v|_1 + s) 2^-53 + 2^-1073, respectively 12 n (|v|_1 + s) 2^-53 + 2^-1073, in every coordinate *)
Theorem C114_simplex : forall (v : list F64) (s : F64) (p : list R),
  v <> [] -> Forall fin v -> fin s -> 0 < fv s -> (Z.of_nat (length v) <= 2 ^ 50)%Z ->
  let n := length v in
  let B := Rsum (fabs v) + fv s in
  INR n * B <= powerRZ 2 1020 ->
  Forall (fun a => fv a <= 4503599627370496 * fv s) v ->
  Exists (fun a => - (4503599627370496 * fv s) <= fv a) v ->
  is_projection (simplex (fv s)) (map fv v) p ->
  exists w, simplex_prox s v = Ok w /\ length w = n /\
  forall i, (i < n)%nat -> fin (nth i w n0) /\ 0 <= fv (nth i w n0) /\
    Rabs (fv (nth i w n0) - nth i p 0) <= simplex_err 10 n B.
Proof. exact main_C114_simplex. Qed.
Print Assumptions C114_simplex.
Theorem C114_l1ball : forall (v : list F64) (s : F64) (p : list R),
  Forall fin v -> fin s -> 0 < fv s -> (Z.of_nat (length v) <= 2 ^ 50)%Z ->
  let n := length v in
  let B := Rsum (fabs v) + fv s in
  INR n * B <= powerRZ 2 1020 ->
  Forall (fun a => Rabs (fv a) <= 4503599627370496 * fv s) v ->
  is_projection (l1_ball (fv s)) (map fv v) p ->
  exists w, l1ball_prox s v = Ok w /\ length w = n /\
  forall i, (i < n)%nat -> fin (nth i w n0) /\
    Rabs (fv (nth i w n0) - nth i p 0) <= simplex_err 12 n B.
Proof. exact main_C114_l1ball. Qed.
Print Assumptions C114_l1ball.
Example C114_nonvacuous :
  (exists p, is_projection (simplex 1) (map fv vrun) p /\
     exists w, simplex_prox n1 vrun = Ok w /\ w = [n1; n0; n0] /\
     forall i, (i < 3)%nat -> Rabs (fv (nth i w n0) - nth i p 0) <= simplex_err 10 3 (11 / 2)) /\
  (exists p, is_projection (l1_ball 1) (map fv vrun) p /\
     exists w, l1ball_prox n1 vrun = Ok w /\ w = [n1; nopp F64 n0; n0] /\
     forall i, (i < 3)%nat -> Rabs (fv (nth i w n0) - nth i p 0) <= simplex_err 12 3 (11 / 2)).
Proof. exact run_C114. Qed.

(** an entry of 2^55 s or more makes the search for the threshold fail, although the input is finite and s > 0 *)
Theorem C115_refuted : forall (a s : F64) (m : nat),
  fin a -> fin s -> 0 < fv s -> (Z.of_nat m < 2 ^ 53 - 1)%Z ->
  36028797018963968 * fv s <= fv a ->
  simplex_prox s (a :: repeat n0 m) = Err IndexError /\
  l1ball_prox s (a :: repeat n0 m) = Err IndexError.
Proof. exact main_C115_refuted. Qed.
Print Assumptions C115_refuted.
Theorem C115_in_range_partial : forall (v : list F64) (s : F64),
  v <> [] -> Forall fin v -> fin s -> 0 < fv s -> (Z.of_nat (length v) <= 2 ^ 50)%Z ->
  INR (length v) * (Rsum (fabs v) + fv s) <= powerRZ 2 1020 ->
  Forall (fun a => Rabs (fv a) <= 4503599627370496 * fv s) v ->
  (exists w, simplex_prox s v = Ok w /\ length w = length v /\ Forall (fun y => fin y /\ 0 <= fv y) w) /\
  (exists w, l1ball_prox s v = Ok w /\ length w = length v /\ Forall fin w).
Proof. exact main_C115_in_range_partial. Qed.
Print Assumptions C115_in_range_partial.
Example C115_nonvacuous : let a := nofZ F64 100000000000000000 in
  fin a /\ 36028797018963968 * fv n1 <= fv a /\
  simplex_prox n1 [a; n0; n0] = Err IndexError /\
  simplex_prox n1 [a; f3; nofZ F64 (-2)] = Err IndexError /\ l1ball_prox n1 [a; f3; nofZ F64 (-2)] = Err IndexError.
Proof. exact run_C115. Qed.
Example C115_in_range_nonvacuous : vrun <> [] /\ Forall fin vrun /\ fin n1 /\ 0 < fv n1 /\
  INR 3 * (Rsum (fabs vrun) + fv n1) <= powerRZ 2 1020 /\ Forall (fun a => Rabs (fv a) <= 4503599627370496 * fv n1) vrun.
Proof.
  split; [discriminate|]. split; [apply vrun_fin|]. split; [apply fin_1|]. split; [rewrite fv_1; lra|].
  split; [exact vrun_big|exact vrun_range].
Qed.
