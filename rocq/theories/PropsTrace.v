(** * Properties C08, C18: the nuclear ball and the nuclear norm.

    svd, svdvals and svds are arbitrary functions; what the theorems assume about
    them at the argument at hand is SpecTrace.svd_at, svals_at, svds_at. *)
From Coq Require Import Reals Lra Lia List Bool ZArith Arith.
From Verif Require Import Num Vec Spec SpecTrace ModelConstraint ModelPenalty ModelTrace TraceMain SvdExists2.
Import ListNotations.
Open Scope R_scope.

(** ** C08 *)
Theorem C08_prox : forall (m n : nat) (alpha : R) (x : list R)
  (svd : list (list R) -> list (list R) * list R * list (list R)),
  0 < alpha -> length x = (m * n)%nat -> svd_at m n svd x ->
  exists p, trace_ball_prox (K := RN) svd alpha m n x = Ok p /\ is_projection (nuc_ball m n alpha) x p.
Proof. exact main_C08_prox. Qed.
Print Assumptions C08_prox.
Theorem C08_prox_inside : forall (m n : nat) (alpha : R) (x : list R)
  (svd : list (list R) -> list (list R) * list R * list (list R)),
  0 < alpha -> length x = (m * n)%nat -> svd_at m n svd x -> nuc_ball m n alpha x ->
  trace_ball_prox (K := RN) svd alpha m n x = Ok x.
Proof. exact main_C08_prox_inside. Qed.
Print Assumptions C08_prox_inside.
Theorem C08_prox_errors : forall (K : Num) (svd : svd_fun (K := K)) (alpha : K) (m n : nat) (x : vec K),
  (length x <> (m * n)%nat -> trace_ball_prox svd alpha m n x = Err ValueError) /\
  (length x = (m * n)%nat -> nltb K n0 alpha = false -> trace_ball_prox svd alpha m n x = Err AssertionError).
Proof. exact main_C08_prox_errors. Qed.
Print Assumptions C08_prox_errors.
Theorem C08_call : forall (m n : nat) (alpha : R) (x : list R) (svdvals : list (list R) -> list R),
  length x = (m * n)%nat -> svals_at m n svdvals x ->
  exists b, trace_ball_call (K := RN) svdvals alpha m n x = Ok b /\
    (b = true <-> nuc_ball m n (alpha + / 8388608) x).
Proof. exact main_C08_call. Qed.
Print Assumptions C08_call.
Theorem C08_lmo_partial : forall (m n : nat) (alpha : R) (u x : list R) (svds : list (list R) -> list R * list R),
  0 <= alpha -> (2 <= m)%nat -> (2 <= n)%nat -> length u = (m * n)%nat -> length x = length u -> svds_at m n svds u ->
  exists o, trace_ball_lmo (K := RN) svds alpha m n u x = Ok o /\
    lmo_fw o = None /\ lmo_away o = None /\ lmo_max_step o = 1 /\ length (lmo_dir o) = length x /\
    is_lin_max (nuc_ball m n alpha) u (vplus x (lmo_dir o)).
Proof. exact main_C08_lmo_partial. Qed.
Print Assumptions C08_lmo_partial.
Theorem C08_lmo_refuted : forall (K : Num) (alpha : K) (m n : nat) (u x : vec K) (svds : list (vec K) -> vec K * vec K),
  (m <= 1 \/ n <= 1)%nat -> trace_ball_lmo svds alpha m n u x = Err ValueError.
Proof. exact main_C08_lmo_refuted. Qed.
Print Assumptions C08_lmo_refuted.
(** some routine meets each contract at every matrix of every shape *)
Theorem C08_contracts : forall m n,
  (exists svd, forall x, length x = (m * n)%nat -> svd_at m n svd x) /\
  (exists svdvals, forall x, length x = (m * n)%nat -> svals_at m n svdvals x) /\
  ((0 < m)%nat -> (0 < n)%nat -> exists svds, forall u, length u = (m * n)%nat -> svds_at m n svds u).
Proof. exact main_C08_contracts. Qed.
Print Assumptions C08_contracts.

(** A rotated 2x2 matrix: [[3/5, -4/5], [4/5, 3/5]] . diag(2, 1). *)
Definition ex_x : list R := [6/5; -4/5; 8/5; 3/5].
Definition ex_svd (X : list (list R)) : list (list R) * list R * list (list R) :=
  ([[3/5; -4/5]; [4/5; 3/5]], [2; 1], [[1; 0]; [0; 1]]).

Example ex_is_svd : is_svd 2 2 2 ex_x [[3/5; -4/5]; [4/5; 3/5]] [2; 1] [[1; 0]; [0; 1]].
Proof.
  repeat split; try reflexivity; repeat constructor; try lra;
    intros i j Hi Hj; (destruct i as [|[|i]]; [| |cbn in Hi; lia]); (destruct j as [|[|j]]; [| |cbn in Hj; lia]);
    cbn; lra.
Qed.

Example C08_C18_nonvacuous :
  svd_at 2 2 ex_svd ex_x /\ svals_at 2 2 (fun _ => [2; 1]) ex_x /\ ~ nuc_ball 2 2 1 ex_x /\
  svds_at 2 2 (fun _ => ([1; 0], [0; 1])) [0; 3; 1; 0].
Proof.
  split; [|split; [|split]].
  - intros X _. exists 2%nat. exact ex_is_svd.
  - intros X _. exists 2%nat. do 2 eexists. exact ex_is_svd.
  - intros (t & Ht & B). pose proof (TraceFacts.nuc_svd _ _ _ _ _ _ _ ex_is_svd) as E.
    rewrite (TraceFacts.nuc_unique _ _ _ _ _ Ht E) in B. cbn in B. lra.
  - intros X _. repeat split; try reflexivity; try (unfold norm2; cbn; transitivity (sqrt 1); [f_equal; lra|apply sqrt_1]).
    intros a b La Lb. destruct a as [|a [|a' [|]]]; try discriminate. destruct b as [|b [|b' [|]]]; try discriminate.
    unfold norm2. rewrite <- sqrt_mult by (cbn; nra). cbn.
    set (N := (a * a + (a' * a' + 0)) * (b * b + (b' * b' + 0))).
    apply Rle_trans with (3 * sqrt N); [|right; lra].
    apply Rle_trans with (Rabs (3 * a * b' + a' * b)); [eapply Rle_trans; [|apply Rle_abs]; lra|].
    rewrite <- sqrt_Rsqr_abs.
    replace (3 * sqrt N) with (sqrt (9 * N)).
    2:{ rewrite sqrt_mult by (unfold N; nra). f_equal. replace 9 with (3 * 3) by lra. apply sqrt_square. lra. }
    apply sqrt_le_1_alt. unfold Rsqr, N.
    pose proof (Rle_0_sqr (a * b - a' * b')) as P1. pose proof (Rle_0_sqr (a * b)) as P2. pose proof (Rle_0_sqr (a' * b')) as P3.
    pose proof (Rle_0_sqr (a' * b)) as P4. unfold Rsqr in *. lra.
Qed.

(** ** C18 *)
Theorem C18_prox : forall (m n : nat) (alpha step : R) (x : list R)
  (svd : list (list R) -> list (list R) * list R * list (list R)) (nuc : list R -> R),
  0 <= alpha * step -> length x = (m * n)%nat -> svd_at m n svd x ->
  (forall Y, length Y = (m * n)%nat -> is_nuc m n Y (nuc Y)) ->
  exists p, trace_norm_prox (K := RN) svd alpha m n x step = Ok p /\ is_prox (fun y => alpha * nuc y) step x p.
Proof. exact main_C18_prox. Qed.
Print Assumptions C18_prox.
Theorem C18_nuc_exists : forall (m n : nat),
  exists nuc : list R -> R, forall Y, length Y = (m * n)%nat -> is_nuc m n Y (nuc Y).
Proof. exact main_C18_nuc_exists. Qed.
Print Assumptions C18_nuc_exists.
Theorem C18_call : forall (m n : nat) (alpha : R) (x : list R) (svdvals : list (list R) -> list R) (t : R),
  length x = (m * n)%nat -> svals_at m n svdvals x -> is_nuc m n x t ->
  trace_norm_call (K := RN) svdvals alpha m n x = Ok (alpha * t).
Proof. exact main_C18_call. Qed.
Print Assumptions C18_call.
Theorem C18_shape : forall (K : Num) (svd : svd_fun (K := K)) (svdvals : list (vec K) -> vec K) (alpha step : K) (m n : nat) (x : vec K),
  length x <> (m * n)%nat ->
  trace_norm_prox svd alpha m n x step = Err ValueError /\ trace_norm_call svdvals alpha m n x = Err ValueError.
Proof. exact main_C18_shape. Qed.
Print Assumptions C18_shape.
