(** * TraceBall and TraceNorm inside the solvers (C93)

    [is_nuc], [nuc_ball], [svd_at], [svds_at] are in SpecTrace.v.  The hypotheses on scipy are that svd and
    svds return what they promise on every matrix of the shape at hand. *)
From Coq Require Import Reals List Bool Lra Lia Psatz.
From Verif Require Import Num Vec Spec RVec ConvexFacts SpecTrace ModelPenalty ModelTrace ModelTraceSolve ModelUtils ModelProxGrad ModelConstraint ModelFrankWolfe
  ProxGradMain FrankWolfeMain LossEnd TraceFacts TraceSolve TraceRuns SvdExists2.
Import ListNotations.
Open Scope R_scope.

(** Frank-Wolfe over the nuclear ball, step "DR" *)
Theorem C93_frank_wolfe : forall m n (alpha L : R) (svds : list (list R) -> list R * list R) fg tol max_iter (x0 y : list R),
  (2 <= m)%nat -> (2 <= n)%nat -> 0 <= alpha -> 0 < L -> 0 <= tol -> (0 < max_iter)%nat ->
  (forall u, length u = (m * n)%nat -> svds_at m n svds u) ->
  grad_ok (m * n) fg -> first_order (m * n) (objective fg) (gradient fg) -> smooth_upper (m * n) L (objective fg) (gradient fg) ->
  length x0 = (m * n)%nat -> nuc_ball m n alpha x0 -> length y = (m * n)%nat -> nuc_ball m n alpha y ->
  exists r : fw_result RN,
    minimize_fw (K:=RN) fg (trace_oracle (K:=RN) svds alpha m n) FSDR (Some L) tol max_iter None Vanilla x0 = Ok r /\
    nuc_ball m n alpha (fr_x r) /\ (length (fr_iters r) <= max_iter)%nat /\
    (objective fg (fr_x r) - objective fg y <= tol \/
     objective fg (fr_x r) - objective fg y <= 8 * L * (alpha * alpha) / (INR max_iter + 2)).
Proof. exact main_C93_frank_wolfe. Qed.
Print Assumptions C93_frank_wolfe.
(** rows and columns: svds(k=1) needs min(m, n) > 1, so every run raises *)
Theorem C93_thin : forall (K : Num) (svds : list (vec K) -> vec K * vec K) (alpha : K) m n fg step lipschitz (tol : K) max_iter cb x0,
  (m <= 1 \/ n <= 1)%nat -> (0 < max_iter)%nat ->
  minimize_fw fg (trace_oracle svds alpha m n) step lipschitz tol max_iter cb Vanilla x0 = Err ValueError.
Proof. exact main_C93_thin. Qed.
Print Assumptions C93_thin.
(** the penalty in the proximal gradient solver *)
Theorem C93_prox_rate : forall m n (alpha : R) (svd : list (list R) -> list (list R) * list R * list (list R)) (nuc : list R -> R),
  (forall x, length x = (m * n)%nat -> svd_at m n svd x) -> (forall Y, length Y = (m * n)%nat -> is_nuc m n Y (nuc Y)) -> 0 <= alpha ->
  forall (f : list R -> R) (gradf : list R -> list R) (L : R),
  (forall x, length x = (m * n)%nat -> length (gradf x) = (m * n)%nat) ->
  (forall u v, length u = (m * n)%nat -> length v = (m * n)%nat -> f u + dot (gradf u) (vminus v u) <= f v) ->
  0 < L -> (forall u v, length u = (m * n)%nat -> length v = (m * n)%nat -> f v <= f u + dot (gradf u) (vminus v u) + L / 2 * dist2 v u) ->
  forall (cb : option (list (event RN) -> bool)) (tol : R) max_iter max_bt (factor : R) tc (x0 : list R) (r : pg_result RN) (y : list R),
  0 < factor -> length x0 = (m * n)%nat -> length y = (m * n)%nat ->
  minimize_pg (K:=RN) (fun x => (f x, gradf x)) (or_self (K:=RN) (trace_norm_prox (K:=RN) svd alpha m n)) cb SBacktracking tol max_iter max_bt factor false tc x0 = Ok r ->
  Forall (fun it => it_found it = true) (r_iters r) -> r_iters r <> [] ->
  f (r_x r) + alpha * nuc (r_x r) - (f y + alpha * nuc y)
    <= dist2 x0 y / (2 * INR (length (r_iters r)) * Rmin (18 / 10 / init_lipschitz (K:=RN) (fun x => (f x, gradf x)) x0) (factor / L)).
Proof. exact main_C93_prox_rate. Qed.
Print Assumptions C93_prox_rate.
Theorem C93_prox_accelerated : forall m n (alpha : R) (svd : list (list R) -> list (list R) * list R * list (list R)) (nuc : list R -> R),
  (forall x, length x = (m * n)%nat -> svd_at m n svd x) -> (forall Y, length Y = (m * n)%nat -> is_nuc m n Y (nuc Y)) -> 0 <= alpha ->
  forall (f : list R -> R) (gradf : list R -> list R) (L : R),
  (forall x, length x = (m * n)%nat -> length (gradf x) = (m * n)%nat) ->
  (forall u v, length u = (m * n)%nat -> length v = (m * n)%nat -> f u + dot (gradf u) (vminus v u) <= f v) ->
  0 < L -> (forall u v, length u = (m * n)%nat -> length v = (m * n)%nat -> f v <= f u + dot (gradf u) (vminus v u) + L / 2 * dist2 v u) ->
  forall (cb : option (list (event RN) -> bool)) (s tol : R) max_iter max_bt (factor : R) tc (x0 : list R) (r : pg_result RN) (xs : list R),
  0 < s -> s <= / L -> length x0 = (m * n)%nat -> is_min (m * n) (fun _ => True) (fun y => f y + alpha * nuc y) xs ->
  minimize_pg (K:=RN) (fun x => (f x, gradf x)) (or_self (K:=RN) (trace_norm_prox (K:=RN) svd alpha m n)) cb (SCallable (K:=RN) (fun _ => s)) tol max_iter max_bt factor true tc x0 = Ok r ->
  r_iters r <> [] ->
  f (r_x r) + alpha * nuc (r_x r) - (f xs + alpha * nuc xs) <= 2 * dist2 x0 xs / (s * (INR (length (r_iters r)) + 1) ^ 2).
Proof. exact main_C93_prox_accelerated. Qed.
Print Assumptions C93_prox_accelerated.
(** the constraint in the proximal gradient solver *)
Theorem C93_ball_rate : forall m n (alpha : R) (svd : list (list R) -> list (list R) * list R * list (list R)),
  (forall x, length x = (m * n)%nat -> svd_at m n svd x) -> 0 < alpha ->
  forall (f : list R -> R) (gradf : list R -> list R) (L : R),
  (forall x, length x = (m * n)%nat -> length (gradf x) = (m * n)%nat) ->
  (forall u v, length u = (m * n)%nat -> length v = (m * n)%nat -> f u + dot (gradf u) (vminus v u) <= f v) ->
  0 < L -> (forall u v, length u = (m * n)%nat -> length v = (m * n)%nat -> f v <= f u + dot (gradf u) (vminus v u) + L / 2 * dist2 v u) ->
  forall (cb : option (list (event RN) -> bool)) (tol : R) max_iter max_bt (factor : R) tc (x0 : list R) (r : pg_result RN) (y : list R),
  0 < factor -> length x0 = (m * n)%nat -> length y = (m * n)%nat -> nuc_ball m n alpha y ->
  minimize_pg (K:=RN) (fun x => (f x, gradf x)) (or_self (K:=RN) (trace_ball_prox2 (K:=RN) svd alpha m n)) cb SBacktracking tol max_iter max_bt factor false tc x0 = Ok r ->
  Forall (fun it => it_found it = true) (r_iters r) -> r_iters r <> [] ->
  nuc_ball m n alpha (r_x r) /\
  f (r_x r) - f y <= dist2 x0 y / (2 * INR (length (r_iters r)) * Rmin (18 / 10 / init_lipschitz (K:=RN) (fun x => (f x, gradf x)) x0) (factor / L)).
Proof. exact main_C93_ball_rate. Qed.
Print Assumptions C93_ball_rate.

(** 2 x 2 matrices with a computed leading singular pair *)
Example C93_nonvacuous_fw : (forall u, length u = (2 * 2)%nat -> svds_at 2 2 svds22 u) /\ nuc_ball 2 2 1 [1; 0; 0; 0] /\
  exists r : fw_result RN, minimize_fw (K:=RN) (fun x => (sq x, x)) (trace_oracle (K:=RN) svds22 1 2 2) FSDR (Some 1) (1 / 100) 1000 None Vanilla [1; 0; 0; 0] = Ok r /\
    sq (fr_x r) <= 1 / 100.
Proof.
  assert (B : nuc_ball 2 2 1 [1; 0; 0; 0]).
  { exists (Rsum [1]). split; [|cbn; lra]. apply (nuc_svd 2 2 1 _ [[1]; [0]] [1] [[1; 0]]).
    repeat split; try reflexivity; repeat constructor; try lra;
      intros i j Hi Hj; (destruct i as [|[|i]]; [| |cbn in Hi; lia]); (destruct j as [|[|j]]; [| |cbn in Hj; lia]); cbn in *; try lia; lra. }
  assert (Z : nuc_ball 2 2 1 (zeros 4)).
  { exists 0. split; [|lra]. split; [intros r (Q & _ & ->); rewrite dot_zeros_l; lra|]. intros b Hb. apply Hb. exists (zeros 4).
    split; [apply (op_le_mono 2 2 _ 0); [lra|apply (op_le_zeros 2 2)]|]. rewrite dot_zeros_l. reflexivity. }
  split; [apply svds22_ok|split; [exact B|]].
  destruct (C93_frank_wolfe 2 2 1 1 svds22 (fun x : list R => (sq x, x)) (1 / 100) 1000 [1; 0; 0; 0] (zeros 4)) as (r & E & _ & _ & Q); auto; try lra; try lia.
  - exact svds22_ok.
  - intros x Hx. exact Hx.
  - intros u v Hu Hv. apply (sq_first_order 4); auto.
  - intros u v Hu Hv. apply (sq_smooth 4); auto.
  - exists r. split; [exact E|]. change (objective (fun x : list R => (sq x, x)) (fr_x r)) with (sq (fr_x r)) in Q.
    change (objective (fun x : list R => (sq x, x)) (zeros 4)) with (sq (zeros 4)) in Q. assert (E0 : sq (zeros 4) = 0) by (unfold sq; rewrite dot_zeros_l; lra).
    rewrite E0 in Q. destruct Q as [Q|Q]; [lra|]. replace (INR 1000 + 2) with 1002 in Q; [lra|]. change 1000%nat with (10 * 100)%nat. rewrite mult_INR. cbn. lra.
Qed.
(** 1 x n matrices with a computed decomposition, n arbitrary *)
Example C93_nonvacuous_prox : forall x0 : list R, let n := length x0 in (forall x, length x = (1 * n)%nat -> svd_at 1 n row_svd x) /\
  (exists nuc, forall Y, length Y = (1 * n)%nat -> is_nuc 1 n Y (nuc Y)) /\
  (exists r, minimize_pg (K:=RN) (fun x => (sq x, x)) (or_self (K:=RN) (trace_norm_prox (K:=RN) row_svd 2 1 n)) None SBacktracking 0 10 100 (6 / 10) false false x0 = Ok r /\
     Forall (fun it => it_found it = true) (r_iters r) /\ length (r_iters r) = 11%nat) /\
  (exists r, minimize_pg (K:=RN) (fun x => (sq x, x)) (or_self (K:=RN) (trace_ball_prox2 (K:=RN) row_svd 2 1 n)) None SBacktracking 0 10 100 (6 / 10) false false x0 = Ok r /\
     Forall (fun it => it_found it = true) (r_iters r) /\ length (r_iters r) = 11%nat) /\
  (exists r, minimize_pg (K:=RN) (fun x => (sq x, x)) (or_self (K:=RN) (trace_norm_prox (K:=RN) row_svd 2 1 n)) None (SCallable (K:=RN) (fun _ => 1 / 2)) 0 10 1 (6 / 10) true false x0 = Ok r /\
     r_iters r <> []).
Proof.
  intros x0 n. assert (S1 : forall x, length x = (1 * n)%nat -> svd_at 1 n row_svd x) by (intros; apply row_svd_ok; auto).
  destruct (TraceMain.main_C18_nuc_exists 1 n) as (nuc & Hn).
  split; [exact S1|split; [exists nuc; exact Hn|split; [|split]]].
  - apply (sq_run_any (fun _ => True) (fun y => 2 * nuc y)). intros x s Hx Hs. apply trace_prox_on; auto; try lra. unfold n. lia.
  - apply (sq_run_any (nuc_ball 1 n 2) (fun _ => 0)). intros x s Hx Hs. apply trace_ball_prox_on; auto; try lra. unfold n. lia.
  - apply main_C88_returns. lia.
Qed.

(** every shape: routines exist with which Frank-Wolfe and the proximal gradient method have these rates *)
Example C93_nonvacuous_shapes : forall m n (alpha : R), (1 < m)%nat -> (1 < n)%nat -> 0 < alpha ->
  exists svd svds nuc, (forall x, length x = (m * n)%nat -> svd_at m n svd x) /\ (forall u, length u = (m * n)%nat -> svds_at m n svds u) /\
    (forall Y, length Y = (m * n)%nat -> is_nuc m n Y (nuc Y)).
Proof.
  intros m n alpha Hm Hn Ha. destruct (svd_routine m n) as (svd & H1). destruct (svds_routine m n ltac:(lia) ltac:(lia)) as (svds & H2).
  exists svd, svds, (fun Y => match Nat.eq_dec (length Y) (m * n) with left H => proj1_sig (nuc_exists m n Y H) | right _ => 0 end).
  split; [exact H1|split; [exact H2|]]. intros Y HY. destruct (Nat.eq_dec (length Y) (m * n)) as [H|H]; [|contradiction].
  destruct (nuc_exists m n Y H) as (t & T). exact T.
Qed.
