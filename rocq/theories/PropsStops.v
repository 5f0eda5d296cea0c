(** * The solvers stop: explicit iteration counts after which the tolerance test has fired (C104, C105, C106)

    [fw_stops n dom fg tol k r]: the run ended by its gap test after fewer than k iterations, at a point of the
    domain whose Frank-Wolfe gap is at most tol.  [pg_stops n f gradf dom g L tol x0 a r]: the run reports success
    after at most a iterations, at a point of the domain that is no worse than x0 and where some subgradient v of g
    has |gradf + v| <= (11/10 + L step) tol. *)
From Coq Require Import ZArith Reals List Bool Lra Lia.
From Verif Require Import Num Vec Spec RVec ConvexFacts PenaltyFacts ModelConstraint ModelUtils ModelFrankWolfe ModelProxGrad ProxGradFacts ProxGradConv ProxGradMain FrankWolfeFacts FrankWolfeConv FrankWolfeMain FrankWolfeMain2 FrankWolfeRuns FwStops PgStops StopsRuns.
Import ListNotations.
Open Scope R_scope.

(** what the two predicates say, spelled out *)
Example stops_meaning : forall n dom fg (tol : R) k (r : fw_result RN), fw_stops n dom fg tol k r ->
  fr_exit r = ExitGap /\ (length (fr_iters r) < k)%nat /\ dom (fr_x r) /\
  forall y, length y = n -> dom y -> dot (gradient fg (fr_x r)) (vminus (fr_x r) y) <= tol.
Proof. intros n dom fg tol k r H. unfold fw_stops in H. tauto. Qed.

(** ** C104: Frank-Wolfe on convex problems *)
Theorem C104_sublinear : forall n dom fg lmo lipschitz tol max_iter (x0 : vec RN) (C : R) (a : nat),
  grad_ok n fg -> convex_set n dom -> lmo_exact n dom lmo -> first_order n (objective fg) (gradient fg) ->
  curvature n dom (objective fg) (gradient fg) C -> length x0 = n -> dom x0 ->
  0 < tol -> (0 < a)%nat -> (2 * a <= max_iter)%nat -> 4 * C < INR a * tol ->
  exists r : fw_result RN, minimize_fw fg lmo FSSublinear lipschitz tol max_iter None Vanilla x0 = Ok r /\
    fw_stops n dom fg tol (2 * a) r /\
    forall y, length y = n -> dom y -> objective fg (fr_x r) - objective fg y <= tol.
Proof. exact main_C104_sublinear. Qed.
Print Assumptions C104_sublinear.
Theorem C104_DR : forall n dom fg lmo (L L0 D2 : R) tol max_iter (x0 : vec RN) (a : nat),
  grad_ok n fg -> convex_set n dom -> lmo_exact n dom lmo -> first_order n (objective fg) (gradient fg) ->
  smooth_upper n L (objective fg) (gradient fg) -> L <= L0 -> 0 < L0 -> diameter2 n dom D2 -> length x0 = n -> dom x0 ->
  0 < tol -> (0 < a)%nat -> (2 * a <= max_iter)%nat -> 4 * (L0 * D2) < INR a * tol ->
  exists r : fw_result RN, minimize_fw fg lmo FSDR (Some L0) tol max_iter None Vanilla x0 = Ok r /\
    fw_stops n dom fg tol (2 * a) r /\
    forall y, length y = n -> dom y -> objective fg (fr_x r) - objective fg y <= tol.
Proof. exact main_C104_DR. Qed.
Print Assumptions C104_DR.
Theorem C104_backtracking : forall n dom fg lmo (L L0 D2 : R) tol max_iter (x0 : vec RN) (a : nat),
  grad_ok n fg -> convex_set n dom -> lmo_exact n dom lmo -> first_order n (objective fg) (gradient fg) ->
  smooth_upper n L (objective fg) (gradient fg) -> 0 < L0 -> L <= L0 * (9 / 10) ^ max_iter * 2 ^ 99 -> diameter2 n dom D2 -> length x0 = n -> dom x0 ->
  0 < tol -> (0 < a)%nat -> (2 * a <= max_iter)%nat -> 4 * (Rmax L0 (2 * L) * D2) + 3 * (INR a * INR a) * EPS < INR a * tol ->
  exists r : fw_result RN, minimize_fw fg lmo FSBacktracking (Some L0) tol max_iter None Vanilla x0 = Ok r /\
    fw_stops n dom fg tol (2 * a) r /\
    forall y, length y = n -> dom y -> objective fg (fr_x r) - objective fg y <= tol.
Proof. exact main_C104_backtracking. Qed.
Print Assumptions C104_backtracking.
(** half the squared norm on the unit l1 ball: from every starting point of the ball, in every dimension *)
Example C104_nonvacuous : forall n (x0 : vec RN), (0 < n)%nat -> length x0 = n -> l1_ball 1 x0 ->
  (exists r : fw_result RN, minimize_fw sq_fg (l1_oracle (K:=RN) 1) FSSublinear None (1 / 10) 400 None Vanilla x0 = Ok r /\ fw_stops n (l1_ball 1) sq_fg (1 / 10) 322 r) /\
  (exists r : fw_result RN, minimize_fw sq_fg (l1_oracle (K:=RN) 1) FSDR (Some 1) (1 / 10) 400 None Vanilla x0 = Ok r /\ fw_stops n (l1_ball 1) sq_fg (1 / 10) 322 r) /\
  (exists r : fw_result RN, minimize_fw sq_fg (l1_oracle (K:=RN) 1) FSBacktracking (Some 1) (1 / 4) 330 None Vanilla x0 = Ok r /\ fw_stops n (l1_ball 1) sq_fg (1 / 4) 258 r).
Proof. intros n x0 Hn Hx Hb. split; [exact (sq_stops_sublinear n x0 Hn Hx Hb)|split; [exact (sq_stops_DR n x0 Hn Hx Hb)|exact (sq_stops_bt n x0 Hn Hx Hb)]]. Qed.

(** ** C105: Frank-Wolfe without convexity *)
Theorem C105_DR : forall n dom fg lmo (L L0 D2 m : R) tol max_iter (x0 : vec RN) (a : nat),
  grad_ok n fg -> convex_set n dom -> lmo_exact n dom lmo ->
  smooth_upper n L (objective fg) (gradient fg) -> L <= L0 -> 0 < L0 -> 0 < D2 -> diameter2 n dom D2 -> length x0 = n -> dom x0 ->
  (forall y, length y = n -> dom y -> m <= objective fg y) ->
  0 < tol -> (a <= max_iter)%nat -> objective fg x0 - m < INR a * (tol / 2 * Rmin 1 (tol / (L0 * D2))) ->
  exists r : fw_result RN, minimize_fw fg lmo FSDR (Some L0) tol max_iter None Vanilla x0 = Ok r /\
    fw_stops n dom fg tol a r /\ objective fg (fr_x r) <= objective fg x0.
Proof. exact main_C105_DR. Qed.
Print Assumptions C105_DR.
Theorem C105_backtracking : forall n dom fg lmo (L L0 D2 m : R) tol max_iter (x0 : vec RN) (a : nat),
  grad_ok n fg -> convex_set n dom -> lmo_exact n dom lmo ->
  smooth_upper n L (objective fg) (gradient fg) -> 0 < L0 -> L <= L0 * (9 / 10) ^ max_iter * 2 ^ 99 -> 0 < D2 -> diameter2 n dom D2 -> length x0 = n -> dom x0 ->
  (forall y, length y = n -> dom y -> m <= objective fg y) ->
  0 < tol -> (a <= max_iter)%nat -> objective fg x0 - m < INR a * (tol / 2 * Rmin 1 (tol / (Rmax L0 (2 * L) * D2)) - EPS) ->
  exists r : fw_result RN, minimize_fw fg lmo FSBacktracking (Some L0) tol max_iter None Vanilla x0 = Ok r /\
    fw_stops n dom fg tol a r /\ objective fg (fr_x r) <= objective fg x0.
Proof. exact main_C105_backtracking. Qed.
Print Assumptions C105_backtracking.
(** a concave objective on the unit l1 ball *)
Example C105_nonvacuous : forall n (x0 : vec RN), (0 < n)%nat -> length x0 = n -> l1_ball 1 x0 ->
  (exists r : fw_result RN, minimize_fw neg_fg (l1_oracle (K:=RN) 1) FSDR (Some 1) (1 / 10) 500 None Vanilla x0 = Ok r /\ fw_stops n (l1_ball 1) neg_fg (1 / 10) 401 r) /\
  (exists r : fw_result RN, minimize_fw neg_fg (l1_oracle (K:=RN) 1) FSBacktracking (Some 1) (1 / 2) 330 None Vanilla x0 = Ok r /\ fw_stops n (l1_ball 1) neg_fg (1 / 2) 33 r) /\
  ~ (forall n, first_order n (objective neg_fg) (gradient neg_fg)).
Proof. intros n x0 Hn Hx Hb. split; [exact (neg_stops n x0 Hn Hx Hb)|split; [exact (neg_stops_bt n x0 Hn Hx Hb)|exact (proj2 (proj2 (neg_hyps n)))]]. Qed.

(** ** C106: proximal gradient without convexity of f *)
Theorem C106_backtracking : forall n (f : list R -> R) (gradf : list R -> list R) (dom : list R -> Prop) (g : list R -> R) (prox : list R -> R -> list R) (L m : R),
  (forall x, length x = n -> length (gradf x) = n) ->
  convex_on n dom g ->
  (forall x s, length x = n -> 0 < s -> is_prox_on dom g s x (prox x s)) ->
  0 < L ->
  (forall u v, length u = n -> length v = n -> f v <= f u + dot (gradf u) (vminus v u) + L / 2 * dist2 v u) ->
  (forall u v, length u = n -> length v = n -> norm2 (vminus (gradf u) (gradf v)) <= L * norm2 (vminus u v)) ->
  (forall y, length y = n -> dom y -> m <= f y + g y) ->
  forall (tol : R) max_iter max_bt (factor : R) tc (x0 : list R) (a : nat),
  0 < factor <= 1 -> length x0 = n -> dom x0 -> 0 < tol -> max_bt <> 0%nat ->
  (11 / 10) ^ (S max_iter) * (18 / 10 / init_lipschitz (K:=RN) (fun x => (f x, gradf x)) x0) * factor ^ (max_bt - 1) <= / L ->
  (a <= S max_iter)%nat ->
  f x0 + g x0 - m < INR a * (Rmin (18 / 10 / init_lipschitz (K:=RN) (fun x => (f x, gradf x)) x0) (factor / L) * (tol * tol) / 2) ->
  exists r : pg_result RN,
  minimize_pg (K:=RN) (fun x => (f x, gradf x)) prox None SBacktracking tol max_iter max_bt factor false tc x0 = Ok r /\
  pg_stops n f gradf dom g L tol x0 a r.
Proof. exact main_C106_backtracking. Qed.
Print Assumptions C106_backtracking.
Theorem C106_fixed_step : forall n (f : list R -> R) (gradf : list R -> list R) (dom : list R -> Prop) (g : list R -> R) (prox : list R -> R -> list R) (L m s : R),
  (forall x, length x = n -> length (gradf x) = n) ->
  convex_on n dom g ->
  (forall x s, length x = n -> 0 < s -> is_prox_on dom g s x (prox x s)) ->
  0 <= L ->
  (forall u v, length u = n -> length v = n -> f v <= f u + dot (gradf u) (vminus v u) + L / 2 * dist2 v u) ->
  (forall u v, length u = n -> length v = n -> norm2 (vminus (gradf u) (gradf v)) <= L * norm2 (vminus u v)) ->
  (forall y, length y = n -> dom y -> m <= f y + g y) ->
  0 < s -> L * s < 2 ->
  forall (tol : R) max_iter max_bt (factor : R) tc (x0 : list R) (a : nat),
  length x0 = n -> dom x0 -> 0 < tol -> max_bt <> 0%nat ->
  (a <= S max_iter)%nat ->
  f x0 + g x0 - m < INR a * (s * (1 - L * s / 2) * (tol * tol)) ->
  exists r : pg_result RN,
  minimize_pg (K:=RN) (fun x => (f x, gradf x)) prox None (SCallable (K:=RN) (fun _ => s)) tol max_iter max_bt factor false tc x0 = Ok r /\
  pg_stops n f gradf dom g L tol x0 a r.
Proof. exact main_C106_fixed_step. Qed.
Print Assumptions C106_fixed_step.
(** f(x) = -|x|^2/2 and g(x) = |x|^2 *)
Example C106_nonvacuous : forall n (x0 : list R), length x0 = n ->
  (dot x0 x0 <= 1 -> exists r : pg_result RN, minimize_pg (K:=RN) (fun x => (cave x, cave_grad x)) quad_prox None (SCallable (K:=RN) (fun _ => 1)) (1 / 10) 200 100 (1 / 2) false false x0 = Ok r /\
    pg_stops n cave cave_grad (fun _ => True) (fun y => dot y y) 1 (1 / 10) x0 101 r) /\
  (forall tol, 0 < tol -> exists max_iter max_bt a (r : pg_result RN), minimize_pg (K:=RN) (fun x => (cave x, cave_grad x)) quad_prox None SBacktracking tol max_iter max_bt (1 / 2) false false x0 = Ok r /\
    pg_stops n cave cave_grad (fun _ => True) (fun y => dot y y) 1 tol x0 a r).
Proof. intros n x0 Hx. split; [intros Hb; exact (cave_stops_fixed n x0 Hx Hb)|intros tol Ht; exact (cave_stops_bt n x0 tol Hx Ht)]. Qed.
