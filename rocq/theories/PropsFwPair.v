(** * Property C120: pairwise Frank-Wolfe stops moving after a bounded number of iterations *)
From Coq Require Import ZArith Reals List Bool Lra Lia.
From Verif Require Import Num Vec Spec RVec ModelConstraint ModelFrankWolfe ConvexFacts ConstraintFacts FrankWolfeConv FrankWolfeMain FrankWolfeRuns FwPairMain FwPairRuns.
Import ListNotations.
Open Scope R_scope.

(** C120.  frank_wolfe.py minimize_frank_wolfe with variant='pairwise', step='DR' and
    L1Ball.lmo_pairwise, for an L-smooth f, not necessarily convex.  The bound does not depend on
    max_iter.  The other iterations (step zero) leave the point where it is; they are the iterations
    whose away vertex has weight zero, which exist because of the dictionary bug of C46. *)
Theorem C120_moving_steps : forall n (alpha : R) fg (L L0 tol low : R) max_iter cb (sg : R) i0 (r : fw_result RN),
  let x0 := vertex n (alpha * sg) i0 in
  0 < alpha -> (i0 < n)%nat -> Rabs sg <= 1 -> grad_ok n fg ->
  smooth_upper n L (objective fg) (gradient fg) -> L <= L0 -> 0 < L0 -> 0 < tol ->
  (forall y, length y = n -> l1_ball alpha y -> low <= objective fg y) ->
  @minimize_fw RN fg (l1_pairwise_oracle (K:=RN) alpha) FSDR (Some L0) tol max_iter cb (@Pairwise RN (sg, i0)) x0 = Ok r ->
  Forall (fun i : fw_iter RN =>
    0 <= fi_step i /\ (fi_step i = 0 <-> lmo_max_step (fi_lmo i) = 0) /\ (fi_step i = 0 -> fi_next i = fi_x i) /\
    (fi_step i <> 0 -> objective fg (fi_next i) < objective fg (fi_x i))) (fr_iters r) /\
  INR (length (filter (fun i : fw_iter RN => if Req_EM_T (fi_step i) 0 then false else true) (fr_iters r))) <=
    ((objective fg x0 - low) * (8 * (alpha * alpha) * L0) / (tol * tol) + 1) * INR ((2 * n + 1) ^ (2 * n + 1)).
Proof. exact main_C120_moving_steps. Qed.
Print Assumptions C120_moving_steps.

(** If no away vertex of weight zero is ever selected, the run ends by the gap test, and for convex f
    the answer is within tol of the optimum. *)
Theorem C120_terminates : forall n (alpha : R) fg (L L0 tol low : R) max_iter (sg : R) i0 (r : fw_result RN),
  let x0 := vertex n (alpha * sg) i0 in
  0 < alpha -> (i0 < n)%nat -> Rabs sg <= 1 -> grad_ok n fg -> first_order n (objective fg) (gradient fg) ->
  smooth_upper n L (objective fg) (gradient fg) -> L <= L0 -> 0 < L0 -> 0 < tol ->
  (forall y, length y = n -> l1_ball alpha y -> low <= objective fg y) ->
  ((objective fg x0 - low) * (8 * (alpha * alpha) * L0) / (tol * tol) + 1) * INR ((2 * n + 1) ^ (2 * n + 1)) < INR max_iter ->
  @minimize_fw RN fg (l1_pairwise_oracle (K:=RN) alpha) FSDR (Some L0) tol max_iter None (@Pairwise RN (sg, i0)) x0 = Ok r ->
  (forall i : fw_iter RN, In i (fr_iters r) -> lmo_max_step (fi_lmo i) <> 0) ->
  fr_exit r = ExitGap /\
  forall y, length y = n -> l1_ball alpha y -> objective fg (fr_x r) - objective fg y <= tol.
Proof. exact main_C120_terminates. Qed.
Print Assumptions C120_terminates.

(** f(x) = |x|^2/2 meets the hypotheses in every dimension, and the run moves *)
Example C120_nonvacuous : forall n alpha i0 tol m, (i0 < n)%nat -> 0 < alpha -> 0 < tol -> tol < / 2 * (alpha * alpha) -> (0 < m)%nat ->
  grad_ok n sq_fg /\ first_order n (objective sq_fg) (gradient sq_fg) /\ smooth_upper n 1 (objective sq_fg) (gradient sq_fg) /\
  (forall y, length y = n -> l1_ball alpha y -> 0 <= objective sq_fg y) /\
  exists r : fw_result RN, minimize_fw sq_fg (l1_pairwise_oracle (K:=RN) alpha) FSDR (Some 1) tol m None (@Pairwise RN (1, i0)) (vertex n (alpha * 1) i0) = Ok r /\
    fr_iters r <> [].
Proof. exact sq_pair_DR. Qed.
(** a run in binary64 with seven iterations, all moving, ended by the gap test *)
Example C120_run_nonvacuous : tilt_check = true.
Proof. exact tilt_runs. Qed.
