(** * Property C135: the running predictions of minimize_sfw, variant LF *)
From Coq Require Import Reals Lra List Bool ZArith.
From Verif Require Import Num Vec Spec SpecSparse ModelConstraint ConstraintFacts ModelUtilsArr ModelFrankWolfe FrankWolfeConv ModelRandomized SpecFiniteSum ModelSfw SpecSfw
  SfwMain SfwMain3 SfwRuns SfwPairRuns SfwLfPair SfwLfPairRuns.
Import ListNotations.
Local Open Scope R_scope.

(** C135.  "In variant LF the entry agg[i], at which the loss of sample i is differentiated, is the prediction
    a_i . p of a point p of the constraint set."  With lmo_variant='pairwise' extr_point = update_direction + x
    (copt/randomized.py:899) is x plus the difference of two vertices, and the property fails: on two samples
    with a_i = 1 and the unit ball a prediction exceeds 1, although every iterate stays in the ball. *)
Theorem C135_refuted : problem_wf (sfw_ex 1 1) /\ valid_draws 2 1 draw_lf /\
  match minimize_sfw id64 (sfw_ex 1 1) (l1_pairwise_oracle n1) LF SSublinear None 1 (nofZ F64 (-1)) (@Pairwise F64 (n1, 0%nat)) 2 draw_lf [n1] with
  | Ok r => Nat.eqb (length (sr_log r)) 4 && nleb F64 (vnorm1 (sr_x r)) n1 && existsb (fun q => existsb (fun t => nltb F64 n1 t) (sw_sigma (si_next q))) (sr_log r)
  | Err _ => false end = true.
Proof. exact main_C135_refuted. Qed.
Print Assumptions C135_refuted.
(** What holds: the vanilla oracle, for every state of every run; *)
Theorem C135_feasible_partial : forall (pow23 : R -> R) (P : problem RN) lmo rule lipschitz bs tol max_iter draws x0 (dom : list R -> Prop) (r : sfw_result RN),
  problem_wf P -> valid_draws (p_n P) bs draws -> convex_set (p_d P) dom -> lmo_feasible (p_d P) dom lmo -> dom x0 ->
  minimize_sfw (K:=RN) pow23 P lmo LF rule lipschitz bs tol Vanilla max_iter draws x0 = Ok r ->
  forall s, s = sr_state r \/ In s (map si_next (sr_log r)) -> forall i, (i < p_n P)%nat ->
    exists p, length p = p_d P /\ dom p /\ nth i (sw_sigma s) 0 = adot P i p.
Proof. exact main_C135_feasible_partial. Qed.
Print Assumptions C135_feasible_partial.
(** with the pairwise oracle of the l1 ball the point lies in the ball of three times the radius; *)
Theorem C135_pairwise_partial : forall (pow23 : R -> R) (P : problem RN) (alpha : R) rule lipschitz bs tol max_iter draws (sg : R) i0 (r : sfw_result RN),
  problem_wf P -> valid_draws (p_n P) bs draws -> 0 <= alpha -> (i0 < p_d P)%nat -> Rabs sg <= 1 ->
  minimize_sfw (K:=RN) pow23 P (l1_pairwise_oracle (K:=RN) alpha) LF rule lipschitz bs tol (@Pairwise RN (sg, i0)) max_iter draws (vertex (p_d P) (alpha * sg) i0) = Ok r ->
  forall s, s = sr_state r \/ In s (map si_next (sr_log r)) -> forall i, (i < p_n P)%nat ->
    exists p, length p = p_d P /\ l1_ball (3 * alpha) p /\ nth i (sw_sigma s) 0 = adot P i p.
Proof. exact main_C135_pairwise_partial. Qed.
Print Assumptions C135_pairwise_partial.
(** and in both cases dual_var is the derivative at agg on the samples visited so far, 0 on the others. *)
Theorem C135_dual : forall (pow23 : R -> R) (P : problem RN) lmo rule lipschitz bs tol lv max_iter draws x0 (r : sfw_result RN),
  problem_wf P -> valid_draws (p_n P) bs draws -> lmo_sized (p_d P) lmo ->
  minimize_sfw (K:=RN) pow23 P lmo LF rule lipschitz bs tol lv max_iter draws x0 = Ok r ->
  forall newer q older, sr_log r = newer ++ q :: older -> forall i, (i < p_n P)%nat ->
    ((exists q', In q' (q :: older) /\ In i (si_batch q')) ->
       nth i (sw_dual (si_next q)) 0 = / INR (p_n P) * p_fd P (nth i (sw_sigma (si_next q)) 0) (nth i (p_b P) 0)) /\
    ((forall q', In q' (q :: older) -> ~ In i (si_batch q')) ->
       nth i (sw_dual (si_next q)) 0 = 0 /\ nth i (sw_sigma (si_next q)) 0 = adot P i x0).
Proof. exact main_C135_dual. Qed.
Print Assumptions C135_dual.
Example C135_nonvacuous : problem_wf two_rows /\ valid_draws (p_n two_rows) 1 draw_lf /\ convex_set (p_d two_rows) (l1_ball 1) /\
  lmo_feasible (p_d two_rows) (l1_ball 1) (l1_oracle (K:=RN) 1) /\ lmo_sized (p_d two_rows) (l1_oracle (K:=RN) 1) /\ l1_ball 1 [1] /\
  exists r : sfw_result RN, minimize_sfw (K:=RN) (fun t => t) two_rows (l1_oracle (K:=RN) 1) LF SSublinear None 1 (-1) Vanilla 3 draw_lf [1] = Ok r.
Proof. exact run_C135_vanilla. Qed.
Example C135_nonvacuous_pairwise : problem_wf one_exR /\ valid_draws (p_n one_exR) 1 draw0 /\ exists r : sfw_result RN,
  minimize_sfw (K:=RN) (fun t => t) one_exR (l1_pairwise_oracle (K:=RN) 1) LF SSublinear None 1 0 (@Pairwise RN (1, 0%nat)) 1 draw0 (vertex 1 (1 * 1) 0) = Ok r /\
  length (sr_log r) = 1%nat.
Proof. exact run_C135_pairwise. Qed.
