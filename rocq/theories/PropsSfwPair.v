(** * Property C131: minimize_sfw with lmo_variant='pairwise' *)
From Coq Require Import ZArith Reals List Bool Lra Lia.
From Verif Require Import Num Vec Spec SpecSparse RVec ConvexFacts ModelConstraint ConstraintFacts ModelUtilsArr ModelFrankWolfe FrankWolfePair ModelRandomized SpecFiniteSum ModelSfw SpecSfw SfwRuns SfwPair SfwPairRuns.
Import ListNotations.
Open Scope R_scope.

(** C131.  "minimize_sfw with lmo_variant='pairwise' and L1Ball.lmo_pairwise, started at a vertex with its
    representation, returns a point of the ball, and the active set is a convex decomposition of it".
    Refuted: the default steps can exceed the weight of the away vertex (ValueError), SAGA with
    step_size='DR' takes a negative step, and the DR step along a vanishing direction is 0/0. *)
Theorem C131_refuted :
  (* the default step sizes: two iterations pass, the third asks for more weight than the away vertex has *)
  problem_wf one_ex /\ valid_draws 1 1 draw0 /\ problem_wf (sfw_ex (-19) 14) /\ problem_wf (sfw_ex (-10) 7) /\ valid_draws 2 1 draw01 /\
  match minimize_sfw id64 one_ex (l1_pairwise_oracle n1) SAG SSublinear None 1 n0 (@Pairwise F64 (n1, 0%nat)) 2 draw0 [n1] with Ok r => Nat.eqb (length (sr_log r)) 2 | Err _ => false end = true /\
  minimize_sfw id64 one_ex (l1_pairwise_oracle n1) SAG SSublinear None 1 n0 (@Pairwise F64 (n1, 0%nat)) 3 draw0 [n1] = Err ValueError /\
  (* SAGA with step_size='DR': a negative step, a negative weight, and a point outside the ball *)
  match minimize_sfw id64 (sfw_ex (-19) 14) (l1_pairwise_oracle n1) SAGA SDR (Some n1) 1 n0 (@Pairwise F64 (n1, 0%nat)) 1 draw01 [n1] with
  | Ok r => nltb F64 n1 (vnorm1 (sr_x r)) && neg_weight (sr_state r) && existsb (fun q => nltb F64 (si_gamma q) n0) (sr_log r) | Err _ => false end = true /\
  (* SAG with step_size='DR' from the vertex the oracle selects: the direction is 0, the step 0/0, the iterate nan *)
  match minimize_sfw id64 (sfw_ex (-10) 7) (l1_pairwise_oracle n1) SAG SDR (Some n1) 1 n0 (@Pairwise F64 (nofZ F64 (-1), 0%nat)) 1 draw01 [nofZ F64 (-1)] with
  | Ok r => negb (neqb F64 (nth 0 (sr_x r) n0) (nth 0 (sr_x r) n0)) | Err _ => false end = true.
Proof. exact main_C131_refuted. Qed.
Print Assumptions C131_refuted.

(** pair_ok says that the active set has distinct keys and nonnegative weights summing to 1, that the
    iterate is the weighted sum of its vertices, and that it lies in the ball. *)
Example C131_pair_ok : forall (P : problem RN) (alpha : R) (s : sfw_state RN),
  pair_ok P alpha s <-> exists a, sw_active s = Some a /\ convex_decomposition (p_d P) alpha a (sw_x s) /\ l1_ball alpha (sw_x s).
Proof. reflexivity. Qed.

(** What holds: a run with the default steps that does not raise, for every variant. *)
Theorem C131_sublinear_partial : forall (pow23 : R -> R) (P : problem RN) (alpha : R) variant lipschitz bs tol max_iter draws (sg : R) i0 (r : sfw_result RN),
  problem_wf P -> valid_draws (p_n P) bs draws -> 0 <= alpha -> (i0 < p_d P)%nat -> Rabs sg <= 1 ->
  minimize_sfw (K:=RN) pow23 P (l1_pairwise_oracle (K:=RN) alpha) variant SSublinear lipschitz bs tol (@Pairwise RN (sg, i0)) max_iter draws (vertex (p_d P) (alpha * sg) i0) = Ok r ->
  pair_ok P alpha (sr_state r) /\ sr_x r = sw_x (sr_state r) /\ forall q, In q (sr_log r) -> pair_ok P alpha (si_prev q) /\ pair_ok P alpha (si_next q) /\ 0 <= si_gamma q.
Proof. exact main_C131_sublinear_partial. Qed.
Print Assumptions C131_sublinear_partial.

(** SAG with step_size='DR': the step never exceeds the weight of the away vertex, so the call returns. *)
Theorem C131_DR_partial : forall (pow23 : R -> R) (P : problem RN) (alpha L : R) bs tol max_iter draws (sg : R) i0,
  problem_wf P -> valid_draws (p_n P) bs draws -> 0 <= alpha -> (i0 < p_d P)%nat -> Rabs sg <= 1 -> 0 < L -> (1 <= bs)%nat -> (1 <= max_iter)%nat ->
  exists r : sfw_result RN,
  minimize_sfw (K:=RN) pow23 P (l1_pairwise_oracle (K:=RN) alpha) SAG SDR (Some L) bs tol (@Pairwise RN (sg, i0)) max_iter draws (vertex (p_d P) (alpha * sg) i0) = Ok r /\
  (* no direction vanishes: the code divides by its squared norm *)
  ((forall q, In q (sr_log r) -> lmo_dir (si_lmo q) <> zeros (p_d P)) ->
  pair_ok P alpha (sr_state r) /\ sr_x r = sw_x (sr_state r) /\ forall q, In q (sr_log r) -> pair_ok P alpha (si_prev q) /\ pair_ok P alpha (si_next q) /\ 0 <= si_gamma q).
Proof. exact main_C131_DR_partial. Qed.
Print Assumptions C131_DR_partial.

(** one sample, one feature: the hypotheses of both theorems are met *)
Example C131_nonvacuous : problem_wf one_exR /\ valid_draws (p_n one_exR) 1 draw0 /\ exists r : sfw_result RN,
  minimize_sfw (K:=RN) (fun t => t) one_exR (l1_pairwise_oracle (K:=RN) 1%R) SAG SSublinear None 1 0%R (@Pairwise RN (1%R, 0%nat)) 1 draw0 (vertex 1 (1 * 1) 0) = Ok r /\
  length (sr_log r) = 1%nat.
Proof. exact run_C131_sub. Qed.
(** two epochs of DR steps in binary64: the point moves and stays in the ball *)
Example C131_nonvacuous_DR : match minimize_sfw id64 (sfw_ex (-1) 1) (l1_pairwise_oracle n1) SAG SDR (Some (nofZ F64 2)) 1 n0 (@Pairwise F64 (n1, 0%nat)) 2 draw01 [n1] with
  | Ok r => Nat.eqb (length (sr_log r)) 4 && negb (neqb F64 (nth 0 (sr_x r) n0) n1) && nleb F64 (vnorm1 (sr_x r)) n1 && negb (neg_weight (sr_state r)) | Err _ => false end = true.
Proof. exact run_C131_DR. Qed.
