(** * Stochastic Frank-Wolfe (copt/randomized.py: minimize_sfw): C64-C68, C90, C91 *)
From Coq Require Import Reals Lra Lia List Bool ZArith.
From Verif Require Import Num Vec Spec SpecSparse RVec ConvexFacts ModelConstraint ModelPenalty ModelUtilsArr ModelFrankWolfe FrankWolfeConv
  ConstraintFacts FrankWolfeMain FrankWolfeMain2 ModelRandomized SpecFiniteSum ModelSfw SpecSfw SfwFacts SfwStep SfwMain SfwMain2 SfwMain3 SfwRuns SfwRate SfwRate2 SfwMain4.
Import ListNotations.
Local Open Scope R_scope.
Local Notation z k := (nofZ F64 k).

(** C64: the aggregate is sum_i dual_i A_i at every point of every run; SAG and SAGA: dual_i is the
    derivative of loss i at its last visit, over n *)
Theorem C64_aggregate : forall (pow23 : R -> R) (P : problem RN) lmo variant rule lipschitz bs tol lv max_iter draws x0 (r : sfw_result RN),
  problem_wf P -> valid_draws (p_n P) bs draws -> lmo_sized (p_d P) lmo ->
  minimize_sfw (K:=RN) pow23 P lmo variant rule lipschitz bs tol lv max_iter draws x0 = Ok r ->
  forall s, s = sr_state r \/ In s (map si_next (sr_log r)) \/ In s (map si_prev (sr_log r)) ->
  length (sw_agg s) = p_d P /\ length (sw_dual s) = p_n P /\
  forall j, (j < p_d P)%nat -> nth j (sw_agg s) 0 = dual_sum P (sw_dual s) j.
Proof. exact main_C64_aggregate. Qed.
Print Assumptions C64_aggregate.
Theorem C64_dual_last_visit : forall (pow23 : R -> R) (P : problem RN) lmo variant rule lipschitz bs tol lv max_iter draws x0 (r : sfw_result RN),
  problem_wf P -> valid_draws (p_n P) bs draws -> lmo_sized (p_d P) lmo -> variant = SAG \/ variant = SAGA ->
  minimize_sfw (K:=RN) pow23 P lmo variant rule lipschitz bs tol lv max_iter draws x0 = Ok r ->
  forall newer q older, sr_log r = newer ++ q :: older ->
  forall i, (i < p_n P)%nat -> nth i (sw_dual (si_next q)) 0 =
    match last_visit (q :: older) i with Some x => / INR (p_n P) * loss_deriv P x i | None => 0 end.
Proof. exact main_C64_dual_last_visit. Qed.
Print Assumptions C64_dual_last_visit.
(** a run of every variant, with a non-zero aggregate that agrees with the dual variables *)
Example C64_nonvacuous : forallb (fun v =>
  match minimize_sfw id64 (sfw_ex (-10) 7) (l1_oracle n1) v SSublinear None 1 n0 Vanilla 2 draw01 [n0] with
  | Ok r => negb (neqb F64 (nth 0 (sw_agg (sr_state r)) n0) n0) &&
            neqb F64 (nth 0 (sw_agg (sr_state r)) n0) (nadd F64 (nth 0 (sw_dual (sr_state r)) n0) (nth 1 (sw_dual (sr_state r)) n0))
  | Err _ => false end) [SAG; SAGA; LF] = true.
Proof. vm_compute. reflexivity. Qed.
Example C64_hypotheses : problem_wf two_rows /\ lmo_sized (p_d two_rows) (l1_oracle (K:=RN) 1) /\ valid_draws (p_n two_rows) 1 draw01 /\
  exists r, minimize_sfw (K:=RN) (fun t => t) two_rows (l1_oracle (K:=RN) 1) SAG SSublinear None 1 0 Vanilla 3 draw01 [1] = Ok r.
Proof.
  split; [exact two_rows_wf|]. split; [apply l1_sized; [cbn; lia|lra]|]. split; [apply draw_valid|].
  destruct (main_C77_l1_oracle_partial 1 1 ltac:(lia) ltac:(lra)) as (He & Hc).
  apply (main_C65_returns (fun t => t) two_rows (l1_oracle (K:=RN) 1) SAG None 1 0 3 draw01 [1] (l1_ball 1)); try (cbn; lia); try discriminate.
  - exact two_rows_wf.
  - apply draw_valid.
  - exact Hc.
  - apply lmo_exact_feasible, He.
  - unfold l1_ball. cbn. rewrite Rabs_R1. lra.
Qed.

(** C65.  Full property (false for step_size = 'DR'): every iterate is in the domain.  Proved: for
    sublinear steps, all variants, and such runs return; for 'DR' with SAG while no direction vanishes.
    With 'DR', SAGA takes negative steps out of the domain, SAG computes 0/0 at a vertex, MHK and LF raise. *)
Theorem C65_feasible_sublinear_partial : forall (pow23 : R -> R) (P : problem RN) lmo variant lipschitz bs tol max_iter draws x0 (dom : list R -> Prop) (r : sfw_result RN),
  problem_wf P -> valid_draws (p_n P) bs draws -> convex_set (p_d P) dom -> lmo_feasible (p_d P) dom lmo -> dom x0 ->
  minimize_sfw (K:=RN) pow23 P lmo variant SSublinear lipschitz bs tol Vanilla max_iter draws x0 = Ok r ->
  dom (sr_x r) /\ forall q, In q (sr_log r) -> dom (sw_x (si_next q)) /\ 0 < si_gamma q <= 1.
Proof. exact main_C65_feasible_sublinear_partial. Qed.
Print Assumptions C65_feasible_sublinear_partial.
Theorem C65_feasible_DR_partial : forall (pow23 : R -> R) (P : problem RN) lmo (L : R) bs tol max_iter draws x0 (dom : list R -> Prop) (r : sfw_result RN),
  problem_wf P -> valid_draws (p_n P) bs draws -> convex_set (p_d P) dom -> lmo_exact (p_d P) dom lmo -> dom x0 -> 0 < L ->
  minimize_sfw (K:=RN) pow23 P lmo SAG SDR (Some L) bs tol Vanilla max_iter draws x0 = Ok r ->
  (* no direction vanishes: the code divides by its squared norm *)
  (forall q, In q (sr_log r) -> lmo_dir (si_lmo q) <> zeros (p_d P)) ->
  dom (sr_x r) /\ forall q, In q (sr_log r) -> dom (sw_x (si_next q)) /\ 0 <= si_gamma q <= 1.
Proof. exact main_C65_feasible_DR_partial. Qed.
Print Assumptions C65_feasible_DR_partial.
Theorem C65_returns : forall (pow23 : R -> R) (P : problem RN) lmo variant lipschitz bs tol max_iter draws x0 (dom : list R -> Prop),
  problem_wf P -> valid_draws (p_n P) bs draws -> convex_set (p_d P) dom -> lmo_feasible (p_d P) dom lmo -> dom x0 ->
  length x0 = p_d P -> variant <> OtherSfw -> (1 <= bs)%nat -> (1 <= max_iter)%nat ->
  exists r, minimize_sfw (K:=RN) pow23 P lmo variant SSublinear lipschitz bs tol Vanilla max_iter draws x0 = Ok r.
Proof. exact main_C65_returns. Qed.
Print Assumptions C65_returns.
Theorem C65_DR_refuted :
  (* SAGA: the certificate belongs to another direction, the step is negative, the point leaves the ball *)
  match minimize_sfw id64 (sfw_ex (-10) 7) (l1_oracle n1) SAGA SDR (Some n1) 1 n0 Vanilla 1 draw01 [n0] with
  | Ok r => nltb F64 n1 (vnorm1 (sr_x r)) && existsb (fun q => nltb F64 (si_gamma q) n0) (sr_log r)
  | Err _ => false end = true /\
  (* SAG from a vertex: the direction is 0, the step is 0/0, the iterate is nan *)
  match minimize_sfw id64 (sfw_ex (-10) 7) (l1_oracle n1) SAG SDR (Some n1) 1 n0 Vanilla 1 draw01 [nofZ F64 (-1)] with
  | Ok r => negb (neqb F64 (nth 0 (sr_x r) n0) (nth 0 (sr_x r) n0))
  | Err _ => false end = true /\
  (* MHK and LF: step_size_agg is not defined *)
  minimize_sfw id64 (sfw_ex (-10) 7) (l1_oracle n1) MHK SDR (Some n1) 1 n0 Vanilla 1 draw01 [n0] = Err UnboundLocalError /\
  minimize_sfw id64 (sfw_ex (-10) 7) (l1_oracle n1) LF SDR (Some n1) 1 n0 Vanilla 1 draw01 [n0] = Err UnboundLocalError.
Proof. exact main_C65_DR_refuted. Qed.
Print Assumptions C65_DR_refuted.
Example C65_nonvacuous : convex_set 1 (l1_ball 1) /\ lmo_exact 1 (l1_ball 1) (l1_oracle (K:=RN) 1) /\ l1_ball 1 [1].
Proof.
  destruct (main_C77_l1_oracle_partial 1 1 ltac:(lia) ltac:(lra)) as (He & Hc). split; [exact Hc|]. split; [exact He|].
  unfold l1_ball. cbn. rewrite Rabs_R1. lra.
Qed.
(** a 'DR' run of SAG whose directions do not vanish *)
Example C65_DR_nonvacuous : match minimize_sfw id64 (sfw_ex (-10) 7) (l1_oracle n1) SAG SDR (Some (z 8)) 1 n0 Vanilla 1 draw01 [n0] with
  | Ok r => Nat.eqb (length (sr_log r)) 2 && forallb (fun q => negb (neqb F64 (nth 0 (lmo_dir (si_lmo q)) n0) n0) && nltb F64 n0 (si_gamma q)) (sr_log r)
  | Err _ => false end = true.
Proof. vm_compute. reflexivity. Qed.

(** C66.  Full property (false): the solver returns as soon as a step is shorter than tol.  The break
    leaves the epoch, not the loop over the epochs: later epochs still move the point, and success stays
    True.  Proved: success iff some step was shorter than tol; it ends its epoch; in the last epoch it ends the run. *)
Theorem C66_stopping_partial : forall (K : Num) (pow23 : K -> K) (P : problem K) lmo variant rule lipschitz bs (tol : K) lv max_iter draws x0 (r : sfw_result K),
  minimize_sfw pow23 P lmo variant rule lipschitz bs tol lv max_iter draws x0 = Ok r ->
  (sr_success r = true <-> exists q, In q (sr_log r) /\ nltb K (sfw_moved q) tol = true) /\
  sr_x r = match sr_log r with q :: _ => sw_x (si_next q) | [] => x0 end /\ sr_nit r = (max_iter - 1)%nat /\
  (forall newer q older, sr_log r = newer ++ q :: older -> nltb K (sfw_moved q) tol = true ->
     (* nothing more happens in that epoch; later epochs still run *)
     (forall p, In p newer -> (si_epoch q < si_epoch p)%nat) /\
     (si_epoch q = sr_nit r -> newer = [] /\ sr_x r = sw_x (si_next q))).
Proof. exact main_C66_stopping_partial. Qed.
Print Assumptions C66_stopping_partial.
Theorem C66_stopping_refuted :
  match minimize_sfw id64 (sfw_ex (-10) 9) (l1_oracle n1) SAG SSublinear None 1 (nlit 1 10) Vanilla 2 draw_stop [nofZ F64 (-1)] with
  | Ok r => sr_success r && Nat.eqb (sr_nit r) 1 && match sr_log r with
      | q2 :: q1 :: q0 :: [] => neqb F64 (sfw_moved q0) n0 && nltb F64 n1 (sfw_moved q1) && nltb F64 n1 (sfw_moved q2)
      | _ => false end
  | Err _ => false end = true.
Proof. exact main_C66_stopping_refuted. Qed.
Print Assumptions C66_stopping_refuted.
Example C66_nonvacuous : match minimize_sfw id64 (sfw_ex (-10) 9) (l1_oracle n1) SAG SSublinear None 1 (nlit 1 10) Vanilla 1 draw_stop [z (-1)] with
  | Ok r => sr_success r && Nat.eqb (length (sr_log r)) 1 | Err _ => false end = true.
Proof. vm_compute. reflexivity. Qed.

(** C67 *)
Theorem C67_step_sizes : forall variant bs n t, (1 <= bs)%nat -> (bs <= n)%nat -> variant <> OtherSfw ->
  let '(sx, sagg) := sfw_sizes (K:=RN) (fun x => Rpower x (2 / 3)) variant bs n t in
  0 < sx <= 1 /\ match variant, sagg with
                 | MHK, Some a | LF, Some a => 0 < a <= 1
                 | SAG, None | SAGA, None => True
                 | _, _ => False
                 end.
Proof. exact main_C67_step_sizes. Qed.
Print Assumptions C67_step_sizes.
Example C67_values : sfw_sizes (K:=F64) id64 SAG 1 4 0 = (n1, None) /\
  match sfw_sizes (K:=F64) id64 LF 2 4 1 with (sx, Some sa) => nltb F64 n0 sx && nltb F64 sx n1 && nltb F64 n0 sa && nltb F64 sa n1 | _ => false end = true.
Proof. split; vm_compute; reflexivity. Qed.

(** C68.  Full property (false for batch_size > 1): the SAGA estimate is unbiased.  Proved: its mean over a
    balanced family of batches is grad_agg + batch_size * (gradient - grad_agg); so unbiased for
    batch_size = 1, and n times the gradient for the first full batch. *)
Theorem C68_saga_mean : forall (pow23 : R -> R) (P : problem RN) lmo rule lipschitz bs it s c batches (qs : list (sfw_iter RN)),
  problem_wf P -> lmo_sized (p_d P) lmo -> (1 <= p_n P)%nat -> sfw_consistent P SAGA s -> balanced (p_n P) bs c batches ->
  Forall2 (fun b q => sfw_step (K:=RN) pow23 P lmo SAGA rule lipschitz bs it b s = Ok q) batches qs ->
  forall j, (j < p_d P)%nat -> Rsum (map (fun q : sfw_iter RN => nth j (si_est q : list R) 0) qs) =
    INR (length batches) * (nth j (sw_agg s) 0 + INR bs * (grad_F P (sw_x s) j - nth j (sw_agg s) 0)).
Proof. exact main_C68_saga_mean. Qed.
Print Assumptions C68_saga_mean.
Theorem C68_saga_unbiased_partial : forall (pow23 : R -> R) (P : problem RN) lmo rule lipschitz it s (qs : list (sfw_iter RN)),
  problem_wf P -> lmo_sized (p_d P) lmo -> (1 <= p_n P)%nat -> sfw_consistent P SAGA s ->
  Forall2 (fun i q => sfw_step (K:=RN) pow23 P lmo SAGA rule lipschitz 1 it [i] s = Ok q) (seq 0 (p_n P)) qs ->
  forall j, (j < p_d P)%nat -> / INR (p_n P) * Rsum (map (fun q : sfw_iter RN => nth j (si_est q : list R) 0) qs) = grad_F P (sw_x s) j.
Proof. exact main_C68_saga_unbiased_partial. Qed.
Print Assumptions C68_saga_unbiased_partial.
Theorem C68_full_batch_estimate : forall (pow23 : R -> R) (P : problem RN) lmo rule lipschitz it x0 s q,
  problem_wf P -> lmo_sized (p_d P) lmo -> (1 <= p_n P)%nat -> length x0 = p_d P -> sfw_init (K:=RN) P SAGA x0 None = Ok s ->
  sfw_step (K:=RN) pow23 P lmo SAGA rule lipschitz (p_n P) it (seq 0 (p_n P)) s = Ok q ->
  forall j, (j < p_d P)%nat -> nth j (si_est q : list R) 0 = INR (p_n P) * grad_F P x0 j.
Proof. exact main_C68_full_batch_estimate. Qed.
Print Assumptions C68_full_batch_estimate.
Theorem C68_saga_unbiased_refuted : exists (P : problem RN) s q, problem_wf P /\ sfw_init (K:=RN) P SAGA [1] None = Ok s /\
  sfw_step (K:=RN) (fun t => t) P (l1_oracle (K:=RN) 1) SAGA SSublinear None 2 0 [0; 1]%nat s = Ok q /\
  balanced (p_n P) 2 1 [[0; 1]%nat] /\ nth 0 (si_est q : list R) 0 = 2 /\ grad_F P [1] 0 = 1.
Proof. exact main_C68_saga_unbiased_refuted. Qed.
Print Assumptions C68_saga_unbiased_refuted.
Example C68_nonvacuous : balanced 3 2 2 [[0; 1]; [1; 2]; [0; 2]]%nat.
Proof. split; [repeat constructor; cbn; intuition lia|]. intros [|[|[|i]]] Hi; try reflexivity; lia. Qed.

(** C90: SAG with the full batch is Frank-Wolfe: the estimate is the gradient of the mean loss, and the gap
    after max_iter epochs is at most 2 C / (max_iter + 2) *)
Theorem C90_full_batch : forall (pow23 : R -> R) (P : problem RN) (f : R -> R -> R) lmo lipschitz tol max_iter draws x0 (dom : list R -> Prop) (C : R) (y : list R) (r : sfw_result RN),
  problem_wf P -> (1 <= p_n P)%nat -> valid_draws (p_n P) (p_n P) draws -> convex_set (p_d P) dom -> lmo_exact (p_d P) dom lmo -> convex_loss P f ->
  curvature (p_d P) dom (mean_loss P f) (grad_list P) C -> dom x0 -> length y = p_d P -> dom y ->
  minimize_sfw (K:=RN) pow23 P lmo SAG SSublinear lipschitz (p_n P) tol Vanilla max_iter draws x0 = Ok r ->
  (forall q, In q (sr_log r) -> length (si_est q) = p_d P /\ forall j, (j < p_d P)%nat -> nth j (si_est q : list R) 0 = grad_F P (sw_x (si_prev q)) j) /\
  (sr_success r = false -> mean_loss P f (sr_x r) - mean_loss P f y <= 2 * C / (INR max_iter + 2)).
Proof. exact main_C90_full_batch. Qed.
Print Assumptions C90_full_batch.
(** C91: SAG with one sample per step.  The mean of the gap over all index sequences of the run (the draws
    of np.random.randint are uniform and independent) is O(1 / steps) *)
Theorem C91_mean_rate : forall (pow23 : R -> R) (P : problem RN) (f : R -> R -> R) lmo lipschitz tol max_iter x0 (dom : list R -> Prop) (C Dinf D1 L B : R) (y : list R),
  problem_wf P -> (1 <= p_n P)%nat -> convex_set (p_d P) dom -> lmo_exact (p_d P) dom lmo -> convex_loss P f ->
  curvature (p_d P) dom (mean_loss P f) (grad_list P) C ->
  (forall u v i, length u = p_d P -> length v = p_d P -> dom u -> dom v -> (i < p_n P)%nat -> Rabs (adot P i u - adot P i v) <= Dinf) ->
  (forall u v, length u = p_d P -> length v = p_d P -> dom u -> dom v ->
     Rsum (map (fun i => Rabs (adot P i u - adot P i v)) (seq 0 (p_n P))) <= D1) ->
  0 <= L -> (forall p q b, Rabs (p_fd P p b - p_fd P q b) <= L * Rabs (p - q)) ->
  2 * Rsum (map (fun i => Rabs (loss_deriv P x0 i)) (seq 0 (p_n P))) <= B -> 4 * INR (p_n P) * L * D1 <= B ->
  length x0 = p_d P -> dom x0 -> length y = p_d P -> dom y -> (1 <= max_iter)%nat -> tol <= 0 ->
  exists res : list nat -> sfw_result RN,
    (forall w, In w (words (p_n P) (p_n P * max_iter)) ->
       minimize_sfw (K:=RN) pow23 P lmo SAG SSublinear lipschitz 1 tol Vanilla max_iter (epoch_draws (p_n P) w) x0 = Ok (res w)) /\
    / INR (p_n P ^ (p_n P * max_iter)) *
      Rsum (map (fun w => mean_loss P f (sr_x (res w)) - mean_loss P f y) (words (p_n P) (p_n P * max_iter)))
    <= 2 * (C + Dinf * B) / (INR (p_n P * max_iter) + 2).
Proof. exact main_C91_mean_rate. Qed.
Print Assumptions C91_mean_rate.
Theorem C91_curvature : forall (P : problem RN) (f : R -> R -> R) (dom : list R -> Prop) (L D2 : R),
  (1 <= p_n P)%nat -> 0 <= L ->
  (forall p q b, f q b <= f p b + p_fd P p b * (q - p) + L / 2 * ((q - p) * (q - p))) ->
  (forall u v, length u = p_d P -> length v = p_d P -> dom u -> dom v ->
     Rsum (map (fun i => (adot P i u - adot P i v) * (adot P i u - adot P i v)) (seq 0 (p_n P))) <= D2) ->
  curvature (p_d P) dom (mean_loss P f) (grad_list P) (L * D2 / INR (p_n P)).
Proof. exact main_C91_curvature. Qed.
Print Assumptions C91_curvature.
Example C91_nonvacuous : problem_wf two_rows /\ convex_set 1 (l1_ball 1) /\ lmo_exact 1 (l1_ball 1) (l1_oracle (K:=RN) 1) /\ l1_ball 1 [1] /\
  convex_loss two_rows half_square /\
  curvature 1 (l1_ball 1) (mean_loss two_rows half_square) (grad_list two_rows) 4 /\
  (forall u v i, length u = 1%nat -> length v = 1%nat -> l1_ball 1 u -> l1_ball 1 v -> (i < 2)%nat -> Rabs (adot two_rows i u - adot two_rows i v) <= 2) /\
  (forall u v, length u = 1%nat -> length v = 1%nat -> l1_ball 1 u -> l1_ball 1 v -> Rsum (map (fun i => Rabs (adot two_rows i u - adot two_rows i v)) (seq 0 2)) <= 4) /\
  (forall p q b : R, Rabs (p_fd two_rows p b - p_fd two_rows q b) <= 1 * Rabs (p - q)) /\
  2 * Rsum (map (fun i => Rabs (loss_deriv two_rows [1] i)) (seq 0 2)) <= 32.
Proof. split; [exact two_rows_wf|]. destruct C65_nonvacuous as (A & B & D). split; [exact A|]. split; [exact B|]. split; [exact D|]. exact two_rows_hyp. Qed.
