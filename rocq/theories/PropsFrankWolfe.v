(** * Property theorems: copt/frank_wolfe.py (C41-C49, C77).  Statements only.

    [fr_iters r] lists the performed iterations, newest first: [fi_x] the iterate, [fi_cert] the
    certificate there, [fi_step] the step taken, [fi_next] the next iterate, [fi_found] whether the
    line search ended by acceptance.  [fr_log r] is the log of calls of user code, newest first;
    [fr_exit r] says how the loop was left. *)
From Coq Require Import ZArith QArith Reals List Bool Lra Lia.
From Verif Require Import Num Vec Spec RVec ModelConstraint ModelFrankWolfe ConvexFacts ConstraintFacts ProxGradMain FrankWolfeFacts FrankWolfeConv FrankWolfeMain FrankWolfeMain2 FrankWolfeRuns.
Import ListNotations.
Open Scope R_scope.

(** C41: feasibility and termination.  [step_hyp] asks for a positive Lipschitz estimate. *)
Theorem C41_feasible : forall n dom fg lmo step lipschitz tol max_iter cb x0 (r : fw_result RN),
  grad_ok n fg -> convex_set n dom -> lmo_feasible n dom lmo ->
  length x0 = n -> dom x0 -> step_hyp fg x0 step lipschitz ->
  minimize_fw fg lmo step lipschitz tol max_iter cb Vanilla x0 = Ok r ->
  dom (fr_x r) /\
  (forall l : fw_locals RN, In (FwCallback l) (fr_log r) \/ In (FwStep l) (fr_log r) -> dom (fl_x l)) /\
  Forall (fun i : fw_iter RN => dom (fi_x i) /\ dom (fi_next i) /\ 0 <= fi_step i <= 1) (fr_iters r).
Proof. exact main_C41_feasible. Qed.
Print Assumptions C41_feasible.
Theorem C41_returns : forall n dom fg lmo step lipschitz tol max_iter cb x0,
  grad_ok n fg -> convex_set n dom -> lmo_feasible n dom lmo ->
  length x0 = n -> dom x0 -> step_hyp fg x0 step lipschitz -> 0 <= tol -> (0 < max_iter)%nat ->
  match step with FSOther => False | FSDR => lipschitz <> None | _ => True end ->
  exists r, minimize_fw fg lmo step lipschitz tol max_iter cb Vanilla x0 = Ok r.
Proof. exact main_C41_returns. Qed.
Print Assumptions C41_returns.
(** C42: the certificate bounds the suboptimality *)
Theorem C42_certificate_bound : forall n dom fg lmo step lipschitz tol max_iter cb x0 (r : fw_result RN),
  grad_ok n fg -> convex_set n dom -> lmo_exact n dom lmo -> first_order n (objective fg) (gradient fg) ->
  length x0 = n -> dom x0 -> step_hyp fg x0 step lipschitz ->
  minimize_fw fg lmo step lipschitz tol max_iter cb Vanilla x0 = Ok r ->
  (forall (i : fw_iter RN) y, In i (fr_iters r) -> length y = n -> dom y -> objective fg (fi_x i) - objective fg y <= fi_cert i) /\
  (fr_exit r <> ExitMaxIter -> forall y, length y = n -> dom y -> objective fg (fr_x r) - objective fg y <= fr_cert r) /\
  (fr_exit r = ExitGap -> forall y, length y = n -> dom y ->
     objective fg (fr_x r) - objective fg y <= fr_cert r <= tol).
Proof. exact main_C42_certificate_bound. Qed.
Print Assumptions C42_certificate_bound.
Theorem C42_certificate_bound_pairwise : forall n (alpha : R) fg step lipschitz tol max_iter cb (sg : R) i0 (r : fw_result RN),
  let x0 := vertex n (alpha * sg) i0 in
  0 <= alpha -> (i0 < n)%nat -> Rabs sg <= 1 -> grad_ok n fg -> first_order n (objective fg) (gradient fg) ->
  step_hyp_pair fg x0 step lipschitz ->
  @minimize_fw RN fg (l1_pairwise_oracle (K:=RN) alpha) step lipschitz tol max_iter cb (@Pairwise RN (sg, i0)) x0 = Ok r ->
  (forall (i : fw_iter RN) y, In i (fr_iters r) -> length y = n -> l1_ball alpha y ->
     objective fg (fi_x i) - objective fg y <= fi_cert i) /\
  (fr_exit r <> ExitMaxIter -> forall y, length y = n -> l1_ball alpha y -> objective fg (fr_x r) - objective fg y <= fr_cert r) /\
  (fr_exit r = ExitGap -> forall y, length y = n -> l1_ball alpha y ->
     objective fg (fr_x r) - objective fg y <= fr_cert r <= tol).
Proof. exact main_C42_certificate_bound_pairwise. Qed.
Print Assumptions C42_certificate_bound_pairwise.
(** C43: contract of backtracking_step_size *)
Theorem C43_line_search : forall (fg : vec RN -> RN * vec RN) (x : list R) (f_t : R) old (cert lip ms : R) d (nd : R),
  0 < cert -> 0 < lip -> 0 < nd -> 0 <= ms ->
  let o := @fw_backtracking RN fg x f_t old cert lip ms d nd in
  let s := bt_step o in
  0 <= s <= ms /\ 9 / 10 * lip <= bt_lip o /\
  bt_fg o = fg (vplus x (smul s d)) /\
  (bt_found o = true ->
     fst (bt_fg o) - f_t <= - s * cert + / 2 * (s * s) * bt_lip o * nd + EPS /\
     fst (bt_fg o) - f_t <= - / 2 * (s * cert) + EPS).
Proof. exact main_C43_line_search. Qed.
Print Assumptions C43_line_search.
Theorem C43_line_search_succeeds : forall (fg : vec RN -> RN * vec RN) (x : list R) (f_t : R) old (cert lip ms : R) d (nd L : R),
  0 < cert -> 0 < lip -> 0 < nd -> 0 <= ms ->
  (forall s, 0 <= s <= ms -> fst (fg (vplus x (smul s d))) <= f_t - s * cert + / 2 * (s * s) * L * nd) ->
  L <= 9 / 10 * lip * 2 ^ 99 ->
  let o := @fw_backtracking RN fg x f_t old cert lip ms d nd in
  bt_found o = true /\ bt_lip o <= Rmax lip (2 * L).
Proof. exact main_C43_line_search_succeeds. Qed.
Print Assumptions C43_line_search_succeeds.
(** a quadratic in one dimension: the estimate 1/100 is doubled seven times, to 1.28 *)
Example C43_nonvacuous :
  let o := fw_backtracking (K:=QN) half_sq [n1] (nlit 1 2) None n1 (nlit 1 100) n1 [nofZ QN (-1)] n1 in
  (bt_found o, bt_step o, bt_lip o) = (true, nlit 25 32, nlit 32 25).
Proof. vm_compute. reflexivity. Qed.
(** C44: descent up to EPS per iteration *)
Theorem C44_descent : forall n dom fg lmo lipschitz tol max_iter cb x0 (r : fw_result RN),
  grad_ok n fg -> convex_set n dom -> lmo_feasible n dom lmo ->
  length x0 = n -> dom x0 -> step_hyp fg x0 FSBacktracking lipschitz ->
  minimize_fw fg lmo FSBacktracking lipschitz tol max_iter cb Vanilla x0 = Ok r ->
  Forall (fun i : fw_iter RN => fi_found i = true ->
    objective fg (fi_next i) <= objective fg (fi_x i) - / 2 * (fi_step i * fi_cert i) + EPS /\ 0 < fi_cert i) (fr_iters r) /\
  (Forall (fun i : fw_iter RN => fi_found i = true) (fr_iters r) ->
    objective fg (fr_x r) <= objective fg x0 + INR (length (fr_iters r)) * EPS).
Proof. exact main_C44_descent. Qed.
Print Assumptions C44_descent.
Theorem C44_descent_pairwise : forall n (alpha : R) fg lipschitz tol max_iter cb (sg : R) i0 (r : fw_result RN),
  let x0 := vertex n (alpha * sg) i0 in
  0 <= alpha -> (i0 < n)%nat -> Rabs sg <= 1 -> grad_ok n fg -> step_hyp_pair fg x0 FSBacktracking lipschitz ->
  @minimize_fw RN fg (l1_pairwise_oracle (K:=RN) alpha) FSBacktracking lipschitz tol max_iter cb (@Pairwise RN (sg, i0)) x0 = Ok r ->
  Forall (fun i : fw_iter RN => fi_found i = true ->
    objective fg (fi_next i) <= objective fg (fi_x i) - / 2 * (fi_step i * fi_cert i) + EPS /\ 0 < fi_cert i /\ 0 <= fi_step i) (fr_iters r) /\
  (Forall (fun i : fw_iter RN => fi_found i = true) (fr_iters r) ->
    objective fg (fr_x r) <= objective fg x0 + INR (length (fr_iters r)) * EPS).
Proof. exact main_C44_descent_pairwise. Qed.
Print Assumptions C44_descent_pairwise.
(** C45: pairwise variant with L1Ball.lmo_pairwise *)
Theorem C45_decomposition : forall n (alpha : R) fg step lipschitz tol max_iter cb (sg : R) i0 (r : fw_result RN),
  let x0 := vertex n (alpha * sg) i0 in
  0 <= alpha -> (i0 < n)%nat -> Rabs sg <= 1 -> grad_ok n fg -> step_hyp_pair fg x0 step lipschitz ->
  @minimize_fw RN fg (l1_pairwise_oracle (K:=RN) alpha) step lipschitz tol max_iter cb (@Pairwise RN (sg, i0)) x0 = Ok r ->
  (exists a, fr_active r = Some a /\ convex_decomposition n alpha a (fr_x r)) /\
  (forall l : fw_locals RN, In (FwCallback l) (fr_log r) \/ In (FwStep l) (fr_log r) ->
     exists a, fl_active l = Some a /\ convex_decomposition n alpha a (fl_x l)) /\
  l1_ball alpha (fr_x r) /\ (forall i : fw_iter RN, In i (fr_iters r) -> l1_ball alpha (fi_x i)).
Proof. exact main_C45_decomposition. Qed.
Print Assumptions C45_decomposition.
Theorem C45_returns : forall n (alpha : R) fg step lipschitz tol max_iter cb (sg : R) i0,
  let x0 := vertex n (alpha * sg) i0 in
  0 <= alpha -> (i0 < n)%nat -> Rabs sg <= 1 -> grad_ok n fg -> step_hyp_pair fg x0 step lipschitz ->
  match step with FSBacktracking => True | FSDR => lipschitz <> None | _ => False end ->
  0 <= tol -> (0 < max_iter)%nat ->
  exists r, @minimize_fw RN fg (l1_pairwise_oracle (K:=RN) alpha) step lipschitz tol max_iter cb (@Pairwise RN (sg, i0)) x0 = Ok r.
Proof. exact main_C45_returns. Qed.
Print Assumptions C45_returns.
Theorem C45_step_too_large : forall (d : list (R * nat * R)) (fw away : R * nat) (step : R),
  NoDup (map fst d) -> fw <> away -> weight d away < step ->
  @update_active_set RN d fw away step = Err ValueError.
Proof. exact main_C45_step_too_large. Qed.
Print Assumptions C45_step_too_large.
Example C45_nonvacuous_run : exists r,
  minimize_fw (K:=QN) stall_fg (l1_pairwise_oracle (K:=QN) n1) FSDR (Some (nofZ QN 4)) (nlit 1 1000) 3 None
    (@Pairwise QN (n1, 0%nat)) [n1; n0] = Ok r /\
  match fr_active r with Some a => Nat.eqb (length a) 3 && Nat.eqb (length (fr_iters r)) 3 | None => false end = true.
Proof. apply run_check. vm_compute. reflexivity. Qed.
Example C45_nonvacuous : forall n alpha i0, (i0 < n)%nat -> 0 <= alpha ->
  exists r : fw_result RN, minimize_fw sq_fg (l1_pairwise_oracle (K:=RN) alpha) FSBacktracking (Some 1) 0 10 None (@Pairwise RN (1, i0)) (vertex n (alpha * 1) i0) = Ok r.
Proof. intros. apply sq_fw_pairwise; auto. lia. Qed.

(** C46.  Full property (false): a drop step removes the away vertex from the active set.  It stays
    a key, with weight 0, for every drop step; and the consequence named in the property happens:
    a run stays at a non-optimal point for every max_iter.  Proved: all the weights are right. *)
Theorem C46_drop_step_refuted : forall (d : list (R * nat * R)) (fw away : R * nat) (step : R),
  NoDup (map fst d) -> fw <> away -> step = weight d away ->
  exists d', @update_active_set RN d fw away step = Ok d' /\ In away (map fst d') /\ weight d' away = 0.
Proof. exact main_C46_drop_step_refuted. Qed.
Print Assumptions C46_drop_step_refuted.
Theorem C46_stall_refuted : forall max_iter, (2 <= max_iter)%nat ->
  exists r, minimize_fw (K:=QN) stall_fg (l1_pairwise_oracle (K:=QN) (nofZ QN 1)) FSDR (Some (nofZ QN 1)) (nlit 1 10) max_iter None
      (@Pairwise QN (nofZ QN 1, 0%nat)) [nofZ QN 1; nofZ QN 0] = Ok r /\
    fr_x r = [nofZ QN (-1); nofZ QN 0] /\ fr_cert r = nlit 5 2 /\ fr_exit r = ExitMaxIter /\
    fst (stall_fg [nlit (-1) 4; nlit 3 4]) = nlit 25 16 /\ fst (stall_fg (fr_x r)) = nlit 17 8.
Proof. exact main_C46_stall_refuted. Qed.
Print Assumptions C46_stall_refuted.
Theorem C46_weights_partial : forall (d : list (R * nat * R)) (fw away : R * nat) (step : R),
  NoDup (map fst d) -> fw <> away -> step <= weight d away ->
  exists d', @update_active_set RN d fw away step = Ok d' /\ NoDup (map fst d') /\
    weight d' fw = weight d fw + step /\ weight d' away = weight d away - step /\
    (forall k, k <> fw -> k <> away -> weight d' k = weight d k) /\
    (forall k, In k (map fst d') <-> k = fw \/ k = away \/ In k (map fst d)).
Proof. exact main_C46_weights_partial. Qed.
Print Assumptions C46_weights_partial.
Example C46_nonvacuous : NoDup (map fst [((1, 0%nat), 1 / 2); ((1, 1%nat), 1 / 2)]) /\
  ((1, 0%nat) <> (1, 1%nat) :> R * nat) /\ weight [((1, 0%nat), 1 / 2); ((1, 1%nat), 1 / 2)] (1, 1%nat) = 1 / 2.
Proof.
  split; [repeat constructor; cbn; intuition congruence|]. split; [congruence|].
  cbn. destruct (Req_EM_T 1 1); [reflexivity|congruence].
Qed.

(** C47: rates *)
Theorem C47_rate_sublinear : forall n dom fg lmo lipschitz tol max_iter cb x0 (r : fw_result RN) (C : R) y,
  grad_ok n fg -> convex_set n dom -> lmo_exact n dom lmo -> first_order n (objective fg) (gradient fg) ->
  curvature n dom (objective fg) (gradient fg) C -> length x0 = n -> dom x0 -> length y = n -> dom y ->
  minimize_fw fg lmo FSSublinear lipschitz tol max_iter cb Vanilla x0 = Ok r -> fr_iters r <> [] ->
  objective fg (fr_x r) - objective fg y <= 2 * C / (INR (length (fr_iters r)) + 2).
Proof. exact main_C47_rate_sublinear. Qed.
Print Assumptions C47_rate_sublinear.
Theorem C47_rate_DR : forall n dom fg lmo (L L0 D2 : R) tol max_iter cb x0 (r : fw_result RN) y,
  grad_ok n fg -> convex_set n dom -> lmo_exact n dom lmo -> first_order n (objective fg) (gradient fg) ->
  smooth_upper n L (objective fg) (gradient fg) -> L <= L0 -> 0 < L0 -> diameter2 n dom D2 ->
  length x0 = n -> dom x0 -> length y = n -> dom y ->
  minimize_fw fg lmo FSDR (Some L0) tol max_iter cb Vanilla x0 = Ok r -> fr_iters r <> [] ->
  objective fg (fr_x r) - objective fg y <= 2 * (L0 * D2) / (INR (length (fr_iters r)) + 2).
Proof. exact main_C47_rate_DR. Qed.
Print Assumptions C47_rate_DR.
Theorem C47_rate_backtracking : forall n dom fg lmo (L L0 D2 : R) tol max_iter cb x0 (r : fw_result RN) y,
  grad_ok n fg -> convex_set n dom -> lmo_exact n dom lmo -> first_order n (objective fg) (gradient fg) ->
  smooth_upper n L (objective fg) (gradient fg) -> 0 < L0 -> diameter2 n dom D2 ->
  length x0 = n -> dom x0 -> length y = n -> dom y ->
  minimize_fw fg lmo FSBacktracking (Some L0) tol max_iter cb Vanilla x0 = Ok r -> fr_iters r <> [] ->
  Forall (fun i : fw_iter RN => fi_found i = true) (fr_iters r) ->
  objective fg (fr_x r) - objective fg y <=
    2 * (Rmax L0 (2 * L) * D2) / (INR (length (fr_iters r)) + 2) + INR (length (fr_iters r)) * EPS.
Proof. exact main_C47_rate_backtracking. Qed.
Print Assumptions C47_rate_backtracking.
Theorem C47_l1_ball : forall n (alpha L : R) fg tol max_iter x0 y,
  (0 < n)%nat -> 0 <= alpha -> 0 < L -> 0 <= tol -> (0 < max_iter)%nat ->
  grad_ok n fg -> first_order n (objective fg) (gradient fg) -> smooth_upper n L (objective fg) (gradient fg) ->
  length x0 = n -> l1_ball alpha x0 -> length y = n -> l1_ball alpha y ->
  exists r : fw_result RN,
    minimize_fw fg (l1_oracle (K:=RN) alpha) FSDR (Some L) tol max_iter None Vanilla x0 = Ok r /\
    l1_ball alpha (fr_x r) /\ (length (fr_iters r) <= max_iter)%nat /\
    (objective fg (fr_x r) - objective fg y <= tol \/
     objective fg (fr_x r) - objective fg y <= 8 * L * (alpha * alpha) / (INR max_iter + 2)).
Proof. exact main_C47_l1_ball. Qed.
Print Assumptions C47_l1_ball.
(** f(x) = |x|^2/2 on the l1 ball in any dimension meets the hypotheses of C41-C44 and C47, and its
    runs from every non-zero point move *)
Example C47_nonvacuous : forall n alpha x0, (0 < n)%nat -> 0 <= alpha -> length x0 = n -> l1_ball alpha x0 -> 0 < sq x0 ->
  grad_ok n sq_fg /\ first_order n (objective sq_fg) (gradient sq_fg) /\ smooth_upper n 1 (objective sq_fg) (gradient sq_fg) /\
  curvature n (l1_ball alpha) (objective sq_fg) (gradient sq_fg) (4 * (alpha * alpha)) /\
  step_hyp sq_fg x0 FSBacktracking (Some 1) /\ diameter2 n (l1_ball alpha) (4 * (alpha * alpha)) /\
  convex_set n (l1_ball alpha) /\ lmo_exact n (l1_ball alpha) (l1_oracle (K:=RN) alpha) /\
  forall step, step = FSBacktracking \/ step = FSDR \/ step = FSSublinear ->
  exists r : fw_result RN, minimize_fw sq_fg (l1_oracle (K:=RN) alpha) step (Some 1) 0 10 None Vanilla x0 = Ok r /\ fr_iters r <> [].
Proof.
  intros n alpha x0 Hn Ha Hx Hb Hp. destruct (sq_fw_hyps n alpha x0 Hn Ha Hx) as (A & B & C & D & E).
  destruct (main_C77_l1_oracle_partial n alpha Hn Ha) as (F & G).
  repeat (split; [first [assumption | apply l1_diameter; assumption]|]).
  intros step Hs. apply (sq_fw_run n alpha x0 step 10); auto. lia.
Qed.

(** C48.  Full property (false): the four invalid arguments raise ValueError.  tol and variant are
    checked always; step and the missing lipschitz only when the first certificate exceeds tol. *)
Theorem C48_arguments : forall (K : Num) fg lmo step lipschitz tol max_iter cb variant (x0 : vec K),
  (nltb K tol n0 = true -> minimize_fw fg lmo step lipschitz tol max_iter cb variant x0 = Err ValueError) /\
  (variant = OtherVariant -> minimize_fw fg lmo step lipschitz tol max_iter cb variant x0 = Err ValueError) /\
  (nltb K tol n0 = false -> variant <> OtherVariant -> max_iter = 0%nat ->
     minimize_fw fg lmo step lipschitz tol max_iter cb variant x0 = Err UnboundLocalError).
Proof. exact main_C48_arguments. Qed.
Print Assumptions C48_arguments.
Theorem C48_step_checked_partial : forall (K : Num) fg lmo step lipschitz tol max_iter cb variant (x0 : vec K) o,
  step = FSOther \/ (step = FSDR /\ lipschitz = None) ->
  nltb K tol n0 = false -> (0 < max_iter)%nat ->
  match variant with Vanilla => call_lmo lmo (vopp (snd (fg x0))) x0 None = Ok o
    | Pairwise v => call_lmo lmo (vopp (snd (fg x0))) x0 (Some [(v, n1)]) = Ok o | OtherVariant => False end ->
  nleb K (fw_cert (lmo_dir o) (snd (fg x0))) tol = false ->
  minimize_fw fg lmo step lipschitz tol max_iter cb variant x0 = Err ValueError.
Proof. exact main_C48_step_checked_partial. Qed.
Print Assumptions C48_step_checked_partial.
Theorem C48_step_unchecked_refuted : forall (K : Num) fg lmo step lipschitz tol max_iter cb variant (x0 : vec K) o,
  nltb K tol n0 = false -> (0 < max_iter)%nat ->
  match variant with Vanilla => call_lmo lmo (vopp (snd (fg x0))) x0 None = Ok o
    | Pairwise v => call_lmo lmo (vopp (snd (fg x0))) x0 (Some [(v, n1)]) = Ok o | OtherVariant => False end ->
  nleb K (fw_cert (lmo_dir o) (snd (fg x0))) tol = true ->
  exists r, minimize_fw fg lmo step lipschitz tol max_iter cb variant x0 = Ok r /\ fr_x r = x0 /\ fr_iters r = [].
Proof. exact main_C48_step_unchecked_refuted. Qed.
Print Assumptions C48_step_unchecked_refuted.
Example C48_unchecked_nonvacuous : exists r,
  minimize_fw (K:=QN) half_sq (l1_oracle (K:=QN) n1) FSOther None n0 10 None Vanilla [n0] = Ok r /\ Nat.eqb (fr_nit r) 0 = true.
Proof. apply run_check. vm_compute. reflexivity. Qed.
(** the callback returning False stops the run before x is updated (it is called once more, by the
    final call after the loop) *)
Theorem C48_callback : forall (K : Num) fg lmo step lipschitz tol max_iter c variant (x0 : vec K) r,
  minimize_fw fg lmo step lipschitz tol max_iter (Some c) variant x0 = Ok r ->
  exists l_end rest, fr_log r = FwCallback l_end :: rest /\ fl_x l_end = fr_x r /\
  match fr_exit r with
  | ExitCallback => exists l rest', rest = FwCallback l :: rest' /\ c (FwCallback l :: rest') = true /\
      fl_x l = fr_x r /\ fr_x r = fw_last x0 (fr_iters r) /\ fr_nit r = length (fr_iters r) /\ fw_quiet c rest'
  | _ => fw_quiet c rest
  end.
Proof. exact main_C48_callback. Qed.
Print Assumptions C48_callback.
Example C48_callback_nonvacuous : exists r,
  minimize_fw (K:=QN) half_sq (l1_oracle (K:=QN) n1) FSSublinear None n0 10
    (Some (fun log => match log with FwCallback l :: _ => Nat.eqb (fl_it l) 1 | _ => false end)) Vanilla [n1] = Ok r /\
  match fr_exit r with ExitCallback => Nat.eqb (fr_nit r) 1 && Nat.eqb (length (fr_iters r)) 1 | _ => false end = true.
Proof. apply run_check. vm_compute. reflexivity. Qed.

(** C49.  Full property (false): the returned certificate is the gap at the returned x.  True unless
    max_iter was reached; then it is the gap at the previous iterate. *)
Theorem C49_certificate_partial : forall (K : Num) fg lmo step lipschitz tol max_iter cb variant (x0 : vec K) r,
  minimize_fw fg lmo step lipschitz tol max_iter cb variant x0 = Ok r ->
  match fr_exit r with
  | ExitMaxIter => exists i rest, fr_iters r = i :: rest /\ fr_x r = fi_next i /\ fr_cert r = vdot (lmo_dir (fi_lmo i)) (vopp (snd (fg (fi_x i)))) /\
      nleb K (fr_cert r) tol = false /\ length (fr_iters r) = max_iter
  | _ => call_lmo lmo (vopp (snd (fg (fr_x r)))) (fr_x r) (fr_active r) = Ok (fr_lmo r) /\
      fr_cert r = vdot (lmo_dir (fr_lmo r)) (vopp (snd (fg (fr_x r))))
  end.
Proof. exact main_C49_certificate_partial. Qed.
Print Assumptions C49_certificate_partial.
Theorem C49_certificate_refuted : exists r,
  minimize_fw (K:=QN) half_sq (l1_oracle (K:=QN) n1) FSDR (Some n1) (nlit 1 10) 1 None Vanilla [n1] = Ok r /\
  fr_exit r = ExitMaxIter /\
  fr_x r = [nofZ QN 0] /\ fr_cert r = nofZ QN 2 /\
  match call_lmo (l1_oracle (K:=QN) n1) (vopp (snd (half_sq (fr_x r)))) (fr_x r) None with
  | Ok o => vdot (lmo_dir o) (vopp (snd (half_sq (fr_x r)))) = nofZ QN 0
  | Err _ => False
  end.
Proof. exact main_C49_certificate_refuted. Qed.
Print Assumptions C49_certificate_refuted.

(** C77.  Full property (false): the oracles of copt/constraint.py work with minimize_frank_wolfe.
    True for L1Ball.lmo; SimplexConstraint.lmo takes two arguments and every run raises TypeError. *)
Theorem C77_l1_oracle_partial : forall n (alpha : R), (0 < n)%nat -> 0 <= alpha ->
  lmo_exact n (l1_ball alpha) (l1_oracle (K:=RN) alpha) /\ convex_set n (l1_ball alpha).
Proof. exact main_C77_l1_oracle_partial. Qed.
Print Assumptions C77_l1_oracle_partial.
Theorem C77_simplex_lmo_refuted : forall (K : Num) fg s step lipschitz tol max_iter cb variant (x0 : vec K),
  nltb K tol n0 = false -> variant <> OtherVariant -> (0 < max_iter)%nat ->
  minimize_fw fg (simplex_oracle s) step lipschitz tol max_iter cb variant x0 = Err TypeError.
Proof. exact main_C77_simplex_lmo_refuted. Qed.
Print Assumptions C77_simplex_lmo_refuted.
