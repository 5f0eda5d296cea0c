(** * Pairwise Frank-Wolfe, DR step: the number of iterations that move is bounded *)
From Coq Require Import ZArith Reals List Bool Lra Lia Psatz.
From Verif Require Import Num Vec Spec RVec ModelConstraint ModelFrankWolfe ConvexFacts ConstraintFacts FrankWolfeFacts FrankWolfeConv FrankWolfeMain FrankWolfePair FrankWolfePairRun FrankWolfeMain2 FwPairSteps2.
Import ListNotations.
Open Scope R_scope.

Lemma pow_mono (a b : nat) : (0 < a)%nat -> (a <= b)%nat -> (a ^ a <= b ^ b)%nat.
Proof.
  intros Ha H. transitivity (a ^ b)%nat.
  - apply Nat.pow_le_mono_r; lia.
  - apply Nat.pow_le_mono_l. exact H.
Qed.

Lemma main_C120_moving_steps : forall n (alpha : R) fg (L L0 tol low : R) max_iter cb (sg : R) i0 (r : fw_result RN),
  let x0 := vertex n (alpha * sg) i0 in
  0 < alpha -> (i0 < n)%nat -> Rabs sg <= 1 -> grad_ok n fg ->
  smooth_upper n L (objective fg) (gradient fg) -> L <= L0 -> 0 < L0 -> 0 < tol ->
  (forall y, length y = n -> l1_ball alpha y -> low <= objective fg y) ->
  @minimize_fw RN fg (l1_pairwise_oracle (K:=RN) alpha) FSDR (Some L0) tol max_iter cb (@Pairwise RN (sg, i0)) x0 = Ok r ->
  Forall (fun i : fw_iter RN =>
    0 <= fi_step i /\ (fi_step i = 0 <-> lmo_max_step (fi_lmo i) = 0) /\ (fi_step i = 0 -> fi_next i = fi_x i) /\
    (fi_step i <> 0 -> objective fg (fi_next i) < objective fg (fi_x i))) (fr_iters r) /\
  INR (length (filter (fun i : fw_iter RN => if Req_EM_T (fi_step i) 0 then false else true) (fr_iters r))) <=
    ((objective fg x0 - low) * (8 * (alpha * alpha) * L0) / (tol * tol) + 1) * INR ((2 * n + 1) ^ (2 * n + 1)).
Proof.
  intros n alpha fg L L0 tol low m cb sg i0 r x0 Ha Hi0 Hsg Hg Hsm HL HL0 Ht Hlow E.
  assert (Hn0 : (0 < n)%nat) by lia. assert (Hx0 : length x0 = n) by apply vertex_length.
  destruct (run_all n alpha fg L L0 tol cb sg i0 Ha Hi0 Hsg Hg Hsm HL HL0 Ht m r E) as (A & (u & B1 & B2) & _).
  split; [exact A|].
  destruct (pair_run n alpha fg FSDR (Some L0) tol cb x0 (Rlt_le _ _ Ha) Hn0 Hg (Rlt_le _ _ Ht) Hx0 HL0 sg i0 m r Hi0 Hsg eq_refl E) as ((P1 & (d & _ & P2) & _) & _).
  assert (Hb : l1_ball alpha (fr_x r)) by (eapply decomposition_ball; [lra|exact P2]).
  specialize (Hlow (fr_x r) P1 Hb). fold x0 in B2.
  assert (Hu : INR u <= (objective fg x0 - low) * (8 * (alpha * alpha) * L0) / (tol * tol)).
  { assert (Hpos : 0 < 8 * (alpha * alpha) * L0) by (apply Rmult_lt_0_compat; [nra|exact HL0]).
    assert (Htt : 0 < tol * tol) by nra.
    assert (Hd : 0 < (8 * (alpha * alpha) * L0) / (tol * tol)) by (apply Rdiv_lt_0_compat; assumption).
    assert (Hud : INR u * (tol * tol / (8 * (alpha * alpha) * L0)) <= objective fg x0 - low) by lra.
    apply (Rmult_le_compat_r ((8 * (alpha * alpha) * L0) / (tol * tol))) in Hud; [|lra].
    eapply Rle_trans; [|eapply Rle_trans; [exact Hud|right; unfold Rdiv; ring]].
    right. field. lra. }
  pose proof (pow_mono _ _ (reps_pos n (sg, i0)) (reps_length n (sg, i0))) as Hp.
  change (filter (fun i : fw_iter RN => if Req_EM_T (fi_step i) 0 then false else true)) with (filter moving).
  apply lt_INR in B1. rewrite mult_INR, S_INR in B1. apply le_INR in Hp.
  eapply Rle_trans; [left; exact B1|].
  apply Rmult_le_compat; [pose proof (pos_INR u); lra|apply pos_INR|lra|exact Hp].
Qed.

(** without iterations of step zero the run ends by the gap test *)
Lemma main_C120_terminates : forall n (alpha : R) fg (L L0 tol low : R) max_iter (sg : R) i0 (r : fw_result RN),
  let x0 := vertex n (alpha * sg) i0 in
  0 < alpha -> (i0 < n)%nat -> Rabs sg <= 1 -> grad_ok n fg -> first_order n (objective fg) (gradient fg) ->
  smooth_upper n L (objective fg) (gradient fg) -> L <= L0 -> 0 < L0 -> 0 < tol ->
  (forall y, length y = n -> l1_ball alpha y -> low <= objective fg y) ->
  ((objective fg x0 - low) * (8 * (alpha * alpha) * L0) / (tol * tol) + 1) * INR ((2 * n + 1) ^ (2 * n + 1)) < INR max_iter ->
  @minimize_fw RN fg (l1_pairwise_oracle (K:=RN) alpha) FSDR (Some L0) tol max_iter None (@Pairwise RN (sg, i0)) x0 = Ok r ->
  (forall i : fw_iter RN, In i (fr_iters r) -> lmo_max_step (fi_lmo i) <> 0) ->
  fr_exit r = ExitGap /\
  forall y, length y = n -> l1_ball alpha y -> objective fg (fr_x r) - objective fg y <= tol.
Proof.
  intros n alpha fg L L0 tol low m sg i0 r x0 Ha Hi0 Hsg Hg Hf Hsm HL HL0 Ht Hlow Hm E Hnz.
  destruct (main_C120_moving_steps n alpha fg L L0 tol low m None sg i0 r Ha Hi0 Hsg Hg Hsm HL HL0 Ht Hlow E) as (A & B).
  destruct (run_all n alpha fg L L0 tol None sg i0 Ha Hi0 Hsg Hg Hsm HL HL0 Ht m r E) as (_ & _ & C1 & C2).
  assert (Hex : fr_exit r = ExitGap).
  { destruct (fr_exit r) eqn:Ex; [reflexivity|exfalso; exact (C2 eq_refl eq_refl)|exfalso].
    specialize (C1 eq_refl).
    assert (Hall : filter (fun i : fw_iter RN => if Req_EM_T (fi_step i) 0 then false else true) (fr_iters r) = fr_iters r).
    { rewrite Forall_forall in A. clear - A Hnz. induction (fr_iters r) as [|i l IH]; [reflexivity|]. cbn [filter].
      destruct (Req_EM_T (fi_step i) 0) as [E0|_].
      - exfalso. apply (Hnz i (or_introl eq_refl)). apply A; [left; reflexivity|exact E0].
      - rewrite IH; [reflexivity|intros j Hj; apply Hnz; right; exact Hj|intros j Hj; apply A; right; exact Hj]. }
    rewrite Hall, C1 in B. fold x0 in B. lra. }
  split; [exact Hex|]. intros y Hy Hby.
  destruct (main_C42_certificate_bound_pairwise n alpha fg FSDR (Some L0) tol m None sg i0 r (Rlt_le _ _ Ha) Hi0 Hsg Hg Hf HL0 E) as (_ & _ & C).
  specialize (C Hex y Hy Hby). rn. lra.
Qed.
