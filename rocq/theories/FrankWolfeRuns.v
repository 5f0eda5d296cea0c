(** * Frank-Wolfe on the l1 ball: end-to-end corollaries and concrete runs *)
From Coq Require Import ZArith QArith Reals List Bool Lra Lia Psatz.
From Verif Require Import Num Vec Spec RVec ModelConstraint ModelFrankWolfe ConvexFacts ConstraintFacts ProxGradMain FrankWolfeFacts FrankWolfeConv FrankWolfeMain FrankWolfeMain2.
Import ListNotations.
Open Scope R_scope.

Lemma l1_nonneg (x : list R) : 0 <= l1 x.
Proof. induction x as [|a x IH]; cbn [l1 map Rsum]; [lra|]. pose proof (Rabs_pos a). lra. Qed.
Lemma dot_self_l1 (x : list R) : dot x x <= l1 x * l1 x.
Proof.
  induction x as [|a x IH]; cbn [dot l1]; [lra|]. pose proof (Rabs_pos a). pose proof (l1_nonneg x).
  assert (a * a = Rabs a * Rabs a) by (unfold Rabs; destruct (Rcase_abs a); lra).
  assert (0 <= Rabs a * l1 x) by (apply Rmult_le_pos; assumption). lra.
Qed.
Lemma l1_vminus (x y : list R) : length x = length y -> l1 (vminus x y) <= l1 x + l1 y.
Proof.
  revert y. induction x as [|a x IH]; destruct y as [|b y]; intros H; try discriminate H; cbn; [lra|].
  injection H as H. specialize (IH y H). unfold vminus in IH.
  pose proof (Rabs_triang (1 * a) (-1 * b)) as T. rewrite !Rabs_mult, Rabs_R1 in T. rewrite (Rabs_left (-1)) in T by lra. lra.
Qed.
Lemma l1_diameter n alpha : 0 <= alpha -> diameter2 n (l1_ball alpha) (4 * (alpha * alpha)).
Proof.
  intros Ha x y Hx Hy Hbx Hby. unfold l1_ball in *.
  assert (H : dist2 x y = dot (vminus x y) (vminus x y)) by (apply dist2_dot; congruence).
  rewrite H. eapply Rle_trans; [apply dot_self_l1|].
  pose proof (l1_vminus x y ltac:(congruence)). pose proof (l1_nonneg (vminus x y)).
  assert (l1 (vminus x y) <= 2 * alpha) by lra.
  replace (4 * (alpha * alpha)) with ((2 * alpha) * (2 * alpha)) by ring. apply Rmult_le_compat; assumption.
Qed.

(** a run without callback that is not already within tol moves *)
Lemma run_moves n dom fg lmo step lipschitz tol max_iter x0 (r : fw_result RN) y :
  grad_ok n fg -> lmo_exact n dom lmo -> first_order n (objective fg) (gradient fg) ->
  length x0 = n -> dom x0 -> length y = n -> dom y -> tol < objective fg x0 - objective fg y ->
  minimize_fw fg lmo step lipschitz tol max_iter None Vanilla x0 = Ok r -> fr_iters r <> [].
Proof.
  intros Hg Hl Hf Hx Hd Hy Hdy Hgap E. apply minimize_fw_loop in E as (_ & a & -> & E).
  refine (@fw_loop_ind RN fg lmo step lipschitz tol None (fun it s => fw_inv fg lmo tol x0 it s)
    (fun r => fr_iters r <> []) max_iter _ max_iter 0 _ r _ _ E).
  2:{ lia. } 2:{ apply fw_inv_init. }
  intros it s o Hit Hv Ho. cbv zeta. split.
  - intros Hc. apply Rleb_iff in Hc. cbn [fr_iters fw_finish fs_iters with_lip]. intros Hnil.
    destruct Hv as (V1 & V2 & _). rewrite Hnil in V2. cbn [fw_last] in V2.
    assert (Hgs : fs_grad s = gradient fg (fs_x s)) by (unfold gradient; rewrite <- V1; reflexivity).
    rewrite Hgs, V2 in Hc, Ho.
    pose proof (gap_bound n dom (objective fg) (gradient fg) lmo x0 y o _ Hg Hf Hl Hx Hd Hy Hdy Ho) as G. lra.
  - intros Hc ss lip' fgn found log1 Hs stop log2 Hcb. cbn [cb_call] in Hcb. injection Hcb as <- _.
    split; [intros Hst; discriminate Hst|]. intros _ act Hact. split; [eapply fw_inv_step; eassumption|].
    intros _. discriminate.
Qed.

(** C47 with the model's own oracle *)
Lemma main_C47_l1_ball : forall n (alpha L : R) fg tol max_iter x0 y,
  (0 < n)%nat -> 0 <= alpha -> 0 < L -> 0 <= tol -> (0 < max_iter)%nat ->
  grad_ok n fg -> first_order n (objective fg) (gradient fg) -> smooth_upper n L (objective fg) (gradient fg) ->
  length x0 = n -> l1_ball alpha x0 -> length y = n -> l1_ball alpha y ->
  exists r : fw_result RN,
    minimize_fw fg (l1_oracle (K:=RN) alpha) FSDR (Some L) tol max_iter None Vanilla x0 = Ok r /\
    l1_ball alpha (fr_x r) /\ (length (fr_iters r) <= max_iter)%nat /\
    (objective fg (fr_x r) - objective fg y <= tol \/
     objective fg (fr_x r) - objective fg y <= 8 * L * (alpha * alpha) / (INR max_iter + 2)).
Proof.
  intros n alpha L fg tol m x0 y Hn Ha HL Ht Hm Hg Hf Hsm Hx Hb Hy Hby.
  destruct (main_C77_l1_oracle_partial n alpha Hn Ha) as (Hl & Hc).
  destruct (main_C41_returns n (l1_ball alpha) fg (l1_oracle (K:=RN) alpha) FSDR (Some L) tol m None x0 Hg Hc (lmo_exact_feasible _ _ _ Hl) Hx Hb HL Ht Hm) as (r & E).
  { discriminate. }
  exists r. split; [exact E|].
  pose proof (main_C41_feasible n (l1_ball alpha) fg (l1_oracle (K:=RN) alpha) FSDR (Some L) tol m None x0 r Hg Hc (lmo_exact_feasible _ _ _ Hl) Hx Hb HL E) as (F & _).
  split; [exact F|].
  pose proof (main_C49_certificate_partial RN fg (l1_oracle (K:=RN) alpha) FSDR (Some L) tol m None Vanilla x0 r E) as H49.
  destruct (main_C42_certificate_bound n (l1_ball alpha) fg (l1_oracle (K:=RN) alpha) FSDR (Some L) tol m None x0 r Hg Hc Hl Hf Hx Hb HL E) as (_ & _ & H42).
  assert (Hlen : (length (fr_iters r) <= m)%nat /\ fr_exit r <> ExitCallback).
  { pose proof E as E'. apply minimize_fw_loop in E' as (_ & a & _ & E').
    refine (@fw_loop_ind RN fg _ FSDR (Some L) tol None (fun it s => fw_inv fg _ tol x0 it s)
      (fun r => (length (fr_iters r) <= m)%nat /\ fr_exit r <> ExitCallback) m _ m 0 _ r _ _ E').
    2:{ lia. } 2:{ apply fw_inv_init. }
    intros it s o Hit Hv Ho. cbv zeta. assert (Hlen : length (fs_iters s) = it) by apply Hv. split.
    - intros _. cbn. split; [lia|discriminate].
    - intros Hcc ss lip' fgn found log1 Hs stop log2 Hcb. cbn [cb_call] in Hcb. injection Hcb as <- _. split; [intros Hst; discriminate Hst|].
      intros _ act Hact. split; [eapply fw_inv_step; eassumption|]. intros _. cbn. split; [lia|discriminate]. }
  destruct Hlen as (Hlen & Hnc). split; [exact Hlen|].
  destruct (fr_exit r) eqn:Ex.
  - left. destruct (H42 eq_refl y Hy Hby) as (A & B). lra.
  - congruence.
  - right. destruct H49 as (i & rest & Hi & _ & _ & _ & Hk).
    pose proof (main_C47_rate_DR n (l1_ball alpha) fg (l1_oracle (K:=RN) alpha) L L (4 * (alpha * alpha)) tol m None x0 r y Hg Hc Hl Hf Hsm (Rle_refl L) HL (l1_diameter n alpha Ha) Hx Hb Hy Hby E) as R.
    rewrite Hk in R. replace (8 * L * (alpha * alpha)) with (2 * (L * (4 * (alpha * alpha)))) by ring. apply R. rewrite Hi. discriminate.
Qed.

(** f(x) = |x|^2/2, any dimension, meets all hypotheses *)
Definition sq_fg (x : vec RN) : RN * vec RN := (sq x, x).
Lemma sq_fw_hyps n alpha x0 : (0 < n)%nat -> 0 <= alpha -> length x0 = n ->
  grad_ok n sq_fg /\ first_order n (objective sq_fg) (gradient sq_fg) /\ smooth_upper n 1 (objective sq_fg) (gradient sq_fg) /\
  curvature n (l1_ball alpha) (objective sq_fg) (gradient sq_fg) (4 * (alpha * alpha)) /\ step_hyp sq_fg x0 FSBacktracking (Some 1).
Proof.
  intros Hn Ha Hx. split; [intros x H; exact H|]. split; [intros x y A B; exact (sq_first_order n x y A B)|].
  split; [intros x y A B; exact (sq_smooth n x y A B)|]. split.
  - intros x s t A B C D Ht. change (objective sq_fg) with sq. change (gradient sq_fg x) with x.
    pose proof (sq_smooth n x (lin (1 - t) x t s) A ltac:(rewrite lin_length; lia)) as S1.
    assert (E : vminus (lin (1 - t) x t s) x = smul t (vminus s x)).
    { apply list_ext with (d := 0); [leng|]. intros i Hi. unfold vminus. rewrite nth_smul, !nth_lin by leng. ring. }
    rewrite dist2_dot in S1 by (rewrite lin_length; lia). rewrite ?E in S1. rewrite ?dot_smul_r, ?dot_smul_l in S1.
    pose proof (l1_diameter n alpha Ha s x B A D C) as H. rewrite dist2_dot in H by congruence.
    assert (t * t * dot (vminus s x) (vminus s x) <= t * t * (4 * (alpha * alpha))).
    { apply Rmult_le_compat_l; [nra|exact H]. }
    lra.
  - cbn. rn. lra.
Qed.
Lemma sq_fw_run n alpha x0 step m : (0 < n)%nat -> 0 <= alpha -> length x0 = n -> l1_ball alpha x0 -> 0 < sq x0 -> (0 < m)%nat ->
  step = FSBacktracking \/ step = FSDR \/ step = FSSublinear ->
  exists r : fw_result RN, minimize_fw sq_fg (l1_oracle (K:=RN) alpha) step (Some 1) 0 m None Vanilla x0 = Ok r /\ fr_iters r <> [].
Proof.
  intros Hn Ha Hx Hb Hp Hm Hs. destruct (sq_fw_hyps n alpha x0 Hn Ha Hx) as (Hg & Hf & Hsm & _ & Hst).
  destruct (main_C77_l1_oracle_partial n alpha Hn Ha) as (Hl & Hc).
  destruct (main_C41_returns n (l1_ball alpha) sq_fg (l1_oracle (K:=RN) alpha) step (Some 1) 0 m None x0 Hg Hc (lmo_exact_feasible _ _ _ Hl) Hx Hb) as (r & E); auto.
  { destruct Hs as [->|[->| ->]]; [exact Hst|exact Hst|exact I]. } { lra. }
  { destruct Hs as [->|[->| ->]]; [exact I|discriminate|exact I]. }
  exists r. split; [exact E|].
  assert (Hz : length (zeros n) = n) by apply zeros_length.
  assert (Hbz : l1_ball alpha (zeros n)).
  { unfold l1_ball. replace (l1 (zeros n)) with 0; [exact Ha|]. clear. induction n as [|n IH]; cbn; [reflexivity|]. unfold zeros in IH. rewrite <- IH, Rabs_R0. ring. }
  apply (run_moves n (l1_ball alpha) sq_fg (l1_oracle (K:=RN) alpha) step (Some 1) 0 m x0 r (zeros n)); auto.
  change (objective sq_fg) with sq. unfold sq at 2. rewrite dot_zeros_r. lra.
Qed.
(** pairwise: the hypotheses hold from every signed coordinate vector *)
Lemma sq_fw_pairwise n alpha i0 m : (i0 < n)%nat -> 0 <= alpha -> (0 < m)%nat ->
  exists r : fw_result RN, minimize_fw sq_fg (l1_pairwise_oracle (K:=RN) alpha) FSBacktracking (Some 1) 0 m None (@Pairwise RN (1, i0)) (vertex n (alpha * 1) i0) = Ok r.
Proof.
  intros Hi Ha Hm. apply (main_C45_returns n alpha sq_fg FSBacktracking (Some 1) 0 m None 1 i0 Ha Hi); auto.
  - rewrite Rabs_R1. lra.
  - intros x H; exact H.
  - cbn. rn. lra.
  - lra.
Qed.
