(** * FloatL2: L2Ball.prox in binary64 *)
From Coq Require Import ZArith Reals Lra Lia Bool List.
From Coq Require Import Floats.SpecFloat.
From Flocq Require Import Core.Core IEEE754.BinarySingleNaN.
From Verif Require Import Num Vec Spec SpecSparse RVec ModelConstraint FloatBase FloatSum FloatLogistic FloatGradMain FloatNorm FloatSimplex4 ConstraintFacts.
Import ListNotations.
Local Open Scope R_scope.

(** one entry, over the reals *)
Lemma inv_near (N w e : R) : 0 < N -> 0 <= e <= / 15 -> Rabs (w - N) <= e * N -> 0 < w /\ N / w <= 15 / 14 /\ Rabs (N / w - 1) <= 15 / 14 * e.
Proof.
  intros HN He Hw. apply Rabs_le_inv in Hw. assert (e * N <= / 15 * N) by (apply Rmult_le_compat_r; lra). assert (Pw : 0 < w) by lra.
  assert (B : N / w <= 15 / 14). { apply Rmult_le_reg_r with w; [exact Pw|]. unfold Rdiv at 1. rewrite Rmult_assoc, Rinv_l by lra. lra. }
  split; [exact Pw|]. split; [exact B|]. assert (P : 0 < N / w) by (unfold Rdiv; apply Rmult_lt_0_compat; [lra|apply Rinv_0_lt_compat; lra]).
  replace (N / w - 1) with ((N - w) / N * (N / w)) by (field; lra). rewrite Rabs_mult, (Rabs_right (N / w)) by lra.
  assert (C : Rabs ((N - w) / N) <= e). { unfold Rdiv. rewrite Rabs_mult, (Rabs_right (/ N)) by (left; apply Rinv_0_lt_compat; lra). apply Rmult_le_reg_r with N; [exact HN|]. rewrite Rmult_assoc, Rinv_l, Rmult_1_r by lra. apply Rabs_le. lra. }
  rewrite (Rmult_comm (15 / 14)). apply Rmult_le_compat; try lra. apply Rabs_pos.
Qed.
Lemma l2_entry (y N w e a r : R) : 0 < N -> 0 <= e <= / 15 -> Rabs (w - N) <= e * N ->
  Rabs (a - y) <= uro * Rabs y + eta -> Rabs (r - a / w) <= uro * Rabs (a / w) + eta ->
  Rabs (r - y / N) <= (2 * e + 3 * uro) * Rabs (y / N) + 2 * (eta / N) + eta.
Proof.
  intros HN He Hw Ha Hr. destruct (inv_near N w e HN He Hw) as (Pw & B1 & B2). pose proof uro_pos as U. pose proof eta_pos as T. assert (U1 : uro <= / 1000) by (rewrite uro_val; lra).
  set (q := y / N) in *. set (k := N / w) in *. assert (Pk : 0 < k) by (unfold k, Rdiv; apply Rmult_lt_0_compat; [lra|apply Rinv_0_lt_compat; lra]).
  set (b := a / N). assert (Eb : a / w = b * k) by (unfold b, k; field; lra).
  assert (Hb : Rabs (b - q) <= uro * Rabs q + eta / N).
  { unfold b, q. replace (a / N - y / N) with ((a - y) * / N) by (unfold Rdiv; ring). unfold Rdiv. rewrite !Rabs_mult, (Rabs_right (/ N)) by (left; apply Rinv_0_lt_compat; lra).
    rewrite <- Rmult_assoc, <- Rmult_plus_distr_r. apply Rmult_le_compat_r; [left; apply Rinv_0_lt_compat; lra|exact Ha]. }
  set (z := eta / N) in *. assert (Z0 : 0 <= z) by (unfold z, Rdiv; apply Rmult_le_pos; [lra|left; apply Rinv_0_lt_compat; lra]).
  rewrite Eb in Hr. pose proof (Rabs_pos q) as Q0.
  assert (D1 : Rabs (b * k - q) <= 15 / 14 * (uro * Rabs q + z) + 15 / 14 * e * Rabs q).
  { replace (b * k - q) with ((b - q) * k + (k - 1) * q) by ring. eapply Rle_trans; [apply Rabs_triang|]. rewrite !Rabs_mult, (Rabs_right k) by lra.
    apply Rplus_le_compat; [rewrite Rmult_comm; apply Rmult_le_compat; try lra; apply Rabs_pos|apply Rmult_le_compat_r; lra]. }
  assert (E1 : e * Rabs q <= / 15 * Rabs q) by (apply Rmult_le_compat_r; lra). assert (E0 : 0 <= e * Rabs q) by (apply Rmult_le_pos; lra).
  assert (U2 : uro * Rabs q <= / 1000 * Rabs q) by (apply Rmult_le_compat_r; lra). assert (U0 : 0 <= uro * Rabs q) by (apply Rmult_le_pos; lra).
  assert (D2 : Rabs (b * k) <= 6 / 5 * Rabs q + 15 / 14 * z). { replace (b * k) with ((b * k - q) + q) by ring. eapply Rle_trans; [apply Rabs_triang|]. lra. }
  assert (D3 : uro * Rabs (b * k) <= uro * (6 / 5 * Rabs q + 15 / 14 * z)) by (apply Rmult_le_compat_l; lra).
  assert (D4 : uro * z <= / 1000 * z) by (apply Rmult_le_compat_r; lra).
  replace (r - q) with ((r - b * k) + (b * k - q)) by ring. eapply Rle_trans; [apply Rabs_triang|]. lra.
Qed.
Lemma Rleb_gt a b : Rleb a b = false -> b < a.
Proof. destruct (Rleb_spec a b); [discriminate|auto]. Qed.
Lemma l2_nth_R (al : R) (x : list R) i : (i < length x)%nat ->
  nth i (@l2_prox RN al x) 0 = (if Rleb (norm2 x) al then nth i x 0 else al * nth i x 0 / norm2 x).
Proof.
  intros Hi. unfold l2_prox. replace (nsqrt RN (vsum (map nsq (x : list RN)))) with (norm2 x) by (rewrite <- (vdot_sq (K:=RN)), vdot_R; reflexivity).
  change (nleb RN (norm2 x) al) with (Rleb (norm2 x) al). destruct (Rleb (norm2 x) al); [reflexivity|].
  change (nth i (map (fun t : R => al * t / norm2 x) x) 0 = al * nth i x 0 / norm2 x).
  rewrite (nth_indep _ 0 (al * 0 / norm2 x)) by (rewrite map_length; exact Hi). apply (map_nth (fun t : R => al * t / norm2 x)).
Qed.
Definition l2err (n : nat) (p : R) : R := (8 * INR n + 40) * / 2 ^ 53 * Rabs p + powerRZ 2 (-620).
Lemma rabs_mul_pos a b : 0 <= a -> Rabs (a * b) = a * Rabs b.
Proof. intros H. rewrite Rabs_mult, (Rabs_pos_eq a) by exact H. reflexivity. Qed.
(** the four cases of the two comparisons, for one entry *)
Lemma l2_cases (al x N w e r T : R) (cw cn : bool) : 0 < N -> 0 <= e <= / 15 -> 0 <= T -> 0 <= al -> Rabs (w - N) <= e * N ->
  (if cw then w <= al else al < w) -> (if cn then N <= al else al < N) ->
  (if cw then r = x else Rabs (r - al * x / N) <= (2 * e + 3 * uro) * Rabs (al * x / N) + T) ->
  Rabs (r - (if cn then x else al * x / N)) <= (4 * e + 16 * uro) * Rabs (if cn then x else al * x / N) + T.
Proof.
  intros HN He HT Ha Hw Cw Cn Hr. pose proof uro_pos as U. assert (U1 : uro <= / 1000) by (rewrite uro_val; lra). apply Rabs_le_inv in Hw.
  assert (E15 : e * N <= / 15 * N) by (apply Rmult_le_compat_r; lra).
  set (c := al / N). assert (Ec : al * x / N = c * x) by (unfold c; field; lra). rewrite Ec in *.
  assert (Hc : c * N = al) by (unfold c; field; lra). assert (C0 : 0 <= c) by (unfold c, Rdiv; apply Rmult_le_pos; [lra|left; apply Rinv_0_lt_compat; lra]).
  pose proof (Rabs_pos x) as X0.
  destruct cw, cn.
  - subst r. replace (x - x) with 0 by ring. rewrite Rabs_R0. assert (0 <= (4 * e + 16 * uro) * Rabs x) by (apply Rmult_le_pos; lra). lra.
  - (* float inside, exact outside: 1 - e <= c < 1 *)
    subst r. assert (C1 : 1 - e <= c). { apply Rmult_le_reg_r with N; [exact HN|]. rewrite Hc. lra. }
    assert (C2 : c <= 1). { apply Rmult_le_reg_r with N; [exact HN|]. rewrite Hc. lra. }
    replace (x - c * x) with ((1 - c) * x) by ring. rewrite !rabs_mul_pos by lra.
    assert (K1 : (1 - c) * Rabs x <= e * Rabs x) by (apply Rmult_le_compat_r; lra).
    assert (K2 : (1 - e) * Rabs x <= c * Rabs x) by (apply Rmult_le_compat_r; lra).
    assert (K3 : e * ((1 - e) * Rabs x) <= e * (c * Rabs x)) by (apply Rmult_le_compat_l; lra).
    assert (K4 : e * (e * Rabs x) <= / 15 * (e * Rabs x)) by (apply Rmult_le_compat_r; [apply Rmult_le_pos; lra|lra]).
    assert (K5 : 0 <= uro * (c * Rabs x)) by (apply Rmult_le_pos; [lra|apply Rmult_le_pos; lra]).
    assert (K6 : 0 <= e * Rabs x) by (apply Rmult_le_pos; lra). lra.
  - (* float outside, exact inside: 1 <= c <= 1 + e *)
    assert (C1 : c <= 1 + e). { apply Rmult_le_reg_r with N; [exact HN|]. rewrite Hc. lra. }
    assert (C2 : 1 <= c). { apply Rmult_le_reg_r with N; [exact HN|]. rewrite Hc. lra. }
    rewrite rabs_mul_pos in Hr by exact C0.
    replace (r - x) with ((r - c * x) + (c - 1) * x) by ring. eapply Rle_trans; [apply Rabs_triang|]. rewrite (rabs_mul_pos (c - 1)) by lra.
    assert (K1 : (c - 1) * Rabs x <= e * Rabs x) by (apply Rmult_le_compat_r; lra).
    assert (K2 : c * Rabs x <= 16 / 15 * Rabs x) by (apply Rmult_le_compat_r; lra).
    assert (K3 : (2 * e + 3 * uro) * (c * Rabs x) <= (2 * e + 3 * uro) * (16 / 15 * Rabs x)) by (apply Rmult_le_compat_l; lra).
    assert (K6 : 0 <= e * Rabs x) by (apply Rmult_le_pos; lra). assert (K7 : 0 <= uro * Rabs x) by (apply Rmult_le_pos; lra). lra.
  - eapply Rle_trans; [exact Hr|]. assert ((2 * e + 3 * uro) * Rabs (c * x) <= (4 * e + 16 * uro) * Rabs (c * x)) by (apply Rmult_le_compat_r; [apply Rabs_pos|lra]). lra.
Qed.
Lemma powZ_bpow e : powerRZ 2 e = bpow radix2 e.
Proof. symmetry. apply bpow_powerRZ. Qed.
Lemma main_C129_accuracy_partial : forall (alpha : F64) (x : list F64) (p : list R),
  fin alpha -> 0 <= fv alpha -> Forall fin x -> INR (length x) <= 2 ^ 48 -> powerRZ 2 (-450) <= norm2 (map fv x) <= powerRZ 2 500 ->
  is_projection (l2_ball (fv alpha)) (map fv x) p ->
  length (l2_prox alpha x) = length x /\
  forall i, (i < length x)%nat -> fin (nth i (l2_prox alpha x) n0) /\
    Rabs (fv (nth i (l2_prox alpha x) n0) - nth i p 0) <= (8 * INR (length x) + 40) * / 2 ^ 53 * Rabs (nth i p 0) + powerRZ 2 (-620).
Proof.
  intros alpha x p Fa Ha Fx Hn HN Hp. rewrite !powZ_bpow in HN. destruct (l2_prox_full (fv alpha) (map fv x) Ha) as (Hq & _). rewrite (projection_unique _ _ _ _ Hp Hq). clear p Hp Hq.
  pose proof (l2_nth_R (fv alpha) (map fv x)) as Pn. rewrite map_length in Pn. set (p := @l2_prox RN (fv alpha) (map fv x)) in *. clearbody p.
  set (n := length x) in *. pose proof (enorm_small n Hn) as En. pose proof uro_pos as U. pose proof eta_pos as Et. assert (U1 : uro <= / 1000) by (rewrite uro_val; lra).
  set (N := norm2 (map fv x)) in *. assert (EN : N = sqrt (sqs x)) by (unfold N, norm2; rewrite sqs_dot; reflexivity).
  assert (N0 : 0 < N) by (pose proof (bpow_gt_0 radix2 (-450)); lra).
  assert (ES : sqs x = N * N) by (rewrite EN; symmetry; apply sqrt_sqrt, sqs_pos).
  assert (Hsq : bpow radix2 (-900) <= sqs x <= bpow radix2 1000).
  { rewrite ES. change (-900)%Z with (-450 + -450)%Z. change 1000%Z with (500 + 500)%Z. rewrite !bpow_plus. pose proof (bpow_gt_0 radix2 (-450)). split; apply Rmult_le_compat; lra. }
  destruct (norm_err x Fx Hn Hsq) as (Fw & Ew). rewrite <- EN in Ew. fold n in Ew. unfold l2_prox. set (w := nsqrt F64 (vsum (map nsq x))) in *.
  destruct (inv_near N (fv w) (enorm n) N0 En Ew) as (Pw & B1 & B2). rewrite (leb_fin w alpha Fw Fa).
  split; [destruct (Rleb (fv w) (fv alpha)); [reflexivity|apply map_length]|]. intros i Hi.
  pose proof (entry_le x i) as Xi. rewrite ES in Xi. set (xi := nth i x n0) in *.
  assert (Fi : fin xi) by (unfold xi; rewrite Forall_forall in Fx; apply Fx, nth_In, Hi).
  assert (Ai : Rabs (fv xi) <= N) by (apply Rsqr_incr_0_var; [rewrite <- Rsqr_abs; exact Xi|lra]).
  assert (ELn : nth i (map fv x) 0 = fv xi) by (unfold xi; symmetry; apply fv_nth).
  assert (EtN : 2 * (eta / N) + eta <= powerRZ 2 (-620)).
  { rewrite powZ_bpow. assert (I : / N <= bpow radix2 450). { replace (bpow radix2 450) with (/ bpow radix2 (-450)) by (rewrite <- bpow_opp; reflexivity). apply Rinv_le_contravar; [apply bpow_gt_0|apply HN]. }
    assert (eta / N <= bpow radix2 (-1075) * bpow radix2 450) by (unfold Rdiv, eta; apply Rmult_le_compat_l; [left; apply bpow_gt_0|exact I]). rewrite <- bpow_plus in H.
    assert (eta <= bpow radix2 (-625)) by (unfold eta; apply bpow_le; lia). assert (E32 : bpow radix2 (-620) = 32 * bpow radix2 (-625)) by (change (-620)%Z with (5 + -625)%Z; rewrite bpow_plus; reflexivity).
    change (-1075 + 450)%Z with (-625)%Z in H. pose proof (bpow_gt_0 radix2 (-625)). lra. }
  assert (T0 : 0 <= powerRZ 2 (-620)) by (rewrite powZ_bpow; left; apply bpow_gt_0).
  assert (Main : let r := nth i (if Rleb (fv w) (fv alpha) then x else map (fun t => (alpha * t / w)%num) x) n0 in
    fin r /\ (if Rleb (fv w) (fv alpha) then fv r = fv xi else Rabs (fv r - fv alpha * fv xi / N) <= (2 * enorm n + 3 * uro) * Rabs (fv alpha * fv xi / N) + powerRZ 2 (-620))).
  { destruct (Rleb (fv w) (fv alpha)) eqn:C; [split; [exact Fi|reflexivity]|]. apply Rleb_gt in C. cbv zeta.
    assert (Er : nth i (map (fun t => (alpha * t / w)%num) x) n0 = ndiv F64 (nmul F64 alpha xi) w).
    { rewrite (nth_indep _ n0 (ndiv F64 (nmul F64 alpha n0) w)) by (rewrite map_length; exact Hi). apply (map_nth (fun t : F64 => ndiv F64 (nmul F64 alpha t) w)). }
    rewrite Er. apply Rabs_le_inv in Ew. assert (E15 : enorm n * N <= / 15 * N) by (apply Rmult_le_compat_r; lra).
    assert (Bp : Rabs (fv alpha * fv xi) <= bpow radix2 1001).
    { rewrite rabs_mul_pos by exact Ha. replace (bpow radix2 1001) with (2 * bpow radix2 500 * bpow radix2 500); [apply Rmult_le_compat; try lra; apply Rabs_pos|]. change 2 with (bpow radix2 1) at 1. rewrite <- !bpow_plus. reflexivity. }
    destruct (mul_fin alpha xi Fa Fi) as (Fm & Vm); [apply rnd_fits; eapply Rle_trans; [exact Bp|apply bpow_le; lia]|].
    pose proof (rnd_err (fv alpha * fv xi)) as Em. rewrite <- Vm in Em.
    assert (Bq : Rabs (fv (nmul F64 alpha xi) / fv w) <= bpow radix2 1023).
    { unfold Rdiv. rewrite Rabs_mult, (Rabs_right (/ fv w)) by (left; apply Rinv_0_lt_compat; lra).
      assert (M1 : Rabs (fv (nmul F64 alpha xi)) <= 2 * (fv w * N) + eta).
      { replace (fv (nmul F64 alpha xi)) with ((fv (nmul F64 alpha xi) - fv alpha * fv xi) + fv alpha * fv xi) by ring. eapply Rle_trans; [apply Rabs_triang|].
        assert (Q1 : Rabs (fv alpha * fv xi) <= fv w * N) by (rewrite rabs_mul_pos by exact Ha; apply Rmult_le_compat; try lra; apply Rabs_pos). pose proof (Rabs_pos (fv alpha * fv xi)) as Q0.
        assert (uro * Rabs (fv alpha * fv xi) <= 1 * Rabs (fv alpha * fv xi)) by (apply Rmult_le_compat_r; lra). lra. }
      apply Rle_trans with ((2 * (fv w * N) + eta) * / fv w); [apply Rmult_le_compat_r; [left; apply Rinv_0_lt_compat; lra|exact M1]|].
      replace ((2 * (fv w * N) + eta) * / fv w) with (2 * N + eta / N * (N / fv w)) by (field; lra).
      assert (Z : 0 <= eta / N) by (unfold Rdiv; apply Rmult_le_pos; [lra|left; apply Rinv_0_lt_compat; lra]).
      assert (P20 : powerRZ 2 (-620) <= bpow radix2 500) by (rewrite powZ_bpow; apply bpow_le; lia).
      assert (eta / N * (N / fv w) <= eta / N * (15 / 14)) by (apply Rmult_le_compat_l; lra).
      assert (E4 : bpow radix2 502 = 4 * bpow radix2 500) by (change 502%Z with (2 + 500)%Z; rewrite bpow_plus; reflexivity).
      apply Rle_trans with (bpow radix2 502); [lra|apply bpow_le; lia]. }
    destruct (div_fin (nmul F64 alpha xi) w Fm Fw ltac:(lra)) as (Fd & Vd); [apply rnd_fits, Bq|]. split; [exact Fd|].
    pose proof (rnd_err (fv (nmul F64 alpha xi) / fv w)) as Ed. rewrite <- Vd in Ed.
    pose proof (l2_entry (fv alpha * fv xi) N (fv w) (enorm n) _ _ N0 En ltac:(apply Rabs_le; lra) Em Ed). lra. }
  destruct Main as (Fr & Hr). split; [exact Fr|].
  rewrite Pn by exact Hi. fold N. rewrite ELn.
  eapply Rle_trans; [apply (l2_cases (fv alpha) (fv xi) N (fv w) (enorm n) _ (powerRZ 2 (-620)) (Rleb (fv w) (fv alpha)) (Rleb N (fv alpha)) N0 En T0 Ha Ew)|].
  - destruct (Rleb (fv w) (fv alpha)) eqn:C; [apply Rleb_iff in C; exact C|apply Rleb_gt in C; lra].
  - destruct (Rleb N (fv alpha)) eqn:C; [apply Rleb_iff in C; exact C|apply Rleb_gt in C; lra].
  - exact Hr.
  - rewrite <- uro_pow. apply Rplus_le_compat_r. apply Rmult_le_compat_r; [apply Rabs_pos|]. unfold enorm. lra.
Qed.
