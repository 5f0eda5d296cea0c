(** * The values of SquareLoss and HuberLoss over IEEE binary64: rounding of the last operations *)
From Coq Require Import Reals Lra Lia List Bool ZArith.
From Coq Require Import Floats.SpecFloat.
From Verif Require Import Num Vec Spec RVec SpecLoss ModelTv ModelLoss LossFacts FloatBase FloatRuns FloatSum FloatSimplex2 FloatSimplex4 FloatLogistic FloatLogistic2 FloatNorm FloatGrad FloatGradMain FloatLoss FloatLossMain.
From Flocq Require Import Core.Core IEEE754.BinarySingleNaN.
Import ListNotations.
Local Open Scope R_scope.

(** one more rounding *)
Lemma rstep (k e a A B : R) : 0 <= k -> 0 <= e -> Rabs A <= B -> Rabs (a - A) <= k * uro * B + e ->
  Rabs (rnd a - A) <= (k + 1 + k / 1000) * uro * B + (1 + / 1000) * e + eta.
Proof.
  intros Hk He HA Ha. pose proof (rnd_err a) as R1. pose proof uro_pos as U. assert (U1 : uro <= / 1000) by (rewrite uro_val; lra).
  assert (B1 : Rabs a <= B + (k * uro * B + e)) by (replace a with (A + (a - A)) by ring; eapply Rle_trans; [apply Rabs_triang|]; lra).
  pose proof (Rabs_pos A) as P0. assert (M : uro * Rabs a <= uro * B + uro * (k * uro * B) + uro * e) by (rewrite <- !Rmult_plus_distr_l; apply Rmult_le_compat_l; lra).
  assert (Q : 0 <= k * uro * B) by (apply Rmult_le_pos; [apply Rmult_le_pos|]; lra).
  assert (M1 : uro * (k * uro * B) <= / 1000 * (k * uro * B)) by (apply Rmult_le_compat_r; lra).
  assert (M2 : uro * e <= / 1000 * e) by (apply Rmult_le_compat_r; lra).
  replace (rnd a - A) with ((rnd a - a) + (a - A)) by ring. eapply Rle_trans; [apply Rabs_triang|].
  replace ((k + 1 + k / 1000) * uro * B) with (k * uro * B + uro * B + / 1000 * (k * uro * B)) by (unfold Rdiv; ring). lra.
Qed.
Lemma scale_step (c k e a A B : R) : 0 <= c <= 1 -> 0 <= e -> Rabs (a - A) <= k * uro * B + e -> Rabs (c * a - c * A) <= k * uro * (c * B) + e.
Proof.
  intros Hc He H. rewrite <- Rmult_minus_distr_l, Rabs_mult, (Rabs_right c) by lra.
  apply Rle_trans with (c * (k * uro * B + e)); [apply Rmult_le_compat_l; lra|]. assert (c * e <= 1 * e) by (apply Rmult_le_compat_r; lra).
  replace (c * (k * uro * B + e)) with (k * uro * (c * B) + c * e) by ring. lra.
Qed.
Lemma add_step (k1 k2 e1 e2 a1 a2 A1 A2 B1 B2 : R) : 0 <= k1 -> k1 <= k2 -> 0 <= B1 -> Rabs (a1 - A1) <= k1 * uro * B1 + e1 -> Rabs (a2 - A2) <= k2 * uro * B2 + e2 ->
  Rabs ((a1 + a2) - (A1 + A2)) <= k2 * uro * (B1 + B2) + (e1 + e2).
Proof.
  intros K1 K2 P H1 H2. pose proof uro_pos as U. assert (k1 * (uro * B1) <= k2 * (uro * B1)) by (apply Rmult_le_compat_r; [apply Rmult_le_pos; lra|exact K2]).
  replace (a1 + a2 - (A1 + A2)) with ((a1 - A1) + (a2 - A2)) by ring. eapply Rle_trans; [apply Rabs_triang|].
  replace (k2 * uro * (B1 + B2)) with (k2 * (uro * B1) + k2 * uro * B2) by ring. lra.
Qed.
Lemma more (k k' e e' B r : R) : 0 <= B -> k <= k' -> e <= e' -> r <= k * uro * B + e -> r <= k' * uro * B + e'.
Proof. intros HB Hk He H. pose proof uro_pos as U. assert (k * (uro * B) <= k' * (uro * B)) by (apply Rmult_le_compat_r; [apply Rmult_le_pos; lra|exact Hk]). lra. Qed.
(** 0.5 * mean + 0.5 * (alpha * D) *)
Lemma sq_round (s al D n : R) : 1 <= n ->
  Rabs (rnd (rnd (/ 2 * rnd (s / n)) + rnd (/ 2 * rnd (al * D))) - (/ 2 * (s / n) + / 2 * (al * D)))
  <= 6 * uro * (/ 2 * (Rabs s / n) + / 2 * Rabs (al * D)) + 8 * eta.
Proof.
  intros Hn. pose proof uro_pos as U. pose proof eta_pos as H0.
  assert (G : forall t, Rabs (rnd (/ 2 * rnd t) - / 2 * t) <= (21 / 10) * uro * (/ 2 * Rabs t) + 3 * eta).
  { intros t. pose proof (rnd_err t) as R1. assert (R2 : Rabs (rnd t - t) <= 1 * uro * Rabs t + eta) by lra.
    pose proof (scale_step (/ 2) 1 eta (rnd t) t (Rabs t) ltac:(lra) ltac:(lra) R2) as R3.
    assert (HA : Rabs (/ 2 * t) <= / 2 * Rabs t) by (rewrite Rabs_mult, (Rabs_right (/ 2)) by lra; lra).
    pose proof (rstep 1 eta _ _ _ ltac:(lra) ltac:(lra) HA R3) as R4. pose proof (Rabs_pos t).
    apply (more (1 + 1 + 1 / 1000) _ ((1 + / 1000) * eta + eta)); lra. }
  assert (D1 : Rabs (s / n) = Rabs s / n) by (unfold Rdiv; rewrite Rabs_mult, (Rabs_right (/ n)); [reflexivity|]; left; apply Rinv_0_lt_compat; lra).
  pose proof (G (s / n)) as G1. pose proof (G (al * D)) as G2. pose proof (Rabs_pos (s / n)) as P1. pose proof (Rabs_pos (al * D)) as P2.
  pose proof (add_step (21/10) (21/10) (3 * eta) (3 * eta) _ _ _ _ (/ 2 * Rabs (s / n)) _ ltac:(lra) ltac:(lra) ltac:(lra) G1 G2) as G3.
  assert (HA : Rabs (/ 2 * (s / n) + / 2 * (al * D)) <= / 2 * Rabs (s / n) + / 2 * Rabs (al * D)).
  { eapply Rle_trans; [apply Rabs_triang|]. rewrite !Rabs_mult, (Rabs_right (/ 2)) by lra. lra. }
  pose proof (rstep (21/10) (3 * eta + 3 * eta) _ _ _ ltac:(lra) ltac:(lra) HA G3) as G4. rewrite <- D1.
  apply (more (21/10 + 1 + 21/10/1000) _ ((1 + / 1000) * (3 * eta + 3 * eta) + eta)); lra.
Qed.
(** (0.5 * s1 + s2) / n + (0.5 * alpha) * D *)
Lemma hub_round (s1 s2 al D n : R) : 1 <= n ->
  Rabs (rnd (rnd (rnd (rnd (/ 2 * s1) + s2) / n) + rnd (rnd (/ 2 * al) * D)) - ((/ 2 * s1 + s2) / n + / 2 * (al * D)))
  <= 6 * uro * ((/ 2 * Rabs s1 + Rabs s2) / n + / 2 * Rabs (al * D)) + 8 * eta * (1 + Rabs D).
Proof.
  intros Hn. pose proof uro_pos as U. pose proof eta_pos as H0. assert (I : 0 < / n <= 1) by (split; [apply Rinv_0_lt_compat; lra|]; rewrite <- Rinv_1; apply Rinv_le_contravar; lra).
  pose proof (Rabs_pos s1) as P1. pose proof (Rabs_pos s2) as P2. pose proof (Rabs_pos D) as PD. pose proof (Rabs_pos al) as Pa. pose proof (Rabs_pos (al * D)) as Pad.
  assert (H2 : forall t, Rabs (/ 2 * t) = / 2 * Rabs t) by (intros t; rewrite Rabs_mult, (Rabs_right (/ 2)) by lra; reflexivity).
  (* the samples *)
  pose proof (rnd_err (/ 2 * s1)) as R1. rewrite H2 in R1. assert (R1' : Rabs (rnd (/ 2 * s1) - / 2 * s1) <= 1 * uro * (/ 2 * Rabs s1) + eta) by lra.
  assert (R2' : Rabs (s2 - s2) <= 1 * uro * Rabs s2 + 0) by (rewrite Rminus_diag_eq, Rabs_R0 by reflexivity; assert (0 <= uro * Rabs s2) by (apply Rmult_le_pos; lra); lra).
  pose proof (add_step 1 1 eta 0 _ _ _ _ (/ 2 * Rabs s1) _ ltac:(lra) ltac:(lra) ltac:(lra) R1' R2') as R3.
  assert (HA : Rabs (/ 2 * s1 + s2) <= / 2 * Rabs s1 + Rabs s2) by (eapply Rle_trans; [apply Rabs_triang|]; rewrite H2; lra).
  pose proof (rstep 1 (eta + 0) _ _ _ ltac:(lra) ltac:(lra) HA R3) as R4.
  assert (R5 : Rabs (rnd (rnd (/ 2 * s1) + s2) - (/ 2 * s1 + s2)) <= (21 / 10) * uro * (/ 2 * Rabs s1 + Rabs s2) + 3 * eta) by (apply (more (1 + 1 + 1 / 1000) _ ((1 + / 1000) * (eta + 0) + eta)); lra).
  pose proof (scale_step (/ n) (21 / 10) (3 * eta) _ _ _ ltac:(lra) ltac:(lra) R5) as R6. clear R1 R1' R2' R3 R4 R5.
  set (Bn := / 2 * Rabs s1 + Rabs s2) in *. set (An := / 2 * s1 + s2) in *. set (tn := rnd (rnd (/ 2 * s1) + s2)) in *.
  assert (HAn : Rabs (/ n * An) <= / n * Bn) by (rewrite Rabs_mult, (Rabs_right (/ n)) by lra; apply Rmult_le_compat_l; lra).
  pose proof (rstep (21 / 10) (3 * eta) _ _ _ ltac:(lra) ltac:(lra) HAn R6) as R7.
  assert (PB : 0 <= / n * Bn) by (apply Rmult_le_pos; unfold Bn; lra).
  assert (R8 : Rabs (rnd (/ n * tn) - / n * An) <= (32 / 10) * uro * (/ n * Bn) + 5 * eta) by (apply (more (21/10 + 1 + 21/10/1000) _ ((1 + / 1000) * (3 * eta) + eta)); lra).
  clear R7 R6.
  (* the penalty *)
  pose proof (rnd_err (/ 2 * al)) as Q1. rewrite H2 in Q1.
  assert (Q2 : Rabs (rnd (/ 2 * al) * D - / 2 * (al * D)) <= 1 * uro * (/ 2 * Rabs (al * D)) + eta * Rabs D).
  { replace (rnd (/ 2 * al) * D - / 2 * (al * D)) with ((rnd (/ 2 * al) - / 2 * al) * D) by ring. rewrite !Rabs_mult.
    apply Rle_trans with ((uro * (/ 2 * Rabs al) + eta) * Rabs D); [apply Rmult_le_compat_r; lra|right; ring]. }
  assert (PE : 0 <= eta * Rabs D) by (apply Rmult_le_pos; lra).
  pose proof (rstep 1 (eta * Rabs D) _ _ _ ltac:(lra) PE ltac:(rewrite H2; apply Rle_refl) Q2) as Q3.
  assert (Q4 : Rabs (rnd (rnd (/ 2 * al) * D) - / 2 * (al * D)) <= (32 / 10) * uro * (/ 2 * Rabs (al * D)) + (2 * (eta * Rabs D) + eta)) by (apply (more (1 + 1 + 1 / 1000) _ ((1 + / 1000) * (eta * Rabs D) + eta)); lra).
  pose proof (add_step (32 / 10) (32 / 10) (5 * eta) (2 * (eta * Rabs D) + eta) _ _ _ _ _ _ ltac:(lra) ltac:(lra) PB R8 Q4) as S1.
  assert (HF : Rabs (/ n * An + / 2 * (al * D)) <= / n * Bn + / 2 * Rabs (al * D)) by (eapply Rle_trans; [apply Rabs_triang|]; rewrite H2; lra).
  pose proof (rstep (32 / 10) (5 * eta + (2 * (eta * Rabs D) + eta)) _ _ _ ltac:(lra) ltac:(lra) HF S1) as S2.
  replace (tn / n) with (/ n * tn) by (unfold Rdiv; ring). replace (An / n) with (/ n * An) by (unfold Rdiv; ring). replace (Bn / n) with (/ n * Bn) by (unfold Rdiv; ring).
  apply (more (32/10 + 1 + 32/10/1000) _ ((1 + / 1000) * (5 * eta + (2 * (eta * Rabs D) + eta)) + eta)); lra.
Qed.
