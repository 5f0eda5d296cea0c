(** * C119: mean rate of minimize_sfw, variant LF, with any batch size *)
From Coq Require Import Reals Lra Lia List Bool ZArith.
From Verif Require Import Num Vec Spec SpecSparse RVec ModelConstraint ModelPenalty PenaltyFacts ModelFrankWolfe FrankWolfeConv FrankWolfeMain FrankWolfeMain2 ModelRandomized SpecFiniteSum ModelSfw SpecSfw SpecSfwMean
  SfwMain SfwMain2 SfwMain3 SfwMain4 SfwMean3 SfwMean4 SfwLf3 SfwLfRuns.
Import ListNotations.
Local Open Scope R_scope.

(** over all sequences of batches the mean suboptimality of LF after k = max_iter * (n // batch_size) steps is at most
    (6 Dinf G0 + 10 L Dinf^2 + 2 C) sqrt (m / (2 m + k + 1)), with m = n / batch_size and G0 the mean absolute derivative of the loss at x0 *)
Theorem C119_mean_rate : forall (pow23 : R -> R) (P : problem RN) (f : R -> R -> R) lmo lipschitz bs c batches tol max_iter x0 (dom : list R -> Prop) (C Dinf L : R) (y : list R),
  problem_wf P -> (1 <= bs <= p_n P)%nat -> balanced (p_n P) bs c batches -> batches <> [] ->
  convex_set (p_d P) dom -> lmo_exact (p_d P) dom lmo -> convex_loss P f ->
  curvature (p_d P) dom (mean_loss P f) (grad_list P) C ->
  (forall u v i, length u = p_d P -> length v = p_d P -> dom u -> dom v -> (i < p_n P)%nat -> Rabs (adot P i u - adot P i v) <= Dinf) ->
  0 <= L -> (forall p q b, Rabs (p_fd P p b - p_fd P q b) <= L * Rabs (p - q)) ->
  length x0 = p_d P -> dom x0 -> length y = p_d P -> dom y -> (1 <= max_iter)%nat -> tol <= 0 ->
  let nb := (p_n P / bs)%nat in
  let k := INR (nb * max_iter) in
  let m := INR (p_n P) / INR bs in
  let G0 := / INR (p_n P) * Rsum (map (fun i => Rabs (loss_deriv P x0 i)) (seq 0 (p_n P))) in
  exists res : list (list nat) -> sfw_result RN,
    (forall w, In w (seqs batches (nb * max_iter)) ->
       minimize_sfw (K:=RN) pow23 P lmo LF SSublinear lipschitz bs tol Vanilla max_iter (batch_draws nb w) x0 = Ok (res w)) /\
    / INR (length batches ^ (nb * max_iter)) *
      Rsum (map (fun w => mean_loss P f (sr_x (res w)) - mean_loss P f y) (seqs batches (nb * max_iter)))
    <= (6 * Dinf * G0 + 10 * L * (Dinf * Dinf) + 2 * C) * sqrt (m / (2 * m + k + 1)).
Proof. exact main_C119_mean_rate. Qed.
Print Assumptions C119_mean_rate.

(** two rows, one and two samples per step: every hypothesis holds *)
Example C119_nonvacuous : forall bs max_iter, (1 <= bs <= 2)%nat -> (1 <= max_iter)%nat ->
  let batches := arrangements (seq 0 2) bs in let nb := (2 / bs)%nat in let m := 2 / INR bs in
  exists res : list (list nat) -> sfw_result RN,
    (forall w, In w (seqs batches (nb * max_iter)) ->
       minimize_sfw (K:=RN) (fun t => t) two_rows (l1_oracle (K:=RN) 1) LF SSublinear None bs 0 Vanilla max_iter (batch_draws nb w) [1] = Ok (res w)) /\
    / INR (length batches ^ (nb * max_iter)) *
      Rsum (map (fun w => mean_loss two_rows half_square (sr_x (res w)) - mean_loss two_rows half_square [0]) (seqs batches (nb * max_iter)))
    <= 60 * sqrt (m / (2 * m + INR (nb * max_iter) + 1)).
Proof. exact two_rows_mean_lf. Qed.
