(** * C108, C109: mean rates of minimize_sfw for SAG, SAGA and MHK with any batch size *)
From Coq Require Import Reals Lra Lia List Bool ZArith.
From Verif Require Import Num Vec Spec SpecSparse RVec ModelConstraint ModelPenalty PenaltyFacts ModelFrankWolfe FrankWolfeConv FrankWolfeMain FrankWolfeMain2 ModelRandomized SpecFiniteSum ModelSfw SpecSfw SpecSfwMean
  SfwMain SfwMain2 SfwMain3 SfwMain4 SfwMean3 SfwMean4 SfwMeanRuns.
Import ListNotations.
Local Open Scope R_scope.

(** np.random.choice(n, size=bs, replace=False): its possible values form a balanced family, so the theorems below apply to the batches that
    utils.sample_batches draws, each of them equally likely *)
Theorem C108_choice : forall n bs, (bs <= n)%nat ->
  (forall b, In b (arrangements (seq 0 n) bs) <-> length b = bs /\ NoDup b /\ Forall (fun i => (i < n)%nat) b) /\
  arrangements (seq 0 n) bs <> [] /\ exists c, balanced n bs c (arrangements (seq 0 n) bs).
Proof. exact main_C108_choice. Qed.
Print Assumptions C108_choice.

(** over all sequences of batches the mean suboptimality of SAG is at most 2 (C + Dinf B) / (k + 2), and that of SAGA at most
    2 (C + (1 + batch_size) Dinf B) / (k + 2), after k = max_iter * (n // batch_size) steps *)
Theorem C108_mean_rate : forall (pow23 : R -> R) (P : problem RN) (f : R -> R -> R) (V : sfw_variant) (kap : R) lmo lipschitz bs c batches tol max_iter x0 (dom : list R -> Prop) (C Dinf D1 L B : R) (y : list R),
  V = SAG /\ kap = 1 \/ V = SAGA /\ kap = 1 + INR bs ->
  problem_wf P -> (1 <= bs <= p_n P)%nat -> balanced (p_n P) bs c batches -> batches <> [] ->
  convex_set (p_d P) dom -> lmo_exact (p_d P) dom lmo -> convex_loss P f ->
  curvature (p_d P) dom (mean_loss P f) (grad_list P) C ->
  (forall u v i, length u = p_d P -> length v = p_d P -> dom u -> dom v -> (i < p_n P)%nat -> Rabs (adot P i u - adot P i v) <= Dinf) ->
  (forall u v, length u = p_d P -> length v = p_d P -> dom u -> dom v ->
     Rsum (map (fun i => Rabs (adot P i u - adot P i v)) (seq 0 (p_n P))) <= D1) ->
  0 <= L -> (forall p q b, Rabs (p_fd P p b - p_fd P q b) <= L * Rabs (p - q)) ->
  2 * Rsum (map (fun i => Rabs (loss_deriv P x0 i)) (seq 0 (p_n P))) <= INR bs * B -> 4 * INR (p_n P) * L * D1 <= INR bs * INR bs * B ->
  length x0 = p_d P -> dom x0 -> length y = p_d P -> dom y -> (1 <= max_iter)%nat -> tol <= 0 ->
  let nb := (p_n P / bs)%nat in
  exists res : list (list nat) -> sfw_result RN,
    (forall w, In w (seqs batches (nb * max_iter)) ->
       minimize_sfw (K:=RN) pow23 P lmo V SSublinear lipschitz bs tol Vanilla max_iter (batch_draws nb w) x0 = Ok (res w)) /\
    / INR (length batches ^ (nb * max_iter)) *
      Rsum (map (fun w => mean_loss P f (sr_x (res w)) - mean_loss P f y) (seqs batches (nb * max_iter)))
    <= 2 * (C + kap * Dinf * B) / (INR (nb * max_iter) + 2).
Proof. exact main_C108_mean_rate. Qed.
Print Assumptions C108_mean_rate.

(** two rows, one and two samples per step *)
Example C108_nonvacuous : forall V kap bs max_iter, V = SAG /\ kap = 1 \/ V = SAGA /\ kap = 1 + INR bs -> (1 <= bs <= 2)%nat -> (1 <= max_iter)%nat ->
  let batches := arrangements (seq 0 2) bs in let nb := (2 / bs)%nat in
  exists res : list (list nat) -> sfw_result RN,
    (forall w, In w (seqs batches (nb * max_iter)) ->
       minimize_sfw (K:=RN) (fun t => t) two_rows (l1_oracle (K:=RN) 1) V SSublinear None bs 0 Vanilla max_iter (batch_draws nb w) [1] = Ok (res w)) /\
    / INR (length batches ^ (nb * max_iter)) *
      Rsum (map (fun w => mean_loss two_rows half_square (sr_x (res w)) - mean_loss two_rows half_square [0]) (seqs batches (nb * max_iter)))
    <= 2 * (4 + kap * 2 * 32) / (INR (nb * max_iter) + 2).
Proof. exact two_rows_mean. Qed.

(** the same for MHK, whose dual variables lack the factor 1/n: at most M (2 / (k + 8)) ^ (1/3) *)
Theorem C109_mean_rate : forall (pow23 : R -> R) (P : problem RN) (f : R -> R -> R) lmo lipschitz bs c batches tol max_iter x0 (dom : list R -> Prop) (C Dinf D1 L B M : R) (y : list R),
  (forall x, 0 < x -> pow23 x = Rpower x (2 / 3)) ->
  problem_wf P -> (1 <= bs <= p_n P)%nat -> balanced (p_n P) bs c batches -> batches <> [] ->
  convex_set (p_d P) dom -> lmo_exact (p_d P) dom lmo -> convex_loss P f ->
  curvature (p_d P) dom (mean_loss P f) (grad_list P) C ->
  (forall u v i, length u = p_d P -> length v = p_d P -> dom u -> dom v -> (i < p_n P)%nat -> Rabs (adot P i u - adot P i v) <= Dinf) ->
  (forall u v, length u = p_d P -> length v = p_d P -> dom u -> dom v ->
     Rsum (map (fun i => Rabs (adot P i u - adot P i v)) (seq 0 (p_n P))) <= D1) ->
  0 <= L -> (forall p q b, Rabs (p_fd P p b - p_fd P q b) <= L * Rabs (p - q)) ->
  2 * Rsum (map (fun i => Rabs (loss_deriv P x0 i)) (seq 0 (p_n P))) <= INR bs * B -> 2 * INR (p_n P) * L * D1 <= INR bs * INR bs * B ->
  2 * (mean_loss P f x0 - mean_loss P f y) <= M -> 2 * (C + Dinf * B) <= M ->
  length x0 = p_d P -> dom x0 -> length y = p_d P -> dom y -> (1 <= max_iter)%nat -> tol <= 0 ->
  let nb := (p_n P / bs)%nat in
  exists res : list (list nat) -> sfw_result RN,
    (forall w, In w (seqs batches (nb * max_iter)) ->
       minimize_sfw (K:=RN) pow23 P lmo MHK SSublinear lipschitz bs tol Vanilla max_iter (batch_draws nb w) x0 = Ok (res w)) /\
    / INR (length batches ^ (nb * max_iter)) *
      Rsum (map (fun w => mean_loss P f (sr_x (res w)) - mean_loss P f y) (seqs batches (nb * max_iter)))
    <= M * Rpower (2 / (INR (nb * max_iter) + 8)) (1 / 3).
Proof. exact main_C109_mean_rate. Qed.
Print Assumptions C109_mean_rate.

Example C109_nonvacuous : forall bs max_iter, (1 <= bs <= 2)%nat -> (1 <= max_iter)%nat ->
  let batches := arrangements (seq 0 2) bs in let nb := (2 / bs)%nat in
  exists res : list (list nat) -> sfw_result RN,
    (forall w, In w (seqs batches (nb * max_iter)) ->
       minimize_sfw (K:=RN) (fun t => Rpower t (2 / 3)) two_rows (l1_oracle (K:=RN) 1) MHK SSublinear None bs 0 Vanilla max_iter (batch_draws nb w) [1] = Ok (res w)) /\
    / INR (length batches ^ (nb * max_iter)) *
      Rsum (map (fun w => mean_loss two_rows half_square (sr_x (res w)) - mean_loss two_rows half_square [0]) (seqs batches (nb * max_iter)))
    <= 136 * Rpower (2 / (INR (nb * max_iter) + 8)) (1 / 3).
Proof. exact two_rows_mean_mhk. Qed.
