(** * SAGA and SVRG with proximal operators over whole epochs: statements (C99, C100) *)
From Coq Require Import ZArith Bool List Lia Permutation Reals Lra.
From Verif Require Import Num Vec Spec SpecSparse RVec ConvexFacts PenaltyFacts UtilsMain PenaltyFacts2 PenaltyFacts3 ModelPenalty ModelRandomized SpecFiniteSum SpecEpochs SpecLoss RandomizedBlocks RandomizedSaga RandomizedSvrg RandomizedProx RandomizedPen RandomizedFix RandomizedMain RandomizedMain3 EpochFacts SvrgDescent SvrgRate SagaDescent SagaRate ProxEpochs ProxSaga ProxSagaMain ProxSvrg.
Import ListNotations.
Local Open Scope R_scope.

Lemma pseq_le (P : problem RN) f ptr g (D step : R) x0 N xs V : pseq P f ptr g D step x0 N xs V -> forall k, (k <= S N)%nat -> V k <= V 0%nat.
Proof.
  intros H. induction k as [|k IH]; intros Hk; [apply Rle_refl|]. destruct (H k ltac:(lia)) as (_ & w & E & _ & E0 & E1 & _). specialize (IH ltac:(lia)). lra.
Qed.
Lemma pseq_stop (P : problem RN) f ptr g (D step : R) x0 N xs V (tol low : R) m : 1 <= D -> 0 < step -> (0 < p_n P)%nat -> (0 < p_d P)%nat -> 0 < tol -> pseq P f ptr g D step x0 N xs V -> (forall k, (k <= S N)%nat -> length (xs k) = p_d P) ->
  (forall k, (k <= N)%nat -> tol <= l1 (vminus (xs (S k)) (xs k))) -> low <= obj P ptr g f (xs (S N)) -> S N = m ->
  4 * (step * D * INR (p_n P) * INR (p_d P)) * (V 0%nat - low) < tol * tol * INR m -> False.
Proof.
  intros HD Hs Hn Hd Ht H Lxs Hm Hlow Em C. set (K := 4 * (step * D * INR (p_n P) * INR (p_d P))) in *.
  assert (K0 : 0 < K) by (unfold K; apply lt_0_INR in Hn; apply lt_0_INR in Hd; repeat apply Rmult_lt_0_compat; lra).
  assert (T : forall k, (k <= S N)%nat -> V k <= V 0%nat - INR k * (tol * tol / K)).
  { induction k as [|k IH]; intros Hk; [cbn [INR]; lra|]. specialize (IH ltac:(lia)).
    pose proof (pseq_move P f ptr g D step x0 N xs V tol k HD Hs Hn Hd Ht H Lxs ltac:(lia) (Hm k ltac:(lia))) as Q. fold K in Q. rewrite S_INR. lra. }
  specialize (T (S N) (le_n _)). destruct (H N (le_n N)) as (O & _). assert (Q : INR (S N) * (tol * tol / K) <= V 0%nat - low) by lra.
  apply (Rmult_le_compat_l K) in Q; [|lra]. replace (K * (INR (S N) * (tol * tol / K))) with (tol * tol * INR (S N)) in Q by (field; lra). rewrite Em in Q. lra.
Qed.
Lemma main_C99_saga_prox_bounded : forall (P : problem RN) (ptr : list nat) (B : blocks RN) (g : nat -> list R -> R) (prox : sprox RN) (f : R -> R -> R) (lphi L D step tol G0 : R) (x0 : list R) (max_iter : nat) (perms : nat -> list nat) (r : epoch_result RN (saga_state RN)),
  problem_wf P -> canonical P -> (0 < p_n P)%nat -> 0 <= p_alpha P -> partitions ptr (p_d P) -> make_blocks P ptr = Ok B ->
  (forall h, (S h < length ptr)%nat -> convex_on (length (blk ptr h)) (fun _ => True) (g h)) -> sparse_prox_of P ptr B g prox -> in_place prox ->
  lip_losses P f lphi L -> 0 < L -> block_spread P ptr D -> 1 <= D -> 0 < step -> step * D * (INR (p_n P) * (20 * L + p_alpha P)) <= 1 ->
  (forall k, Permutation (perms k) (seq 0 (p_n P))) -> length x0 = p_d P -> sample_grads P x0 G0 ->
  minimize_saga P x0 (Some step) (Some prox) (Some ptr) max_iter tol perms = Ok r ->
  forall x : list R, In x (map sa_x (er_log r)) -> finite_sum P f x + block_penalty ptr g x <= finite_sum P f x0 + block_penalty ptr g x0 + 2 * (G0 * G0 / L).
Proof.
  intros P ptr B g prox f lphi L D step tol G0 x0 max_iter perms r H1 H2 H3 H4 H5 H6 H7 H8 H9 H10 H11 H12 H13 H14 H15 Hperm Lx0 HG E x Hx.
  assert (OK : pok P ptr B g prox f lphi L D step) by (unfold pok; tauto).
  destruct (saga_prox_run P ptr B g prox f lphi L D step OK perms x0 tol G0 max_iter r Hperm Lx0 HG E) as (xs & V & A0 & AV & A1 & A2 & A3 & A4 & A5).
  apply in_rev in Hx. rewrite <- map_rev, A2 in Hx. apply in_map_iff in Hx as (k & <- & Hk). apply in_seq in Hk.
  pose proof (pseq_le _ _ _ _ _ _ _ _ _ _ A4 k ltac:(lia)) as Q. rewrite AV in Q. unfold obj in Q.
  destruct k as [|k]; [rewrite A0; assert (0 <= G0 * G0 / L) by (apply Rmult_le_pos; [apply Rle_0_sqr|left; apply Rinv_0_lt_compat; exact H11]); lra|].
  destruct (A4 k ltac:(lia)) as (O & _). unfold obj in O. lra.
Qed.
Lemma main_C99_saga_prox_rate : forall (P : problem RN) (ptr : list nat) (B : blocks RN) (g : nat -> list R -> R) (prox : sprox RN) (f : R -> R -> R) (lphi L D step tol G0 : R) (x0 : list R) (max_iter : nat) (perms : nat -> list nat) (r : epoch_result RN (saga_state RN)),
  problem_wf P -> canonical P -> (0 < p_n P)%nat -> 0 <= p_alpha P -> partitions ptr (p_d P) -> make_blocks P ptr = Ok B ->
  (forall h, (S h < length ptr)%nat -> convex_on (length (blk ptr h)) (fun _ => True) (g h)) -> sparse_prox_of P ptr B g prox -> in_place prox ->
  lip_losses P f lphi L -> 0 < L -> block_spread P ptr D -> 1 <= D -> 0 < step -> step * D * (INR (p_n P) * (20 * L + p_alpha P)) <= 1 ->
  (forall k, Permutation (perms k) (seq 0 (p_n P))) -> length x0 = p_d P -> sample_grads P x0 G0 ->
  minimize_saga P x0 (Some step) (Some prox) (Some ptr) max_iter tol perms = Ok r -> convex_loss P f ->
  exists x w : list R, In x (map sa_x (er_log r)) /\ length w = p_d P /\
    INR (S (er_nit r)) * dot w w <= 24 * (D / step) * (finite_sum P f x0 + block_penalty ptr g x0 + 2 * (G0 * G0 / L) - (finite_sum P f (er_x r) + block_penalty ptr g (er_x r))) /\
    forall z : list R, length z = p_d P -> (forall j, (j < p_d P)%nat -> ~ touched P ptr j -> nth j z 0 = nth j x0 0) ->
      finite_sum P f x + block_penalty ptr g x <= finite_sum P f z + block_penalty ptr g z + dot w (vminus z x).
Proof.
  intros P ptr B g prox f lphi L D step tol G0 x0 max_iter perms r H1 H2 H3 H4 H5 H6 H7 H8 H9 H10 H11 H12 H13 H14 H15 Hperm Lx0 HG E Hc.
  assert (OK : pok P ptr B g prox f lphi L D step) by (unfold pok; tauto).
  destruct (saga_prox_run P ptr B g prox f lphi L D step OK perms x0 tol G0 max_iter r Hperm Lx0 HG E) as (xs & V & A0 & AV & A1 & A2 & A3 & A4 & A5).
  destruct (pseq_rate P f ptr g D step x0 (er_nit r) xs V H13 H14 H4 A4 Hc) as (i & w & Hi & Lw & Q & Z). exists (xs i), w.
  split; [apply in_rev; rewrite <- map_rev, A2; apply in_map, in_seq; lia|]. split; [exact Lw|]. rewrite AV, <- A1 in Q. split; [exact Q|exact Z].
Qed.
Lemma main_C99_saga_prox_linear : forall (P : problem RN) (ptr : list nat) (B : blocks RN) (g : nat -> list R -> R) (prox : sprox RN) (f : R -> R -> R) (lphi L D step tol G0 : R) (x0 : list R) (max_iter : nat) (perms : nat -> list nat) (r : epoch_result RN (saga_state RN)),
  problem_wf P -> canonical P -> (0 < p_n P)%nat -> 0 < p_alpha P -> partitions ptr (p_d P) -> make_blocks P ptr = Ok B ->
  (forall h, (S h < length ptr)%nat -> convex_on (length (blk ptr h)) (fun _ => True) (g h)) -> sparse_prox_of P ptr B g prox -> in_place prox ->
  lip_losses P f lphi L -> 0 < L -> block_spread P ptr D -> 1 <= D -> 0 < step -> step * D * (INR (p_n P) * (20 * L + p_alpha P)) <= 1 ->
  (forall k, Permutation (perms k) (seq 0 (p_n P))) -> length x0 = p_d P -> sample_grads P x0 G0 ->
  minimize_saga P x0 (Some step) (Some prox) (Some ptr) max_iter tol perms = Ok r -> convex_loss P f ->
  forall z : list R, length z = p_d P -> (forall j, (j < p_d P)%nat -> ~ touched P ptr j -> nth j z 0 = nth j x0 0) ->
  finite_sum P f (er_x r) + block_penalty ptr g (er_x r) - (finite_sum P f z + block_penalty ptr g z) <= (1 - p_alpha P * step / (14 * D)) ^ S (er_nit r) * (finite_sum P f x0 + block_penalty ptr g x0 + 2 * (G0 * G0 / L) - (finite_sum P f z + block_penalty ptr g z)).
Proof.
  intros P ptr B g prox f lphi L D step tol G0 x0 max_iter perms r H1 H2 H3 H4 H5 H6 H7 H8 H9 H10 H11 H12 H13 H14 H15 Hperm Lx0 HG E Hc z Lz Hz.
  assert (OK : pok P ptr B g prox f lphi L D step) by (unfold pok; assert (0 <= p_alpha P) by lra; tauto).
  destruct (saga_prox_run P ptr B g prox f lphi L D step OK perms x0 tol G0 max_iter r Hperm Lx0 HG E) as (xs & V & A0 & AV & A1 & A2 & A3 & A4 & A5).
  pose proof (pseq_linear P f ptr g D step x0 (er_nit r) xs V H13 H14 H4 (step_alpha P ptr B g prox f lphi L D step OK) A4 Hc A3 z Lz Hz) as Q. rewrite AV, <- A1 in Q. exact Q.
Qed.
Lemma main_C99_saga_prox_terminates : forall (P : problem RN) (ptr : list nat) (B : blocks RN) (g : nat -> list R -> R) (prox : sprox RN) (f : R -> R -> R) (lphi L D step tol G0 : R) (x0 : list R) (max_iter : nat) (perms : nat -> list nat) (low : R),
  problem_wf P -> canonical P -> (0 < p_n P)%nat -> 0 <= p_alpha P -> partitions ptr (p_d P) -> make_blocks P ptr = Ok B ->
  (forall h, (S h < length ptr)%nat -> convex_on (length (blk ptr h)) (fun _ => True) (g h)) -> sparse_prox_of P ptr B g prox -> in_place prox ->
  lip_losses P f lphi L -> 0 < L -> block_spread P ptr D -> 1 <= D -> 0 < step -> step * D * (INR (p_n P) * (20 * L + p_alpha P)) <= 1 ->
  (forall k, Permutation (perms k) (seq 0 (p_n P))) -> length x0 = p_d P -> sample_grads P x0 G0 ->
  (0 < p_d P)%nat -> (0 < max_iter)%nat -> 0 < tol -> (forall y : list R, length y = p_d P -> low <= finite_sum P f y + block_penalty ptr g y) ->
  4 * (step * D * INR (p_n P) * INR (p_d P)) * (finite_sum P f x0 + block_penalty ptr g x0 + 2 * (G0 * G0 / L) - low) < tol * tol * INR max_iter ->
  exists r, minimize_saga P x0 (Some step) (Some prox) (Some ptr) max_iter tol perms = Ok r /\ er_success r = true.
Proof.
  intros P ptr B g prox f lphi L D step tol G0 x0 max_iter perms low H1 H2 H3 H4 H5 H6 H7 H8 H9 H10 H11 H12 H13 H14 H15 Hperm Lx0 HG Hd Hm Ht Hlow Hmax.
  assert (OK : pok P ptr B g prox f lphi L D step) by (unfold pok; tauto).
  destruct (main_C85_saga_total RN P ptr B prox step tol x0 max_iter perms H1 H5 H6 H9) as (r & E); [eapply main_C85_factory_total; [exact H8|lra]|exact Lx0|exact Hm|intros k; apply Forall_forall; intros i Hi; apply (Permutation_in _ (Hperm k)), in_seq in Hi; lia|].
  exists r. split; [exact E|]. destruct (er_success r) eqn:Es; [reflexivity|exfalso].
  destruct (saga_prox_run P ptr B g prox f lphi L D step OK perms x0 tol G0 max_iter r Hperm Lx0 HG E) as (xs & V & A0 & AV & A1 & A2 & A3 & A4 & A5).
  destruct (A5 Es) as (Em & Hmv). apply (pseq_stop P f ptr g D step x0 (er_nit r) xs V tol low max_iter H13 H14 H3 Hd Ht A4 A3 Hmv); [apply Hlow, A3, le_n|exact Em|]. rewrite AV. exact Hmax.
Qed.
Lemma main_C100_svrg_prox_descent : forall (P : problem RN) (ptr : list nat) (B : blocks RN) (g : nat -> list R -> R) (prox : sprox RN) (f : R -> R -> R) (lphi L D step tol : R) (x0 : list R) (max_iter : nat) (perms : nat -> list nat) (r : epoch_result RN (vec RN * vec RN)),
  problem_wf P -> canonical P -> (0 < p_n P)%nat -> 0 <= p_alpha P -> partitions ptr (p_d P) -> make_blocks P ptr = Ok B ->
  (forall h, (S h < length ptr)%nat -> convex_on (length (blk ptr h)) (fun _ => True) (g h)) -> sparse_prox_of P ptr B g prox -> in_place prox -> block_dense P ptr ->
  lip_losses P f lphi L -> 0 < L -> block_spread P ptr D -> 1 <= D -> 0 < step -> step * D * (INR (p_n P) * (20 * L + p_alpha P)) <= 1 ->
  (forall k, Permutation (perms k) (seq 0 (p_n P))) -> length x0 = p_d P ->
  minimize_svrg P x0 (Some step) (Some prox) (Some ptr) max_iter tol perms = Ok r ->
  forall (k : nat) (x x' : list R), nth_error (map fst (rev (er_log r))) k = Some x -> nth_error (map fst (rev (er_log r))) (S k) = Some x' -> finite_sum P f x' + block_penalty ptr g x' + norm2 (vminus x' x) * norm2 (vminus x' x) / (4 * (step * D * INR (p_n P))) <= finite_sum P f x + block_penalty ptr g x.
Proof.
  intros P ptr B g prox f lphi L D step tol x0 max_iter perms r H1 H2 H3 H4 H5 H6 H7 H8 H9 Hdn H10 H11 H12 H13 H14 H15 Hperm Lx0 E k x x' Ex Ex'.
  assert (OK : pok P ptr B g prox f lphi L D step) by (unfold pok; tauto).
  destruct (svrg_prox_run P ptr B g prox f lphi L D step OK Hdn perms x0 tol max_iter r Hperm Lx0 E) as (xs & A0 & A1 & A2 & A3 & A4 & A5).
  set (V := fun k => obj P ptr g f (xs k)) in *. assert (AV : V 0%nat = obj P ptr g f x0) by (unfold V; rewrite A0; reflexivity).
  rewrite A2 in Ex, Ex'. rewrite nth_error_map in Ex, Ex'.
  assert (Hk : (k <= er_nit r)%nat). { destruct (nth_error (seq 0 (S (S (er_nit r)))) (S k)) eqn:Es; [|discriminate]. assert (Q : nth_error (seq 0 (S (S (er_nit r)))) (S k) <> None) by congruence. apply nth_error_Some in Q. rewrite seq_length in Q. lia. }
  assert (Nt : forall j, (j <= S (er_nit r))%nat -> nth_error (seq 0 (S (S (er_nit r)))) j = Some j). { intros j Hj. rewrite (nth_error_nth' _ 0%nat) by (rewrite seq_length; lia). rewrite seq_nth by lia. reflexivity. }
  rewrite Nt in Ex, Ex' by lia. cbn [option_map] in Ex, Ex'. injection Ex as <-. injection Ex' as <-.
  destruct (A4 k Hk) as (_ & w & En & _ & E0 & E1 & _ & _ & E4 & _). unfold V, obj in E1. assert (Hn : 0 < INR (p_n P)) by (apply lt_0_INR; exact H3).
  assert (K0 : 0 < 4 * (step * D * INR (p_n P))) by (repeat apply Rmult_lt_0_compat; lra).
  assert (norm2 (vminus (xs (S k)) (xs k)) * norm2 (vminus (xs (S k)) (xs k)) / (4 * (step * D * INR (p_n P))) <= En); [|lra].
  apply (Rmult_le_reg_r (4 * (step * D * INR (p_n P)))); [exact K0|]. unfold Rdiv. rewrite Rmult_assoc, Rinv_l, Rmult_1_r by lra. lra.
Qed.
Lemma main_C100_svrg_prox_rate : forall (P : problem RN) (ptr : list nat) (B : blocks RN) (g : nat -> list R -> R) (prox : sprox RN) (f : R -> R -> R) (lphi L D step tol : R) (x0 : list R) (max_iter : nat) (perms : nat -> list nat) (r : epoch_result RN (vec RN * vec RN)),
  problem_wf P -> canonical P -> (0 < p_n P)%nat -> 0 <= p_alpha P -> partitions ptr (p_d P) -> make_blocks P ptr = Ok B ->
  (forall h, (S h < length ptr)%nat -> convex_on (length (blk ptr h)) (fun _ => True) (g h)) -> sparse_prox_of P ptr B g prox -> in_place prox -> block_dense P ptr ->
  lip_losses P f lphi L -> 0 < L -> block_spread P ptr D -> 1 <= D -> 0 < step -> step * D * (INR (p_n P) * (20 * L + p_alpha P)) <= 1 ->
  (forall k, Permutation (perms k) (seq 0 (p_n P))) -> length x0 = p_d P ->
  minimize_svrg P x0 (Some step) (Some prox) (Some ptr) max_iter tol perms = Ok r -> convex_loss P f ->
  exists x w : list R, In x (map fst (er_log r)) /\ length w = p_d P /\
    INR (S (er_nit r)) * dot w w <= 24 * (D / step) * (finite_sum P f x0 + block_penalty ptr g x0 - (finite_sum P f (er_x r) + block_penalty ptr g (er_x r))) /\
    forall z : list R, length z = p_d P -> (forall j, (j < p_d P)%nat -> ~ touched P ptr j -> nth j z 0 = nth j x0 0) ->
      finite_sum P f x + block_penalty ptr g x <= finite_sum P f z + block_penalty ptr g z + dot w (vminus z x).
Proof.
  intros P ptr B g prox f lphi L D step tol x0 max_iter perms r H1 H2 H3 H4 H5 H6 H7 H8 H9 Hdn H10 H11 H12 H13 H14 H15 Hperm Lx0 E Hc.
  assert (OK : pok P ptr B g prox f lphi L D step) by (unfold pok; tauto).
  destruct (svrg_prox_run P ptr B g prox f lphi L D step OK Hdn perms x0 tol max_iter r Hperm Lx0 E) as (xs & A0 & A1 & A2 & A3 & A4 & A5).
  set (V := fun k => obj P ptr g f (xs k)) in *. assert (AV : V 0%nat = obj P ptr g f x0) by (unfold V; rewrite A0; reflexivity).
  destruct (pseq_rate P f ptr g D step x0 (er_nit r) xs V H13 H14 H4 A4 Hc) as (i & w & Hi & Lw & Q & Z). exists (xs i), w.
  split; [apply in_rev; rewrite <- map_rev, A2; apply in_map, in_seq; lia|]. split; [exact Lw|]. rewrite AV, <- A1 in Q. split; [exact Q|exact Z].
Qed.
Lemma main_C100_svrg_prox_linear : forall (P : problem RN) (ptr : list nat) (B : blocks RN) (g : nat -> list R -> R) (prox : sprox RN) (f : R -> R -> R) (lphi L D step tol : R) (x0 : list R) (max_iter : nat) (perms : nat -> list nat) (r : epoch_result RN (vec RN * vec RN)),
  problem_wf P -> canonical P -> (0 < p_n P)%nat -> 0 < p_alpha P -> partitions ptr (p_d P) -> make_blocks P ptr = Ok B ->
  (forall h, (S h < length ptr)%nat -> convex_on (length (blk ptr h)) (fun _ => True) (g h)) -> sparse_prox_of P ptr B g prox -> in_place prox -> block_dense P ptr ->
  lip_losses P f lphi L -> 0 < L -> block_spread P ptr D -> 1 <= D -> 0 < step -> step * D * (INR (p_n P) * (20 * L + p_alpha P)) <= 1 ->
  (forall k, Permutation (perms k) (seq 0 (p_n P))) -> length x0 = p_d P ->
  minimize_svrg P x0 (Some step) (Some prox) (Some ptr) max_iter tol perms = Ok r -> convex_loss P f ->
  forall z : list R, length z = p_d P -> (forall j, (j < p_d P)%nat -> ~ touched P ptr j -> nth j z 0 = nth j x0 0) ->
  finite_sum P f (er_x r) + block_penalty ptr g (er_x r) - (finite_sum P f z + block_penalty ptr g z) <= (1 - p_alpha P * step / (14 * D)) ^ S (er_nit r) * (finite_sum P f x0 + block_penalty ptr g x0 - (finite_sum P f z + block_penalty ptr g z)).
Proof.
  intros P ptr B g prox f lphi L D step tol x0 max_iter perms r H1 H2 H3 H4 H5 H6 H7 H8 H9 Hdn H10 H11 H12 H13 H14 H15 Hperm Lx0 E Hc z Lz Hz.
  assert (OK : pok P ptr B g prox f lphi L D step) by (unfold pok; assert (0 <= p_alpha P) by lra; tauto).
  destruct (svrg_prox_run P ptr B g prox f lphi L D step OK Hdn perms x0 tol max_iter r Hperm Lx0 E) as (xs & A0 & A1 & A2 & A3 & A4 & A5).
  set (V := fun k => obj P ptr g f (xs k)) in *. assert (AV : V 0%nat = obj P ptr g f x0) by (unfold V; rewrite A0; reflexivity).
  pose proof (pseq_linear P f ptr g D step x0 (er_nit r) xs V H13 H14 H4 (step_alpha P ptr B g prox f lphi L D step OK) A4 Hc A3 z Lz Hz) as Q. rewrite AV, <- A1 in Q. exact Q.
Qed.
Lemma main_C100_svrg_prox_terminates : forall (P : problem RN) (ptr : list nat) (B : blocks RN) (g : nat -> list R -> R) (prox : sprox RN) (f : R -> R -> R) (lphi L D step tol : R) (x0 : list R) (max_iter : nat) (perms : nat -> list nat) (low : R),
  problem_wf P -> canonical P -> (0 < p_n P)%nat -> 0 <= p_alpha P -> partitions ptr (p_d P) -> make_blocks P ptr = Ok B ->
  (forall h, (S h < length ptr)%nat -> convex_on (length (blk ptr h)) (fun _ => True) (g h)) -> sparse_prox_of P ptr B g prox -> in_place prox -> block_dense P ptr ->
  lip_losses P f lphi L -> 0 < L -> block_spread P ptr D -> 1 <= D -> 0 < step -> step * D * (INR (p_n P) * (20 * L + p_alpha P)) <= 1 ->
  (forall k, Permutation (perms k) (seq 0 (p_n P))) -> length x0 = p_d P ->
  (0 < p_d P)%nat -> (0 < max_iter)%nat -> 0 < tol -> (forall y : list R, length y = p_d P -> low <= finite_sum P f y + block_penalty ptr g y) ->
  4 * (step * D * INR (p_n P) * INR (p_d P)) * (finite_sum P f x0 + block_penalty ptr g x0 - low) < tol * tol * INR max_iter ->
  exists r, minimize_svrg P x0 (Some step) (Some prox) (Some ptr) max_iter tol perms = Ok r /\ er_success r = true.
Proof.
  intros P ptr B g prox f lphi L D step tol x0 max_iter perms low H1 H2 H3 H4 H5 H6 H7 H8 H9 Hdn H10 H11 H12 H13 H14 H15 Hperm Lx0 Hd Hm Ht Hlow Hmax.
  assert (OK : pok P ptr B g prox f lphi L D step) by (unfold pok; tauto).
  destruct (main_C85_svrg_total RN P ptr B prox step tol x0 max_iter perms H1 H5 H6 H9) as (r & E); [eapply main_C85_factory_total; [exact H8|lra]|exact Lx0|exact Hm|intros k; apply Forall_forall; intros i Hi; apply (Permutation_in _ (Hperm k)), in_seq in Hi; lia|].
  exists r. split; [exact E|]. destruct (er_success r) eqn:Es; [reflexivity|exfalso].
  destruct (svrg_prox_run P ptr B g prox f lphi L D step OK Hdn perms x0 tol max_iter r Hperm Lx0 E) as (xs & A0 & A1 & A2 & A3 & A4 & A5).
  set (V := fun k => obj P ptr g f (xs k)) in *. assert (AV : V 0%nat = obj P ptr g f x0) by (unfold V; rewrite A0; reflexivity).
  destruct (A5 Es) as (Em & Hmv). apply (pseq_stop P f ptr g D step x0 (er_nit r) xs V tol low max_iter H13 H14 H3 Hd Ht A4 A3 Hmv); [apply Hlow, A3, le_n|exact Em|]. rewrite AV. exact Hmax.
Qed.
(** the blocks of one feature each *)
Lemma eye_touched (P : problem RN) j : problem_wf P -> (j < p_d P)%nat -> touched P (eye_ptr (p_d P)) j -> exists i, (i < p_n P)%nat /\ stores P i j.
Proof.
  intros HP Hj (i & Hi & Hs). exists i. split; [exact Hi|]. apply (ext_eye P i j HP Hi). apply ext_spec in Hs; [exact Hs|exact HP|apply partitions_eye|exact Hi].
Qed.
Lemma eye_dense (P : problem RN) : problem_wf P -> block_dense P (eye_ptr (p_d P)).
Proof.
  intros HP i j Hi Hs. apply (ext_eye P i j HP Hi). apply ext_spec in Hs; [exact Hs|exact HP|apply partitions_eye|exact Hi].
Qed.
Lemma eye_spread (P : problem RN) (D : R) : problem_wf P -> spread P D -> block_spread P (eye_ptr (p_d P)) D.
Proof.
  intros HP H h Hh Hne. unfold eye_ptr in Hh. rewrite seq_length in Hh.
  assert (E : block_samples P (eye_ptr (p_d P)) h = filter (fun i => existsb (Nat.eqb h) (csr_row (p_indices P) (p_indptr P) i)) (seq 0 (p_n P))).
  { unfold block_samples. apply filter_ext. intros i. rewrite blk_eye by lia. induction (csr_row _ _ i) as [|c l IH]; [reflexivity|]. cbn [existsb] in *. rewrite IH, Bool.orb_false_r, (Nat.eqb_sym c h). reflexivity. }
  rewrite E in *. destruct (filter _ _) as [|i l] eqn:Ef; [contradiction|].
  assert (Hi : In i (i :: l)) by (left; reflexivity). rewrite <- Ef in Hi. apply filter_In in Hi as (Hi & Hs). apply in_seq in Hi. apply existsb_exists in Hs as (c & Hc & Ec). apply Nat.eqb_eq in Ec. subst c.
  rewrite <- Ef. apply (H i h ltac:(lia) Hc).
Qed.
Lemma main_C99_saga_lasso_linear : forall (P : problem RN) (f : R -> R -> R) (lam lphi L D step tol G0 : R) (x0 : list R) (max_iter : nat) (perms : nat -> list nat) (r : epoch_result RN (saga_state RN)),
  problem_wf P -> canonical P -> (exists i j, (i < p_n P)%nat /\ stores P i j) -> 0 < p_alpha P -> 0 <= lam ->
  lip_losses P f lphi L -> 0 < L -> spread P D -> 1 <= D -> 0 < step -> step * D * (INR (p_n P) * (20 * L + p_alpha P)) <= 1 ->
  (forall k, Permutation (perms k) (seq 0 (p_n P))) -> length x0 = p_d P -> sample_grads P x0 G0 ->
  minimize_saga P x0 (Some step) (Some (l1norm_sparse_prox (K:=RN) lam)) (Some (eye_ptr (p_d P))) max_iter tol perms = Ok r -> convex_loss P f ->
  forall z : list R, length z = p_d P -> (forall j, (j < p_d P)%nat -> (forall i, (i < p_n P)%nat -> ~ stores P i j) -> nth j z 0 = nth j x0 0) ->
  finite_sum P f (er_x r) + lam * l1 (er_x r) - (finite_sum P f z + lam * l1 z) <= (1 - p_alpha P * step / (14 * D)) ^ S (er_nit r) * (finite_sum P f x0 + lam * l1 x0 + 2 * (G0 * G0 / L) - (finite_sum P f z + lam * l1 z)).
Proof.
  intros P f lam lphi L D step tol G0 x0 max_iter perms r H1 H2 (i0 & j0 & Hi0 & S00) H4 Hl H10 H11 H12 H13 H14 H15 Hperm Lx0 HG E Hc z Lz Hz.
  assert (H3 : (0 < p_n P)%nat) by lia. pose proof (partitions_eye (p_d P)) as Hq. destruct (make_blocks_ok P H1 (eye_ptr (p_d P)) Hq i0 Hi0) as (B & EB). { intros Z. unfold stores in S00. change (In j0 (prow P i0)) in S00. rewrite Z in S00. destruct S00. }
  pose proof (l1_sparse P H1 lam B EB Hl) as Hsp. pose proof (eye_spread P D H1 H12) as Hsd.
  assert (Hcv : forall h, (S h < length (eye_ptr (p_d P)))%nat -> convex_on (length (blk (eye_ptr (p_d P)) h)) (fun _ => True) (fun v : list R => lam * l1 v)) by (intros h _; apply l1_convexR, Hl).
  pose proof (main_C99_saga_prox_linear P (eye_ptr (p_d P)) B (fun _ v => lam * l1 v) (l1norm_sparse_prox (K:=RN) lam) f lphi L D step tol G0 x0 max_iter perms r H1 H2 H3 H4 Hq EB Hcv Hsp (l1_in_place (K:=RN) lam) H10 H11 Hsd H13 H14 H15 Hperm Lx0 HG E Hc z Lz) as Q.
  assert (Lr : length (er_x r) = p_d P).
  { assert (OK : pok P (eye_ptr (p_d P)) B (fun _ v => lam * l1 v) (l1norm_sparse_prox (K:=RN) lam) f lphi L D step) by (unfold pok; pose proof (l1_in_place (K:=RN) lam); assert (0 <= p_alpha P) by lra; tauto).
    destruct (saga_prox_run P (eye_ptr (p_d P)) B (fun _ v => lam * l1 v) (l1norm_sparse_prox (K:=RN) lam) f lphi L D step OK perms x0 tol G0 max_iter r Hperm Lx0 HG E) as (xs & V & _ & _ & A1 & _ & A3 & _). rewrite A1. apply A3, le_n. }
  rewrite !l1_blocks in Q by assumption. apply Q. intros j Hj Nt. apply Hz; [exact Hj|]. intros i Hi Hs. apply Nt. exists i. split; [exact Hi|]. apply (ext_spec P H1 _ Hq i j Hi). apply stores_ext; assumption.
Qed.
Lemma main_C99_saga_lasso_terminates : forall (P : problem RN) (f : R -> R -> R) (lam lphi L D step tol G0 : R) (x0 : list R) (max_iter : nat) (perms : nat -> list nat) (low : R),
  problem_wf P -> canonical P -> (exists i j, (i < p_n P)%nat /\ stores P i j) -> 0 <= p_alpha P -> 0 <= lam ->
  lip_losses P f lphi L -> 0 < L -> spread P D -> 1 <= D -> 0 < step -> step * D * (INR (p_n P) * (20 * L + p_alpha P)) <= 1 ->
  (forall k, Permutation (perms k) (seq 0 (p_n P))) -> length x0 = p_d P -> sample_grads P x0 G0 ->
  (0 < max_iter)%nat -> 0 < tol -> (forall y : list R, length y = p_d P -> low <= finite_sum P f y + lam * l1 y) ->
  4 * (step * D * INR (p_n P) * INR (p_d P)) * (finite_sum P f x0 + lam * l1 x0 + 2 * (G0 * G0 / L) - low) < tol * tol * INR max_iter ->
  exists r, minimize_saga P x0 (Some step) (Some (l1norm_sparse_prox (K:=RN) lam)) (Some (eye_ptr (p_d P))) max_iter tol perms = Ok r /\ er_success r = true.
Proof.
  intros P f lam lphi L D step tol G0 x0 max_iter perms low H1 H2 (i0 & j0 & Hi0 & S00) H4 Hl H10 H11 H12 H13 H14 H15 Hperm Lx0 HG Hm Ht Hlow Hmax.
  assert (H3 : (0 < p_n P)%nat) by lia. pose proof (partitions_eye (p_d P)) as Hq. destruct (make_blocks_ok P H1 (eye_ptr (p_d P)) Hq i0 Hi0) as (B & EB). { intros Z. unfold stores in S00. change (In j0 (prow P i0)) in S00. rewrite Z in S00. destruct S00. }
  pose proof (l1_sparse P H1 lam B EB Hl) as Hsp. pose proof (eye_spread P D H1 H12) as Hsd.
  assert (Hcv : forall h, (S h < length (eye_ptr (p_d P)))%nat -> convex_on (length (blk (eye_ptr (p_d P)) h)) (fun _ => True) (fun v : list R => lam * l1 v)) by (intros h _; apply l1_convexR, Hl).
  assert (Hd : (0 < p_d P)%nat) by (pose proof (prow_lt P H1 i0 j0 Hi0 S00); lia).
  apply (main_C99_saga_prox_terminates P (eye_ptr (p_d P)) B (fun _ v => lam * l1 v) (l1norm_sparse_prox (K:=RN) lam) f lphi L D step tol G0 x0 max_iter perms low H1 H2 H3 H4 Hq EB Hcv Hsp (l1_in_place (K:=RN) lam) H10 H11 Hsd H13 H14 H15 Hperm Lx0 HG Hd Hm Ht).
  - intros y Ly. rewrite l1_blocks by exact Ly. apply Hlow, Ly.
  - rewrite l1_blocks by exact Lx0. exact Hmax.
Qed.
Lemma main_C100_svrg_lasso_linear : forall (P : problem RN) (f : R -> R -> R) (lam lphi L D step tol : R) (x0 : list R) (max_iter : nat) (perms : nat -> list nat) (r : epoch_result RN (vec RN * vec RN)),
  problem_wf P -> canonical P -> (exists i j, (i < p_n P)%nat /\ stores P i j) -> 0 < p_alpha P -> 0 <= lam ->
  lip_losses P f lphi L -> 0 < L -> spread P D -> 1 <= D -> 0 < step -> step * D * (INR (p_n P) * (20 * L + p_alpha P)) <= 1 ->
  (forall k, Permutation (perms k) (seq 0 (p_n P))) -> length x0 = p_d P ->
  minimize_svrg P x0 (Some step) (Some (l1norm_sparse_prox (K:=RN) lam)) (Some (eye_ptr (p_d P))) max_iter tol perms = Ok r -> convex_loss P f ->
  forall z : list R, length z = p_d P -> (forall j, (j < p_d P)%nat -> (forall i, (i < p_n P)%nat -> ~ stores P i j) -> nth j z 0 = nth j x0 0) ->
  finite_sum P f (er_x r) + lam * l1 (er_x r) - (finite_sum P f z + lam * l1 z) <= (1 - p_alpha P * step / (14 * D)) ^ S (er_nit r) * (finite_sum P f x0 + lam * l1 x0 - (finite_sum P f z + lam * l1 z)).
Proof.
  intros P f lam lphi L D step tol x0 max_iter perms r H1 H2 (i0 & j0 & Hi0 & S00) H4 Hl H10 H11 H12 H13 H14 H15 Hperm Lx0 E Hc z Lz Hz.
  assert (H3 : (0 < p_n P)%nat) by lia. pose proof (partitions_eye (p_d P)) as Hq. destruct (make_blocks_ok P H1 (eye_ptr (p_d P)) Hq i0 Hi0) as (B & EB). { intros Z. unfold stores in S00. change (In j0 (prow P i0)) in S00. rewrite Z in S00. destruct S00. }
  pose proof (l1_sparse P H1 lam B EB Hl) as Hsp. pose proof (eye_spread P D H1 H12) as Hsd.
  assert (Hcv : forall h, (S h < length (eye_ptr (p_d P)))%nat -> convex_on (length (blk (eye_ptr (p_d P)) h)) (fun _ => True) (fun v : list R => lam * l1 v)) by (intros h _; apply l1_convexR, Hl).
  pose proof (main_C100_svrg_prox_linear P (eye_ptr (p_d P)) B (fun _ v => lam * l1 v) (l1norm_sparse_prox (K:=RN) lam) f lphi L D step tol x0 max_iter perms r H1 H2 H3 H4 Hq EB Hcv Hsp (l1_in_place (K:=RN) lam) (eye_dense P H1) H10 H11 Hsd H13 H14 H15 Hperm Lx0 E Hc z Lz) as Q.
  assert (Lr : length (er_x r) = p_d P).
  { assert (OK : pok P (eye_ptr (p_d P)) B (fun _ v => lam * l1 v) (l1norm_sparse_prox (K:=RN) lam) f lphi L D step) by (unfold pok; pose proof (l1_in_place (K:=RN) lam); assert (0 <= p_alpha P) by lra; tauto).
    destruct (svrg_prox_run P (eye_ptr (p_d P)) B (fun _ v => lam * l1 v) (l1norm_sparse_prox (K:=RN) lam) f lphi L D step OK (eye_dense P H1) perms x0 tol max_iter r Hperm Lx0 E) as (xs & _ & A1 & _ & A3 & _). rewrite A1. apply A3, le_n. }
  rewrite !l1_blocks in Q by assumption. apply Q. intros j Hj Nt. apply Hz; [exact Hj|]. intros i Hi Hs. apply Nt. exists i. split; [exact Hi|]. apply (ext_spec P H1 _ Hq i j Hi). apply stores_ext; assumption.
Qed.
Lemma main_C100_svrg_lasso_terminates : forall (P : problem RN) (f : R -> R -> R) (lam lphi L D step tol : R) (x0 : list R) (max_iter : nat) (perms : nat -> list nat) (low : R),
  problem_wf P -> canonical P -> (exists i j, (i < p_n P)%nat /\ stores P i j) -> 0 <= p_alpha P -> 0 <= lam ->
  lip_losses P f lphi L -> 0 < L -> spread P D -> 1 <= D -> 0 < step -> step * D * (INR (p_n P) * (20 * L + p_alpha P)) <= 1 ->
  (forall k, Permutation (perms k) (seq 0 (p_n P))) -> length x0 = p_d P ->
  (0 < max_iter)%nat -> 0 < tol -> (forall y : list R, length y = p_d P -> low <= finite_sum P f y + lam * l1 y) ->
  4 * (step * D * INR (p_n P) * INR (p_d P)) * (finite_sum P f x0 + lam * l1 x0 - low) < tol * tol * INR max_iter ->
  exists r, minimize_svrg P x0 (Some step) (Some (l1norm_sparse_prox (K:=RN) lam)) (Some (eye_ptr (p_d P))) max_iter tol perms = Ok r /\ er_success r = true.
Proof.
  intros P f lam lphi L D step tol x0 max_iter perms low H1 H2 (i0 & j0 & Hi0 & S00) H4 Hl H10 H11 H12 H13 H14 H15 Hperm Lx0 Hm Ht Hlow Hmax.
  assert (H3 : (0 < p_n P)%nat) by lia. pose proof (partitions_eye (p_d P)) as Hq. destruct (make_blocks_ok P H1 (eye_ptr (p_d P)) Hq i0 Hi0) as (B & EB). { intros Z. unfold stores in S00. change (In j0 (prow P i0)) in S00. rewrite Z in S00. destruct S00. }
  pose proof (l1_sparse P H1 lam B EB Hl) as Hsp. pose proof (eye_spread P D H1 H12) as Hsd.
  assert (Hcv : forall h, (S h < length (eye_ptr (p_d P)))%nat -> convex_on (length (blk (eye_ptr (p_d P)) h)) (fun _ => True) (fun v : list R => lam * l1 v)) by (intros h _; apply l1_convexR, Hl).
  assert (Hd : (0 < p_d P)%nat) by (pose proof (prow_lt P H1 i0 j0 Hi0 S00); lia).
  apply (main_C100_svrg_prox_terminates P (eye_ptr (p_d P)) B (fun _ v => lam * l1 v) (l1norm_sparse_prox (K:=RN) lam) f lphi L D step tol x0 max_iter perms low H1 H2 H3 H4 Hq EB Hcv Hsp (l1_in_place (K:=RN) lam) (eye_dense P H1) H10 H11 Hsd H13 H14 H15 Hperm Lx0 Hd Hm Ht).
  - intros y Ly. rewrite l1_blocks by exact Ly. apply Hlow, Ly.
  - rewrite l1_blocks by exact Lx0. exact Hmax.
Qed.
(** the group penalty of GroupL1 *)
Lemma main_C99_saga_group_linear : forall (P : problem RN) (B : blocks RN) (groups : list (list Z)) (data : list Z) (ptr : list nat) (f : R -> R -> R) (lam lphi L D step tol G0 : R) (x0 : list R) (max_iter : nat) (perms : nat -> list nat) (r : epoch_result RN (saga_state RN)),
  problem_wf P -> canonical P -> (0 < p_n P)%nat -> 0 < p_alpha P -> 0 <= lam -> group_init groups = Ok groups -> groups_within (p_d P) groups -> group_blocks groups (p_d P) = Ok (data, ptr) -> make_blocks P ptr = Ok B ->
  lip_losses P f lphi L -> 0 < L -> block_spread P ptr D -> 1 <= D -> 0 < step -> step * D * (INR (p_n P) * (20 * L + p_alpha P)) <= 1 ->
  (forall k, Permutation (perms k) (seq 0 (p_n P))) -> length x0 = p_d P -> sample_grads P x0 G0 ->
  minimize_saga P x0 (Some step) (Some (group_sparse_prox (K:=RN) lam data ptr)) (Some ptr) max_iter tol perms = Ok r -> convex_loss P f ->
  let pen := block_penalty ptr (fun h v => if existsb (fun g => if list_eq_dec Nat.eq_dec (map Z.to_nat g) (blk ptr h) then true else false) groups then lam * norm2 v else 0) in
  forall z : list R, length z = p_d P -> (forall j, (j < p_d P)%nat -> ~ touched P ptr j -> nth j z 0 = nth j x0 0) ->
  finite_sum P f (er_x r) + pen (er_x r) - (finite_sum P f z + pen z) <= (1 - p_alpha P * step / (14 * D)) ^ S (er_nit r) * (finite_sum P f x0 + pen x0 + 2 * (G0 * G0 / L) - (finite_sum P f z + pen z)).
Proof.
  intros P B groups data ptr f lam lphi L D step tol G0 x0 max_iter perms r H1 H2 H3 H4 Hl Hg Hw Hb EB H10 H11 H12 H13 H14 H15 Hperm Lx0 HG E Hc pen z Lz Hz.
  assert (Hq : partitions ptr (p_d P)). { destruct (group_blocks_spec _ groups Hg Hw) as (data' & ptr' & Hb' & _ & Hp & _). rewrite Hb in Hb'. injection Hb' as <- <-. exact Hp. }
  apply (main_C99_saga_prox_linear P ptr B _ (group_sparse_prox (K:=RN) lam data ptr) f lphi L D step tol G0 x0 max_iter perms r H1 H2 H3 H4 Hq EB (fun h _ => group_convex ptr lam groups h Hl) (group_sparse P H1 lam groups data ptr B Hg Hw Hb Hl EB) (group_in_place (K:=RN) lam data ptr) H10 H11 H12 H13 H14 H15 Hperm Lx0 HG E Hc z Lz Hz).
Qed.
