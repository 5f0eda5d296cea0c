(** * Problems meeting the hypotheses of C99 and C100 *)
From Coq Require Import ZArith Bool List Lia Permutation Reals Lra.
From Verif Require Import Num Vec Spec SpecSparse RVec ConvexFacts PenaltyFacts PenaltyFacts2 PenaltyFacts3 ModelPenalty ModelRandomized SpecFiniteSum SpecEpochs SpecLoss RandomizedBlocks RandomizedProx RandomizedPen RandomizedMain3 RandomizedRuns RandomizedRuns2 EpochRuns ProxEpochs ProxSagaMain ProxEpochsMain.
Import ListNotations.
Local Open Scope R_scope.

Lemma l1_pos (y : list R) : 0 <= l1 y.
Proof. induction y as [|a y IH]; cbn; [lra|]. pose proof (Rabs_pos a). lra. Qed.
Lemma ex_saga_lasso : exists r, 1 / 200 * 2 * (INR (p_n twin) * (20 * 2 + p_alpha twin)) <= 1 /\
  minimize_saga twin [0; 0] (Some (1 / 200)) (Some (l1norm_sparse_prox (K:=RN) (1 / 10))) (Some (eye_ptr (p_d twin))) 4 (1 / 2) swap = Ok r /\ er_success r = true.
Proof.
  destruct twin_ok as (T1 & T2 & T3 & T4 & T5 & T6 & T7 & T8 & T9 & T10).
  assert (S : 1 / 200 * 2 * (INR (p_n twin) * (20 * 2 + p_alpha twin)) <= 1) by (cbn; lra). assert (A0 : 0 <= p_alpha twin) by (cbn; lra).
  assert (M : 4 * (1 / 200 * 2 * INR (p_n twin) * INR (p_d twin)) * (finite_sum twin half_sq [0; 0] + 1 / 10 * l1 [0; 0] + 2 * (2 * 2 / 2) - 0) < 1 / 2 * (1 / 2) * INR 4) by (rewrite T10; cbn; rewrite Rabs_R0; lra).
  destruct (main_C99_saga_lasso_terminates twin half_sq (1 / 10) 1 2 2 (1 / 200) (1 / 2) 2 [0; 0] 4 swap 0 T1 T2 T8 A0 ltac:(lra) T3 ltac:(lra) T4 ltac:(lra) ltac:(lra) S swap_perm eq_refl T7 ltac:(lia) ltac:(lra)) as (r & E & Es); [|exact M|exists r; auto].
  intros y Ly. pose proof (T9 y Ly). pose proof (l1_pos y). lra.
Qed.
Lemma ex_svrg_lasso : exists r, 1 / 200 * 2 * (INR (p_n twin) * (20 * 2 + p_alpha twin)) <= 1 /\
  minimize_svrg twin [0; 0] (Some (1 / 200)) (Some (l1norm_sparse_prox (K:=RN) (1 / 10))) (Some (eye_ptr (p_d twin))) 4 (1 / 2) swap = Ok r /\ er_success r = true.
Proof.
  destruct twin_ok as (T1 & T2 & T3 & T4 & T5 & T6 & T7 & T8 & T9 & T10).
  assert (S : 1 / 200 * 2 * (INR (p_n twin) * (20 * 2 + p_alpha twin)) <= 1) by (cbn; lra). assert (A0 : 0 <= p_alpha twin) by (cbn; lra).
  assert (M : 4 * (1 / 200 * 2 * INR (p_n twin) * INR (p_d twin)) * (finite_sum twin half_sq [0; 0] + 1 / 10 * l1 [0; 0] - 0) < 1 / 2 * (1 / 2) * INR 4) by (rewrite T10; cbn; rewrite Rabs_R0; lra).
  destruct (main_C100_svrg_lasso_terminates twin half_sq (1 / 10) 1 2 2 (1 / 200) (1 / 2) [0; 0] 4 swap 0 T1 T2 T8 A0 ltac:(lra) T3 ltac:(lra) T4 ltac:(lra) ltac:(lra) S swap_perm eq_refl ltac:(lia) ltac:(lra)) as (r & E & Es); [|exact M|exists r; auto].
  intros y Ly. pose proof (T9 y Ly). pose proof (l1_pos y). lra.
Qed.
(** both features in one group: both samples touch it, D = 1 *)
Lemma ex_saga_group : exists B r, let groups := [[0; 1]]%Z in group_init groups = Ok groups /\ groups_within (p_d twin) groups /\ group_blocks groups (p_d twin) = Ok ([1; 1]%Z, [0; 2]%nat) /\ make_blocks twin [0; 2]%nat = Ok B /\
  block_spread twin [0; 2]%nat 1 /\ 1 / 200 * 1 * (INR (p_n twin) * (20 * 2 + p_alpha twin)) <= 1 /\
  minimize_saga twin [0; 0] (Some (1 / 200)) (Some (group_sparse_prox (K:=RN) (1 / 10) [1; 1]%Z [0; 2]%nat)) (Some [0; 2]%nat) 4 (1 / 2) swap = Ok r.
Proof.
  destruct twin_ok as (T1 & T2 & T3 & T4 & T5 & T6 & T7 & T8 & T9 & T10). set (groups := [[0; 1]]%Z).
  assert (G1 : group_init groups = Ok groups) by reflexivity.
  assert (G2 : groups_within (p_d twin) groups). { unfold groups_within, groups. cbn. repeat constructor; try discriminate; lia. }
  assert (G3 : group_blocks groups (p_d twin) = Ok ([1; 1]%Z, [0; 2]%nat)) by reflexivity.
  assert (Hq : partitions [0; 2]%nat (p_d twin)). { destruct (group_blocks_spec _ groups G1 G2) as (data' & ptr' & Hb' & _ & Hp & _). rewrite G3 in Hb'. injection Hb' as <- <-. exact Hp. }
  destruct (make_blocks_ok twin T1 [0; 2]%nat Hq 0%nat ltac:(cbn; lia)) as (B & EB); [cbn; discriminate|].
  assert (T : total_prox twin B (group_sparse_prox (K:=RN) (1 / 10) [1; 1]%Z [0; 2]%nat) (1 / 200)).
  { eapply main_C85_factory_total; [apply (group_sparse twin T1 (1 / 10) groups [1; 1]%Z [0; 2]%nat B G1 G2 G3 ltac:(lra) EB)|lra]. }
  destruct (main_C85_saga_total RN twin [0; 2]%nat B _ (1 / 200) (1 / 2) [0; 0] 4 swap T1 Hq EB (group_in_place (K:=RN) (1 / 10) [1; 1]%Z [0; 2]%nat) T eq_refl ltac:(lia)) as (r & E).
  { intros k. apply Forall_forall. intros i Hi. apply (Permutation_in _ (swap_perm k)), in_seq in Hi. cbn in *. lia. }
  exists B, r. cbv zeta. split; [exact G1|]. split; [exact G2|]. split; [exact G3|]. split; [exact EB|]. split.
  { intros h Hh _. cbn in Hh. assert (h = 0)%nat by lia. subst h. cbn. lra. }
  split; [cbn; lra|exact E].
Qed.
