(** * The randomized solvers over whole epochs: a false success of SAGA, and problems meeting the hypotheses of C96-C98 *)
From Coq Require Import ZArith Bool List Lia Permutation Reals Lra.
From Verif Require Import Num Vec Spec SpecSparse RVec ConvexFacts PenaltyFacts UtilsMain ProxGradMain SplittingRuns ModelRandomized SpecFiniteSum SpecEpochs SpecLoss LossFacts RandomizedFacts RandomizedBlocks RandomizedSaga RandomizedSvrg RandomizedMain RandomizedRuns RandomizedRuns2 LossMain2 EpochFacts SvrgRate SagaRate.
Import ListNotations.
Local Open Scope R_scope.

Lemma half_sq_deriv p b : derivable_pt_lim (fun t => half_sq t b) p (p - b).
Proof.
  unfold half_sq. intros eps He. exists (mkposreal eps He). intros h Hh Hh2. cbn in Hh2.
  replace (((p + h - b) * (p + h - b) / 2 - (p - b) * (p - b) / 2) / h - (p - b)) with (h / 2) by (field; exact Hh).
  unfold Rdiv. rewrite Rabs_mult, (Rabs_pos_eq (/ 2)) by lra. pose proof (Rabs_pos h). lra.
Qed.
(** least squares with one feature and two samples, targets -2c and c (3 - 2 step) *)
Definition decoy (c step : R) : problem RN := mkP (K:=RN) [1; 1] [0; 0]%nat [0; 1; 2]%nat 2 1 [- (2 * c); c * (3 - 2 * step)] (fun p b => p - b) 0.
Lemma decoy_ok c step : problem_wf (decoy c step) /\ canonical (decoy c step) /\ lip_losses (decoy c step) half_sq 1 1 /\ spread (decoy c step) 1.
Proof.
  split. { unfold problem_wf, csr_wf. cbn [decoy p_n p_d p_indices p_indptr p_data p_b]. wf_solve. }
  split. { intros i Hi. cbn in Hi. destruct i as [|[|i]]; [| |lia]; cbn; repeat constructor; intros []. }
  split. { split; [intros; apply half_sq_deriv|]. split. { intros p q b. cbn [decoy p_fd]. right. rewrite Rmult_1_l. f_equal. rn. ring. }
    split; [lra|]. split; [lra|]. intros i Hi. cbn in Hi. destruct i as [|[|i]]; [| |lia]; cbv -[Rplus Rmult Rminus Ropp Rdiv Rinv IZR Rle]; lra. }
  intros i j Hi Hs. cbn in Hi. unfold stores in Hs. assert (j = 0%nat) as ->. { destruct i as [|[|i]]; [| |lia]; cbn in Hs; destruct Hs as [<-|[]]; reflexivity. }
  cbn. lra.
Qed.
Lemma decoy_run c step : let B := mkB (K:=RN) [0; 1]%nat [0; 0]%nat [0; 1; 2]%nat [2 / 2] in
  make_blocks (decoy c step) (eye_ptr 1) = Ok B /\
  saga_epoch (decoy c step) B no_prox step [0; 1]%nat (mkSaga (K:=RN) [0] [0; 0] [0] [0]) = Ok (mkSaga (K:=RN) [0] [2 * c; - (3 * c)] [- c / 2] [0]) /\
  gvec (decoy c step) [0] = [c * (step - 1 / 2)].
Proof.
  split; [cbv -[Rplus Rmult Rminus Ropp Rdiv Rinv IZR]; reflexivity|]. split.
  - assert (X : forall a b m1 m2 v a' b' m1' m2' v' : R, a = a' -> m1 = m1' -> m2 = m2' -> v = v' -> b = b' -> Ok (mkSaga (K:=RN) [a] [m1; m2] [v] [b]) = Ok (mkSaga (K:=RN) [a'] [m1'; m2'] [v'] [b'])) by (intros; subst; reflexivity).
    cbv -[Rplus Rmult Rminus Ropp Rdiv Rinv IZR]. apply X; field.
  - cbv -[Rplus Rmult Rminus Ropp Rdiv Rinv IZR]. f_equal. field.
Qed.
Lemma main_C98_saga_success_refuted : forall step tol G : R, 0 < step <= 1 / 100 -> 0 < tol ->
  exists (P : problem RN) (x0 : list R) (r : epoch_result RN (saga_state RN)) (g : list R),
    problem_wf P /\ canonical P /\ lip_losses P half_sq 1 1 /\ convex_loss P half_sq /\ spread P 1 /\ p_alpha P = 0 /\ step * INR (p_n P) * ((2 + 1) * 1 + p_alpha P * 1) <= 1 / 16 /\ length x0 = p_d P /\
    (forall max_iter, (0 < max_iter)%nat -> minimize_saga P x0 (Some step) None None max_iter tol (fun _ => seq 0 (p_n P)) = Ok r) /\ er_success r = true /\
    is_gradient (p_d P) (finite_sum P half_sq) (er_x r) g /\ norm2 g >= G.
Proof.
  intros step tol G Hst Ht. set (c := 4 * Rabs G). assert (Hc : 0 <= c) by (unfold c; pose proof (Rabs_pos G); lra). set (P := decoy c step).
  destruct (decoy_ok c step) as (W & C & HL & HS). fold P in W, C, HL, HS.
  set (s0 := mkSaga (K:=RN) [0] [0; 0] [0] [0]). set (s2 := mkSaga (K:=RN) [0] [2 * c; - (3 * c)] [- c / 2] [0]).
  set (B := mkB (K:=RN) [0; 1]%nat [0; 0]%nat [0; 1; 2]%nat [2 / 2]).
  exists P, [0], (mkER (K:=RN) [0] true 0 [s2; s0]), (gvec P [0]).
  split; [exact W|]. split; [exact C|]. split; [exact HL|]. split; [intros p q b; apply half_sq_convex|]. split; [exact HS|]. split; [reflexivity|].
  split. { cbn [P decoy p_n p_alpha INR]. lra. } split; [reflexivity|].
  destruct (decoy_run c step) as (EB & Es & E). fold P B s0 s2 in EB, Es, E.
  split. { intros [|m] Hm; [lia|]. unfold minimize_saga. change (p_d P) with 1%nat. rewrite EB. cbn [bind saga_loop]. change (saga_init P [0]) with s0. change (seq 0 (p_n P)) with [0; 1]%nat. rewrite Es. cbn [bind].
    assert (N : nltb RN (vnorm1 (vsub (sa_x s2) (sa_x s0))) tol = true).
    { rewrite vsub_R, vnorm1_R. apply Rltb_iff. cbn. unfold lin. cbn. replace (1 * 0 + -1 * 0) with 0 by ring. rewrite Rabs_R0. lra. }
    rewrite N. reflexivity. }
  split; [reflexivity|].
  split. { apply (finite_sum_gradient P ltac:(cbn; lia) ltac:(cbn; lra) half_sq 1 1 HL [0]). reflexivity. }
  rewrite E. apply Rle_ge. apply Rle_trans with (Rabs G); [apply Rle_abs|]. rewrite (norm2_row1 (c * (step - 1 / 2))). rewrite Rabs_mult, (Rabs_pos_eq c Hc), (Rabs_left (step - 1 / 2)) by lra.
  unfold c. assert (4 * (- (step - 1 / 2)) >= 1) by lra. pose proof (Rabs_pos G). nra.
Qed.
(** two samples with different supports, ridge 1/4 *)
Definition twin : problem RN := mkP (K:=RN) [1; 1; 1] [0; 1; 1]%nat [0; 2; 3]%nat 2 2 [1; 2] (fun p b => p - b) (1 / 4).
Definition swap (k : nat) : list nat := if Nat.even k then [0; 1]%nat else [1; 0]%nat.
Lemma swap_perm k : Permutation (swap k) (seq 0 2).
Proof. unfold swap. destruct (Nat.even k); [apply Permutation_refl|apply perm_swap]. Qed.
Lemma twin_ok : problem_wf twin /\ canonical twin /\ lip_losses twin half_sq 1 2 /\ spread twin 2 /\ all_stored twin /\ convex_loss twin half_sq /\ sample_grads twin [0; 0] 2 /\
  (exists i j, (i < p_n twin)%nat /\ stores twin i j) /\ (forall y, length y = 2%nat -> 0 <= finite_sum twin half_sq y) /\ finite_sum twin half_sq [0; 0] = 5 / 4.
Proof.
  split. { unfold problem_wf, csr_wf. cbn [twin p_n p_d p_indices p_indptr p_data p_b]. wf_solve. }
  split. { intros i Hi. cbn in Hi. destruct i as [|[|i]]; [| |lia]; cbn; repeat constructor; cbn; intuition lia. }
  split. { split; [intros; apply half_sq_deriv|]. split. { intros p q b. cbn [twin p_fd]. right. rewrite Rmult_1_l. f_equal. rn. ring. }
    split; [lra|]. split; [lra|]. intros i Hi. cbn in Hi. destruct i as [|[|i]]; [| |lia]; cbv -[Rplus Rmult Rminus Ropp Rdiv Rinv IZR Rle]; lra. }
  split. { intros i j Hi Hs. cbn in Hi. unfold stores in Hs. assert (j = 0 \/ j = 1)%nat as [->| ->]. { destruct i as [|[|i]]; [| |lia]; cbn in Hs; intuition lia. } all: cbn; lra. }
  split. { intros j Hj. exists 0%nat. cbn in Hj. split; [cbn; lia|]. unfold stores. destruct j as [|[|j]]; [| |lia]; cbn; auto. }
  split; [intros p q b; apply half_sq_convex|].
  split. { split; [lra|]. intros i Hi. cbn in Hi. destruct i as [|[|i]]; [| |lia]; cbv -[Rplus Rmult Rminus Ropp Rdiv Rinv IZR Rle]; lra. }
  split. { exists 0%nat, 0%nat. split; [cbn; lia|]. unfold stores. cbn. auto. }
  split. { intros y _. unfold finite_sum. apply Rplus_le_le_0_compat.
    - apply Rmult_le_pos; [left; apply Rinv_0_lt_compat; cbn; lra|]. assert (G : forall l, 0 <= Rsum (map (fun i => half_sq (adot twin i y) (nth i (p_b twin) 0)) l)); [|apply G].
      induction l as [|i l IH]; cbn [map Rsum]; [lra|]. apply Rplus_le_le_0_compat; [|exact IH]. unfold half_sq. pose proof (Rle_0_sqr (adot twin i y - nth i (p_b twin) 0)) as Q. unfold Rsqr in Q. lra.
    - apply Rmult_le_pos; [cbn; lra|]. rewrite <- norm2_sq. apply Rle_0_sqr. }
  cbv -[Rplus Rmult Rminus Ropp Rdiv Rinv IZR]. field.
Qed.
Lemma ex_svrg_epochs : exists r, (0 < p_n twin)%nat /\ 0 < p_alpha twin /\ 1 <= 2 /\ 1 / 20 * INR (p_n twin) * (2 + p_alpha twin * 2) <= 1 / 4 /\ (forall k, Permutation (swap k) (seq 0 (p_n twin))) /\
  minimize_svrg twin [0; 0] (Some (1 / 20)) None None 2 1 swap = Ok r /\ er_success r = true.
Proof.
  destruct twin_ok as (T1 & T2 & T3 & T4 & T5 & T6 & T7 & T8 & T9 & T10).
  assert (S : 1 / 20 * INR (p_n twin) * (2 + p_alpha twin * 2) <= 1 / 4) by (cbn; lra).
  assert (A0 : 0 <= p_alpha twin) by (cbn; lra).
  assert (M : 16 * (INR (p_d twin) * (1 / 20 * INR (p_n twin))) * (finite_sum twin half_sq [0; 0] - 0) < 3 * (1 * 1) * INR 2) by (rewrite T10; cbn; lra).
  destruct (main_C96_svrg_terminates twin half_sq 1 2 2 (1 / 20) 1 0 [0; 0] 2 swap T1 T2 T8 A0 T3 T4 ltac:(lra) (or_intror T5) ltac:(lra) S swap_perm eq_refl ltac:(lra) T9 M) as (r & E & Es).
  exists r. split; [cbn; lia|]. split; [cbn; lra|]. split; [lra|]. split; [exact S|]. split; [exact swap_perm|]. auto.
Qed.
Lemma ex_saga_epochs : exists r, 1 / 300 * INR (p_n twin) * ((2 + 2) * 2 + p_alpha twin * 2) <= 1 / 16 /\ minimize_saga twin [0; 0] (Some (1 / 300)) None None 20 (1 / 10) swap = Ok r /\ er_success r = true.
Proof.
  destruct twin_ok as (T1 & T2 & T3 & T4 & T5 & T6 & T7 & T8 & T9 & T10).
  assert (S : 1 / 300 * INR (p_n twin) * ((2 + 2) * 2 + p_alpha twin * 2) <= 1 / 16) by (cbn; lra).
  assert (A0 : 0 <= p_alpha twin) by (cbn; lra).
  assert (M : 5 * (INR (p_d twin) * (1 / 300 * INR (p_n twin))) * (finite_sum twin half_sq [0; 0] - 0 + 2 * (1 / 300 * INR (p_n twin)) * ((1 + 2) * 2 * ((1 + 2) * 2))) < 1 / 10 * (1 / 10) * INR 20).
  { rewrite T10. replace (INR 20) with 20 by (cbn; ring). cbn. lra. }
  destruct (main_C97_saga_terminates twin half_sq 1 2 2 (1 / 300) (1 / 10) 2 0 [0; 0] 20 swap T1 T2 T8 A0 T3 T4 ltac:(lra) (or_intror T5) ltac:(lra) S swap_perm eq_refl T7 ltac:(lra) T9 M) as (r & E & Es).
  exists r. auto.
Qed.
