(** * SAGA in every order of the samples: energy, rates, termination, meaning of success (closed statements, C97, C98) *)
From Coq Require Import Bool List Lia Permutation Reals Lra.
From Verif Require Import Num Vec Spec SpecSparse RVec ConvexFacts PenaltyFacts UtilsMain ModelRandomized SpecFiniteSum SpecEpochs SpecLoss LossFacts RandomizedBlocks RandomizedSaga RandomizedSvrg RandomizedFix RandomizedMain RandomizedMain3 SvdExists EpochFacts SvrgDescent SvrgRate SagaDescent.
Import ListNotations.
Local Open Scope R_scope.

Definition sok (P : problem RN) (f : R -> R -> R) (lphi L D step : R) : Prop :=
  problem_wf P /\ canonical P /\ (0 < p_n P)%nat /\ 0 <= p_alpha P /\ lip_losses P f lphi L /\ spread P D /\ 1 <= D /\
  (p_alpha P = 0 \/ all_stored P) /\ 0 < step /\ step * INR (p_n P) * ((2 + D) * L + p_alpha P * D) <= 1 / 16.
Lemma sok_eok P f lphi L D step : sok P f lphi L D step -> eok P f lphi L D step.
Proof.
  intros (H1 & H2 & H3 & H4 & H5 & H6 & H7 & H8 & H9 & H10). assert (HL0 : 0 <= L) by apply H5.
  assert (step * INR (p_n P) * (L + p_alpha P * D) <= 1 / 4); [|unfold eok; tauto].
  assert (Hsn : 0 <= step * INR (p_n P)) by (apply Rmult_le_pos; [lra|apply pos_INR]).
  assert (1 * L <= (2 + D) * L) by (apply Rmult_le_compat_r; lra).
  assert (step * INR (p_n P) * (L + p_alpha P * D) <= step * INR (p_n P) * ((2 + D) * L + p_alpha P * D)) by (apply Rmult_le_compat_l; lra). lra.
Qed.
Lemma stale_mono P x mem a b : a <= b -> stale P x mem a -> stale P x mem b.
Proof. intros H S i Hi. specialize (S i Hi). lra. Qed.

Section Run.
Variables (P : problem RN) (f : R -> R -> R) (lphi L D step : R).
Hypothesis OK : sok P f lphi L D step.
Let n := p_n P.
Let d := p_d P.
Let F := finite_sum P f.
Let t := step * INR n.
Lemma arow_sq i : norm2 (arow P i) * norm2 (arow P i) = Rsum (map (fun j => ent P i j * ent P i j) (seq 0 d)).
Proof.
  rewrite norm2_sq, (dot_seq _ _ d) by apply arow_length. apply Rsum_map_ext. intros j Hj. apply in_seq in Hj. rewrite nth_arow by (fold d; lia). reflexivity.
Qed.
Lemma stale_init (x0 : vec RN) G0 : sample_grads P x0 G0 -> stale P x0 (sa_mem (saga_init P x0)) G0.
Proof.
  intros (H0 & H) i Hi. cbn [saga_init sa_mem].
  assert (Z : @nth R i (vzeros (K:=RN) (p_n P)) 0 = 0) by (rewrite vzeros_R; apply nth_zeros). rewrite Z, Rminus_0_l, Rabs_Ropp.
  specialize (H i Hi). fold d in H. rewrite <- arow_sq in H. apply Rsqr_incr_0_var; [|exact H0]. unfold Rsqr.
  replace (Rabs (loss_deriv P x0 i) * norm2 (arow P i) * (Rabs (loss_deriv P x0 i) * norm2 (arow P i))) with (Rabs (loss_deriv P x0 i) * Rabs (loss_deriv P x0 i) * (norm2 (arow P i) * norm2 (arow P i))) by ring.
  rewrite <- Rabs_mult, (Rabs_pos_eq (_ * _)) by apply Rle_0_sqr. exact H.
Qed.
Variables (perms : nat -> list nat).
Hypothesis Hperm : forall k, Permutation (perms k) (seq 0 n).
(** one epoch from a memory of age w / (1 + D) *)
Lemma saga_one B (s s' : saga_state RN) k w : make_blocks P (eye_ptr d) = Ok B -> saga_len P s -> saga_inv P s -> saga_epoch P B no_prox step (perms k) s = Ok s' ->
  0 <= w -> stale P (sa_x s) (sa_mem s) (w / (1 + D)) ->
  let g := norm2 (gvec P (sa_x s)) in let w' := 2 / 15 * (g + w) in
  saga_len P s' /\ saga_inv P s' /\ 0 <= w' /\ stale P (sa_x s') (sa_mem s') (w' / (1 + D)) /\
  F (sa_x s') + 2 * t * (w' * w') <= F (sa_x s) + 2 * t * (w * w) - t / 2 * (g * g + w * w) /\
  norm2 (vminus (sa_x s') (sa_x s)) <= 16 / 15 * (t * (g + w)) /\
  t * g <= norm2 (vminus (sa_x s') (sa_x s)) + t * (w + / 15 * (g + w)).
Proof.
  intros EB Hl Hv E Hw Hs g w'. destruct OK as (HP & HC & Hn & Ha & HL & HD & HD1 & Hall & Hst & Hsm). assert (Hst0 : 0 <= step) by lra.
  assert (Hg : 0 <= g) by apply norm2_nonneg. assert (Hw' : 0 <= w') by (unfold w'; lra).
  assert (Hsg : 0 <= w / (1 + D)) by (apply Rmult_le_pos; [exact Hw|left; apply Rinv_0_lt_compat; lra]).
  destruct (saga_epoch_vec P HP HC Hn Ha B EB D f lphi L step HD HD1 HL Hst0 (perms k) (Hperm k) Hall Hsm s s' (w / (1 + D)) Hl Hv E Hsg Hs) as (L1 & L2 & (e & Le & E1 & E2) & E3 & sg' & S1 & S2 & S3).
  replace ((1 + D) * (w / (1 + D))) with w in * by (field; lra). fold g in E2, E3, S3.
  split; [exact L1|]. split; [exact L2|]. split; [exact Hw'|]. split.
  { eapply stale_mono; [|exact S2]. apply (Rmult_le_reg_l (1 + D)); [lra|]. replace ((1 + D) * (w' / (1 + D))) with w' by (field; lra). exact S3. }
  split. { apply (saga_energy P Hn Ha D f lphi L step HD1 HL Hst0 Hsm (sa_x s) (sa_x s') e w w'); try assumption; [apply Hl|apply L1|fold g; unfold w'; lra]. }
  split; [exact E3|].
  assert (Hnp : 0 < INR n) by (apply lt_0_INR; exact Hn).
  assert (EQ : smul (step * INR n) (gvec P (sa_x s)) = vplus (smul (-1) (vminus (sa_x s') (sa_x s))) (smul (- step) e)).
  { rewrite E1. assert (LG : length (gvec P (sa_x s)) = d) by apply gvec_length. change (length e = d) in Le. apply (list_ext _ _ 0); [unfold vplus; rewrite !lin_length, !smul_length, !lin_length, !smul_length, Le, LG, !Nat.min_id; reflexivity|].
    intros j _. rewrite nth_vplus by (unfold vplus; rewrite !smul_length, lin_length, smul_length, Le, LG, Nat.min_id; reflexivity). rewrite !nth_smul, nth_vplus, nth_smul by (rewrite smul_length, Le, LG; reflexivity). unfold n. ring. }
  assert (NN : t * g = norm2 (smul (step * INR n) (gvec P (sa_x s)))). { rewrite norm2_smul, Rabs_pos_eq; [reflexivity|]. apply Rmult_le_pos; lra. }
  rewrite NN, EQ. eapply Rle_trans; [apply norm_vplus; rewrite !smul_length, Le; rewrite E1; unfold vplus; rewrite smul_length, lin_length, smul_length, Le, (gvec_length P (sa_x s)); apply Nat.min_id|].
  rewrite !norm2_smul, Rabs_Ropp, (Rabs_pos_eq step) by lra. replace (-1) with (- (1)) by ring. rewrite Rabs_Ropp, Rabs_R1, Rmult_1_l.
  apply Rplus_le_compat_l. unfold t. rewrite Rmult_assoc. apply Rmult_le_compat_l; [lra|exact E2].
Qed.
Variables (x0 : vec RN) (tol G0 : R) (max_iter : nat) (r : epoch_result RN (saga_state RN)).
Hypothesis Lx0 : length x0 = d.
Hypothesis HG0 : sample_grads P x0 G0.
Hypothesis E : minimize_saga P x0 (Some step) None None max_iter tol perms = Ok r.
Lemma saga_run : exists (xs : nat -> list R) (ws : nat -> R), xs 0%nat = x0 /\ ws 0%nat = (1 + D) * G0 /\ er_x r = xs (S (er_nit r)) /\ map sa_x (rev (er_log r)) = map xs (seq 0 (S (S (er_nit r)))) /\
  (forall k, (k <= S (er_nit r))%nat -> length (xs k) = d) /\
  (forall k, (k <= er_nit r)%nat -> let g := norm2 (gvec P (xs k)) in 0 <= ws k /\
     F (xs (S k)) + 2 * t * (ws (S k) * ws (S k)) <= F (xs k) + 2 * t * (ws k * ws k) - t / 2 * (g * g + ws k * ws k) /\
     norm2 (vminus (xs (S k)) (xs k)) <= 16 / 15 * (t * (g + ws k))) /\
  (er_success r = true -> l1 (vminus (er_x r) (xs (er_nit r))) < tol) /\
  (er_success r = false -> S (er_nit r) = max_iter /\ forall k, (k <= er_nit r)%nat -> tol <= l1 (vminus (xs (S k)) (xs k))).
Proof.
  destruct (main_C69_saga_contract _ _ _ _ _ _ _ _ _ _ E) as (st & B & S0 & Est & EB & I0 & Ep & Hm & Ex & El & Hd & Hsu & Hfa).
  injection Est as <-. change (S0 0%nat = saga_init P x0) in I0. set (xs := fun k => sa_x (S0 k) : list R). assert (HD1 : 1 <= D) by apply OK.
  set (ws := fix ws (k : nat) : R := match k with O => (1 + D) * G0 | S k' => 2 / 15 * (norm2 (gvec P (xs k')) + ws k') end).
  exists xs, ws.
  assert (Inv : forall k, (k <= S (er_nit r))%nat -> saga_len P (S0 k) /\ saga_inv P (S0 k) /\ 0 <= ws k /\ stale P (sa_x (S0 k)) (sa_mem (S0 k)) (ws k / (1 + D))).
  { induction k as [|k IH]; intros Hk.
    - rewrite I0. split; [apply saga_init_len, Lx0|]. split; [apply saga_init_inv|]. cbn [ws]. split; [apply Rmult_le_pos; [lra|apply HG0]|].
      replace ((1 + D) * G0 / (1 + D)) with G0 by (field; lra). apply (stale_init x0 G0 HG0).
    - destruct (IH ltac:(lia)) as (M1 & M2 & M3 & M4). destruct (saga_one B (S0 k) (S0 (S k)) k (ws k) EB M1 M2 (Ep k ltac:(lia)) M3 M4) as (A1 & A2 & A3 & A4 & _). auto. }
  assert (Hv : forall u v : vec RN, nltb RN (vnorm1 (vsub u v)) tol = true <-> l1 (vminus u v) < tol).
  { intros u v. rewrite vsub_R, vnorm1_R. apply Rltb_iff. }
  split; [unfold xs; rewrite I0; reflexivity|]. split; [reflexivity|]. split; [exact Ex|].
  split. { rewrite El, rev_involutive, map_map. reflexivity. }
  split; [intros k Hk; apply (Inv k Hk)|].
  split. { intros k Hk g. destruct (Inv k ltac:(lia)) as (M1 & M2 & M3 & M4). destruct (saga_one B (S0 k) (S0 (S k)) k (ws k) EB M1 M2 (Ep k Hk) M3 M4) as (A1 & A2 & A3 & A4 & A5 & A6 & _). auto. }
  split. { intros Hs. rewrite Hs in Hsu. symmetry in Hsu. apply Hv in Hsu. rewrite Ex. exact Hsu. }
  intros Hs. split; [apply Hfa, Hs|]. intros k Hk. apply Rnot_lt_le. intros C. apply Hv in C.
  destruct (Nat.eq_dec k (er_nit r)) as [->|Nk].
  - rewrite Hs in Hsu. pose proof (eq_trans Hsu C). discriminate.
  - pose proof (eq_trans (eq_sym (Hd k ltac:(lia))) C). discriminate.
Qed.
(** the last epoch *)
Lemma saga_last : exists (s s' : saga_state RN) (B : blocks RN), make_blocks P (eye_ptr d) = Ok B /\ er_log r = s' :: s :: tl (tl (er_log r)) /\ er_x r = sa_x s' /\ saga_len P s /\ saga_inv P s /\
  saga_epoch P B no_prox step (perms (er_nit r)) s = Ok s' /\ (er_success r = true -> l1 (vminus (sa_x s') (sa_x s)) < tol).
Proof.
  destruct (main_C69_saga_contract _ _ _ _ _ _ _ _ _ _ E) as (st & B & S0 & Est & EB & I0 & Ep & Hm & Ex & El & Hd & Hsu & Hfa).
  injection Est as <-. change (S0 0%nat = saga_init P x0) in I0. assert (HD1 : 1 <= D) by apply OK. exists (S0 (er_nit r)), (S0 (S (er_nit r))), B.
  assert (Inv : forall k, (k <= S (er_nit r))%nat -> saga_len P (S0 k) /\ saga_inv P (S0 k) /\ exists w, 0 <= w /\ stale P (sa_x (S0 k)) (sa_mem (S0 k)) (w / (1 + D))).
  { induction k as [|k IH]; intros Hk.
    - rewrite I0. split; [apply saga_init_len, Lx0|]. split; [apply saga_init_inv|]. exists ((1 + D) * G0). split; [apply Rmult_le_pos; [lra|apply HG0]|].
      replace ((1 + D) * G0 / (1 + D)) with G0 by (field; lra). apply (stale_init x0 G0 HG0).
    - destruct (IH ltac:(lia)) as (M1 & M2 & w & M3 & M4). destruct (saga_one B (S0 k) (S0 (S k)) k w EB M1 M2 (Ep k ltac:(lia)) M3 M4) as (A1 & A2 & A3 & A4 & _). eauto. }
  split; [exact EB|]. split; [rewrite El, !seq_S, !map_app, !rev_app_distr; reflexivity|]. split; [exact Ex|].
  split; [apply Inv; lia|]. split; [apply Inv; lia|]. split; [apply Ep, le_n|].
  intros Hs. rewrite Hs in Hsu. symmetry in Hsu. rewrite vsub_R, vnorm1_R in Hsu. apply Rltb_iff in Hsu. exact Hsu.
Qed.
End Run.

(** ** C97 *)
Lemma main_C97_saga_energy : forall (P : problem RN) (f : R -> R -> R) (lphi L D step tol G0 : R) (x0 : list R) (max_iter : nat) (perms : nat -> list nat) (r : epoch_result RN (saga_state RN)),
  problem_wf P -> canonical P -> (0 < p_n P)%nat -> 0 <= p_alpha P -> lip_losses P f lphi L -> spread P D -> 1 <= D -> (p_alpha P = 0 \/ all_stored P) ->
  0 < step -> step * INR (p_n P) * ((2 + D) * L + p_alpha P * D) <= 1 / 16 -> (forall k, Permutation (perms k) (seq 0 (p_n P))) -> length x0 = p_d P -> sample_grads P x0 G0 ->
  minimize_saga P x0 (Some step) None None max_iter tol perms = Ok r ->
  exists (xs : nat -> list R) (ws : nat -> R), xs 0%nat = x0 /\ ws 0%nat = (1 + D) * G0 /\ er_x r = xs (S (er_nit r)) /\ map sa_x (rev (er_log r)) = map xs (seq 0 (S (S (er_nit r)))) /\
  forall k g, (k <= er_nit r)%nat -> is_gradient (p_d P) (finite_sum P f) (xs k) g ->
    finite_sum P f (xs (S k)) + 2 * (step * INR (p_n P)) * (ws (S k) * ws (S k)) <=
    finite_sum P f (xs k) + 2 * (step * INR (p_n P)) * (ws k * ws k) - step * INR (p_n P) / 2 * (dot g g + ws k * ws k) /\
    norm2 (vminus (xs (S k)) (xs k)) <= 16 / 15 * (step * INR (p_n P) * (norm2 g + ws k)).
Proof.
  intros P f lphi L D step tol G0 x0 max_iter perms r H1 H2 H3 H4 H5 H6 H7 H8 H9 H10 Hperm Lx0 HG0 E.
  assert (OK : sok P f lphi L D step) by (unfold sok; tauto).
  destruct (saga_run P f lphi L D step OK perms Hperm x0 tol G0 max_iter r Lx0 HG0 E) as (xs & ws & A1 & A2 & A3 & A4 & A5 & A6 & _). exists xs, ws. split; [exact A1|]. split; [exact A2|]. split; [exact A3|]. split; [exact A4|].
  intros k g Hk Hg. rewrite (grad_is P f lphi L D step (sok_eok _ _ _ _ _ _ OK) (xs k) g (A5 k ltac:(lia)) Hg). rewrite <- norm2_sq. destruct (A6 k Hk) as (_ & A). exact A.
Qed.
Lemma main_C97_saga_rate : forall (P : problem RN) (f : R -> R -> R) (lphi L D step tol G0 : R) (x0 : list R) (max_iter : nat) (perms : nat -> list nat) (r : epoch_result RN (saga_state RN)),
  problem_wf P -> canonical P -> (0 < p_n P)%nat -> 0 <= p_alpha P -> lip_losses P f lphi L -> spread P D -> 1 <= D -> (p_alpha P = 0 \/ all_stored P) ->
  0 < step -> step * INR (p_n P) * ((2 + D) * L + p_alpha P * D) <= 1 / 16 -> (forall k, Permutation (perms k) (seq 0 (p_n P))) -> length x0 = p_d P -> sample_grads P x0 G0 ->
  minimize_saga P x0 (Some step) None None max_iter tol perms = Ok r ->
  exists x g : list R, In x (map sa_x (er_log r)) /\ is_gradient (p_d P) (finite_sum P f) x g /\
    INR (S (er_nit r)) * (step * INR (p_n P) / 2 * dot g g) <= finite_sum P f x0 - finite_sum P f (er_x r) + 2 * (step * INR (p_n P)) * ((1 + D) * G0 * ((1 + D) * G0)).
Proof.
  intros P f lphi L D step tol G0 x0 max_iter perms r H1 H2 H3 H4 H5 H6 H7 H8 H9 H10 Hperm Lx0 HG0 E.
  assert (OK : sok P f lphi L D step) by (unfold sok; tauto).
  destruct (saga_run P f lphi L D step OK perms Hperm x0 tol G0 max_iter r Lx0 HG0 E) as (xs & ws & A1 & A2 & A3 & A4 & A5 & A6 & _).
  set (t := step * INR (p_n P)) in *. assert (Ht : 0 <= t) by (apply Rmult_le_pos; [lra|apply pos_INR]).
  destruct (best_le (fun k => finite_sum P f (xs k) + 2 * t * (ws k * ws k)) (fun k => t / 2 * dot (gvec P (xs k)) (gvec P (xs k))) (er_nit r)) as (i & Hi & Q).
  { intros k Hk. destruct (A6 k Hk) as (_ & A & _). rewrite <- norm2_sq. assert (0 <= t / 2 * (ws k * ws k)) by (apply Rmult_le_pos; [lra|apply Rle_0_sqr]). fold t in A. lra. }
  exists (xs i), (gvec P (xs i)). split; [|split].
  - apply (in_rev (map sa_x (er_log r))). rewrite <- map_rev, A4. apply in_map, in_seq. lia.
  - apply (finite_sum_gradient P H3 H4 f lphi L H5 (xs i)). apply A5. lia.
  - eapply Rle_trans; [exact Q|]. cbv beta. rewrite A2, A1, A3. assert (0 <= 2 * t * (ws (S (er_nit r)) * ws (S (er_nit r)))) by (apply Rmult_le_pos; [lra|apply Rle_0_sqr]). lra.
Qed.
Lemma main_C97_saga_linear : forall (P : problem RN) (f : R -> R -> R) (lphi L D step tol G0 : R) (x0 : list R) (max_iter : nat) (perms : nat -> list nat) (r : epoch_result RN (saga_state RN)),
  problem_wf P -> canonical P -> (0 < p_n P)%nat -> 0 < p_alpha P -> lip_losses P f lphi L -> spread P D -> 1 <= D -> all_stored P ->
  0 < step -> step * INR (p_n P) * ((2 + D) * L + p_alpha P * D) <= 1 / 16 -> (forall k, Permutation (perms k) (seq 0 (p_n P))) -> length x0 = p_d P -> sample_grads P x0 G0 ->
  minimize_saga P x0 (Some step) None None max_iter tol perms = Ok r -> convex_loss P f ->
  forall y : list R, length y = p_d P ->
  finite_sum P f (er_x r) - finite_sum P f y <=
  (1 - p_alpha P * (step * INR (p_n P))) ^ S (er_nit r) * (finite_sum P f x0 - finite_sum P f y + 2 * (step * INR (p_n P)) * ((1 + D) * G0 * ((1 + D) * G0))).
Proof.
  intros P f lphi L D step tol G0 x0 max_iter perms r H1 H2 H3 H4 H5 H6 H7 H8 H9 H10 Hperm Lx0 HG0 E Hc y Ly.
  assert (OK : sok P f lphi L D step) by (unfold sok; assert (0 <= p_alpha P) by lra; tauto).
  destruct (saga_run P f lphi L D step OK perms Hperm x0 tol G0 max_iter r Lx0 HG0 E) as (xs & ws & A1 & A2 & A3 & A4 & A5 & A6 & _).
  set (t := step * INR (p_n P)) in *. assert (Hnp : 0 < INR (p_n P)) by (apply lt_0_INR; exact H3). assert (Ht : 0 < t) by (apply Rmult_lt_0_compat; assumption).
  assert (HL0 : 0 <= L) by apply H5.
  assert (Hal : p_alpha P * t <= 1 / 16).
  { assert (p_alpha P * 1 <= p_alpha P * D) by (apply Rmult_le_compat_l; lra). assert (0 <= (2 + D) * L) by (apply Rmult_le_pos; lra).
    assert (t * p_alpha P <= t * ((2 + D) * L + p_alpha P * D)) by (apply Rmult_le_compat_l; lra). lra. }
  assert (PW : finite_sum P f (xs (S (er_nit r))) + 2 * t * (ws (S (er_nit r)) * ws (S (er_nit r))) - finite_sum P f y <=
    (1 - p_alpha P * t) ^ S (er_nit r) * (finite_sum P f (xs 0%nat) + 2 * t * (ws 0%nat * ws 0%nat) - finite_sum P f y)).
  { apply (pow_le_seq (fun k => finite_sum P f (xs k) + 2 * t * (ws k * ws k) - finite_sum P f y)); [lra|].
    intros k Hk. destruct (A6 k ltac:(lia)) as (_ & Q & _). fold t in Q. pose proof (finite_sum_pl P f (xs k) y Hc H3 H4 (A5 k ltac:(lia)) Ly) as PL. rewrite <- norm2_sq in PL.
    apply (Rmult_le_compat_l (t / 2)) in PL; [|lra]. assert (W : 0 <= ws k * ws k) by apply Rle_0_sqr.
    assert (W2 : p_alpha P * t * (2 * t * (ws k * ws k)) <= 1 / 16 * (2 * t * (ws k * ws k))) by (apply Rmult_le_compat_r; [apply Rmult_le_pos; lra|exact Hal]).
    assert (W3 : 0 <= t * (ws k * ws k)) by (apply Rmult_le_pos; lra). lra. }
  rewrite A1, A2 in PW. rewrite A3. assert (0 <= 2 * t * (ws (S (er_nit r)) * ws (S (er_nit r)))) by (apply Rmult_le_pos; [lra|apply Rle_0_sqr]).
  replace (finite_sum P f x0 - finite_sum P f y + 2 * t * ((1 + D) * G0 * ((1 + D) * G0))) with (finite_sum P f x0 + 2 * t * ((1 + D) * G0 * ((1 + D) * G0)) - finite_sum P f y) by ring. lra.
Qed.
Lemma main_C97_saga_terminates : forall (P : problem RN) (f : R -> R -> R) (lphi L D step tol G0 low : R) (x0 : list R) (max_iter : nat) (perms : nat -> list nat),
  problem_wf P -> canonical P -> (exists i j, (i < p_n P)%nat /\ stores P i j) -> 0 <= p_alpha P -> lip_losses P f lphi L -> spread P D -> 1 <= D -> (p_alpha P = 0 \/ all_stored P) ->
  0 < step -> step * INR (p_n P) * ((2 + D) * L + p_alpha P * D) <= 1 / 16 -> (forall k, Permutation (perms k) (seq 0 (p_n P))) -> length x0 = p_d P -> sample_grads P x0 G0 -> 0 < tol ->
  (forall y : list R, length y = p_d P -> low <= finite_sum P f y) ->
  5 * (INR (p_d P) * (step * INR (p_n P))) * (finite_sum P f x0 - low + 2 * (step * INR (p_n P)) * ((1 + D) * G0 * ((1 + D) * G0))) < tol * tol * INR max_iter ->
  exists r, minimize_saga P x0 (Some step) None None max_iter tol perms = Ok r /\ er_success r = true.
Proof.
  intros P f lphi L D step tol G0 low x0 max_iter perms H1 H2 (i0 & j0 & Hi0 & S00) H4 H5 H6 H7 H8 H9 H10 Hperm Lx0 HG0 Ht Hlow Hmax.
  assert (H3 : (0 < p_n P)%nat) by lia. assert (OK : sok P f lphi L D step) by (unfold sok; tauto).
  assert (Hnp : 0 < INR (p_n P)) by (apply lt_0_INR; exact H3). set (t := step * INR (p_n P)) in *. assert (Hsn : 0 < t) by (apply Rmult_lt_0_compat; assumption).
  assert (Hd : 0 < INR (p_d P)). { apply lt_0_INR. pose proof (prow_lt P H1 i0 j0 Hi0 S00). lia. }
  pose proof (Hlow x0 Lx0) as Hlow0. set (W0 := 2 * t * ((1 + D) * G0 * ((1 + D) * G0))) in *. assert (HW0 : 0 <= W0) by (apply Rmult_le_pos; [lra|apply Rle_0_sqr]).
  assert (Hden : 0 < 5 * (INR (p_d P) * t)) by (apply Rmult_lt_0_compat; [lra|apply Rmult_lt_0_compat; lra]).
  assert (Hm : (0 < max_iter)%nat). { destruct max_iter; [|lia]. exfalso. cbn [INR] in Hmax. assert (0 <= 5 * (INR (p_d P) * t) * (finite_sum P f x0 - low + W0)); [|lra]. apply Rmult_le_pos; lra. }
  pose proof (partitions_eye (p_d P)) as Hq.
  destruct (make_blocks_ok P H1 (eye_ptr (p_d P)) Hq i0 Hi0) as (B & EB). { intros Z. unfold stores in S00. change (In j0 (prow P i0)) in S00. rewrite Z in S00. destruct S00. }
  destruct (main_C85_saga_total RN P (eye_ptr (p_d P)) B no_prox step tol x0 max_iter perms H1 Hq EB) as (r & E).
  { intros x i a b c st x' Ex. injection Ex as <-. reflexivity. } { intros x i _ _. exists x. reflexivity. } { exact Lx0. } { exact Hm. }
  { intros k. apply Forall_forall. intros i Hi. apply (Permutation_in _ (Hperm k)), in_seq in Hi. lia. }
  exists r. split; [exact E|].
  destruct (saga_run P f lphi L D step OK perms Hperm x0 tol G0 max_iter r Lx0 HG0 E) as (xs & ws & A1 & A2 & A3 & A4 & A5 & A6 & A7 & A8).
  destruct (er_success r) eqn:Hs; [reflexivity|]. exfalso. destruct (A8 eq_refl) as (Hit & Hbig).
  set (c := tol * tol / (5 * (INR (p_d P) * t))).
  assert (DR : INR (S (er_nit r)) * c <= finite_sum P f (xs 0%nat) + 2 * t * (ws 0%nat * ws 0%nat) - (finite_sum P f (xs (S (er_nit r))) + 2 * t * (ws (S (er_nit r)) * ws (S (er_nit r))))).
  { apply (drop_le (fun k => finite_sum P f (xs k) + 2 * t * (ws k * ws k))). intros k Hk. destruct (A6 k ltac:(lia)) as (Hw & Q & U). fold t in Q, U. specialize (Hbig k ltac:(lia)).
    set (g := norm2 (gvec P (xs k))) in *. assert (Hg : 0 <= g) by apply norm2_nonneg. set (w := ws k) in *. set (m := vminus (xs (S k)) (xs k)) in *.
    pose proof (l1_sq m) as LQ. assert (Lm : length m = p_d P) by (unfold m, vminus; rewrite lin_length, !A5 by lia; apply Nat.min_id). rewrite Lm, <- norm2_sq in LQ.
    assert (T1 : tol * tol <= l1 m * l1 m) by (apply Rmult_le_compat; lra).
    assert (T2 : norm2 m * norm2 m <= 16 / 15 * (t * (g + w)) * (16 / 15 * (t * (g + w)))) by (apply Rmult_le_compat; try apply norm2_nonneg; assumption).
    assert (T0 : (g + w) * (g + w) <= 2 * (g * g + w * w)) by (pose proof (Rle_0_sqr (g - w)) as Y; unfold Rsqr in Y; lra).
    assert (T5 : 16 / 15 * (t * (g + w)) * (16 / 15 * (t * (g + w))) <= 512 / 225 * (t * t) * (g * g + w * w)).
    { apply (Rmult_le_compat_l (256 / 225 * (t * t))) in T0; [lra|]. apply Rmult_le_pos; [lra|apply Rle_0_sqr]. }
    assert (T3 : INR (p_d P) * (norm2 m * norm2 m) <= INR (p_d P) * (512 / 225 * (t * t) * (g * g + w * w))) by (apply Rmult_le_compat_l; lra).
    assert (T4 : c <= t / 2 * (g * g + w * w)); [|lra].
    assert (P0 : 0 <= INR (p_d P) * ((t * t) * (g * g + w * w))) by (apply Rmult_le_pos; [lra|apply Rmult_le_pos; [apply Rle_0_sqr|apply Rplus_le_le_0_compat; apply Rle_0_sqr]]).
    unfold c. apply (Rmult_le_reg_r (5 * (INR (p_d P) * t))); [exact Hden|]. unfold Rdiv at 1. rewrite Rmult_assoc, Rinv_l, Rmult_1_r by lra. lra. }
  rewrite A1, A2 in DR. fold W0 in DR. pose proof (Hlow (xs (S (er_nit r))) (A5 (S (er_nit r)) (le_n _))) as HF. rewrite Hit in *.
  assert (HW1 : 0 <= 2 * t * (ws max_iter * ws max_iter)) by (apply Rmult_le_pos; [lra|apply Rle_0_sqr]).
  assert (X : INR max_iter * c * (5 * (INR (p_d P) * t)) = tol * tol * INR max_iter) by (unfold c; field; split; lra).
  assert (Y : INR max_iter * c * (5 * (INR (p_d P) * t)) <= (finite_sum P f x0 - low + W0) * (5 * (INR (p_d P) * t))) by (apply Rmult_le_compat_r; lra).
  lra.
Qed.

(** ** C98: what success says about the returned point *)
(** success, with the memory of the last recorded epoch: the gradient is small up to the age of that memory *)
Lemma main_C98_saga_success_partial : forall (P : problem RN) (f : R -> R -> R) (lphi L D step tol G0 sg : R) (x0 : list R) (max_iter : nat) (perms : nat -> list nat) (r : epoch_result RN (saga_state RN)) (s' s : saga_state RN) (log : list (saga_state RN)),
  problem_wf P -> canonical P -> (0 < p_n P)%nat -> 0 <= p_alpha P -> lip_losses P f lphi L -> spread P D -> 1 <= D -> (p_alpha P = 0 \/ all_stored P) ->
  0 < step -> step * INR (p_n P) * ((2 + D) * L + p_alpha P * D) <= 1 / 16 -> (forall k, Permutation (perms k) (seq 0 (p_n P))) -> length x0 = p_d P -> sample_grads P x0 G0 ->
  minimize_saga P x0 (Some step) None None max_iter tol perms = Ok r -> er_success r = true -> er_log r = s' :: s :: log -> 0 <= sg ->
  (forall i, (i < p_n P)%nat -> (nth i (sa_mem s) 0 - loss_deriv P (sa_x s) i) * (nth i (sa_mem s) 0 - loss_deriv P (sa_x s) i) * Rsum (map (fun j => ent P i j * ent P i j) (seq 0 (p_d P))) <= sg * sg) ->
  exists g : list R, is_gradient (p_d P) (finite_sum P f) (er_x r) g /\ norm2 g < 2 * tol / (step * INR (p_n P)) + 2 * ((1 + D) * sg).
Proof.
  intros P f lphi L D step tol G0 sg x0 max_iter perms r s' s log H1 H2 H3 H4 H5 H6 H7 H8 H9 H10 Hperm Lx0 HG0 E Hs Hlog Hsg Hage.
  assert (OK : sok P f lphi L D step) by (unfold sok; tauto).
  destruct (saga_last P f lphi L D step OK perms Hperm x0 tol G0 max_iter r Lx0 HG0 E) as (s1 & s1' & B & EB & El & Ex & Hl & Hv & Ee & Ht). rewrite Hlog in El. injection El as <- <-. specialize (Ht Hs).
  set (w := (1 + D) * sg). assert (Hw : 0 <= w) by (apply Rmult_le_pos; lra).
  assert (Hst : stale P (sa_x s) (sa_mem s) (w / (1 + D))).
  { replace (w / (1 + D)) with sg by (unfold w; field; lra). intros i Hi. specialize (Hage i Hi). rewrite <- arow_sq in Hage. apply Rsqr_incr_0_var; [|exact Hsg]. unfold Rsqr. set (a := @nth R i (sa_mem s) 0 - loss_deriv P (sa_x s) i) in *.
    replace (Rabs a * norm2 (arow P i) * (Rabs a * norm2 (arow P i))) with (Rabs a * Rabs a * (norm2 (arow P i) * norm2 (arow P i))) by ring.
    rewrite <- Rabs_mult, (Rabs_pos_eq (_ * _)) by apply Rle_0_sqr. exact Hage. }
  destruct (saga_one P f lphi L D step OK perms Hperm B s s' (er_nit r) w EB Hl Hv Ee Hw Hst) as (L1 & _ & _ & _ & _ & _ & Q).
  set (t := step * INR (p_n P)) in *. assert (Hnp : 0 < INR (p_n P)) by (apply lt_0_INR; exact H3). assert (Hsn : 0 < t) by (apply Rmult_lt_0_compat; assumption).
  exists (gvec P (er_x r)). assert (Lr : length (er_x r) = p_d P) by (rewrite Ex; apply L1). split; [apply (finite_sum_gradient P H3 H4 f lphi L H5 _ Lr)|].
  rewrite Ex in *. set (x := sa_x s) in *. assert (Lx : length x = p_d P) by apply Hl.
  pose proof (norm2_le_l1 (vminus (sa_x s') x)) as N. pose proof (gvec_lip P H3 H4 f lphi L H5 (sa_x s') x Lr Lx) as G.
  assert (T : norm2 (gvec P (sa_x s')) <= norm2 (gvec P x) + norm2 (vminus (gvec P (sa_x s')) (gvec P x))).
  { replace (gvec P (sa_x s')) with (vplus (gvec P x) (vminus (gvec P (sa_x s')) (gvec P x))) at 1; [apply norm_vplus; unfold vminus; rewrite lin_length, !gvec_length, Nat.min_id; reflexivity|].
    apply (list_ext _ _ 0); [unfold vplus, vminus; rewrite !lin_length, !gvec_length, !Nat.min_id; reflexivity|]. intros j _.
    rewrite nth_vplus by (unfold vminus; rewrite lin_length, !gvec_length, Nat.min_id; reflexivity). rewrite nth_vminus by (rewrite !gvec_length; reflexivity). ring. }
  apply (Rmult_lt_reg_l t); [exact Hsn|]. replace (t * (2 * tol / t + 2 * w)) with (2 * tol + 2 * (t * w)) by (field; lra).
  assert (HL0 : 0 <= L) by apply H5.
  assert (Hal : t * (L + p_alpha P) <= 1 / 16).
  { assert (p_alpha P * 1 <= p_alpha P * D) by (apply Rmult_le_compat_l; lra). assert (1 * L <= (2 + D) * L) by (apply Rmult_le_compat_r; lra).
    assert (t * (L + p_alpha P) <= t * ((2 + D) * L + p_alpha P * D)) by (apply Rmult_le_compat_l; lra). lra. }
  pose proof (norm2_nonneg (vminus (sa_x s') x)) as N0. assert (Htw : 0 <= t * w) by (apply Rmult_le_pos; lra).
  assert (G2 : t * norm2 (vminus (gvec P (sa_x s')) (gvec P x)) <= 1 / 16 * norm2 (vminus (sa_x s') x)).
  { apply Rle_trans with (t * ((L + p_alpha P) * norm2 (vminus (sa_x s') x))); [apply Rmult_le_compat_l; lra|]. rewrite <- Rmult_assoc. apply Rmult_le_compat_r; assumption. }
  apply (Rmult_le_compat_l t) in T; [|lra]. lra.
Qed.
