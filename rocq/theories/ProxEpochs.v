(** * One epoch of SAGA or SVRG with block penalties, as a sequence of block proximal gradient steps with errors *)
From Coq Require Import Bool List Lia Permutation Reals Lra.
From Verif Require Import Num Vec Spec SpecSparse RVec ConvexFacts PenaltyFacts UtilsMain PenaltyFacts2 PenaltyFacts3 ModelRandomized SpecFiniteSum SpecEpochs RandomizedBlocks RandomizedSaga RandomizedSvrg RandomizedProx RandomizedFix EpochFacts SvrgDescent SvrgRate SagaDescent.
Import ListNotations.
Local Open Scope R_scope.

Lemma norm2_vminus_sym u v : length u = length v -> norm2 (vminus u v) = norm2 (vminus v u).
Proof. intros H. apply (f_equal sqrt). unfold vminus. rewrite !dot_lin_l, !dot_lin_r by (rewrite ?lin_length; lia). ring. Qed.
Lemma Rsum_const_seq (m : nat) (c : R) : Rsum (map (fun _ : nat => c) (seq 0 m)) = INR m * c.
Proof. induction m as [|m IH]; [cbn; ring|]. rewrite seq_S, map_app, Rsum_app, IH, S_INR. cbn. ring. Qed.
Lemma Rsum_sq_le (u : list R) : Forall (fun a => 0 <= a) u -> Rsum u * Rsum u <= INR (length u) * Rsum (map (fun a => a * a) u).
Proof.
  intros Hu. pose proof (l1_sq u) as H. assert (E1 : l1 u = Rsum u). { clear H. induction Hu as [|a u Ha Hu IH]; [reflexivity|]. cbn. rewrite IH, (Rabs_pos_eq a Ha). reflexivity. }
  assert (E2 : dot u u = Rsum (map (fun a => a * a) u)) by (clear; induction u as [|a u IH]; cbn; [reflexivity|rewrite IH; reflexivity]). rewrite E1, E2 in H. exact H.
Qed.
(** coordinates picked from several vectors *)
Lemma pick_le (N d : nat) (v : nat -> list R) (la : nat -> nat) : (forall l, (l < N)%nat -> length (v l) = d) -> (forall j, (j < d)%nat -> (la j < N)%nat) ->
  Rsum (map (fun j => nth j (v (la j)) 0 * nth j (v (la j)) 0) (seq 0 d)) <= Rsum (map (fun l => dot (v l) (v l)) (seq 0 N)).
Proof.
  intros Lv Hla.
  assert (E : Rsum (map (fun l => dot (v l) (v l)) (seq 0 N)) = Rsum (map (fun j => Rsum (map (fun l => nth j (v l) 0 * nth j (v l) 0) (seq 0 N))) (seq 0 d))).
  { rewrite (Rsum_map_ext (fun l => dot (v l) (v l)) (fun l => Rsum (map (fun j => nth j (v l) 0 * nth j (v l) 0) (seq 0 d)))).
    2:{ intros l Hl. apply in_seq in Hl. apply dot_seq; apply Lv; lia. }
    clear. induction (seq 0 N) as [|l t IH]; cbn [map Rsum]; [rewrite Rsum_zero; reflexivity|]. rewrite IH, <- Rsum_map_plus. reflexivity. }
  rewrite E. apply Rsum_le_map. intros j Hj. apply in_seq in Hj. specialize (Hla j ltac:(lia)). clear E.
  assert (G : forall t, In (la j) t -> nth j (v (la j)) 0 * nth j (v (la j)) 0 <= Rsum (map (fun l => nth j (v l) 0 * nth j (v l) 0) t)).
  { assert (Z : forall t, 0 <= Rsum (map (fun l => nth j (v l) 0 * nth j (v l) 0) t)) by (induction t as [|l t IH]; cbn [map Rsum]; [lra|]; pose proof (Rle_0_sqr (nth j (v l) 0)) as Q; unfold Rsqr in Q; lra).
    induction t as [|l t IH]; intros Hin; [destruct Hin|]. cbn [map Rsum]. destruct Hin as [->|Hin]; [specialize (Z t); lra|]. specialize (IH Hin). pose proof (Rle_0_sqr (nth j (v l) 0)) as Q; unfold Rsqr in Q; lra. }
  apply G, in_seq. lia.
Qed.

Section G.
Variable P : problem RN.
Hypothesis HP : problem_wf P.
Let n := p_n P.
Let d := p_d P.
Let al := p_alpha P.
Hypothesis Hn : (0 < n)%nat.
Hypothesis Ha : 0 <= al.
Variable ptr : list nat.
Hypothesis Hq : partitions ptr d.
Variable B : blocks RN.
Hypothesis EB : make_blocks P ptr = Ok B.
Variable g : nat -> list R -> R.
Variables (f : R -> R -> R) (lphi L D step : R).
Hypothesis HL : lip_losses P f lphi L.
Hypothesis HD : block_spread P ptr D.
Hypothesis HD1 : 1 <= D.
Hypothesis Hst : 0 < step.
Definition obj (x : list R) : R := finite_sum P f x + block_penalty ptr g x.
Definition dw (j : nat) : R := nth (nth j (rblocks ptr) 0%nat) (k_d B) 0.
Lemma touching_samples h : (S h < length ptr)%nat -> touching P ptr h = block_samples P ptr h.
Proof.
  intros Hh. unfold touching, block_samples. apply filter_ext_in. intros i Hi. apply in_seq in Hi. destruct (in_dec Nat.eq_dec h (pblocks P ptr i)) as [I0|I0].
  - symmetry. apply existsb_exists. apply (pblocks_in P HP ptr Hq i h) in I0 as (_ & c & Hc & Hb); [|lia]. exists c. split; [exact Hc|]. apply existsb_exists. exists c. split; [exact Hb|apply Nat.eqb_refl].
  - symmetry. apply not_true_is_false. intros E. apply existsb_exists in E as (c & Hc & E). apply existsb_exists in E as (c' & Hb & E). apply Nat.eqb_eq in E. subst c'.
    apply I0, (pblocks_in P HP ptr Hq i h); [lia|]. split; [exact Hh|]. exists c. auto.
Qed.
Lemma weight_bounds i h : (i < n)%nat -> In h (pblocks P ptr i) -> 1 <= nth h (k_d B) 0 <= D.
Proof.
  intros Hi Hh. destruct (make_blocks_spec P HP ptr Hq B EB) as (_ & E2 & _ & _ & E5). rewrite E2 in E5.
  destruct (weights_spec P ptr (k_d B) E5) as (W0 & W & _). assert (Tp := touching_pos P ptr i h Hi Hh). specialize (W h (W0 i h Hi Hh) Tp).
  assert (Hh' : (S h < length ptr)%nat) by (apply (pblocks_in P HP ptr Hq i h Hi) in Hh; apply Hh).
  assert (Hb : block_samples P ptr h <> []) by (rewrite <- touching_samples by exact Hh'; intros Z; rewrite Z in Tp; cbn in Tp; lia).
  specialize (HD h Hh' Hb). rewrite <- touching_samples in HD by exact Hh'.
  assert (Hc : (length (touching P ptr h) <= n)%nat). { unfold touching. apply Nat.le_trans with (length (seq 0 n)); [|rewrite seq_length; apply le_n]. fold n. generalize (seq 0 n) as l. induction l as [|a l IH]; cbn; [apply le_n|]. destruct (in_dec _ h (pblocks P ptr a)); cbn; lia. }
  rn. rewrite W, !nofnat_R. set (m := length (touching P ptr h)) in *. fold n in HD |- *. assert (Hm : 0 < INR m) by (apply lt_0_INR; exact Tp). apply le_INR in Hc.
  split; apply (Rmult_le_reg_r (INR m)); try exact Hm; unfold Rdiv; rewrite Rmult_assoc, Rinv_l, Rmult_1_r by lra; lra.
Qed.
Lemma dw_blk h j : (S h < length ptr)%nat -> In j (blk ptr h) -> dw j = nth h (k_d B) 0.
Proof. intros Hh Hj. unfold dw. rewrite (rblocks_in _ _ _ _ Hq Hh Hj). reflexivity. Qed.
Lemma dw_ext i j : (i < n)%nat -> ext P ptr i j -> 1 <= dw j <= D.
Proof.
  intros Hi (h & Hh & Hj). assert (Hh' : (S h < length ptr)%nat) by (apply (pblocks_in P HP ptr Hq i h Hi) in Hh; apply Hh). rewrite (dw_blk h j Hh' Hj). apply (weight_bounds i h Hi Hh).
Qed.
Lemma row_ext i j : (i < n)%nat -> In j (prow P i) -> ext P ptr i j.
Proof.
  intros Hi Hj. pose proof (prow_lt P HP i j Hi Hj) as Hd. destruct (partitions_cover ptr d j Hq) as (h & Hh & Hb); [exact Hd|]. exists h. split; [|exact Hb].
  apply (pblocks_in P HP ptr Hq i h Hi). split; [exact Hh|]. exists j. auto.
Qed.
(** the error of the direction of sample i, relative to the gradient at x *)
Definition eps (x mem : list R) (i : nat) : list R :=
  vplus (map (fun j => (loss_deriv P x i - nth i mem 0) * ent P i j / dw j) (seq 0 d)) (mdiff P x mem).
Lemma eps_length x mem i : length (eps x mem i) = d.
Proof. unfold eps, vplus. rewrite lin_length, map_length, seq_length, mdiff_length. apply Nat.min_id. Qed.
Lemma nth_eps x mem i j : (j < d)%nat -> nth j (eps x mem i) 0 = (loss_deriv P x i - nth i mem 0) * ent P i j / dw j + (mean_row P (fun i => nth i mem 0) j - grad_F P x j).
Proof.
  intros Hj. unfold eps. rewrite nth_vplus by (rewrite map_length, seq_length, mdiff_length; reflexivity). rewrite nth_mapseq by exact Hj. unfold mdiff. rewrite nth_mapseq by exact Hj. reflexivity.
Qed.
Lemma eps_norm x mem i tau : (i < n)%nat -> 0 <= tau -> stale P x mem tau -> norm2 (eps x mem i) <= 2 * tau.
Proof.
  intros Hi Ht Hs. unfold eps. eapply Rle_trans; [apply norm_vplus; rewrite map_length, seq_length, mdiff_length; reflexivity|].
  assert (A : norm2 (map (fun j => (loss_deriv P x i - nth i mem 0) * ent P i j / dw j) (seq 0 d)) <= tau).
  { eapply Rle_trans; [|apply (Hs i Hi)]. rewrite <- (Rabs_minus_sym (loss_deriv P x i)). rewrite <- norm2_smul.
    assert (LA : length (arow P i) = d) by apply arow_length. rewrite <- (Rmult_1_l (norm2 (smul _ _))).
    apply norm_mono; [rewrite smul_length, map_length, seq_length; symmetry; exact LA|lra|]. intros j Hj. rewrite smul_length, LA in Hj. rewrite Rmult_1_l.
    { rewrite nth_smul, nth_arow, nth_mapseq by exact Hj. destruct (in_dec Nat.eq_dec j (prow P i)) as [S|S].
      + destruct (dw_ext i j Hi (row_ext i j Hi S)) as (D1 & _). unfold Rdiv. rewrite Rabs_mult. rewrite <- (Rmult_1_r (Rabs (_ * ent P i j))) at 2. apply Rmult_le_compat_l; [apply Rabs_pos|].
        rewrite Rabs_pos_eq by (left; apply Rinv_0_lt_compat; lra). rewrite <- Rinv_1. apply Rinv_le_contravar; lra.
      + rewrite (ent_out P i j S). unfold Rdiv. rewrite Rmult_0_r, Rmult_0_l. lra. } }
  pose proof (mdiff_norm P Hn x mem tau Ht Hs). lra.
Qed.
(** the step of sample i from x with memory mem *)
Definition vi_step (i : nat) (x mem x' : list R) : Prop :=
  length x' = d /\ (forall j, ~ ext P ptr i j -> nth j x' 0 = nth j x 0) /\
  forall h z, In h (pblocks P ptr i) -> length z = d ->
    g h (sub x' (blk ptr h)) - Rsum (map (fun j => ((nth j x' 0 - nth j x 0) / (step * dw j) + nth j (gvec P x) 0 + nth j (eps x mem i) 0) * (nth j z 0 - nth j x' 0)) (blk ptr h)) <= g h (sub z (blk ptr h)).
Lemma ext_out i j h : (i < n)%nat -> (S h < length ptr)%nat -> In j (blk ptr h) -> ~ In h (pblocks P ptr i) -> ~ ext P ptr i j.
Proof.
  intros Hi Hh Hj N (h' & Hh' & Hj'). apply N. assert (Q : (S h' < length ptr)%nat) by (apply (pblocks_in P HP ptr Hq i h' Hi) in Hh'; apply Hh').
  rewrite (partitions_inj ptr d h h' j); auto.
Qed.
Lemma vi_descent i x mem x' tau : (i < n)%nat -> length x = d -> vi_step i x mem x' -> 0 <= tau -> stale P x mem tau ->
  obj x' <= obj x - (/ (step * D) - (L + al) / 2) * (norm2 (vminus x' x) * norm2 (vminus x' x)) + 2 * tau * norm2 (vminus x' x).
Proof.
  intros Hi Lx (Lx' & Hout & V) Ht Hs. set (De := vminus x' x). assert (LD : length De = d) by (unfold De; leng).
  assert (ND : forall j, nth j De 0 = nth j x' 0 - nth j x 0) by (intros j; unfold De; rewrite nth_vminus by congruence; reflexivity).
  set (G := map (fun j => nth j De 0 / (step * dw j) + nth j (gvec P x) 0 + nth j (eps x mem i) 0) (seq 0 d)).
  assert (SB : block_penalty ptr g x' - Rsum (map (fun j => nth j G 0 * (nth j x 0 - nth j x' 0)) (seq 0 d)) <= block_penalty ptr g x).
  { apply (sum_blocks_le P ptr g G x' x (fun h => In h (pblocks P ptr i)) Hq).
    - intros h _. apply in_dec, Nat.eq_dec.
    - intros h Hh Hin. specialize (V h x Hin Lx). rewrite (Rsum_map_ext _ (fun j => ((nth j x' 0 - nth j x 0) / (step * dw j) + nth j (gvec P x) 0 + nth j (eps x mem i) 0) * (nth j x 0 - nth j x' 0))); [exact V|].
      intros j Hj. assert (Hjd : (j < d)%nat) by (eapply blk_in_lt; eauto). unfold G. rewrite nth_mapseq by exact Hjd. rewrite ND. reflexivity.
    - intros h j Hh N Hj. symmetry. apply Hout. apply (ext_out i j h); assumption. }
  assert (Lg : length (gvec P x) = d) by apply gvec_length. pose proof (eps_length x mem i) as Le.
  assert (E : Rsum (map (fun j => nth j G 0 * (nth j x 0 - nth j x' 0)) (seq 0 d)) <= - (/ (step * D)) * dot De De - dot (gvec P x) De - dot (eps x mem i) De).
  { rewrite (dot_seq De De d), (dot_seq (gvec P x) De d), (dot_seq (eps x mem i) De d) by assumption.
    rewrite <- Rsum_map_mult.
    apply Rle_trans with (Rsum (map (fun j => - / (step * D) * (nth j De 0 * nth j De 0) + (-1) * (nth j (gvec P x) 0 * nth j De 0 + nth j (eps x mem i) 0 * nth j De 0)) (seq 0 d))).
    - apply Rsum_le_map. intros j Hj. apply in_seq in Hj. unfold G. rewrite nth_mapseq by lia. replace (nth j x 0 - nth j x' 0) with (- nth j De 0) by (rewrite ND; ring).
      assert (K : / (step * D) * (nth j De 0 * nth j De 0) <= nth j De 0 / (step * dw j) * nth j De 0).
      { destruct (ext_dec P ptr i j) as [X|X].
        - destruct (dw_ext i j Hi X) as (D1 & D2). replace (nth j De 0 / (step * dw j) * nth j De 0) with (/ (step * dw j) * (nth j De 0 * nth j De 0)) by (unfold Rdiv; ring).
          apply Rmult_le_compat_r; [apply Rle_0_sqr|]. apply Rinv_le_contravar; [apply Rmult_lt_0_compat; lra|apply Rmult_le_compat_l; lra].
        - rewrite ND, (Hout j X). unfold Rdiv. rewrite Rminus_diag_eq by reflexivity. lra. }
      lra.
    - apply Req_le. clear. induction (seq 0 d) as [|j t IH]; cbn [map Rsum]; [ring|]. rewrite IH. ring. }
  pose proof (finite_sum_quad P Hn Ha f lphi L HL x x' Lx Lx') as Q. fold De in Q. apply Rle_trans with (1 := Rle_abs _) in Q.
  pose proof (eps_norm x mem i tau Hi Ht Hs) as En. pose proof (dot_ge_norm (eps x mem i) De) as C. pose proof (norm2_nonneg De) as N0.
  apply (Rmult_le_compat_r (norm2 De)) in En; [|exact N0]. rewrite norm2_sq in *. unfold obj. fold al in Q. lra.
Qed.

(** the last sample of the epoch that visits block h *)
Fixpoint lastv (idx : nat -> nat) (h k : nat) : nat :=
  match k with
  | O => O
  | S k' => if in_dec Nat.eq_dec h (pblocks P ptr (idx k')) then k' else lastv idx h k'
  end.
Lemma lastv_lt idx h k : (0 < k)%nat -> (lastv idx h k < k)%nat.
Proof. induction k as [|k IH]; intros Hk; [lia|]. cbn [lastv]. destruct (in_dec _ h _); [lia|]. destruct k as [|k]; [cbn; lia|]. specialize (IH ltac:(lia)). lia. Qed.
Lemma lastv_in idx h k l : (l < k)%nat -> In h (pblocks P ptr (idx l)) -> In h (pblocks P ptr (idx (lastv idx h k))).
Proof. induction k as [|k IH]; intros Hl Hin; [lia|]. cbn [lastv]. destruct (in_dec _ h _) as [I0|N]; [exact I0|]. apply IH; [|exact Hin]. destruct (Nat.eq_dec l k) as [->|]; [contradiction|lia]. Qed.
Lemma lastv_after idx h k l : (lastv idx h k < l < k)%nat -> ~ In h (pblocks P ptr (idx l)).
Proof. induction k as [|k IH]; intros Hl; [lia|]. cbn [lastv] in Hl. destruct (in_dec _ h _) as [I0|N]; [lia|]. destruct (Nat.eq_dec l k) as [->|]; [exact N|]. apply IH. lia. Qed.

(** one epoch *)
Variables (xs ms : nat -> list R) (idx : nat -> nat) (sg : R).
Hypothesis Hperm : Permutation (map idx (seq 0 n)) (seq 0 n).
Hypothesis Lx : forall l, (l <= n)%nat -> length (xs l) = d.
Hypothesis Hvi : forall l, (l < n)%nat -> vi_step (idx l) (xs l) (ms l) (xs (S l)).
Definition mv (l : nat) : R := norm2 (vminus (xs (S l)) (xs l)).
Definition Sm : R := Rsum (map mv (seq 0 n)).
Definition Qm : R := Rsum (map (fun l => mv l * mv l) (seq 0 n)).
Hypothesis Hsg : 0 <= sg.
Hypothesis Hstale : forall l, (l < n)%nat -> stale P (xs l) (ms l) (sg + L * Sm).
Lemma mv_pos l : 0 <= mv l. Proof. apply norm2_nonneg. Qed.
Lemma sums_pos k a : 0 <= Rsum (map mv (seq a k)).
Proof. revert a. induction k as [|k IH]; intros a; cbn [seq map Rsum]; [lra|]. pose proof (IH (S a)). pose proof (mv_pos a). lra. Qed.
Lemma Sm_pos : 0 <= Sm. Proof. apply sums_pos. Qed.
Lemma Qm_pos : 0 <= Qm.
Proof. unfold Qm. generalize (seq 0 n) as t0. clear. induction t0 as [|l t IH]; cbn [map Rsum]; [lra|]. pose proof (Rle_0_sqr (mv l)) as Q. unfold Rsqr in Q. lra. Qed.
Lemma Sm_sq : Sm * Sm <= INR n * Qm.
Proof.
  unfold Sm, Qm. pose proof (Rsum_sq_le (map mv (seq 0 n))) as H. rewrite map_length, seq_length, map_map in H. apply H.
  apply Forall_forall. intros a Hin. apply in_map_iff in Hin as (l & <- & _). apply mv_pos.
Qed.
Lemma idx_lt l : (l < n)%nat -> (idx l < n)%nat.
Proof. intros Hl. assert (In (idx l) (seq 0 n)) as Hin by (apply (Permutation_in _ Hperm), in_map, in_seq; lia). apply in_seq in Hin. lia. Qed.
Lemma idx_onto i : (i < n)%nat -> exists l, (l < n)%nat /\ idx l = i.
Proof. intros Hi. assert (In i (map idx (seq 0 n))) as Hin by (apply (Permutation_in _ (Permutation_sym Hperm)), in_seq; lia). apply in_map_iff in Hin as (l & E & Hl). apply in_seq in Hl. exists l. split; [lia|exact E]. Qed.
Lemma moved a k : (a + k <= n)%nat -> norm2 (vminus (xs (a + k)) (xs a)) <= Rsum (map mv (seq a k)).
Proof.
  revert a. induction k as [|k IH]; intros a Hk.
  - rewrite Nat.add_0_r. cbn. rewrite vminus_self, norm_zeros. lra.
  - cbn [seq map Rsum]. specialize (IH (S a) ltac:(lia)). replace (S a + k)%nat with (a + S k)%nat in IH by lia.
    pose proof (Lx a ltac:(lia)). pose proof (Lx (S a) ltac:(lia)). pose proof (Lx (a + S k)%nat Hk).
    assert (T : vminus (xs (a + S k)) (xs a) = vplus (vminus (xs (a + S k)) (xs (S a))) (vminus (xs (S a)) (xs a))).
    { apply (list_ext _ _ 0); [leng|]. intros j _. rewrite nth_vplus, !nth_vminus by leng. ring. }
    rewrite T. eapply Rle_trans; [apply norm_vplus; leng|]. fold (mv a). lra.
Qed.
Lemma seq_part a k : (a + k <= n)%nat -> Rsum (map mv (seq a k)) <= Sm.
Proof.
  intros H. unfold Sm. replace (seq 0 n) with (seq 0 a ++ seq a k ++ seq (a + k) (n - a - k)).
  - rewrite !map_app, !Rsum_app. pose proof (sums_pos a 0). pose proof (sums_pos (n - a - k) (a + k)). lra.
  - replace n with (a + (k + (n - a - k)))%nat at 2 by lia. rewrite !seq_app. rewrite Nat.add_0_l. reflexivity.
Qed.
Lemma moved_end l : (l <= n)%nat -> norm2 (vminus (xs n) (xs l)) <= Sm.
Proof.
  intros Hl. replace n with (l + (n - l))%nat at 1 by lia. eapply Rle_trans; [apply moved; lia|apply seq_part; lia].
Qed.
Lemma epoch_descent : obj (xs n) <= obj (xs 0%nat) - (/ (step * D) - (L + al) / 2) * Qm + 2 * (sg + L * Sm) * Sm.
Proof.
  assert (L0 : 0 <= L) by apply HL. pose proof Sm_pos as S0. assert (Ht : 0 <= sg + L * Sm) by (pose proof (Rmult_le_pos _ _ L0 S0); lra).
  assert (G : forall k, (k <= n)%nat -> obj (xs k) <= obj (xs 0%nat) - (/ (step * D) - (L + al) / 2) * Rsum (map (fun l => mv l * mv l) (seq 0 k)) + 2 * (sg + L * Sm) * Rsum (map mv (seq 0 k))).
  { induction k as [|k IH]; intros Hk; [cbn [seq map Rsum]; lra|]. specialize (IH ltac:(lia)). rewrite seq_S, !map_app, !Rsum_app. cbn [map Rsum Nat.add].
    pose proof (vi_descent (idx k) (xs k) (ms k) (xs (S k)) (sg + L * Sm) (idx_lt k ltac:(lia)) (Lx k ltac:(lia)) (Hvi k ltac:(lia)) Ht (Hstale k ltac:(lia))) as V.
    fold (mv k) in V. lra. }
  apply (G n (le_n n)).
Qed.
Definition lam (j : nat) : nat := lastv idx (nth j (rblocks ptr) 0%nat) n.
Definition wa (l : nat) : list R := map (fun j => (nth j (xs (S l)) 0 - nth j (xs l) 0) / (step * dw j)) (seq 0 d).
Definition wb (l : nat) : list R := vplus (eps (xs l) (ms l) (idx l)) (vminus (gvec P (xs l)) (gvec P (xs n))).
(** the certificate of the epoch *)
Definition cert : list R := map (fun j => nth j (wa (lam j)) 0 + nth j (wb (lam j)) 0) (seq 0 d).
Lemma lam_lt j : (lam j < n)%nat. Proof. apply lastv_lt, Hn. Qed.
Lemma wa_length l : length (wa l) = d. Proof. unfold wa. rewrite map_length, seq_length. reflexivity. Qed.
Lemma wb_length l : length (wb l) = d.
Proof. unfold wb. pose proof (eps_length (xs l) (ms l) (idx l)). pose proof (gvec_length P (xs l) : _ = d). pose proof (gvec_length P (xs n) : _ = d).  leng. Qed.
Lemma cert_length : length cert = d. Proof. unfold cert. rewrite map_length, seq_length. reflexivity. Qed.
Lemma wa_norm l : (l < n)%nat -> norm2 (wa l) <= / step * mv l.
Proof.
  intros Hl. pose proof (Lx l ltac:(lia)) as L1. pose proof (Lx (S l) ltac:(lia)) as L2. assert (Hs : 0 < / step) by (apply Rinv_0_lt_compat; exact Hst).
  unfold mv. apply norm_mono; [rewrite wa_length; leng|lra|]. intros j Hj. unfold vminus in Hj. rewrite lin_length, L1, L2, Nat.min_id in Hj.
  unfold wa. rewrite nth_mapseq by exact Hj. rewrite nth_vminus by congruence. destruct (Hvi l Hl) as (_ & Ho & _). destruct (ext_dec P ptr (idx l) j) as [X|X].
  - destruct (dw_ext (idx l) j (idx_lt l Hl) X) as (D1 & _). unfold Rdiv. rewrite Rabs_mult, Rmult_comm. apply Rmult_le_compat_r; [apply Rabs_pos|].
    assert (step * 1 <= step * dw j) by (apply Rmult_le_compat_l; lra). rewrite Rabs_pos_eq by (left; apply Rinv_0_lt_compat; lra). apply Rinv_le_contravar; lra.
  - rewrite (Ho j X), Rminus_diag_eq by reflexivity. unfold Rdiv. rewrite Rmult_0_l, Rabs_R0. lra.
Qed.
Lemma wb_norm l : (l < n)%nat -> norm2 (wb l) <= 2 * sg + (3 * L + al) * Sm.
Proof.
  intros Hl. assert (L0 : 0 <= L) by apply HL. pose proof Sm_pos as S0. assert (Ht : 0 <= sg + L * Sm) by (pose proof (Rmult_le_pos _ _ L0 S0); lra).
  unfold wb. eapply Rle_trans; [apply norm_vplus; pose proof (eps_length (xs l) (ms l) (idx l)); pose proof (gvec_length P (xs l) : _ = d); pose proof (gvec_length P (xs n) : _ = d); leng|].
  pose proof (eps_norm (xs l) (ms l) (idx l) _ (idx_lt l Hl) Ht (Hstale l Hl)) as E1.
  pose proof (gvec_lip P Hn Ha f lphi L HL (xs l) (xs n) (Lx l ltac:(lia)) (Lx n (le_n n))) as E2. rewrite (norm2_vminus_sym (xs l)) in E2 by (rewrite !Lx by lia; reflexivity).
  pose proof (moved_end l ltac:(lia)) as M. assert (La : 0 <= L + al) by lra. apply (Rmult_le_compat_l _ _ _ La) in M. fold al in E2. lra.
Qed.
Lemma cert_norm : dot cert cert <= 2 * (Qm / (step * step)) + 2 * (INR n * ((2 * sg + (3 * L + al) * Sm) * (2 * sg + (3 * L + al) * Sm))).
Proof.
  rewrite (dot_seq cert cert d cert_length cert_length).
  apply Rle_trans with (2 * Rsum (map (fun j => nth j (wa (lam j)) 0 * nth j (wa (lam j)) 0) (seq 0 d)) + 2 * Rsum (map (fun j => nth j (wb (lam j)) 0 * nth j (wb (lam j)) 0) (seq 0 d))).
  { rewrite <- !Rsum_map_mult, <- Rsum_map_plus. apply Rsum_le_map. intros j Hj. apply in_seq in Hj. unfold cert. rewrite nth_mapseq by lia.
    pose proof (Rle_0_sqr (nth j (wa (lam j)) 0 - nth j (wb (lam j)) 0)) as Q. unfold Rsqr in Q. lra. }
  pose proof (pick_le n d wa lam (fun l _ => wa_length l) (fun j _ => lam_lt j)) as P1.
  pose proof (pick_le n d wb lam (fun l _ => wb_length l) (fun j _ => lam_lt j)) as P2.
  assert (B1 : Rsum (map (fun l => dot (wa l) (wa l)) (seq 0 n)) <= Qm / (step * step)).
  { apply Rle_trans with (Rsum (map (fun l => / (step * step) * (mv l * mv l)) (seq 0 n))); [|rewrite Rsum_map_mult; unfold Qm, Rdiv; lra].
    apply Rsum_le_map. intros l Hl. apply in_seq in Hl. rewrite <- norm2_sq. pose proof (wa_norm l ltac:(lia)) as W. pose proof (norm2_nonneg (wa l)) as N0.
    apply Rle_trans with ((/ step * mv l) * (/ step * mv l)); [apply Rmult_le_compat; assumption|]. rewrite Rinv_mult. right. ring. }
  assert (B2 : Rsum (map (fun l => dot (wb l) (wb l)) (seq 0 n)) <= INR n * ((2 * sg + (3 * L + al) * Sm) * (2 * sg + (3 * L + al) * Sm))).
  { apply Rle_trans with (Rsum (map (fun l => ((2 * sg + (3 * L + al) * Sm) * (2 * sg + (3 * L + al) * Sm))) (seq 0 n))).
    - apply Rsum_le_map. intros l Hl. apply in_seq in Hl. rewrite <- norm2_sq. pose proof (wb_norm l ltac:(lia)) as W. pose proof (norm2_nonneg (wb l)) as N0. apply Rmult_le_compat; assumption.
    - right. apply Rsum_const_seq. }
  lra.
Qed.
Lemma rest_until_end h j l k : (S h < length ptr)%nat -> In j (blk ptr h) -> (l + k = n)%nat -> (0 < k)%nat -> (forall l', (l < l' < n)%nat -> ~ In h (pblocks P ptr (idx l'))) -> nth j (xs n) 0 = nth j (xs (S l)) 0.
Proof.
  intros Hh Hj. revert l. induction k as [|k IH]; intros l Hk Hk0 Hl; [lia|]. destruct k as [|k]; [replace n with (S l) by lia; reflexivity|].
  rewrite (IH (S l)) by (try lia; intros l' Hl'; apply Hl; lia). destruct (Hvi (S l) ltac:(lia)) as (_ & Ho & _). apply Ho.
  apply (ext_out (idx (S l)) j h); [apply idx_lt; lia|exact Hh|exact Hj|apply Hl; lia].
Qed.
Lemma epoch_opt z : convex_loss P f -> length z = d -> (forall j, (j < d)%nat -> (forall i, (i < n)%nat -> ~ ext P ptr i j) -> nth j z 0 = nth j (xs n) 0) ->
  obj (xs n) + al / 2 * (norm2 (vminus z (xs n)) * norm2 (vminus z (xs n))) <= obj z + dot cert (vminus z (xs n)).
Proof.
  intros Hc Lz Hz. set (y := xs n). assert (Ly : length y = d) by (apply Lx; lia).
  set (G := map (fun j => nth j cert 0 + nth j (gvec P y) 0) (seq 0 d)).
  assert (SB : block_penalty ptr g y - Rsum (map (fun j => nth j G 0 * (nth j z 0 - nth j y 0)) (seq 0 d)) <= block_penalty ptr g z).
  { apply (sum_blocks_le P ptr g G y z (fun h => exists l, (l < n)%nat /\ In h (pblocks P ptr (idx l))) Hq).
    - intros h _. clear. induction n as [|k IH]; [right; intros (l & Hl & _); lia|]. destruct IH as [Y|N]; [left; destruct Y as (l & Hl & Hin); exists l; split; [lia|exact Hin]|].
      destruct (in_dec Nat.eq_dec h (pblocks P ptr (idx k))) as [Y|N']; [left; exists k; split; [lia|exact Y]|]. right. intros (l & Hl & Hin). destruct (Nat.eq_dec l k) as [->|]; [contradiction|]. apply N. exists l. split; [lia|exact Hin].
    - intros h Hh (l0 & Hl0 & Hin). set (l := lastv idx h n). assert (Hl : (l < n)%nat) by (apply lastv_lt, Hn).
      assert (Hin' : In h (pblocks P ptr (idx l))) by (apply (lastv_in idx h n l0 Hl0 Hin)).
      assert (Hend : forall j, In j (blk ptr h) -> nth j y 0 = nth j (xs (S l)) 0) by (intros j Hj; apply (rest_until_end h j l (n - l)); try assumption; try lia; intros l' Hl'; apply (lastv_after idx h n); exact Hl').
      destruct (Hvi l Hl) as (_ & _ & V). specialize (V h z Hin' Lz).
      replace (sub y (blk ptr h)) with (sub (xs (S l)) (blk ptr h)) by (unfold sub; apply map_ext_in; intros j Hj; symmetry; apply Hend, Hj).
      rewrite (Rsum_map_ext _ (fun j => ((nth j (xs (S l)) 0 - nth j (xs l) 0) / (step * dw j) + nth j (gvec P (xs l)) 0 + nth j (eps (xs l) (ms l) (idx l)) 0) * (nth j z 0 - nth j (xs (S l)) 0))); [exact V|].
      intros j Hj. assert (Hjd : (j < d)%nat) by (eapply blk_in_lt; eauto). unfold G. rewrite nth_mapseq by exact Hjd. unfold cert. rewrite nth_mapseq by exact Hjd.
      assert (El : lam j = l) by (unfold lam; rewrite (rblocks_in _ _ _ _ Hq Hh Hj); reflexivity). rewrite El. unfold wa. rewrite nth_mapseq by exact Hjd. unfold wb.
      pose proof (eps_length (xs l) (ms l) (idx l)). pose proof (gvec_length P (xs l) : _ = d). pose proof (gvec_length P (xs n) : _ = d).  rewrite nth_vplus by leng. rewrite nth_vminus by congruence. rewrite (Hend j Hj). fold y. ring.
    - intros h j Hh N Hj. assert (Hjd : (j < d)%nat) by (eapply blk_in_lt; eauto). apply Hz; [exact Hjd|]. intros i Hi X. apply N. destruct (idx_onto i Hi) as (l & Hl & <-). exists l. split; [exact Hl|].
      destruct (in_dec Nat.eq_dec h (pblocks P ptr (idx l))) as [Y|N']; [exact Y|]. exfalso. apply (ext_out (idx l) j h Hi Hh Hj N' X). }
  pose proof (finite_sum_strong P f y z Hc Hn Ly Lz) as Q.
  assert (E : Rsum (map (fun j => nth j G 0 * (nth j z 0 - nth j y 0)) (seq 0 d)) = dot cert (vminus z y) + dot (gvec P y) (vminus z y)).
  { assert (Lv : length (vminus z y) = d) by leng. rewrite (dot_seq cert (vminus z y) d cert_length Lv), (dot_seq (gvec P y) (vminus z y) d (gvec_length P y) Lv), <- Rsum_map_plus.
    apply Rsum_map_ext. intros j Hj. apply in_seq in Hj. unfold G. rewrite nth_mapseq by lia. rewrite nth_vminus by congruence. ring. }
  unfold obj. fold al in Q. rewrite norm2_sq. lra.
Qed.
Hypothesis HLp : 0 < L.
Hypothesis Hsm : step * D * (INR n * (20 * L + al)) <= 1.
Definition En : R := sg * sg / L + Qm / (4 * (step * D)).
Lemma u_large : INR n * (20 * L + al) <= / (step * D).
Proof.
  assert (0 < step * D) by (apply Rmult_lt_0_compat; lra). apply (Rmult_le_reg_l (step * D)); [assumption|]. rewrite Rinv_r by lra. exact Hsm.
Qed.
Lemma n_ge1 : 1 <= INR n. Proof. change 1 with (INR 1). apply le_INR. apply Hn. Qed.
Lemma En_split : sg * sg / L >= 0 /\ / (step * D) * Qm >= 0 /\ En = sg * sg / L + / (step * D) * Qm / 4.
Proof.
  assert (0 < step * D) by (apply Rmult_lt_0_compat; lra). assert (0 < / (step * D)) by (apply Rinv_0_lt_compat; assumption). assert (0 < / L) by (apply Rinv_0_lt_compat; assumption).
  pose proof Qm_pos. pose proof (Rmult_le_pos _ _ Hsg Hsg). split; [apply Rle_ge, Rmult_le_pos; lra|]. split; [apply Rle_ge, Rmult_le_pos; lra|]. unfold En. field. split; lra.
Qed.
Lemma En_pos : 0 <= En. Proof. destruct En_split as (A & C & ->). lra. Qed.
Lemma LnQ : L * (Sm * Sm) <= / (step * D) * Qm / 20.
Proof.
  pose proof Sm_sq as S2. pose proof u_large as U. pose proof Qm_pos as Q0. pose proof n_ge1 as N1. apply (Rmult_le_compat_l L) in S2; [|lra].
  assert (INR n * al >= 0) by (apply Rle_ge, Rmult_le_pos; lra). apply (Rmult_le_compat_r Qm) in U; [|exact Q0].
  assert (INR n * al * Qm >= 0) by (apply Rle_ge, Rmult_le_pos; lra). lra.
Qed.
Lemma epoch_energy : obj (xs n) + 2 * (L * Sm * (L * Sm) / L) <= obj (xs 0%nat) + 2 * (sg * sg / L) - En.
Proof.
  pose proof epoch_descent as E. pose proof LnQ as S2. pose proof u_large as U. pose proof Qm_pos as Q0. pose proof n_ge1 as N1. destruct En_split as (A1 & A2 & ->).
  replace (L * Sm * (L * Sm) / L) with (L * (Sm * Sm)) by (field; lra).
  assert (Y : 2 * (sg * Sm) <= sg * sg / L + L * (Sm * Sm)).
  { pose proof (Rle_0_sqr (sg - L * Sm)) as Z. unfold Rsqr in Z. apply (Rmult_le_reg_l L); [exact HLp|]. replace (L * (sg * sg / L + L * (Sm * Sm))) with (sg * sg + L * L * (Sm * Sm)) by (field; lra). lra. }
  assert (W : (L + al) / 2 * Qm <= / (step * D) * Qm / 2).
  { apply (Rmult_le_compat_r Qm) in U; [|exact Q0]. assert (L + al <= INR n * (20 * L + al)) as W; [|apply (Rmult_le_compat_r Qm) in W; [lra|exact Q0]].
    apply Rle_trans with (1 * (20 * L + al)); [lra|]. apply Rmult_le_compat_r; lra. }
  lra.
Qed.
Lemma age_energy : 2 * (L * Sm * (L * Sm) / L) <= En.
Proof. pose proof LnQ. destruct En_split as (A1 & A2 & ->). replace (L * Sm * (L * Sm) / L) with (L * (Sm * Sm)) by (field; lra). lra. Qed.
Lemma inv_step : / (step * D) <= D / step.
Proof.
  rewrite Rinv_mult. unfold Rdiv. rewrite Rmult_comm. apply Rmult_le_compat_r; [left; apply Rinv_0_lt_compat; exact Hst|]. apply Rle_trans with (/ 1); [apply Rinv_le_contravar; lra|lra].
Qed.
Lemma cert_energy : dot cert cert <= 24 * (D / step) * En.
Proof.
  pose proof cert_norm as E. pose proof Sm_sq as S2. pose proof u_large as U. pose proof Qm_pos as Q0. pose proof n_ge1 as N1. pose proof inv_step as IS. pose proof Sm_pos as S0. destruct En_split as (A1 & A2 & ->).
  set (u := / (step * D)) in *. set (c := 3 * L + al) in *. assert (Hc : 0 <= c) by (unfold c; lra).
  assert (T : (2 * sg + c * Sm) * (2 * sg + c * Sm) <= 2 * (4 * (sg * sg)) + 2 * (c * c * (Sm * Sm))) by (pose proof (Rle_0_sqr (2 * sg - c * Sm)) as Z; unfold Rsqr in Z; lra).
  assert (C0 : 0 <= INR n * c) by (apply Rmult_le_pos; lra).
  assert (C1 : INR n * c <= u) by (eapply Rle_trans; [|exact U]; apply Rmult_le_compat_l; unfold c; lra).
  assert (C2 : INR n * (c * c * (Sm * Sm)) <= u * u * Qm).
  { apply Rle_trans with (INR n * (c * c * (INR n * Qm))).
    - apply Rmult_le_compat_l; [lra|]. apply Rmult_le_compat_l; [apply Rle_0_sqr|exact S2].
    - replace (INR n * (c * c * (INR n * Qm))) with ((INR n * c) * (INR n * c) * Qm) by ring. apply Rmult_le_compat_r; [exact Q0|]. apply Rmult_le_compat; assumption. }
  assert (U0 : 0 < u) by (apply Rinv_0_lt_compat, Rmult_lt_0_compat; lra).
  assert (C3 : INR n * (sg * sg) <= u / 20 * (sg * sg / L)).
  { replace (INR n * (sg * sg)) with (INR n * L * (sg * sg / L)) by (field; lra). apply Rmult_le_compat_r; [lra|]. assert (0 <= INR n * al) by (apply Rmult_le_pos; lra). lra. }
  assert (F1 : Qm / (step * step) = D / step * (u * Qm)) by (unfold u; field; split; lra).
  assert (F2 : u * u * Qm <= D / step * (u * Qm)) by (rewrite Rmult_assoc; apply Rmult_le_compat_r; lra).
  assert (F3 : u / 20 * (sg * sg / L) <= D / step * (sg * sg / L)) by (apply Rmult_le_compat_r; lra).
  apply (Rmult_le_compat_l (INR n)) in T; [|lra]. rewrite F1 in E. assert (0 <= D / step * (sg * sg / L)) by (apply Rmult_le_pos; [apply Rmult_le_pos; [lra|left; apply Rinv_0_lt_compat; exact Hst]|lra]). lra.
Qed.
Lemma move_energy : norm2 (vminus (xs n) (xs 0%nat)) * norm2 (vminus (xs n) (xs 0%nat)) <= 4 * (step * D * INR n) * En.
Proof.
  pose proof (moved_end 0 (Nat.le_0_l n)) as M. pose proof Sm_sq as S2. pose proof n_ge1 as N1. destruct En_split as (A1 & A2 & ->). assert (SD : 0 < step * D) by (apply Rmult_lt_0_compat; lra).
  eapply Rle_trans; [apply Rmult_le_compat; try apply norm2_nonneg; exact M|]. eapply Rle_trans; [exact S2|].
  replace (4 * (step * D * INR n) * (sg * sg / L + / (step * D) * Qm / 4)) with (4 * (step * D * INR n) * (sg * sg / L) + INR n * Qm) by (field; repeat split; lra).
  assert (0 <= 4 * (step * D * INR n) * (sg * sg / L)) by (apply Rmult_le_pos; [apply Rmult_le_pos; [lra|apply Rmult_le_pos; lra]|lra]). lra.
Qed.
Lemma epoch_all : exists (w : list R) (E : R), length w = d /\ 0 <= E /\ obj (xs n) + 2 * (L * Sm * (L * Sm) / L) <= obj (xs 0%nat) + 2 * (sg * sg / L) - E /\ 2 * (L * Sm * (L * Sm) / L) <= E /\
  dot w w <= 24 * (D / step) * E /\ norm2 (vminus (xs n) (xs 0%nat)) * norm2 (vminus (xs n) (xs 0%nat)) <= 4 * (step * D * INR n) * E /\
  forall z, convex_loss P f -> length z = d -> (forall j, (j < d)%nat -> ~ touched P ptr j -> nth j z 0 = nth j (xs n) 0) ->
  obj (xs n) + al / 2 * (norm2 (vminus z (xs n)) * norm2 (vminus z (xs n))) <= obj z + dot w (vminus z (xs n)).
Proof.
  exists cert, En. split; [apply cert_length|]. split; [apply En_pos|]. split; [apply epoch_energy|]. split; [apply age_energy|]. split; [apply cert_energy|]. split; [apply move_energy|].
  intros z Hc Lz Hz. apply epoch_opt; [exact Hc|exact Lz|]. intros j Hj Hx. apply Hz; [exact Hj|]. intros (i & Hi & Sb). apply (Hx i Hi). apply ext_spec; auto.
Qed.
Lemma epoch_untouched j : (j < d)%nat -> ~ touched P ptr j -> nth j (xs n) 0 = nth j (xs 0%nat) 0.
Proof.
  intros Hj Nt. assert (G : forall l, (l <= n)%nat -> nth j (xs l) 0 = nth j (xs 0%nat) 0); [|apply (G n (le_n n))].
  induction l as [|l IH]; intros Hl; [reflexivity|]. rewrite <- IH by lia. destruct (Hvi l ltac:(lia)) as (_ & Ho & _). apply Ho. intros X. apply Nt. exists (idx l). split; [apply idx_lt; lia|]. apply ext_spec in X; auto. apply idx_lt. lia.
Qed.
End G.

(** ** A run: iterates, energies, certificates *)
Definition pseq (P : problem RN) (f : R -> R -> R) (ptr : list nat) (g : nat -> list R -> R) (D step : R) (x0 : list R) (N : nat) (xs : nat -> list R) (V : nat -> R) : Prop :=
  forall k, (k <= N)%nat -> obj P ptr g f (xs (S k)) <= V (S k) /\
  exists (w : list R) (E : R), length w = p_d P /\ 0 <= E /\ V (S k) <= V k - E /\ V (S k) <= obj P ptr g f (xs (S k)) + E /\ dot w w <= 24 * (D / step) * E /\
    norm2 (vminus (xs (S k)) (xs k)) * norm2 (vminus (xs (S k)) (xs k)) <= 4 * (step * D * INR (p_n P)) * E /\
    forall z : list R, convex_loss P f -> length z = p_d P -> (forall j, (j < p_d P)%nat -> ~ touched P ptr j -> nth j z 0 = nth j x0 0) ->
      obj P ptr g f (xs (S k)) + p_alpha P / 2 * (norm2 (vminus z (xs (S k))) * norm2 (vminus z (xs (S k)))) <= obj P ptr g f z + dot w (vminus z (xs (S k))).
Lemma pseq_rate (P : problem RN) f ptr g (D step : R) x0 N xs V : 1 <= D -> 0 < step -> 0 <= p_alpha P -> pseq P f ptr g D step x0 N xs V -> convex_loss P f ->
  exists i w, (1 <= i <= S N)%nat /\ length w = p_d P /\ INR (S N) * dot w w <= 24 * (D / step) * (V 0%nat - obj P ptr g f (xs (S N))) /\
  forall z : list R, length z = p_d P -> (forall j, (j < p_d P)%nat -> ~ touched P ptr j -> nth j z 0 = nth j x0 0) -> obj P ptr g f (xs i) <= obj P ptr g f z + dot w (vminus z (xs i)).
Proof.
  intros HD Hs Ha H Hc. assert (Hds : 0 < D / step) by (apply Rmult_lt_0_compat; [lra|apply Rinv_0_lt_compat; lra]).
  destruct (best_le V (fun k => V k - V (S k)) N) as (i & Hi & Q); [intros k _; lra|].
  destruct (H i Hi) as (_ & w & E & Lw & E0 & E1 & _ & E3 & _ & E5). exists (S i), w. split; [lia|]. split; [exact Lw|]. split.
  - destruct (H N (le_n N)) as (O & _). apply Rle_trans with (24 * (D / step) * (INR (S N) * (V i - V (S i)))).
    + replace (24 * (D / step) * (INR (S N) * (V i - V (S i)))) with (INR (S N) * (24 * (D / step) * (V i - V (S i)))) by ring. apply Rmult_le_compat_l; [apply pos_INR|]. eapply Rle_trans; [exact E3|]. apply Rmult_le_compat_l; lra.
    + apply Rmult_le_compat_l; lra.
  - intros z Lz Hz. specialize (E5 z Hc Lz Hz). assert (0 <= p_alpha P / 2 * (norm2 (vminus z (xs (S i))) * norm2 (vminus z (xs (S i))))) by (apply Rmult_le_pos; [lra|apply Rle_0_sqr]). lra.
Qed.
Lemma pseq_linear (P : problem RN) f ptr g (D step : R) x0 N xs V : 1 <= D -> 0 < step -> 0 < p_alpha P -> step * p_alpha P <= 1 -> pseq P f ptr g D step x0 N xs V -> convex_loss P f ->
  (forall k, (k <= S N)%nat -> length (xs k) = p_d P) ->
  forall z : list R, length z = p_d P -> (forall j, (j < p_d P)%nat -> ~ touched P ptr j -> nth j z 0 = nth j x0 0) ->
  obj P ptr g f (xs (S N)) - obj P ptr g f z <= (1 - p_alpha P * step / (14 * D)) ^ S N * (V 0%nat - obj P ptr g f z).
Proof.
  intros HD Hs Ha Has H Hc Lxs z Lz Hz. destruct (H N (le_n N)) as (O & _). apply Rle_trans with (V (S N) - obj P ptr g f z); [lra|].
  set (al := p_alpha P) in *. assert (Dp : 0 < 14 * D) by lra.
  assert (K0 : 0 < al * step / (14 * D)) by (apply Rmult_lt_0_compat; [apply Rmult_lt_0_compat; assumption|apply Rinv_0_lt_compat; exact Dp]).
  assert (K1 : al * step / (14 * D) <= 1). { apply (Rmult_le_reg_r (14 * D)); [exact Dp|]. unfold Rdiv. rewrite Rmult_assoc, Rinv_l by lra. lra. }
  apply (pow_le_seq (fun k => V k - obj P ptr g f z)); [lra|]. intros k Hk. destruct (H k ltac:(lia)) as (_ & w & E & Lw & E0 & E1 & E2 & E3 & _ & E5). specialize (E5 z Hc Lz Hz). fold al in E5.
  set (v := vminus z (xs (S k))) in *. set (p := obj P ptr g f (xs (S k))) in *. set (q := obj P ptr g f z) in *.
  assert (A : al * (p - q) <= 12 * (D / step) * E).
  { pose proof (dot_le_norm w v) as C. pose proof (Rle_0_sqr (norm2 w - al * norm2 v)) as Z. unfold Rsqr in Z. rewrite <- norm2_sq in E3.
    apply (Rmult_le_compat_l al) in E5; [|lra]. apply (Rmult_le_compat_l al) in C; [|lra]. lra. }
  assert (A' : al * step * (V (S k) - q) <= 13 * D * E).
  { apply (Rmult_le_compat_l step) in A; [|lra]. replace (step * (12 * (D / step) * E)) with (12 * (D * E)) in A by (field; lra).
    assert (al * step * (V (S k) - p) <= 1 * E). { apply Rle_trans with (al * step * E); [apply Rmult_le_compat_l; [apply Rmult_le_pos; lra|lra]|apply Rmult_le_compat_r; lra]. }
    assert (1 * E <= D * E) by (apply Rmult_le_compat_r; lra). lra. }
  assert (DV : 14 * D * (V (S k) - q) <= (14 * D - al * step) * (V k - q)).
  { destruct (Rle_lt_dec 0 (V k - q)) as [Y|N0].
    - assert (al * step * (V k - V (S k)) <= D * (V k - V (S k))) by (apply Rmult_le_compat_r; lra). assert (D * E <= D * (V k - V (S k))) by (apply Rmult_le_compat_l; lra). lra.
    - assert (0 <= al * step * (- (V k - q))) by (apply Rmult_le_pos; [apply Rmult_le_pos; lra|lra]). assert (D * (V (S k) - q) <= D * (V k - q)) by (apply Rmult_le_compat_l; lra). lra. }
  apply (Rmult_le_reg_l (14 * D)); [exact Dp|]. eapply Rle_trans; [exact DV|]. right. field. lra.
Qed.
Lemma pseq_move (P : problem RN) f ptr g (D step : R) x0 N xs V (tol : R) k : 1 <= D -> 0 < step -> (0 < p_n P)%nat -> (0 < p_d P)%nat -> 0 < tol -> pseq P f ptr g D step x0 N xs V -> (forall k, (k <= S N)%nat -> length (xs k) = p_d P) ->
  (k <= N)%nat -> tol <= l1 (vminus (xs (S k)) (xs k)) -> V (S k) <= V k - tol * tol / (4 * (step * D * INR (p_n P) * INR (p_d P))).
Proof.
  intros HD Hs Hn Hd Ht H Lxs Hk Hm. destruct (H k Hk) as (_ & w & E & Lw & E0 & E1 & E2 & E3 & E4 & _). set (m := vminus (xs (S k)) (xs k)) in *.
  pose proof (l1_sq m) as LQ. assert (Lm : length m = p_d P) by (unfold m, vminus; rewrite lin_length, !Lxs by lia; apply Nat.min_id). rewrite Lm, <- norm2_sq in LQ.
  assert (T1 : tol * tol <= l1 m * l1 m) by (apply Rmult_le_compat; lra). apply lt_0_INR in Hn. apply lt_0_INR in Hd.
  assert (C0 : 0 < 4 * (step * D * INR (p_n P) * INR (p_d P))) by (repeat apply Rmult_lt_0_compat; lra).
  assert (T3 : INR (p_d P) * (norm2 m * norm2 m) <= INR (p_d P) * (4 * (step * D * INR (p_n P)) * E)) by (apply Rmult_le_compat_l; lra).
  assert (tol * tol / (4 * (step * D * INR (p_n P) * INR (p_d P))) <= E); [|lra]. apply (Rmult_le_reg_r (4 * (step * D * INR (p_n P) * INR (p_d P)))); [exact C0|].
  unfold Rdiv. rewrite Rmult_assoc, Rinv_l, Rmult_1_r by lra. lra.
Qed.
