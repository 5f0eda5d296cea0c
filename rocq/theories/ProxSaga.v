(** * SAGA with proximal operators: one epoch, whole runs *)
From Coq Require Import Bool List Lia Permutation Reals Lra.
From Verif Require Import Num Vec Spec SpecSparse RVec ConvexFacts PenaltyFacts UtilsMain PenaltyFacts2 PenaltyFacts3 ModelRandomized SpecFiniteSum SpecEpochs SpecLoss RandomizedBlocks RandomizedSaga RandomizedSvrg RandomizedProx RandomizedFix RandomizedMain RandomizedMain3 EpochFacts SvrgDescent SvrgRate SagaDescent SagaRate ProxEpochs.
Import ListNotations.
Local Open Scope R_scope.

Section S.
Variable P : problem RN.
Hypothesis HP : problem_wf P.
Hypothesis HC : canonical P.
Let n := p_n P.
Let d := p_d P.
Let al := p_alpha P.
Hypothesis Hn : (0 < n)%nat.
Hypothesis Ha : 0 <= al.
Variable ptr : list nat.
Hypothesis Hq : partitions ptr d.
Variable B : blocks RN.
Hypothesis EB : make_blocks P ptr = Ok B.
Variable g : nat -> list R -> R.
Hypothesis Hg : forall h, (S h < length ptr)%nat -> convex_on (length (blk ptr h)) (fun _ => True) (g h).
Variable prox : sprox RN.
Hypothesis Hpr : sparse_prox_of P ptr B g prox.
Variables (f : R -> R -> R) (lphi L D step : R).
Hypothesis HL : lip_losses P f lphi L.
Hypothesis HD : block_spread P ptr D.
Hypothesis HD1 : 1 <= D.
Hypothesis Hst : 0 < step.
(** a gradient step on the blocks of sample i followed by the prox *)
Lemma prox_call (x x1 x2 mem : list R) i : (i < n)%nat -> length x = d -> length x1 = d ->
  (forall j, ext P ptr i j -> nth j x1 0 = nth j x 0 - step * ((loss_deriv P x i - nth i mem 0) * ent P i j + dw ptr B j * (mean_row P (fun i => nth i mem 0) j + al * nth j x 0))) ->
  (forall j, ~ ext P ptr i j -> nth j x1 0 = nth j x 0) -> prox x1 i (k_bsi B) (k_bsp B) (k_d B) step = Ok x2 -> vi_step P ptr B g step i x mem x2.
Proof.
  intros Hi Lx Lx1 X1 X2 Ep. destruct (Hpr x1 i step Hi Lx1 ltac:(lra)) as (x' & E1 & L2 & Hprox). assert (E2 := Ok_inj _ _ (eq_trans (eq_sym E1) Ep)). subst x'. clear E1.
  assert (Lx2 : length x2 = d) by (rewrite L2; exact Lx1). split; [exact Lx2|]. split.
  { intros j Nj. rewrite <- (X2 j Nj). apply (sparse_prox_local P HP ptr B g prox Hq EB Hpr x1 i step x2 Hi Lx1 ltac:(lra) Ep). intros Sb. apply Nj. apply ext_spec; auto. }
  intros h z Hin Lz. rewrite (bs_row P HP ptr B i Hq EB Hi) in Hprox.
  assert (Hh : (S h < length ptr)%nat) by (apply (pblocks_in P HP ptr Hq i h Hi) in Hin; apply Hin).
  pose proof (block_prox_vi d ptr Hq g Hg (fun h => nth h (k_d B) 0) (pblocks P ptr i) step x1 x2 Lx1 Hst (pblocks_NoDup P ptr i)) as V.
  specialize (V ltac:(intros h' Hh'; split; [apply (pblocks_in P HP ptr Hq i h' Hi), Hh'|left; eapply kd_pos; eauto]) Hprox h z Hin Lz). cbv beta in V.
  assert (Ew := kd_pos P HP ptr B i h Hq EB Hi Hin). set (w := nth h (k_d B) 0) in *.
  assert (Es : Rsum (map (fun j => (nth j x1 0 - nth j x2 0) * (nth j z 0 - nth j x2 0)) (blk ptr h)) =
    - (step * w) * Rsum (map (fun j => ((nth j x2 0 - nth j x 0) / (step * dw ptr B j) + nth j (gvec P x) 0 + nth j (eps P ptr B x mem i) 0) * (nth j z 0 - nth j x2 0)) (blk ptr h))).
  { rewrite <- Rsum_map_mult. apply Rsum_map_ext. intros j Hj. assert (Hx : ext P ptr i j) by (exists h; auto).
    assert (Hjd : (j < d)%nat) by (eapply blk_in_lt; eauto). rewrite (X1 j Hx), nth_gvec, nth_eps by exact Hjd. rewrite (dw_blk P ptr Hq B h j Hh Hj). fold w. fold al. field. split; lra. }
  rewrite Es in V. apply (Rmult_le_reg_l (step * w)); [apply Rmult_lt_0_compat; assumption|]. lra.
Qed.
Hypothesis Hin : in_place prox.
Lemma saga_vi (s s' : saga_state RN) i : (i < n)%nat -> saga_len P s -> saga_inv P s -> saga_sample P B prox step i s = Ok s' ->
  saga_len P s' /\ saga_inv P s' /\ vi_step P ptr B g step i (sa_x s) (sa_mem s) (sa_x s') /\ sa_mem s' = upd (sa_mem s) i (loss_deriv P (sa_x s) i).
Proof.
  intros Hi Hl Hv E. pose proof (in_place_len B prox Hin) as Hpl.
  split; [eapply saga_sample_len; eauto|]. split; [eapply saga_sample_inv; eauto|].
  destruct (saga_sample_eq P HP ptr Hq B EB prox step i s Hi Hl) as (p & x1 & avg' & tmp' & Ep & Lx1 & La' & Lt' & X1 & X2 & M1 & M2 & E').
  rewrite E' in E. apply bind_ok in E as (x2 & Ep2 & E). apply Ok_inj in E. subst s'. cbn [sa_x sa_mem].
  destruct Hl as (L1 & _). rewrite row_dot_R in Ep by (try exact Hi; auto). apply Ok_inj in Ep. subst p. split; [|reflexivity]. destruct Hv as (I1 & I2).
  apply (prox_call (sa_x s) x1 x2 (sa_mem s) i Hi L1 Lx1); [|exact X2|exact Ep2].
  intros j Hj. assert (Hjd : (j < d)%nat) by (destruct Hj as (h & Hh & Hb); eapply blk_in_lt; eauto; apply (pblocks_in P HP ptr Hq i h Hi) in Hh; apply Hh).
  eapply eq_trans; [exact (X1 j Hj)|]. rewrite tmp_val_canonical by assumption.
  refine (eq_trans _ (f_equal (fun m : R => @nth R j (sa_x s) 0 - step * ((loss_deriv P (sa_x s) i - @nth R i (sa_mem s) 0) * ent P i j + dw ptr B j * (m + al * @nth R j (sa_x s) 0))) (I1 j Hjd))). cbv beta. unfold dw, loss_deriv.
  assert (T : (if in_dec Nat.eq_dec j (prow P i) then (p_fd P (adot P i (sa_x s)) (nth i (p_b P) 0) - nth i (sa_mem s) 0) * ent P i j else nth j (sa_tmp s) 0) = (p_fd P (adot P i (sa_x s)) (nth i (p_b P) 0) - nth i (sa_mem s) 0) * ent P i j).
  { destruct (in_dec Nat.eq_dec j (prow P i)) as [S|S]; [reflexivity|]. rewrite (ent_out P i j S), I2. eapply eq_trans; [apply nth_zeros|]. ring. }
  rn. refine (eq_trans (f_equal (fun q : R => @nth R j (sa_x s) 0 - step * (q + nth (nth j (rblocks ptr) 0%nat) (k_d B) 0 * (@nth R j (sa_avg s) 0 + al * @nth R j (sa_x s) 0))) T) _). reflexivity.
Qed.
Variable idx : list nat.
Hypothesis Hidx : Permutation idx (seq 0 n).
Lemma saga_states (s s' : saga_state RN) : saga_len P s -> saga_inv P s -> saga_epoch P B prox step idx s = Ok s' ->
  exists ss : nat -> saga_state RN, ss 0%nat = s /\ ss n = s' /\ (forall l, (l <= n)%nat -> saga_len P (ss l) /\ saga_inv P (ss l)) /\
  forall l, (l < n)%nat -> vi_step P ptr B g step (nth l idx 0%nat) (sa_x (ss l)) (sa_mem (ss l)) (sa_x (ss (S l))) /\
    sa_mem (ss (S l)) = upd (sa_mem (ss l)) (nth l idx 0%nat) (loss_deriv P (sa_x (ss l)) (nth l idx 0%nat)).
Proof.
  intros Hl Hv E.
  assert (G : forall l (s s' : saga_state RN), Forall (fun i => (i < n)%nat) l -> saga_len P s -> saga_inv P s -> saga_epoch P B prox step l s = Ok s' ->
    exists ss : nat -> saga_state RN, ss 0%nat = s /\ ss (length l) = s' /\ (forall k, (k <= length l)%nat -> saga_len P (ss k) /\ saga_inv P (ss k)) /\
    forall k, (k < length l)%nat -> vi_step P ptr B g step (nth k l 0%nat) (sa_x (ss k)) (sa_mem (ss k)) (sa_x (ss (S k))) /\
      sa_mem (ss (S k)) = upd (sa_mem (ss k)) (nth k l 0%nat) (loss_deriv P (sa_x (ss k)) (nth k l 0%nat))).
  { unfold saga_epoch. induction l as [|i l IH]; intros t t' F Hlt Hvt Er; cbn [forM] in Er.
    - injection Er as <-. exists (fun _ => t). cbn [length]. split; [reflexivity|]. split; [reflexivity|]. split; [auto|]. intros k Hk. lia.
    - apply bind_ok in Er as (t1 & Es1 & Er). destruct (saga_vi t t1 i (Forall_inv F) Hlt Hvt Es1) as (Hl1 & Hv1 & Ex & Em).
      destruct (IH t1 t' (Forall_inv_tail F) Hl1 Hv1 Er) as (ss & X0 & XN & XL & XS).
      exists (fun k => match k with O => t | S k' => ss k' end). cbn [length]. split; [reflexivity|]. split; [exact XN|]. split; [intros [|k] Hk; [auto|apply XL; lia]|].
      intros [|k] Hk; cbn [nth]; [rewrite X0; auto|apply XS; lia]. }
  destruct (G idx s s') as (ss & X); try assumption.
  { apply Forall_forall. intros i Hi. apply (Permutation_in _ Hidx), in_seq in Hi. lia. }
  exists ss. assert (Ln : length idx = n) by (rewrite (Permutation_length Hidx); apply seq_length). rewrite Ln in X. exact X.
Qed.
Hypothesis HLp : 0 < L.
Hypothesis Hsm : step * D * (INR n * (20 * L + al)) <= 1.
Lemma Permutation_nth_idx : Permutation (map (fun l => nth l idx 0%nat) (seq 0 n)) (seq 0 n).
Proof.
  assert (Ln : length idx = n) by (rewrite (Permutation_length Hidx); apply seq_length).
  replace (map (fun l => nth l idx 0%nat) (seq 0 n)) with idx; [exact Hidx|]. rewrite <- Ln. clear. induction idx as [|a t IH]; [reflexivity|]. cbn [length seq map nth]. f_equal. rewrite <- seq_shift, map_map. exact IH.
Qed.
Lemma saga_prox_epoch (s s' : saga_state RN) sg : saga_len P s -> saga_inv P s -> saga_epoch P B prox step idx s = Ok s' -> 0 <= sg -> stale P (sa_x s) (sa_mem s) sg ->
  saga_len P s' /\ saga_inv P s' /\ (forall j, (j < d)%nat -> ~ touched P ptr j -> @nth R j (sa_x s') 0 = nth j (sa_x s) 0) /\
  exists sg' (w : list R) (E : R), 0 <= sg' /\ stale P (sa_x s') (sa_mem s') sg' /\ length w = d /\ 0 <= E /\
    obj P ptr g f (sa_x s') + 2 * (sg' * sg' / L) <= obj P ptr g f (sa_x s) + 2 * (sg * sg / L) - E /\ 2 * (sg' * sg' / L) <= E /\ dot w w <= 24 * (D / step) * E /\
    norm2 (vminus (sa_x s') (sa_x s)) * norm2 (vminus (sa_x s') (sa_x s)) <= 4 * (step * D * INR n) * E /\
    forall z : list R, convex_loss P f -> length z = d -> (forall j, (j < d)%nat -> ~ touched P ptr j -> nth j z 0 = nth j (sa_x s') 0) ->
      obj P ptr g f (sa_x s') + al / 2 * (norm2 (vminus z (sa_x s')) * norm2 (vminus z (sa_x s'))) <= obj P ptr g f z + dot w (vminus z (sa_x s')).
Proof.
  intros Hl Hv E Hsg Hs. destruct (saga_states s s' Hl Hv E) as (ss & X0 & XN & XL & XS). set (xs := fun l => sa_x (ss l) : list R). set (ms := fun l => sa_mem (ss l) : list R). set (ix := fun l => nth l idx 0%nat).
  assert (Lxs : forall l, (l <= n)%nat -> length (xs l) = d) by (intros l H; apply (proj1 (XL l H))).
  assert (HL0 : 0 <= L) by lra. pose proof Permutation_nth_idx as Hp. fold ix in Hp.
  assert (Hvi : forall l, (l < n)%nat -> vi_step P ptr B g step (ix l) (xs l) (ms l) (xs (S l))) by (intros l H; apply (XS l H)).
  pose proof (saga_mem_states P Hn idx ss (fun l H => proj1 (XL l H)) (fun l H => proj2 (XS l H))) as Mem.
  set (Sx := Sm P xs). assert (S0 : 0 <= Sx) by apply Sm_pos. pose proof (Rmult_le_pos _ _ HL0 S0) as LS.
  assert (Mv : forall k l, (k <= l <= n)%nat -> norm2 (vminus (xs l) (xs k)) <= Sx).
  { intros k l Hkl. replace l with (k + (l - k))%nat at 1 by lia. eapply Rle_trans; [apply (moved P Hn xs Lxs); fold n; lia|apply seq_part; [exact Hn|fold n; lia]]. }
  assert (Hst0 : stale P (xs 0%nat) (ms 0%nat) sg) by (unfold xs, ms; rewrite X0; exact Hs).
  assert (Lip : forall i k l, (i < n)%nat -> (k <= l <= n)%nat -> Rabs (loss_deriv P (xs k) i - loss_deriv P (xs l) i) * norm2 (arow P i) <= L * Sx).
  { intros i k l Hi Hkl. eapply Rle_trans; [apply (sample_lip P Hn f lphi L HL i (xs k) (xs l) Hi); apply Lxs; lia|]. apply Rmult_le_compat_l; [exact HL0|]. rewrite norm2_vminus_sym by (rewrite !Lxs by lia; reflexivity). apply Mv, Hkl. }
  assert (Hsl : forall l, (l < n)%nat -> stale P (xs l) (ms l) (sg + L * Sx)).
  { intros l Hll i Hi. destruct (Mem l i ltac:(lia) Hi) as [(_ & A)|(k & Hk & A)]; unfold ms; rewrite A.
    - specialize (Hst0 i Hi). pose proof (Lip i 0%nat l Hi ltac:(lia)) as Q. unfold ms in Hst0.
      pose proof (Rabs_triang (nth i (sa_mem (ss 0%nat)) 0 - loss_deriv P (xs 0%nat) i) (loss_deriv P (xs 0%nat) i - loss_deriv P (xs l) i)) as T.
      replace (nth i (sa_mem (ss 0%nat)) 0 - loss_deriv P (xs 0%nat) i + (loss_deriv P (xs 0%nat) i - loss_deriv P (xs l) i)) with (nth i (sa_mem (ss 0%nat)) 0 - loss_deriv P (xs l) i) in T by ring.
      apply (Rmult_le_compat_r (norm2 (arow P i))) in T; [|apply norm2_nonneg]. eapply Rle_trans; [exact T|]. rewrite Rmult_plus_distr_r. apply Rplus_le_compat; assumption.
    - apply Rle_trans with (L * Sx); [apply (Lip i k l Hi); lia|lra]. }
  destruct (epoch_all P HP Hn Ha ptr Hq B EB g f lphi L D step HL HD HD1 Hst xs ms ix sg Hp Lxs Hvi Hsg Hsl HLp Hsm) as (w & En & W1 & W2 & W3 & W4 & W5 & W6 & W7).
  pose proof (epoch_untouched P HP Hn ptr Hq B g step xs ms ix Hp Hvi) as Hu. fold n d in Hu, W1, W3, W6, W7. unfold xs in Hu, W3, W6, W7. rewrite X0 in Hu, W3, W6. rewrite XN in Hu, W3, W6, W7.
  split; [rewrite <- XN; apply XL, le_n|]. split; [rewrite <- XN; apply XL, le_n|]. split; [exact Hu|].
  exists (L * Sx), w, En. split; [exact LS|]. split.
  { intros i Hi. rewrite <- XN. destruct (Mem n i (le_n n) Hi) as [(A & _)|(k & Hk & A)].
    - exfalso. assert (In i idx) as I0 by (apply (Permutation_in _ (Permutation_sym Hidx)), in_seq; lia). apply (In_nth _ _ 0%nat) in I0 as (k & Hk & Ek). rewrite (Permutation_length Hidx), seq_length in Hk. apply (A k Hk Ek).
    - rewrite A. apply (Lip i k n Hi). lia. }
  split; [exact W1|]. split; [exact W2|]. split; [exact W3|]. split; [exact W4|]. split; [exact W5|]. split; [exact W6|exact W7].
Qed.
End S.
