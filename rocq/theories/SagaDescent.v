(** * SAGA: every epoch, in any order of the samples, is a gradient step with an error controlled by the age of the memory *)
From Coq Require Import Bool List Lia Permutation Reals Lra.
From Verif Require Import Num Vec Spec SpecSparse RVec ConvexFacts PenaltyFacts UtilsMain PenaltyFacts2 ModelRandomized SpecFiniteSum SpecEpochs RandomizedBlocks RandomizedSaga RandomizedSvrg RandomizedProx RandomizedFix RandomizedMain3 EpochFacts SvrgDescent.
Import ListNotations.
Local Open Scope R_scope.

(** every remembered derivative is within sg of the derivative at x, in the norm of its row *)
Definition stale (P : problem RN) (x mem : list R) (sg : R) : Prop :=
  forall i, (i < p_n P)%nat -> Rabs (nth i mem 0 - loss_deriv P x i) * norm2 (arow P i) <= sg.

Lemma vdist_le (a b c : list R) (d : nat) : length a = d -> length b = d -> length c = d -> norm2 (vminus a b) <= norm2 (vminus a c) + norm2 (vminus b c).
Proof.
  intros La Lb Lc. assert (EV : vminus a b = lin 1 (vminus a c) (-1) (vminus b c)).
  { apply (list_ext _ _ 0); [leng|]. intros j _. rewrite nth_lin by leng. rewrite !nth_vminus by congruence. ring. }
  rewrite EV. eapply Rle_trans; [apply norm2_triangle; leng|]. replace (-1) with (- (1)) at 1 by ring. rewrite Rabs_Ropp, Rabs_R1, !Rmult_1_l. lra.
Qed.
Section S.
Variable P : problem RN.
Hypothesis HP : problem_wf P.
Hypothesis HC : canonical P.
Let n := p_n P.
Let d := p_d P.
Let al := p_alpha P.
Hypothesis Hn : (0 < n)%nat.
Hypothesis Ha : 0 <= al.
Variable B : blocks RN.
Hypothesis EB : make_blocks P (eye_ptr d) = Ok B.
Let Hq : partitions (eye_ptr d) d := partitions_eye d.
Variables (D : R) (f : R -> R -> R) (lphi L step : R).
Hypothesis HD : spread P D.
Hypothesis HD1 : 1 <= D.
Hypothesis HL : lip_losses P f lphi L.
Hypothesis Hst : 0 <= step.
Definition mdiff (snap mem : list R) : list R := map (fun j => mean_row P (fun i => nth i mem 0) j - grad_F P snap j) (seq 0 d).
Definition saga_err (snap x mem : list R) (i : nat) : list R :=
  vplus (smul (loss_deriv P x i - nth i mem 0) (arow P i)) (pd P B i (vplus (mdiff snap mem) (smul al (vminus x snap)))).
Lemma mdiff_length snap mem : length (mdiff snap mem) = d. Proof. unfold mdiff. rewrite map_length, seq_length. reflexivity. Qed.
Lemma saga_err_length snap x mem i : length (saga_err snap x mem i) = d.
Proof. unfold saga_err, vplus. rewrite lin_length, smul_length, pd_length, (arow_length P). apply Nat.min_id. Qed.
Lemma saga_step_vec (snap : list R) i (s : saga_state RN) : (i < n)%nat -> length snap = d -> saga_len P s -> saga_inv P s ->
  exists s', saga_sample P B no_prox step i s = Ok s' /\ saga_len P s' /\ saga_inv P s' /\
    sa_x s' = lin 1 (sa_x s) (- step) (vplus (saga_err snap (sa_x s) (sa_mem s) i) (pd P B i (gvec P snap))) /\
    sa_mem s' = upd (sa_mem s) i (loss_deriv P (sa_x s) i).
Proof.
  intros Hi Ls Hl Hv. destruct (saga_sample_eq P HP (eye_ptr d) Hq B EB no_prox step i s Hi Hl) as (p & x1 & avg' & tmp' & Ep & Lx1 & La' & Lt' & X1 & X2 & M1 & M2 & E').
  cbn [no_prox bind] in E'. eexists. split; [exact E'|].
  split. { eapply (saga_sample_len P HP (eye_ptr d) Hq B EB no_prox step i s); [apply no_prox_len|exact Hi|exact Hl|exact E']. }
  split. { eapply (saga_sample_inv P HP (eye_ptr d) Hq B EB no_prox step i s); [apply no_prox_len|exact Hi|exact Hl|exact Hv|exact E']. }
  cbn [sa_x sa_mem]. destruct Hl as (L1 & L2 & L3 & L4). rewrite row_dot_R in Ep by (try exact Hi; auto). apply Ok_inj in Ep. subst p. split; [|reflexivity].
  destruct Hv as (I1 & I2).
  set (x := sa_x s) in *. assert (A2 : forall v, length (pd P B i v) = d) by (intros; apply pd_length). assert (A3 := saga_err_length snap x (sa_mem s) i).
  apply (list_ext _ _ 0). { unfold vplus. rewrite !lin_length, A3, A2, Nat.min_id. refine (eq_trans Lx1 _). symmetry. refine (eq_trans (f_equal (fun m => Nat.min m d) L1) (Nat.min_id d)). }
  intros j Hj. assert (Hj' : (j < d)%nat) by (unfold d; rewrite <- Lx1; exact Hj).
  rewrite nth_lin by (unfold vplus; rewrite lin_length, A3, A2, Nat.min_id; exact L1).
  rewrite nth_vplus by (rewrite A3, A2; reflexivity). unfold saga_err. rewrite nth_vplus by (rewrite smul_length, A2; apply arow_length).
  rewrite nth_smul, nth_arow by exact Hj'. rewrite !nth_pd by exact Hj'. rewrite nth_gvec by exact Hj'.
  assert (Lm : length (vminus x snap) = d). { unfold vminus. rewrite lin_length, Ls. refine (eq_trans (f_equal (fun m => Nat.min m d) L1) (Nat.min_id d)). }
  rewrite nth_vplus by (rewrite mdiff_length, smul_length, Lm; reflexivity). rewrite nth_smul, nth_vminus by exact (eq_trans L1 (eq_sym Ls)).
  assert (Em : nth j (mdiff snap (sa_mem s)) 0 = nth j (sa_avg s) 0 - grad_F P snap j) by (unfold mdiff; rewrite nth_mapseq by exact Hj'; rewrite <- I1 by exact Hj'; reflexivity). rewrite Em.
  destruct (dec_stores P i j) as [S|S].
  - specialize (X1 j (proj2 (stores_ext P HP i j Hi) S)). rewrite (rblocks_eye P Hn) in X1 by exact Hj'.
    rewrite tmp_val_canonical in X1 by assumption. destruct (in_dec Nat.eq_dec j (prow P i)) as [R1|R1]; [|contradiction].
    eapply eq_trans; [exact X1|]. unfold loss_deriv, wt. fold al. fold x. rn. fold al. ring.
  - specialize (X2 j ltac:(intros X; apply S, (stores_ext P HP i j Hi), X)). eapply eq_trans; [exact X2|]. rewrite ent_out by exact S. rn. fold x. ring.
Qed.
Lemma mdiff_norm snap mem tau : 0 <= tau -> stale P snap mem tau -> norm2 (mdiff snap mem) <= tau.
Proof.
  intros Ht H. set (v := mdiff snap mem). assert (Lv : length v = d) by apply mdiff_length.
  assert (E : dot v v = / INR n * Rsum (map (fun i => (nth i mem 0 - loss_deriv P snap i) * dot (arow P i) v) (seq 0 n))).
  { rewrite (dot_seq v v d) by exact Lv.
    rewrite (Rsum_map_ext (fun i => (nth i mem 0 - loss_deriv P snap i) * dot (arow P i) v) (fun i => Rsum (map (fun j => (nth i mem 0 - loss_deriv P snap i) * ent P i j * nth j v 0) (seq 0 d)))).
    2:{ intros i _. rewrite (dot_seq _ _ d) by (try apply arow_length; exact Lv). rewrite <- Rsum_map_mult. apply Rsum_map_ext. intros j Hj. apply in_seq in Hj. rewrite nth_arow by (fold d; lia). ring. }
    rewrite (Rsum_map_ext (fun j => nth j v 0 * nth j v 0) (fun j => / INR n * (Rsum (map (fun i => (nth i mem 0 - loss_deriv P snap i) * ent P i j) (seq 0 n)) * nth j v 0))).
    2:{ intros j Hj. apply in_seq in Hj. unfold v at 1, mdiff. rewrite nth_mapseq by lia. unfold grad_F, mean_row. fold n.
      rewrite (Rsum_map_ext (fun i => (nth i mem 0 - loss_deriv P snap i) * ent P i j) (fun i => nth i mem 0 * ent P i j + (-1) * (loss_deriv P snap i * ent P i j))) by (intros; ring).
      rewrite Rsum_map_plus, Rsum_map_mult. ring. }
    rewrite Rsum_map_mult. f_equal. clear. clearbody v. induction (seq 0 n) as [|i l IH]; cbn [map Rsum].
    - rewrite Rsum_zero; [reflexivity|]. intros; ring.
    - rewrite (Rsum_map_ext _ (fun j => (nth i mem 0 - loss_deriv P snap i) * ent P i j * nth j v 0 + Rsum (map (fun i => (nth i mem 0 - loss_deriv P snap i) * ent P i j) l) * nth j v 0)) by (intros; ring).
      rewrite Rsum_map_plus, IH. reflexivity. }
  assert (B1 : dot v v <= tau * norm2 v).
  { rewrite E. apply mean_le; [exact Hn|]. intros i Hi. eapply Rle_trans; [apply Rle_abs|]. rewrite Rabs_mult. specialize (H i Hi). pose proof (cauchy_schwarz (arow P i) v) as C.
    apply Rle_trans with (Rabs (nth i mem 0 - loss_deriv P snap i) * (norm2 (arow P i) * norm2 v)); [apply Rmult_le_compat_l; [apply Rabs_pos|exact C]|].
    rewrite <- Rmult_assoc. apply Rmult_le_compat_r; [apply norm2_nonneg|exact H]. }
  rewrite <- norm2_sq in B1. pose proof (norm2_nonneg v) as N. destruct (Rle_lt_or_eq_dec 0 (norm2 v) N) as [Np|Nz]; [apply (Rmult_le_reg_r (norm2 v)); assumption|rewrite <- Nz; exact Ht].
Qed.
Lemma saga_err_bound snap x mem i M tau : (i < n)%nat -> length snap = d -> length x = d -> 0 <= tau -> stale P snap mem tau -> norm2 (vminus x snap) <= M ->
  norm2 (saga_err snap x mem i) <= L * M + tau + D * (tau + al * M).
Proof.
  intros Hi Ls Lx Ht H HM. unfold saga_err. assert (A1 : length (arow P i) = d) by apply arow_length. assert (Lm : length (vminus x snap) = d) by leng.
  assert (HL0 : 0 <= L) by apply HL.
  eapply Rle_trans; [apply norm_vplus; rewrite smul_length, A1; symmetry; apply pd_length|]. rewrite norm2_smul. apply Rplus_le_compat.
  - replace (loss_deriv P x i - nth i mem 0) with ((loss_deriv P x i - loss_deriv P snap i) + - (nth i mem 0 - loss_deriv P snap i)) by ring.
    pose proof (sample_lip P Hn f lphi L HL i x snap Hi Lx Ls) as S. specialize (H i Hi). pose proof (Rabs_triang (loss_deriv P x i - loss_deriv P snap i) (- (nth i mem 0 - loss_deriv P snap i))) as T. rewrite Rabs_Ropp in T.
    apply (Rmult_le_compat_r (norm2 (arow P i))) in T; [|apply norm2_nonneg]. apply (Rmult_le_compat_l L) in HM; [|exact HL0]. lra.
  - assert (Lv : length (vplus (mdiff snap mem) (smul al (vminus x snap))) = d) by (unfold vplus; rewrite lin_length, mdiff_length, smul_length, Lm; apply Nat.min_id).
    eapply Rle_trans; [apply (pd_norm P HP Hn B EB D HD i _ Hi Lv); lra|]. apply Rmult_le_compat_l; [lra|].
    eapply Rle_trans; [apply norm_vplus; rewrite mdiff_length, smul_length, Lm; reflexivity|]. rewrite norm2_smul, (Rabs_pos_eq al Ha).
    apply Rplus_le_compat; [apply mdiff_norm; assumption|apply Rmult_le_compat_l; assumption].
Qed.
Variable idx : list nat.
Hypothesis Hidx : Permutation idx (seq 0 n).
Lemma saga_epoch_states (s s' : saga_state RN) : saga_len P s -> saga_inv P s -> saga_epoch P B no_prox step idx s = Ok s' ->
  exists ss : nat -> saga_state RN, ss 0%nat = s /\ ss n = s' /\ (forall l, (l <= n)%nat -> saga_len P (ss l) /\ saga_inv P (ss l)) /\
  forall l, (l < n)%nat -> sa_x (ss (S l)) = lin 1 (sa_x (ss l)) (- step) (vplus (saga_err (sa_x s) (sa_x (ss l)) (sa_mem (ss l)) (nth l idx 0%nat)) (pd P B (nth l idx 0%nat) (gvec P (sa_x s)))) /\
    sa_mem (ss (S l)) = upd (sa_mem (ss l)) (nth l idx 0%nat) (loss_deriv P (sa_x (ss l)) (nth l idx 0%nat)).
Proof.
  intros Hl Hv E. set (snap := sa_x s). assert (Ls : length snap = d) by apply Hl.
  assert (G : forall l (s s' : saga_state RN), Forall (fun i => (i < n)%nat) l -> saga_len P s -> saga_inv P s -> saga_epoch P B no_prox step l s = Ok s' ->
    exists ss : nat -> saga_state RN, ss 0%nat = s /\ ss (length l) = s' /\ (forall k, (k <= length l)%nat -> saga_len P (ss k) /\ saga_inv P (ss k)) /\
    forall k, (k < length l)%nat -> sa_x (ss (S k)) = lin 1 (sa_x (ss k)) (- step) (vplus (saga_err snap (sa_x (ss k)) (sa_mem (ss k)) (nth k l 0%nat)) (pd P B (nth k l 0%nat) (gvec P snap))) /\
      sa_mem (ss (S k)) = upd (sa_mem (ss k)) (nth k l 0%nat) (loss_deriv P (sa_x (ss k)) (nth k l 0%nat))).
  { unfold saga_epoch. induction l as [|i l IH]; intros t t' F Hlt Hvt Er; cbn [forM] in Er.
    - injection Er as <-. exists (fun _ => t). cbn [length]. split; [reflexivity|]. split; [reflexivity|]. split; [auto|]. intros k Hk. lia.
    - destruct (saga_step_vec snap i t (Forall_inv F) Ls Hlt Hvt) as (t1 & E1 & Hl1 & Hv1 & Ex & Em). apply bind_ok in Er as (s1 & Es1 & Er). assert (Q := Ok_inj _ _ (eq_trans (eq_sym Es1) E1)). subst s1.
      destruct (IH t1 t' (Forall_inv_tail F) Hl1 Hv1 Er) as (ss & X0 & XN & XL & XS).
      exists (fun k => match k with O => t | S k' => ss k' end). cbn [length]. split; [reflexivity|]. split; [exact XN|]. split; [intros [|k] Hk; [auto|apply XL; lia]|].
      intros [|k] Hk; [cbn [nth]; rewrite X0; auto|]. cbn [nth]. apply XS. lia. }
  assert (F : Forall (fun i => (i < n)%nat) idx). { apply Forall_forall. intros i Hi. apply (Permutation_in _ Hidx), in_seq in Hi. lia. }
  destruct (G idx s s' F Hl Hv E) as (ss & X0 & XN & XL & XS). pose proof (idx_length P idx Hidx) as Li. change (length idx = n) in Li. rewrite Li in *.
  exists ss. auto.
Qed.
(** the memory during the epoch: the old value, or the derivative at an iterate of this epoch *)
Lemma saga_mem_states (ss : nat -> saga_state RN) : (forall l, (l <= n)%nat -> saga_len P (ss l)) ->
  (forall l, (l < n)%nat -> sa_mem (ss (S l)) = upd (sa_mem (ss l)) (nth l idx 0%nat) (loss_deriv P (sa_x (ss l)) (nth l idx 0%nat))) ->
  forall l i, (l <= n)%nat -> (i < n)%nat ->
  ((forall k, (k < l)%nat -> nth k idx 0%nat <> i) /\ @nth R i (sa_mem (ss l)) 0 = @nth R i (sa_mem (ss 0%nat)) 0) \/ exists k, (k < l)%nat /\ @nth R i (sa_mem (ss l)) 0 = loss_deriv P (sa_x (ss k)) i.
Proof.
  intros XL XM. induction l as [|l IH]; intros i Hl Hi; [left; split; [intros; lia|reflexivity]|].
  rewrite (XM l) by lia. destruct (XL l ltac:(lia)) as (_ & Lm & _). destruct (Nat.eq_dec (nth l idx 0%nat) i) as [Eq|Ne].
  - right. exists l. split; [lia|]. rewrite Eq. rewrite (nth_upd_eq (sa_mem (ss l)) i); [reflexivity|]. change (i < length (sa_mem (ss l)))%nat. rewrite Lm. exact Hi.
  - rewrite (nth_upd_neq (sa_mem (ss l)) (nth l idx 0%nat) i) by exact Ne. destruct (IH i ltac:(lia) Hi) as [(A1 & A2)|(k & A1 & A2)].
    + left. split; [|exact A2]. intros k Hk. destruct (Nat.eq_dec k l) as [->|]; [exact Ne|apply A1; lia].
    + right. exists k. split; [lia|exact A2].
Qed.
Hypothesis Hall : al = 0 \/ all_stored P.
Hypothesis Hsmall : step * INR n * ((2 + D) * L + al * D) <= 1 / 16.
(** one epoch from a memory of age sg (w = (1 + D) sg): drift at most M, error and new age in terms of |grad F| + w *)
Lemma saga_epoch_vec (s s' : saga_state RN) sg : saga_len P s -> saga_inv P s -> saga_epoch P B no_prox step idx s = Ok s' -> 0 <= sg -> stale P (sa_x s) (sa_mem s) sg ->
  let g := norm2 (gvec P (sa_x s)) in let w := (1 + D) * sg in
  saga_len P s' /\ saga_inv P s' /\
  (exists e, length e = d /\ vminus (sa_x s') (sa_x s) = smul (- step) (vplus e (smul (INR n) (gvec P (sa_x s)))) /\ norm2 e <= INR n * (w + / 15 * (g + w))) /\
  norm2 (vminus (sa_x s') (sa_x s)) <= 16 / 15 * (step * INR n * (g + w)) /\
  exists sg', 0 <= sg' /\ stale P (sa_x s') (sa_mem s') sg' /\ (1 + D) * sg' <= 2 / 15 * (g + w).
Proof.
  intros Hl Hv E Hsg Hstale g w. destruct (saga_epoch_states s s' Hl Hv E) as (ss & X0 & XN & XL & XS). set (snap := sa_x s) in *.
  assert (Ls : length snap = d) by apply Hl. assert (Hg : 0 <= g) by apply norm2_nonneg. assert (Hnp : 0 < INR n) by (apply lt_0_INR; exact Hn). assert (HL0 : 0 <= L) by apply HL.
  assert (Hw : 0 <= w) by (unfold w; apply Rmult_le_pos; lra).
  set (L' := (2 + D) * L + al * D) in *. assert (HL' : 0 <= L'). { assert (0 <= (2 + D) * L) by (apply Rmult_le_pos; lra). assert (0 <= al * D) by (apply Rmult_le_pos; lra). unfold L'; lra. }
  set (M := 16 / 15 * (step * INR n * (g + w))). assert (Hsn : 0 <= step * INR n) by (apply Rmult_le_pos; lra).
  assert (HM0 : 0 <= M). { unfold M. apply Rmult_le_pos; [lra|]. apply Rmult_le_pos; lra. }
  set (xs := fun l => sa_x (ss l)). set (us := fun l => saga_err snap (sa_x (ss l)) (sa_mem (ss l)) (nth l idx 0%nat)). set (ps := fun l => pd P B (nth l idx 0%nat) (gvec P snap)).
  assert (Lxs : forall l, (l <= n)%nat -> length (xs l) = d) by (intros l H; apply (proj1 (XL l H))).
  assert (Lus : forall l, length (us l) = d) by (intros l; apply saga_err_length).
  assert (Lps : forall l, length (ps l) = d) by (intros; apply pd_length).
  assert (Smul : step * INR n * L' * M <= M / 16) by (apply Rle_trans with (1 / 16 * M); [apply Rmult_le_compat_r; assumption|lra]).
  assert (Hst0 : stale P snap (sa_mem (ss 0%nat)) sg) by (rewrite X0; exact Hstale).
  pose proof (saga_mem_states ss (fun l H => proj1 (XL l H)) (fun l H => proj2 (XS l H))) as Mem.
  assert (St : forall l, (l <= n)%nat -> (forall l', (l' < l)%nat -> norm2 (vminus (xs l') snap) <= M) -> stale P snap (sa_mem (ss l)) (sg + L * M)).
  { intros l Hln Hdr i Hi. pose proof (Rmult_le_pos L M HL0 HM0) as LM. destruct (Mem l i Hln Hi) as [(_ & A)|(k & Hk & A)]; rewrite A.
    - specialize (Hst0 i Hi). lra.
    - pose proof (sample_lip P Hn f lphi L HL i (xs k) snap Hi (Lxs k ltac:(lia)) Ls) as T. specialize (Hdr k Hk). apply (Rmult_le_compat_l L) in Hdr; [|exact HL0]. unfold xs in *. lra. }
  destruct (drift d n snap step (w + L' * M) M (INR n * g) xs us ps Ls Lxs (fun l _ => Lus l) (fun l _ => Lps l) Hst) with (k := n) as (E1 & E2 & E3).
  - assert (0 <= L' * M) by (apply Rmult_le_pos; assumption). lra.
  - replace (step * (INR n * g + INR n * (w + L' * M))) with (step * INR n * (g + w) + step * INR n * L' * M) by ring. unfold M at 2. unfold M in Smul at 2. lra.
  - unfold xs. rewrite X0. reflexivity.
  - intros l H. apply (proj1 (XS l H)).
  - intros k Hk. apply (prefix_norm P HP Hn B EB D HD idx Hidx (gvec P snap) k Hk (gvec_length P snap)).
  - intros l H Hdr. unfold us. eapply Rle_trans; [apply (saga_err_bound snap (sa_x (ss l)) (sa_mem (ss l)) (nth l idx 0%nat) M (sg + L * M)); [apply (idx_lt P Hn idx Hidx l H)|exact Ls|apply Lxs; lia| | |apply Hdr; lia]|].
    + pose proof (Rmult_le_pos L M HL0 HM0). lra.
    + apply St; [lia|]. intros l' H'. apply Hdr. lia.
    + right. unfold w, L'. ring.
  - apply le_n.
  - assert (PT : acc d ps n = smul (INR n) (gvec P snap)) by exact (pass_total P HP Hn B EB idx Hidx (gvec P snap) (gvec_length P snap) (gvec_stored P Hn snap Hall)).
    rewrite PT in E1. unfold xs in E1 at 1. rewrite XN in E1.
    split; [rewrite <- XN; apply (XL n (le_n _))|]. split; [rewrite <- XN; apply (XL n (le_n _))|]. split; [|split].
    + exists (acc d us n). split; [apply acc_length; intros; apply Lus|]. split; [exact E1|]. eapply Rle_trans; [exact E2|]. apply Rmult_le_compat_l; [lra|].
      apply Rplus_le_compat_l. replace (L' * M) with (step * INR n * L' * (16 / 15 * (g + w))) by (unfold M; ring).
      apply Rle_trans with (1 / 16 * (16 / 15 * (g + w))); [apply Rmult_le_compat_r; lra|lra].
    + specialize (E3 n (le_n _)). unfold xs in E3. rewrite XN in E3. exact E3.
    + exists (2 * (L * M)). pose proof (Rmult_le_pos L M HL0 HM0) as LM. split; [lra|]. split.
      * intros i Hi. destruct (Mem n i (le_n _) Hi) as [(A & _)|(k & Hk & A)].
        { exfalso. assert (I0 : In i idx) by (apply (Permutation_in _ (Permutation_sym Hidx)), in_seq; fold n in Hi; lia). destruct (In_nth idx i 0%nat I0) as (k & Hk & Ek). pose proof (idx_length P idx Hidx) as Li. change (length idx = n) in Li. rewrite Li in Hk. apply (A k Hk Ek). }
        rewrite XN in A. rewrite A. assert (Lx' : length (sa_x s') = d) by (rewrite <- XN; apply Lxs; lia).
        pose proof (sample_lip P Hn f lphi L HL i (xs k) (sa_x s') Hi (Lxs k ltac:(lia)) Lx') as T.
        assert (T2 : norm2 (vminus (xs k) (sa_x s')) <= 2 * M).
        { eapply Rle_trans; [apply (vdist_le (xs k) (sa_x s') snap d (Lxs k ltac:(lia)) Lx' Ls)|].
          pose proof (E3 k ltac:(lia)) as T1. pose proof (E3 n (le_n _)) as T2. unfold xs in T2. rewrite XN in T2. lra. }
        apply (Rmult_le_compat_l L) in T2; [|exact HL0]. unfold xs in T. eapply Rle_trans; [exact T|]. unfold xs in T2. lra.
      * replace ((1 + D) * (2 * (L * M))) with (2 * ((1 + D) * L) * M) by ring. unfold M.
        apply Rle_trans with (step * INR n * ((1 + D) * L) * (32 / 15 * (g + w))); [right; field|].
        apply Rle_trans with (1 / 16 * (32 / 15 * (g + w))); [|lra]. apply Rmult_le_compat_r; [lra|].
        eapply Rle_trans; [|exact Hsmall]. apply Rmult_le_compat_l; [exact Hsn|]. unfold L'. assert (0 <= al * D) by (apply Rmult_le_pos; lra). lra.
Qed.
(** energy: F + 2 step n w^2 decreases *)
Lemma saga_energy (x x' e : list R) (w w' : R) : length x = d -> length x' = d -> length e = d -> 0 <= w -> 0 <= w' ->
  let g := norm2 (gvec P x) in
  vminus x' x = smul (- step) (vplus e (smul (INR n) (gvec P x))) -> norm2 e <= INR n * (w + / 15 * (g + w)) ->
  norm2 (vminus x' x) <= 16 / 15 * (step * INR n * (g + w)) -> w' <= 2 / 15 * (g + w) ->
  finite_sum P f x' + 2 * (step * INR n) * (w' * w') <= finite_sum P f x + 2 * (step * INR n) * (w * w) - step * INR n / 2 * (g * g + w * w).
Proof.
  intros Lx Lx' Le Hw Hw' g E He HM Hww. set (G := gvec P x) in *. assert (Hg : 0 <= g) by apply norm2_nonneg. assert (Hnp : 0 < INR n) by (apply lt_0_INR; exact Hn).
  assert (LG : length G = d) by apply gvec_length. set (t := step * INR n) in *. assert (Hsn : 0 <= t) by (apply Rmult_le_pos; lra).
  assert (HL0 : 0 <= L) by apply HL.
  assert (Q2 : finite_sum P f x' - finite_sum P f x - dot G (vminus x' x) <= (L + al) / 2 * (norm2 (vminus x' x) * norm2 (vminus x' x))).
  { eapply Rle_trans; [apply Rle_abs|]. apply (finite_sum_quad P Hn Ha f lphi L HL x x' Lx Lx'). }
  assert (D1 : dot G (vminus x' x) = - step * dot G e - t * (g * g)).
  { rewrite E, dot_smul_r. unfold vplus. rewrite dot_lin_r by (rewrite ?smul_length; congruence). rewrite dot_smul_r. unfold g, t. rewrite norm2_sq. ring. }
  assert (D2 : - (g * norm2 e) <= dot G e) by apply dot_ge_norm.
  assert (B5 : - step * dot G e <= t * (g * (w + / 15 * (g + w)))).
  { assert (g * norm2 e <= g * (INR n * (w + / 15 * (g + w)))) by (apply Rmult_le_compat_l; assumption).
    assert (step * (- dot G e) <= step * (g * (INR n * (w + / 15 * (g + w))))) by (apply Rmult_le_compat_l; lra). unfold t. lra. }
  assert (B3 : norm2 (vminus x' x) * norm2 (vminus x' x) <= 16 / 15 * (t * (g + w)) * (16 / 15 * (t * (g + w)))) by (apply Rmult_le_compat; try assumption; apply norm2_nonneg).
  assert (Hp2 : 0 <= (g + w) * (g + w)) by apply Rle_0_sqr.
  assert (B4 : (L + al) / 2 * (norm2 (vminus x' x) * norm2 (vminus x' x)) <= 8 / 225 * (t * ((g + w) * (g + w)))).
  { apply Rle_trans with ((L + al) / 2 * (16 / 15 * (t * (g + w)) * (16 / 15 * (t * (g + w))))); [apply Rmult_le_compat_l; lra|].
    replace ((L + al) / 2 * (16 / 15 * (t * (g + w)) * (16 / 15 * (t * (g + w))))) with (128 / 225 * (t * (L + al)) * (t * ((g + w) * (g + w)))) by field.
    apply Rmult_le_compat_r; [apply Rmult_le_pos; assumption|].
    assert (t * (L + al) <= t * ((2 + D) * L + al * D)).
    { apply Rmult_le_compat_l; [exact Hsn|]. assert (1 * L <= (2 + D) * L) by (apply Rmult_le_compat_r; lra). assert (al * 1 <= al * D) by (apply Rmult_le_compat_l; lra). lra. }
    lra. }
  assert (B6 : w' * w' <= 4 / 225 * ((g + w) * (g + w))).
  { apply Rle_trans with (2 / 15 * (g + w) * (2 / 15 * (g + w))); [apply Rmult_le_compat; assumption|right; field]. }
  assert (B7 : 2 * t * (w' * w') <= 8 / 225 * (t * ((g + w) * (g + w)))) by (apply (Rmult_le_compat_l (2 * t)) in B6; lra).
  assert (Y1 : 0 <= (g / 2 - w) * (g / 2 - w)) by apply Rle_0_sqr. assert (Y2 : 0 <= (g - w) * (g - w)) by apply Rle_0_sqr.
  assert (K : g * (w + / 15 * (g + w)) + 16 / 225 * ((g + w) * (g + w)) <= g * g / 2 + 3 / 2 * (w * w)).
  { assert (0 <= g * g) by apply Rle_0_sqr. assert (0 <= w * w) by apply Rle_0_sqr. lra. }
  apply (Rmult_le_compat_l t) in K; [|exact Hsn]. rewrite D1 in Q2. lra.
Qed.
End S.
