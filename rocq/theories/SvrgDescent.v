(** * SVRG: every epoch, in any order of the samples, is a gradient step with a relative error *)
From Coq Require Import Bool List Lia Permutation Reals Lra Psatz.
From Verif Require Import Num Vec Spec SpecSparse RVec ConvexFacts PenaltyFacts UtilsMain PenaltyFacts2 ModelRandomized SpecFiniteSum SpecEpochs RandomizedBlocks RandomizedSaga RandomizedSvrg RandomizedProx RandomizedFix RandomizedMain3 EpochFacts.
Import ListNotations.
Local Open Scope R_scope.

Section W.
Variable P : problem RN.
Hypothesis HP : problem_wf P.
Let n := p_n P.
Let d := p_d P.
Let al := p_alpha P.
Hypothesis Hn : (0 < n)%nat.
Variable B : blocks RN.
Hypothesis EB : make_blocks P (eye_ptr d) = Ok B.
Let Hq : partitions (eye_ptr d) d := partitions_eye d.
Definition wt (j : nat) : R := nth j (k_d B) 0.
Lemma rblocks_eye j : (j < d)%nat -> nth j (rblocks (eye_ptr d)) 0%nat = j.
Proof. intros Hj. apply (rblocks_in (eye_ptr d) d j j Hq); [unfold eye_ptr; rewrite seq_length; lia|rewrite blk_eye by exact Hj; left; reflexivity]. Qed.
Lemma stores_lt i j : (i < n)%nat -> stores P i j -> (j < d)%nat.
Proof. intros Hi Hj. apply (prow_lt P HP i j Hi Hj). Qed.
Lemma stores_ext i j : (i < n)%nat -> ext P (eye_ptr d) i j <-> stores P i j.
Proof. intros Hi. split; [apply (ext_eye P i j HP Hi)|apply (row_ext P HP (eye_ptr d) Hq i j Hi)]. Qed.
Lemma stores_pblocks i j : (i < n)%nat -> (j < d)%nat -> In j (pblocks P (eye_ptr d) i) <-> stores P i j.
Proof.
  intros Hi Hj. assert (H1 : (S j < length (eye_ptr d))%nat) by (unfold eye_ptr; rewrite seq_length; lia).
  assert (H2 : In j (blk (eye_ptr d) j)) by (rewrite blk_eye by exact Hj; left; reflexivity).
  rewrite <- (stores_ext i j Hi). symmetry. apply (ext_iff P HP (eye_ptr d) Hq i j j Hi H1 H2).
Qed.
Definition dec_stores i j : {stores P i j} + {~ stores P i j} := in_dec Nat.eq_dec j (csr_row (p_indices P) (p_indptr P) i).
Lemma wt_sum i0 j : (i0 < n)%nat -> stores P i0 j -> Rsum (map (fun i => if dec_stores i j then wt j else 0) (seq 0 n)) = INR n.
Proof.
  intros Hi0 H0. pose proof (stores_lt i0 j Hi0 H0) as Hj.
  assert (Ht : touched P (eye_ptr d) j). { exists i0. split; [exact Hi0|]. apply (ext_spec P HP (eye_ptr d) Hq i0 j Hi0), (stores_ext i0 j Hi0), H0. }
  destruct (touched_facts P HP (eye_ptr d) Hq B EB j Ht) as (h & _ & _ & Eh & _ & T1 & T2). rewrite rblocks_eye in Eh by exact Hj. subst h.
  refine (eq_trans _ (weights_sum P HP (eye_ptr d) Hq B EB j T1 T2)). apply Rsum_map_ext. intros i Hi. apply in_seq in Hi.
  pose proof (stores_pblocks i j ltac:(fold n in Hi; lia) Hj) as I1. destruct (dec_stores i j) as [A|A]; destruct (in_dec Nat.eq_dec j (pblocks P (eye_ptr d) i)) as [C|C]; try reflexivity; exfalso; tauto.
Qed.
Lemma count_sum (c : R) j l : Rsum (map (fun i => if dec_stores i j then c else 0) l) = INR (length (filter (fun i => existsb (Nat.eqb j) (csr_row (p_indices P) (p_indptr P) i)) l)) * c.
Proof.
  induction l as [|i l IH]; cbn [map filter Rsum]; [cbn; ring|]. rewrite IH. unfold stores in *. destruct (dec_stores i j) as [A|A].
  - replace (existsb (Nat.eqb j) _) with true; [cbn [length]; rewrite S_INR; ring|]. symmetry. apply existsb_exists. exists j. split; [exact A|apply Nat.eqb_refl].
  - replace (existsb (Nat.eqb j) _) with false; [ring|]. symmetry. destruct (existsb _ _) eqn:E; [|reflexivity]. apply existsb_exists in E as (k & K1 & K2). apply Nat.eqb_eq in K2. subst k. contradiction.
Qed.
Variable D : R.
Hypothesis HD : spread P D.
Lemma wt_bounds i j : (i < n)%nat -> stores P i j -> 0 < wt j <= D.
Proof.
  intros Hi Hj. pose proof (wt_sum i j Hi Hj) as S. rewrite count_sum in S. change (INR (storing P j) * wt j = INR n) in S. specialize (HD i j Hi Hj). fold n in HD.
  assert (0 < INR n) by (apply lt_0_INR; exact Hn). assert (0 <= INR (storing P j)) by apply pos_INR.
  assert (C : 0 < INR (storing P j)). { destruct (Req_dec (INR (storing P j)) 0) as [E|E]; [rewrite E in S; lra|lra]. }
  split; [|apply (Rmult_le_reg_l (INR (storing P j))); lra].
  destruct (Rlt_le_dec 0 (wt j)) as [|Z]; [assumption|]. exfalso. assert (0 <= INR (storing P j) * - wt j) by (apply Rmult_le_pos; lra). lra.
Qed.
(** the weighted restriction of a vector to the features of sample i *)
Definition pd (i : nat) (v : list R) : list R := map (fun j => if dec_stores i j then wt j * nth j v 0 else 0) (seq 0 d).
Lemma pd_length i v : length (pd i v) = d. Proof. unfold pd. rewrite map_length, seq_length. reflexivity. Qed.
Lemma nth_pd i v j : (j < d)%nat -> nth j (pd i v) 0 = if dec_stores i j then wt j * nth j v 0 else 0.
Proof. intros Hj. unfold pd. rewrite nth_mapseq by exact Hj. reflexivity. Qed.
Lemma pd_norm i v : (i < n)%nat -> length v = d -> 0 <= D -> norm2 (pd i v) <= D * norm2 v.
Proof.
  intros Hi Lv HD0. apply norm_mono; [rewrite pd_length; congruence|exact HD0|]. intros j Hj. rewrite Lv in Hj. rewrite nth_pd by exact Hj.
  destruct (dec_stores i j) as [S|S].
  - destruct (wt_bounds i j Hi S) as (W1 & W2). rewrite Rabs_mult, (Rabs_pos_eq (wt j)) by lra. apply Rmult_le_compat_r; [apply Rabs_pos|exact W2].
  - rewrite Rabs_R0. apply Rmult_le_pos; [exact HD0|apply Rabs_pos].
Qed.
(** sums of restrictions along the beginning of a pass *)
Variable idx : list nat.
Hypothesis Hidx : Permutation idx (seq 0 n).
Lemma idx_length : length idx = n. Proof. rewrite (Permutation_length Hidx), seq_length. reflexivity. Qed.
Lemma idx_lt l : (l < n)%nat -> (nth l idx 0 < n)%nat.
Proof. intros Hl. assert (I0 : In (nth l idx 0%nat) idx) by (apply nth_In; rewrite idx_length; exact Hl). apply (Permutation_in _ Hidx), in_seq in I0. lia. Qed.
Let ps (G : list R) (l : nat) : list R := pd (nth l idx 0%nat) G.
Lemma map_firstn (g : nat -> R) : forall l k, (k <= length l)%nat -> map (fun i => g (nth i l 0%nat)) (seq 0 k) = map g (firstn k l).
Proof.
  intros l k. revert l. induction k as [|k IH]; intros l Hk; [reflexivity|]. destruct l as [|a l]; cbn in Hk; [lia|]. cbn [firstn map seq nth]. f_equal.
  rewrite <- seq_shift, map_map. rewrite <- IH by lia. apply map_ext. intros i. reflexivity.
Qed.
Lemma nth_acc_pd G k j : (k <= n)%nat -> (j < d)%nat ->
  nth j (acc d (ps G) k) 0 = Rsum (map (fun i => if dec_stores i j then wt j else 0) (firstn k idx)) * nth j G 0.
Proof.
  intros Hk Hj. rewrite nth_acc by (intros; apply pd_length). unfold ps.
  rewrite (map_ext _ (fun l => (fun i => if dec_stores i j then wt j * nth j G 0 else 0) (nth l idx 0%nat))) by (intros l; apply nth_pd, Hj).
  rewrite (map_firstn (fun i => if dec_stores i j then wt j * nth j G 0 else 0)) by (rewrite idx_length; exact Hk).
  rewrite (Rmult_comm (Rsum _) (nth j G 0)), <- Rsum_map_mult. apply Rsum_map_ext. intros i _. destruct (dec_stores i j); ring.
Qed.
Lemma prefix_sum k j : 0 <= Rsum (map (fun i => if dec_stores i j then wt j else 0) (firstn k idx)) <= INR n.
Proof.
  set (g := fun i => if dec_stores i j then wt j else 0).
  assert (Hg : forall i, (i < n)%nat -> 0 <= g i). { intros i Hi. unfold g. destruct (dec_stores i j) as [S|S]; [|lra]. pose proof (wt_bounds i j Hi S). lra. }
  assert (Hl : forall i, In i idx -> 0 <= g i). { intros i Hi. apply (Permutation_in _ Hidx), in_seq in Hi. apply Hg. lia. }
  assert (N : forall l, (forall i, In i l -> 0 <= g i) -> 0 <= Rsum (map g l)).
  { induction l as [|i l IH]; intros K; cbn [map Rsum]; [lra|]. pose proof (K i ltac:(left; reflexivity)). specialize (IH ltac:(intros; apply K; right; assumption)). lra. }
  assert (S1 : Rsum (map g (firstn k idx)) + Rsum (map g (skipn k idx)) = Rsum (map g (seq 0 n))).
  { rewrite <- Rsum_app, <- map_app, firstn_skipn. apply Rsum_perm, Permutation_map, Hidx. }
  assert (In1 : forall i, In i (firstn k idx) \/ In i (skipn k idx) -> In i idx) by (intros i H; rewrite <- (firstn_skipn k idx); apply in_or_app, H).
  assert (A1 := N (firstn k idx) ltac:(intros; apply Hl, In1; left; assumption)). assert (A2 := N (skipn k idx) ltac:(intros; apply Hl, In1; right; assumption)).
  split; [exact A1|]. assert (0 <= INR n) by apply pos_INR.
  assert (A3 : Rsum (map g (seq 0 n)) <= INR n).
  { destruct (Exists_dec (fun i => stores P i j) (seq 0 n) (fun i => dec_stores i j)) as [X|X].
    - apply Exists_exists in X as (i & I1 & I2). apply in_seq in I1. right. apply (wt_sum i j); [lia|exact I2].
    - rewrite Rsum_zero; [assumption|]. intros i Hi. unfold g. destruct (dec_stores i j) as [S|S]; [|reflexivity]. exfalso. apply X, Exists_exists. eauto. }
  lra.
Qed.
Lemma prefix_norm G k : (k <= n)%nat -> length G = d -> norm2 (acc d (ps G) k) <= INR n * norm2 G.
Proof.
  intros Hk LG. apply norm_mono; [rewrite acc_length by (intros; apply pd_length); congruence|apply pos_INR|]. intros j Hj. rewrite LG in Hj.
  rewrite nth_acc_pd by assumption. destruct (prefix_sum k j) as (A & C). rewrite Rabs_mult, (Rabs_pos_eq _ A). apply Rmult_le_compat_r; [apply Rabs_pos|exact C].
Qed.
Lemma pass_total G : length G = d -> (forall j, (j < d)%nat -> (exists i, (i < n)%nat /\ stores P i j) \/ nth j G 0 = 0) -> acc d (ps G) n = smul (INR n) G.
Proof.
  intros LG H. apply (list_ext _ _ 0); [rewrite acc_length by (intros; apply pd_length); rewrite smul_length; congruence|]. intros j Hj.
  rewrite acc_length in Hj by (intros; apply pd_length). rewrite nth_acc_pd by (try apply le_n; exact Hj). rewrite nth_smul.
  destruct (H j Hj) as [(i & Hi & S)| ->]; [|ring]. f_equal. rewrite firstn_all2 by (rewrite idx_length; apply le_n).
  rewrite <- (wt_sum i j Hi S). apply Rsum_perm, Permutation_map, Hidx.
Qed.
(** the gradient at x vanishes on the features stored by no sample, unless alpha <> 0 *)
Lemma gvec_stored x : al = 0 \/ all_stored P -> forall j, (j < d)%nat -> (exists i, (i < n)%nat /\ stores P i j) \/ nth j (gvec P x) 0 = 0.
Proof.
  intros H j Hj. destruct (Exists_dec (fun i => stores P i j) (seq 0 n) (fun i => dec_stores i j)) as [X|X].
  - left. apply Exists_exists in X as (i & I1 & I2). apply in_seq in I1. exists i. split; [lia|exact I2].
  - destruct H as [H|H]; [|left; apply H, Hj]. right. rewrite nth_gvec by exact Hj. unfold al in H. rewrite H. unfold grad_F, mean_row. rewrite Rsum_zero; [ring|].
    intros i Hi. rewrite ent_out; [ring|]. intros S. apply X, Exists_exists. exists i. split; [exact Hi|exact S].
Qed.
End W.

(** ** one epoch of SVRG *)
Section S.
Variable P : problem RN.
Hypothesis HP : problem_wf P.
Hypothesis HC : canonical P.
Let n := p_n P.
Let d := p_d P.
Let al := p_alpha P.
Hypothesis Hn : (0 < n)%nat.
Hypothesis Ha : 0 <= al.
Variable B : blocks RN.
Hypothesis EB : make_blocks P (eye_ptr d) = Ok B.
Let Hq : partitions (eye_ptr d) d := partitions_eye d.
Variables (D : R) (f : R -> R -> R) (lphi L step : R).
Hypothesis HD : spread P D.
Hypothesis HD1 : 0 <= D.
Hypothesis HL : lip_losses P f lphi L.
Hypothesis Hst : 0 <= step.
Definition svrg_err (snap x : list R) (i : nat) : list R :=
  vplus (smul (loss_deriv P x i - loss_deriv P snap i) (arow P i)) (smul al (pd P B i (vminus x snap))).
Lemma svrg_step_vec (snap gavg x tmp : vec RN) i : (i < n)%nat -> length snap = d -> length x = d -> length tmp = d -> full_grad P snap = Ok gavg ->
  exists tmp', length tmp' = d /\
  svrg_sample P B no_prox step snap gavg i (x, tmp) = Ok (lin 1 x (- step) (vplus (svrg_err snap x i) (pd P B i (gvec P snap))), tmp').
Proof.
  intros Hi Ls Lx Lt Eg. destruct (full_grad_R P HP snap Ls) as (g & Eg' & Lg & Vg). rewrite Eg in Eg'. apply Ok_inj in Eg'. subst g.
  destruct (svrg_sample_eq P HP (eye_ptr d) Hq B EB no_prox step snap gavg i x tmp Hi Ls Lg Lx Lt) as (p & q & x1 & tmp' & Ep & Eq & Lx1 & Lt' & _ & X1 & X2 & E').
  rewrite row_dot_R in Ep by (try exact Hi; auto). apply Ok_inj in Ep. rewrite row_dot_R in Eq by (try exact Hi; auto). apply Ok_inj in Eq.
  exists tmp'. split; [exact Lt'|]. rewrite E'. cbn [no_prox bind]. f_equal. f_equal.
  assert (A1 : length (arow P i) = d) by apply arow_length. assert (A2 : forall v, length (pd P B i v) = d) by (intros; apply pd_length).
  assert (A3 : length (svrg_err snap x i) = d) by (unfold svrg_err, vplus; rewrite lin_length, !smul_length, A1, A2; apply Nat.min_id).
  apply (list_ext _ _ 0); [unfold vplus; rewrite !lin_length, A3, A2; change (length x1 = Nat.min (length x) (Nat.min d d)); rewrite Lx, !Nat.min_id; exact Lx1|]. intros j Hj.
  assert (Hj' : (j < d)%nat) by (unfold d; rewrite <- Lx1; exact Hj).
  rewrite nth_lin by (unfold vplus; rewrite lin_length, A3, A2, Nat.min_id; exact Lx).
  rewrite nth_vplus by (rewrite A3, A2; reflexivity). unfold svrg_err. rewrite nth_vplus by (rewrite !smul_length, A1, A2; reflexivity).
  rewrite !nth_smul, nth_arow by exact Hj'. rewrite !nth_pd by exact Hj'. rewrite nth_gvec by exact Hj'. rewrite nth_vminus by exact (eq_trans Lx (eq_sym Ls)).
  destruct (dec_stores P i j) as [S|S].
  - specialize (X1 j (proj2 (stores_ext P HP i j Hi) S)). rewrite (rblocks_eye P Hn) in X1 by exact Hj'. specialize (Vg j Hj').
    rewrite tmp_val_canonical in X1 by assumption. destruct (in_dec Nat.eq_dec j (prow P i)) as [R1|R1]; [|contradiction].
    eapply eq_trans; [exact X1|]. unfold loss_deriv, wt. rewrite <- Ep, <- Eq. fold al. rn. rewrite Vg. fold al. ring.
  - specialize (X2 j ltac:(intros X; apply S, (stores_ext P HP i j Hi), X)). eapply eq_trans; [exact X2|]. rewrite ent_out by exact S. rn. ring.
Qed.
Lemma svrg_err_bound snap x i : (i < n)%nat -> length snap = d -> length x = d -> norm2 (svrg_err snap x i) <= (L + al * D) * norm2 (vminus x snap).
Proof.
  intros Hi Ls Lx. unfold svrg_err. assert (A1 : length (arow P i) = d) by apply arow_length. assert (Lm : length (vminus x snap) = d) by leng.
  eapply Rle_trans; [apply norm_vplus; rewrite !smul_length, A1; symmetry; apply pd_length|]. rewrite !norm2_smul, (Rabs_pos_eq al Ha).
  pose proof (sample_lip P Hn f lphi L HL i x snap Hi Lx Ls) as S. pose proof (pd_norm P HP Hn B EB D HD i (vminus x snap) Hi Lm HD1) as T.
  apply (Rmult_le_compat_l al) in T; [|exact Ha]. lra.
Qed.
Variable idx : list nat.
Hypothesis Hidx : Permutation idx (seq 0 n).
(** the states of the epoch *)
Lemma svrg_epoch_states (snap gavg tmp : vec RN) (s' : vec RN * vec RN) : length snap = d -> length tmp = d -> full_grad P snap = Ok gavg ->
  svrg_epoch P B no_prox step snap gavg idx (snap, tmp) = Ok s' ->
  exists xs : nat -> list R, xs 0%nat = snap /\ xs n = fst s' /\ (forall l, (l <= n)%nat -> length (xs l) = d) /\ length (snd s') = d /\
  forall l, (l < n)%nat -> xs (S l) = lin 1 (xs l) (- step) (vplus (svrg_err snap (xs l) (nth l idx 0%nat)) (pd P B (nth l idx 0%nat) (gvec P snap))).
Proof.
  intros Ls Lt Eg E.
  assert (G : forall l x t (s' : vec RN * vec RN), Forall (fun i => (i < n)%nat) l -> length x = d -> length t = d -> svrg_epoch P B no_prox step snap gavg l (x, t) = Ok s' ->
    exists xs : nat -> list R, xs 0%nat = x /\ xs (length l) = fst s' /\ (forall k, (k <= length l)%nat -> length (xs k) = d) /\ length (snd s') = d /\
    forall k, (k < length l)%nat -> xs (S k) = lin 1 (xs k) (- step) (vplus (svrg_err snap (xs k) (nth k l 0%nat)) (pd P B (nth k l 0%nat) (gvec P snap)))).
  { unfold svrg_epoch. induction l as [|i l IH]; intros x t r F Lx Lt' Er; cbn [forM] in Er.
    - injection Er as <-. exists (fun _ => x). cbn [length fst snd]. split; [reflexivity|]. split; [reflexivity|]. split; [auto|]. split; [exact Lt'|]. intros k Hk. lia.
    - destruct (svrg_step_vec snap gavg x t i (Forall_inv F) Ls Lx Lt' Eg) as (t1 & Lt1 & E1). apply bind_ok in Er as (s1 & Es1 & Er). assert (Q := Ok_inj _ _ (eq_trans (eq_sym Es1) E1)). rewrite Q in Er. clear Q Es1 s1.
      assert (Lx1 : length (lin 1 x (- step) (vplus (svrg_err snap x i) (pd P B i (gvec P snap)))) = d).
      { unfold svrg_err, vplus. rewrite !lin_length, !smul_length, !pd_length. rewrite (arow_length P i). fold d. rewrite !Nat.min_id. refine (eq_trans (f_equal (fun m => Nat.min m d) Lx) (Nat.min_id d)). }
      destruct (IH _ t1 r (Forall_inv_tail F) Lx1 Lt1 Er) as (xs & X0 & XN & XL & XT & XS).
      exists (fun k => match k with O => x | S k' => xs k' end). cbn [length]. split; [reflexivity|]. split; [exact XN|]. split; [intros [|k] Hk; [exact Lx|apply XL; lia]|].
      split; [exact XT|]. intros [|k] Hk; [cbn [nth]; exact X0|]. cbn [nth]. apply XS. lia. }
  assert (F : Forall (fun i => (i < n)%nat) idx). { apply Forall_forall. intros i Hi. apply (Permutation_in _ Hidx), in_seq in Hi. lia. }
  destruct (G idx snap tmp s' F Ls Lt E) as (xs & X0 & XN & XL & XT & XS). pose proof (idx_length P idx Hidx) as Li. change (length idx = n) in Li. rewrite Li in *.
  exists xs. auto.
Qed.
Hypothesis Hall : al = 0 \/ all_stored P.
Hypothesis Hsmall : step * INR n * (L + al * D) <= 1 / 4.
(** the epoch moves x by -step n (grad F(x) + error), the error at most a third of the gradient *)
Lemma svrg_epoch_vec (snap gavg tmp : vec RN) (s' : vec RN * vec RN) : length snap = d -> length tmp = d -> full_grad P snap = Ok gavg ->
  svrg_epoch P B no_prox step snap gavg idx (snap, tmp) = Ok s' ->
  length (fst s') = d /\ length (snd s') = d /\
  exists e, length e = d /\ vminus (fst s') snap = smul (- step) (vplus e (smul (INR n) (gvec P snap))) /\ norm2 e <= / 3 * (INR n * norm2 (gvec P snap)).
Proof.
  intros Ls Lt Eg E. destruct (svrg_epoch_states snap gavg tmp s' Ls Lt Eg E) as (xs & X0 & XN & XL & XT & XS).
  set (g := norm2 (gvec P snap)). assert (Hg : 0 <= g) by apply norm2_nonneg. assert (Hnp : 0 < INR n) by (apply lt_0_INR; exact Hn).
  set (L' := L + al * D) in *. assert (HL' : 0 <= L'). { assert (0 <= L) by apply HL. assert (0 <= al * D) by (apply Rmult_le_pos; assumption). unfold L'; lra. }
  set (M := 4 / 3 * (step * INR n * g)). assert (HM0 : 0 <= M). { unfold M. apply Rmult_le_pos; [lra|]. apply Rmult_le_pos; [apply Rmult_le_pos; lra|exact Hg]. }
  set (us := fun l => svrg_err snap (xs l) (nth l idx 0%nat)). set (ps := fun l => pd P B (nth l idx 0%nat) (gvec P snap)).
  assert (Lus : forall l, length (us l) = d). { intros l. unfold us, svrg_err, vplus. rewrite lin_length, !smul_length, pd_length, (arow_length P). apply Nat.min_id. }
  assert (Lps : forall l, length (ps l) = d) by (intros; apply pd_length).
  assert (Smul : step * (INR n * (L' * M)) <= M / 4). { replace (step * (INR n * (L' * M))) with (step * INR n * L' * M) by ring. apply Rle_trans with (1 / 4 * M); [apply Rmult_le_compat_r; assumption|lra]. }
  destruct (drift d n snap step (L' * M) M (INR n * g) xs us ps Ls XL (fun l _ => Lus l) (fun l _ => Lps l) Hst) with (k := n) as (E1 & E2 & _).
  - apply Rmult_le_pos; assumption.
  - rewrite Rmult_plus_distr_l. unfold M at 2. unfold M in Smul at 2. lra.
  - exact X0.
  - exact XS.
  - intros k Hk. apply (prefix_norm P HP Hn B EB D HD idx Hidx (gvec P snap) k Hk (gvec_length P snap)).
  - intros l Hl Hd. unfold us. eapply Rle_trans; [apply svrg_err_bound; [apply (idx_lt P Hn idx Hidx l Hl)|exact Ls|apply XL; lia]|]. apply Rmult_le_compat_l; [exact HL'|]. apply Hd. lia.
  - apply le_n.
  - split; [rewrite <- XN; apply XL; lia|]. split; [exact XT|]. exists (acc d us n). split; [apply acc_length; intros; apply Lus|].
    rewrite XN in E1. assert (PT : acc d ps n = smul (INR n) (gvec P snap)) by exact (pass_total P HP Hn B EB idx Hidx (gvec P snap) (gvec_length P snap) (gvec_stored P Hn snap Hall)).
    rewrite PT in E1.
    split; [exact E1|]. eapply Rle_trans; [exact E2|]. fold g. replace (INR n * (L' * M)) with (step * INR n * L' * (INR n * (4 / 3 * g))) by (unfold M; ring).
    apply Rle_trans with (1 / 4 * (INR n * (4 / 3 * g))); [apply Rmult_le_compat_r; [apply Rmult_le_pos; lra|exact Hsmall]|lra].
Qed.
(** an inexact gradient step decreases F *)
Lemma inexact_descent (x x' e : list R) : length x = d -> length x' = d -> length e = d -> L <= L + al * D -> al <= al * D ->
  vminus x' x = smul (- step) (vplus e (smul (INR n) (gvec P x))) -> norm2 e <= / 3 * (INR n * norm2 (gvec P x)) ->
  finite_sum P f x' <= finite_sum P f x - step * INR n / 3 * (norm2 (gvec P x) * norm2 (gvec P x)) /\
  2 / 3 * (step * INR n * norm2 (gvec P x)) <= norm2 (vminus x' x) <= 4 / 3 * (step * INR n * norm2 (gvec P x)).
Proof.
  intros Lx Lx' Le HL1 HL2 E He. set (G := gvec P x) in *. set (g := norm2 G) in *. assert (Hg : 0 <= g) by apply norm2_nonneg. assert (Hnp : 0 < INR n) by (apply lt_0_INR; exact Hn).
  assert (LG : length G = d) by apply gvec_length. assert (Hsn : 0 <= step * INR n) by (apply Rmult_le_pos; lra).
  assert (HL0 : 0 <= L) by apply HL.
  assert (Q2 : finite_sum P f x' - finite_sum P f x - dot G (vminus x' x) <= (L + al) / 2 * (norm2 (vminus x' x) * norm2 (vminus x' x))).
  { eapply Rle_trans; [apply Rle_abs|]. apply (finite_sum_quad P Hn Ha f lphi L HL x x' Lx Lx'). }
  assert (D1 : dot G (vminus x' x) = - step * (dot G e + INR n * (g * g))).
  { rewrite E, dot_smul_r. unfold vplus. rewrite dot_lin_r by (rewrite ?smul_length; congruence). rewrite dot_smul_r. unfold g. rewrite norm2_sq. ring. }
  assert (D2 : - (g * norm2 e) <= dot G e) by apply dot_ge_norm.
  assert (N0 : 0 <= norm2 e) by apply norm2_nonneg.
  assert (N1 : norm2 (vplus e (smul (INR n) G)) <= norm2 e + INR n * g).
  { eapply Rle_trans; [apply norm_vplus; rewrite smul_length; congruence|]. rewrite norm2_smul, Rabs_pos_eq by lra. fold g. lra. }
  assert (N2 : INR n * g <= norm2 (vplus e (smul (INR n) G)) + norm2 e).
  { assert (T : norm2 (lin 1 (vplus e (smul (INR n) G)) (-1) e) <= norm2 (vplus e (smul (INR n) G)) + norm2 e).
    { pose proof (norm2_triangle 1 (vplus e (smul (INR n) G)) (-1) e) as T. replace (-1) with (- (1)) in T at 2 by ring. rewrite Rabs_Ropp, Rabs_R1, !Rmult_1_l in T. apply T. unfold vplus. rewrite lin_length, smul_length, Le, LG. apply Nat.min_id. }
    replace (lin 1 (vplus e (smul (INR n) G)) (-1) e) with (smul (INR n) G) in T; [rewrite norm2_smul, Rabs_pos_eq in T by lra; exact T|].
    apply (list_ext _ _ 0); [leng|]. intros j _. rewrite nth_lin by leng. rewrite nth_vplus by leng. ring. }
  assert (N3 : norm2 (vminus x' x) = step * norm2 (vplus e (smul (INR n) G))) by (rewrite E, norm2_smul, Rabs_Ropp, Rabs_pos_eq by exact Hst; reflexivity).
  set (w := norm2 (vplus e (smul (INR n) G))) in *. assert (W0 : 0 <= w) by apply norm2_nonneg.
  assert (B1 : norm2 (vminus x' x) <= 4 / 3 * (step * INR n * g)).
  { rewrite N3. replace (4 / 3 * (step * INR n * g)) with (step * (4 / 3 * (INR n * g))) by ring. apply Rmult_le_compat_l; lra. }
  assert (B2 : 2 / 3 * (step * INR n * g) <= norm2 (vminus x' x)).
  { rewrite N3. replace (2 / 3 * (step * INR n * g)) with (step * (2 / 3 * (INR n * g))) by ring. apply Rmult_le_compat_l; lra. }
  split; [|split; assumption].
  assert (B3 : norm2 (vminus x' x) * norm2 (vminus x' x) <= 4 / 3 * (step * INR n * g) * (4 / 3 * (step * INR n * g))) by (apply Rmult_le_compat; try assumption; apply norm2_nonneg).
  assert (B4 : (L + al) / 2 * (norm2 (vminus x' x) * norm2 (vminus x' x)) <= 2 / 9 * (step * INR n * (g * g))).
  { apply Rle_trans with ((L + al) / 2 * (4 / 3 * (step * INR n * g) * (4 / 3 * (step * INR n * g)))); [apply Rmult_le_compat_l; lra|].
    replace ((L + al) / 2 * (4 / 3 * (step * INR n * g) * (4 / 3 * (step * INR n * g)))) with (8 / 9 * (step * INR n * (L + al)) * (step * INR n * (g * g))) by field.
    apply Rmult_le_compat_r; [apply Rmult_le_pos; [exact Hsn|apply Rle_0_sqr]|].
    assert (step * INR n * (L + al) <= step * INR n * (L + al * D)) by (apply Rmult_le_compat_l; lra). lra. }
  assert (B5 : - step * dot G e <= / 3 * (step * INR n * (g * g))).
  { assert (g * norm2 e <= g * (/ 3 * (INR n * g))) by (apply Rmult_le_compat_l; assumption).
    assert (step * (- dot G e) <= step * (g * (/ 3 * (INR n * g)))) by (apply Rmult_le_compat_l; lra). lra. }
  rewrite D1 in Q2. assert (0 <= step * INR n * (g * g)) by (apply Rmult_le_pos; [exact Hsn|apply Rle_0_sqr]). lra.
Qed.
End S.
