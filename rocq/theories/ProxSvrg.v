(** * SVRG with proximal operators: one epoch, whole runs *)
From Coq Require Import Bool List Lia Permutation Reals Lra.
From Verif Require Import Num Vec Spec SpecSparse RVec ConvexFacts PenaltyFacts UtilsMain PenaltyFacts2 PenaltyFacts3 ModelRandomized SpecFiniteSum SpecEpochs SpecLoss RandomizedBlocks RandomizedSaga RandomizedSvrg RandomizedProx RandomizedFix RandomizedMain RandomizedMain3 EpochFacts SvrgDescent SvrgRate SagaDescent SagaRate ProxEpochs ProxSaga ProxSagaMain.
Import ListNotations.
Local Open Scope R_scope.

Section S.
Variables (P : problem RN) (ptr : list nat) (B : blocks RN) (g : nat -> list R -> R) (prox : sprox RN) (f : R -> R -> R) (lphi L D step : R).
Hypothesis OK : pok P ptr B g prox f lphi L D step.
Hypothesis Hdense : block_dense P ptr.
Let n := p_n P.
Let d := p_d P.
Definition smem (snap : list R) : list R := map (loss_deriv P snap) (seq 0 n).
Lemma nth_smem snap i : (i < n)%nat -> nth i (smem snap) 0 = loss_deriv P snap i.
Proof. intros Hi. unfold smem. apply nth_mapseq. exact Hi. Qed.
Lemma svrg_vi (snap gavg x tmp : vec RN) (s' : vec RN * vec RN) i : (i < n)%nat -> length snap = d -> length x = d -> length tmp = d -> full_grad P snap = Ok gavg ->
  svrg_sample P B prox step snap gavg i (x, tmp) = Ok s' -> length (fst s') = d /\ length (snd s') = d /\ vi_step P ptr B g step i x (smem snap) (fst s').
Proof.
  destruct OK as (H1 & H2 & H3 & H4 & H5 & H6 & H7 & H8 & H9 & H10 & H11 & H12 & H13 & H14 & H15).
  intros Hi Ls Lx Lt Eg E. destruct (full_grad_R P H1 snap Ls) as (gr & Eg' & Lg & Vg). rewrite Eg in Eg'. apply Ok_inj in Eg'. subst gr.
  destruct (svrg_sample_eq P H1 ptr H5 B H6 prox step snap gavg i x tmp Hi Ls Lg Lx Lt) as (p & q & x1 & tmp' & Ep & Eq & Lx1 & Lt' & _ & X1 & X2 & E').
  rewrite E' in E. apply bind_ok in E as (x2 & Ep2 & E). apply Ok_inj in E. subst s'. cbn [fst snd].
  rewrite row_dot_R in Ep by (try exact Hi; auto). apply Ok_inj in Ep. rewrite row_dot_R in Eq by (try exact Hi; auto). apply Ok_inj in Eq. subst p q.
  assert (V : vi_step P ptr B g step i x (smem snap) x2).
  { apply (prox_call P H1 ptr H5 B H6 g H7 prox H8 step H14 x x1 x2 (smem snap) i Hi Lx Lx1); [|exact X2|exact Ep2].
    intros j Hj. assert (Hjd : (j < d)%nat) by (destruct Hj as (h & Hh & Hb); eapply blk_in_lt; eauto; apply (pblocks_in P H1 ptr H5 i h Hi) in Hh; apply Hh).
    eapply eq_trans; [exact (X1 j Hj)|]. rewrite tmp_val_canonical by assumption.
    assert (Em : mean_row P (fun i => nth i (smem snap) 0) j = grad_F P snap j). { unfold grad_F, mean_row. f_equal. apply Rsum_map_ext. intros k Hk. apply in_seq in Hk. rewrite nth_smem by (unfold n; lia). reflexivity. }
    rewrite Em, (nth_smem snap i Hi). rewrite <- (Vg j Hjd). unfold dw, loss_deriv.
    destruct (in_dec Nat.eq_dec j (prow P i)) as [S|S]; [reflexivity|]. exfalso. apply S. apply (Hdense i j Hi). apply ext_spec in Hj; auto. }
  split; [apply V|]. split; [exact Lt'|exact V].
Qed.
Variable idx : list nat.
Hypothesis Hidx : Permutation idx (seq 0 n).
Lemma svrg_states (snap gavg tmp : vec RN) (s' : vec RN * vec RN) : length snap = d -> length tmp = d -> full_grad P snap = Ok gavg ->
  svrg_epoch P B prox step snap gavg idx (snap, tmp) = Ok s' ->
  exists xs : nat -> list R, xs 0%nat = snap /\ xs n = fst s' /\ (forall l, (l <= n)%nat -> length (xs l) = d) /\ length (snd s') = d /\
  forall l, (l < n)%nat -> vi_step P ptr B g step (nth l idx 0%nat) (xs l) (smem snap) (xs (S l)).
Proof.
  intros Ls Lt Eg E.
  assert (G : forall l x t (s' : vec RN * vec RN), Forall (fun i => (i < n)%nat) l -> length x = d -> length t = d -> svrg_epoch P B prox step snap gavg l (x, t) = Ok s' ->
    exists xs : nat -> list R, xs 0%nat = x /\ xs (length l) = fst s' /\ (forall k, (k <= length l)%nat -> length (xs k) = d) /\ length (snd s') = d /\
    forall k, (k < length l)%nat -> vi_step P ptr B g step (nth k l 0%nat) (xs k) (smem snap) (xs (S k))).
  { unfold svrg_epoch. induction l as [|i l IH]; intros x t r F Lx Lt' Er; cbn [forM] in Er.
    - injection Er as <-. exists (fun _ => x). cbn [length fst snd]. split; [reflexivity|]. split; [reflexivity|]. split; [auto|]. split; [exact Lt'|]. intros k Hk. lia.
    - apply bind_ok in Er as ((x1 & t1) & Es1 & Er). destruct (svrg_vi snap gavg x t _ i (Forall_inv F) Ls Lx Lt' Eg Es1) as (Lx1 & Lt1 & V). cbn [fst snd] in *.
      destruct (IH x1 t1 r (Forall_inv_tail F) Lx1 Lt1 Er) as (xs & X0 & XN & XL & XT & XS).
      exists (fun k => match k with O => x | S k' => xs k' end). cbn [length]. split; [reflexivity|]. split; [exact XN|]. split; [intros [|k] Hk; [exact Lx|apply XL; lia]|].
      split; [exact XT|]. intros [|k] Hk; [cbn [nth]; rewrite X0; exact V|]. cbn [nth]. apply XS. lia. }
  assert (F : Forall (fun i => (i < n)%nat) idx). { apply Forall_forall. intros i Hi. apply (Permutation_in _ Hidx), in_seq in Hi. lia. }
  destruct (G idx snap tmp s' F Ls Lt E) as (xs & X0 & XN & XL & XT & XS). pose proof (idx_length P idx Hidx) as Li. change (length idx = n) in Li. rewrite Li in *.
  exists xs. auto.
Qed.
Lemma svrg_prox_epoch (snap gavg tmp : vec RN) (s' : vec RN * vec RN) : length snap = d -> length tmp = d -> full_grad P snap = Ok gavg ->
  svrg_epoch P B prox step snap gavg idx (snap, tmp) = Ok s' ->
  length (fst s') = d /\ length (snd s') = d /\ (forall j, (j < d)%nat -> ~ touched P ptr j -> @nth R j (fst s') 0 = nth j snap 0) /\
  exists (w : list R) (E : R), length w = d /\ 0 <= E /\ obj P ptr g f (fst s') <= obj P ptr g f snap - E /\ dot w w <= 24 * (D / step) * E /\
    norm2 (vminus (fst s') snap) * norm2 (vminus (fst s') snap) <= 4 * (step * D * INR n) * E /\
    forall z : list R, convex_loss P f -> length z = d -> (forall j, (j < d)%nat -> ~ touched P ptr j -> nth j z 0 = nth j (fst s') 0) ->
      obj P ptr g f (fst s') + p_alpha P / 2 * (norm2 (vminus z (fst s')) * norm2 (vminus z (fst s'))) <= obj P ptr g f z + dot w (vminus z (fst s')).
Proof.
  intros Ls Lt Eg E. destruct (svrg_states snap gavg tmp s' Ls Lt Eg E) as (xs & X0 & XN & XL & XT & XS).
  destruct OK as (H1 & H2 & H3 & H4 & H5 & H6 & H7 & H8 & H9 & H10 & H11 & H12 & H13 & H14 & H15). set (ix := fun l => nth l idx 0%nat). set (ms := fun _ : nat => smem snap).
  pose proof (Permutation_nth_idx P idx Hidx) as Hp. change (Permutation (map ix (seq 0 n)) (seq 0 n)) in Hp.
  assert (Hsl : forall l, (l < n)%nat -> stale P (xs l) (ms l) (0 + L * Sm P xs)).
  { intros l Hl i Hi. unfold ms. rewrite (nth_smem snap i Hi), Rplus_0_l, <- X0. eapply Rle_trans; [apply (sample_lip P H3 f lphi L H10 i (xs 0%nat) (xs l) Hi); apply XL; lia|]. apply Rmult_le_compat_l; [lra|].
    rewrite norm2_vminus_sym by (rewrite !XL by lia; reflexivity). replace l with (0 + l)%nat at 1 by lia. eapply Rle_trans; [apply (moved P H3 xs XL); fold n; lia|apply seq_part; [exact H3|fold n; lia]]. }
  destruct (epoch_all P H1 H3 H4 ptr H5 B H6 g f lphi L D step H10 H12 H13 H14 xs ms ix 0 Hp XL XS (Rle_refl 0) Hsl H11 H15) as (w & En & W1 & W2 & W3 & W4 & W5 & W6 & W7).
  pose proof (epoch_untouched P H1 H3 ptr H5 B g step xs ms ix Hp XS) as Hu. fold n d in Hu, W1, W3, W6, W7. rewrite X0 in Hu, W3, W6. rewrite XN in Hu, W3, W6, W7.
  split; [rewrite <- XN; apply XL, le_n|]. split; [exact XT|]. split; [exact Hu|]. exists w, En. split; [exact W1|]. split; [exact W2|]. split.
  { assert (0 <= L * Sm P xs * (L * Sm P xs) / L) by (apply Rmult_le_pos; [apply Rle_0_sqr|left; apply Rinv_0_lt_compat; exact H11]). unfold Rdiv in *. lra. }
  split; [exact W5|]. split; [exact W6|exact W7].
Qed.
End S.
Section R.
Variables (P : problem RN) (ptr : list nat) (B : blocks RN) (g : nat -> list R -> R) (prox : sprox RN) (f : R -> R -> R) (lphi L D step : R).
Hypothesis OK : pok P ptr B g prox f lphi L D step.
Hypothesis Hdense : block_dense P ptr.
Variables (perms : nat -> list nat) (x0 : vec RN) (tol : R) (max_iter : nat) (r : epoch_result RN (vec RN * vec RN)).
Hypothesis Hperm : forall k, Permutation (perms k) (seq 0 (p_n P)).
Hypothesis Lx0 : length x0 = p_d P.
Hypothesis E : minimize_svrg P x0 (Some step) (Some prox) (Some ptr) max_iter tol perms = Ok r.
Lemma svrg_prox_run : exists xs : nat -> list R, xs 0%nat = x0 /\ er_x r = xs (S (er_nit r)) /\ map fst (rev (er_log r)) = map xs (seq 0 (S (S (er_nit r)))) /\
  (forall k, (k <= S (er_nit r))%nat -> length (xs k) = p_d P) /\ pseq P f ptr g D step x0 (er_nit r) xs (fun k => obj P ptr g f (xs k)) /\
  (er_success r = false -> S (er_nit r) = max_iter /\ forall k, (k <= er_nit r)%nat -> tol <= l1 (vminus (xs (S k)) (xs k))).
Proof.
  destruct (main_C69_svrg_contract _ _ _ _ _ _ _ _ _ _ E) as (st & B' & S0 & Est & EB & I0 & Ep & Hm & Ex & El & Hd & Hsu & Hfa).
  injection Est as <-. assert (H6 : make_blocks P ptr = Ok B) by apply OK.
  assert (EB' := Ok_inj _ _ (eq_trans (eq_sym EB) H6)). subst B'. set (xs := fun k => fst (S0 k) : list R).
  assert (Inv : forall k, (k <= S (er_nit r))%nat -> length (fst (S0 k)) = p_d P /\ length (snd (S0 k)) = p_d P /\ (forall j, (j < p_d P)%nat -> ~ touched P ptr j -> nth j (xs k) 0 = nth j x0 0)).
  { induction k as [|k IH]; intros Hk.
    - unfold xs. rewrite I0. cbn [fst snd]. split; [exact Lx0|]. split; [unfold vzeros; apply repeat_length|reflexivity].
    - destruct (IH ltac:(lia)) as (M1 & M2 & M3). destruct (Ep k ltac:(lia)) as (gr & Eg & Ee). unfold xs in *. destruct (S0 k) as [x t] eqn:ES. cbn [fst snd] in *.
      destruct (svrg_prox_epoch P ptr B g prox f lphi L D step OK Hdense (perms k) (Hperm k) x gr t (S0 (S k)) M1 M2 Eg Ee) as (A1 & A2 & A3 & _). split; [exact A1|]. split; [exact A2|].
      intros j Hj Nt. rewrite <- (M3 j Hj Nt). apply A3; assumption. }
  exists xs. assert (Hv : forall u v : vec RN, nltb RN (vnorm1 (vsub u v)) tol = true <-> l1 (vminus u v) < tol).
  { intros u v. rewrite vsub_R, vnorm1_R. apply Rltb_iff. }
  split; [unfold xs; rewrite I0; reflexivity|]. split; [exact Ex|].
  split. { rewrite El, rev_involutive, map_map. reflexivity. }
  split; [intros k Hk; apply (Inv k Hk)|]. split.
  - intros k Hk. split; [apply Rle_refl|]. destruct (Inv k ltac:(lia)) as (M1 & M2 & _). destruct (Ep k Hk) as (gr & Eg & Ee). unfold xs in *. destruct (S0 k) as [x t] eqn:ES. cbn [fst snd] in *.
    destruct (svrg_prox_epoch P ptr B g prox f lphi L D step OK Hdense (perms k) (Hperm k) x gr t (S0 (S k)) M1 M2 Eg Ee) as (_ & _ & _ & w & En & C3 & C4 & C5 & C7 & C8 & C9). exists w, En. split; [exact C3|]. split; [exact C4|]. split; [exact C5|]. split; [lra|]. split; [exact C7|]. split; [exact C8|].
    intros z Hc Lz Hz. apply C9; [exact Hc|exact Lz|]. intros j Hj Nt. rewrite (Hz j Hj Nt). symmetry. apply (Inv (S k) ltac:(lia)); assumption.
  - intros Hs. split; [apply Hfa, Hs|]. intros k Hk. apply Rnot_lt_le. intros C. apply Hv in C.
    destruct (Nat.eq_dec k (er_nit r)) as [->|Nk].
    + rewrite Hs in Hsu. pose proof (eq_trans Hsu C). discriminate.
    + pose proof (eq_trans (eq_sym (Hd k ltac:(lia))) C). discriminate.
Qed.
End R.
