(** * SAGA with proximal operators, every order of the samples (closed statements, C99) *)
From Coq Require Import ZArith Bool List Lia Permutation Reals Lra.
From Verif Require Import Num Vec Spec SpecSparse RVec ConvexFacts ModelPenalty PenaltyFacts UtilsMain PenaltyFacts2 PenaltyFacts3 ModelRandomized SpecFiniteSum SpecEpochs SpecLoss RandomizedBlocks RandomizedSaga RandomizedSvrg RandomizedProx RandomizedFix RandomizedPen RandomizedMain RandomizedMain3 EpochFacts SvrgDescent SvrgRate SagaDescent SagaRate ProxEpochs ProxSaga.
Import ListNotations.
Local Open Scope R_scope.

Definition pok (P : problem RN) (ptr : list nat) (B : blocks RN) (g : nat -> list R -> R) (prox : sprox RN) (f : R -> R -> R) (lphi L D step : R) : Prop :=
  problem_wf P /\ canonical P /\ (0 < p_n P)%nat /\ 0 <= p_alpha P /\ partitions ptr (p_d P) /\ make_blocks P ptr = Ok B /\
  (forall h, (S h < length ptr)%nat -> convex_on (length (blk ptr h)) (fun _ => True) (g h)) /\ sparse_prox_of P ptr B g prox /\ in_place prox /\
  lip_losses P f lphi L /\ 0 < L /\ block_spread P ptr D /\ 1 <= D /\ 0 < step /\ step * D * (INR (p_n P) * (20 * L + p_alpha P)) <= 1.
Section R.
Variables (P : problem RN) (ptr : list nat) (B : blocks RN) (g : nat -> list R -> R) (prox : sprox RN) (f : R -> R -> R) (lphi L D step : R).
Hypothesis OK : pok P ptr B g prox f lphi L D step.
Lemma step_alpha : step * p_alpha P <= 1.
Proof.
  destruct OK as (_ & _ & Hn & Ha & _ & _ & _ & _ & _ & _ & HL & _ & HD & Hs & H). assert (1 <= INR (p_n P)) by (change 1 with (INR 1); apply le_INR; apply Hn).
  assert (p_alpha P <= INR (p_n P) * (20 * L + p_alpha P)) by (apply Rle_trans with (1 * (20 * L + p_alpha P)); [lra|apply Rmult_le_compat_r; lra]).
  assert (step * 1 <= step * D) by (apply Rmult_le_compat_l; lra). eapply Rle_trans; [|exact H]. apply Rmult_le_compat; lra.
Qed.
Variables (perms : nat -> list nat) (x0 : vec RN) (tol G0 : R) (max_iter : nat) (r : epoch_result RN (saga_state RN)).
Hypothesis Hperm : forall k, Permutation (perms k) (seq 0 (p_n P)).
Hypothesis Lx0 : length x0 = p_d P.
Hypothesis HG0 : sample_grads P x0 G0.
Hypothesis E : minimize_saga P x0 (Some step) (Some prox) (Some ptr) max_iter tol perms = Ok r.
Lemma saga_prox_run : exists (xs : nat -> list R) (V : nat -> R), xs 0%nat = x0 /\ V 0%nat = obj P ptr g f x0 + 2 * (G0 * G0 / L) /\ er_x r = xs (S (er_nit r)) /\ map sa_x (rev (er_log r)) = map xs (seq 0 (S (S (er_nit r)))) /\
  (forall k, (k <= S (er_nit r))%nat -> length (xs k) = p_d P) /\ pseq P f ptr g D step x0 (er_nit r) xs V /\
  (er_success r = false -> S (er_nit r) = max_iter /\ forall k, (k <= er_nit r)%nat -> tol <= l1 (vminus (xs (S k)) (xs k))).
Proof.
  destruct (main_C69_saga_contract _ _ _ _ _ _ _ _ _ _ E) as (st & B' & S0 & Est & EB & I0 & Ep & Hm & Ex & El & Hd & Hsu & Hfa).
  injection Est as <-. change (S0 0%nat = saga_init P x0) in I0. destruct OK as (H1 & H2 & H3 & H4 & H5 & H6 & H7 & H8 & H9 & H10 & H11 & H12 & H13 & H14 & H15).
  assert (EB' := Ok_inj _ _ (eq_trans (eq_sym EB) H6)). subst B'. set (xs := fun k => sa_x (S0 k) : list R).
  assert (Step : forall k sg, (k <= er_nit r)%nat -> saga_len P (S0 k) -> saga_inv P (S0 k) -> 0 <= sg -> stale P (xs k) (sa_mem (S0 k)) sg -> _) by
    (intros k sg Hk A1 A2 A3 A4; exact (saga_prox_epoch P H1 H2 H3 H4 ptr H5 B H6 g H7 prox H8 f lphi L D step H10 H12 H13 H14 H9 (perms k) (Hperm k) H11 H15 (S0 k) (S0 (S k)) sg A1 A2 (Ep k Hk) A3 A4)).
  assert (Chain : forall N, (N <= S (er_nit r))%nat -> exists sgs : nat -> R, sgs 0%nat = G0 /\
    (forall k, (k <= N)%nat -> saga_len P (S0 k) /\ saga_inv P (S0 k) /\ 0 <= sgs k /\ stale P (xs k) (sa_mem (S0 k)) (sgs k) /\ (forall j, (j < p_d P)%nat -> ~ touched P ptr j -> nth j (xs k) 0 = nth j x0 0)) /\
    forall k, (k < N)%nat -> exists (w : list R) (E : R), length w = p_d P /\ 0 <= E /\
      obj P ptr g f (xs (S k)) + 2 * (sgs (S k) * sgs (S k) / L) <= obj P ptr g f (xs k) + 2 * (sgs k * sgs k / L) - E /\ 2 * (sgs (S k) * sgs (S k) / L) <= E /\ dot w w <= 24 * (D / step) * E /\
      norm2 (vminus (xs (S k)) (xs k)) * norm2 (vminus (xs (S k)) (xs k)) <= 4 * (step * D * INR (p_n P)) * E /\
      forall z : list R, convex_loss P f -> length z = p_d P -> (forall j, (j < p_d P)%nat -> ~ touched P ptr j -> nth j z 0 = nth j (xs (S k)) 0) ->
        obj P ptr g f (xs (S k)) + p_alpha P / 2 * (norm2 (vminus z (xs (S k))) * norm2 (vminus z (xs (S k)))) <= obj P ptr g f z + dot w (vminus z (xs (S k)))).
  { induction N as [|N IH]; intros HN.
    - exists (fun _ => G0). split; [reflexivity|]. split; [|intros k Hk; lia]. intros k Hk. assert (k = 0%nat) by lia. subst k. unfold xs. rewrite I0.
      split; [apply saga_init_len, Lx0|]. split; [apply saga_init_inv|]. split; [apply HG0|]. split; [apply (stale_init P x0 G0 HG0)|reflexivity].
    - destruct (IH ltac:(lia)) as (sgs & G1 & G2 & G3). destruct (G2 N (le_n N)) as (A1 & A2 & A3 & A4 & A5).
      destruct (Step N (sgs N) ltac:(lia) A1 A2 A3 A4) as (B1 & B2 & B3 & sg' & w & En & C1 & C2 & C3 & C4 & C5 & C6 & C7 & C8 & C9).
      exists (fun k => if Nat.leb k N then sgs k else sg'). assert (X : forall k, (k <= N)%nat -> Nat.leb k N = true) by (intros; apply Nat.leb_le; assumption).
      assert (XS : Nat.leb (S N) N = false) by (apply Nat.leb_gt; lia). split; [rewrite (X 0%nat) by lia; exact G1|]. split.
      + intros k Hk. destruct (Nat.eq_dec k (S N)) as [->|Nk]; [|rewrite (X k) by lia; apply G2; lia]. rewrite XS. split; [exact B1|]. split; [exact B2|]. split; [exact C1|]. split; [exact C2|].
        intros j Hj Nt. rewrite <- (A5 j Hj Nt). apply (B3 j Hj Nt).
      + intros k Hk. destruct (Nat.eq_dec k N) as [->|Nk]; [|rewrite (X k), (X (S k)) by lia; apply G3; lia]. rewrite (X N (le_n N)), XS. exists w, En.
        split; [exact C3|]. split; [exact C4|]. split; [exact C5|]. split; [exact C6|]. split; [exact C7|]. split; [exact C8|exact C9]. }
  destruct (Chain (S (er_nit r)) (le_n _)) as (sgs & G1 & G2 & G3). clear Chain Step.
  exists xs, (fun k => obj P ptr g f (xs k) + 2 * (sgs k * sgs k / L)).
  assert (Hv : forall u v : vec RN, nltb RN (vnorm1 (vsub u v)) tol = true <-> l1 (vminus u v) < tol).
  { intros u v. rewrite vsub_R, vnorm1_R. apply Rltb_iff. }
  assert (Z0 : xs 0%nat = x0) by (unfold xs; rewrite I0; reflexivity).
  split; [exact Z0|]. split; [rewrite Z0, G1; reflexivity|]. split; [exact Ex|].
  split. { rewrite El, rev_involutive, map_map. reflexivity. }
  split; [intros k Hk; apply (G2 k Hk)|]. split.
  - intros k Hk. assert (0 <= sgs (S k) * sgs (S k) / L) by (apply Rmult_le_pos; [apply Rle_0_sqr|left; apply Rinv_0_lt_compat; exact H11]). split; [lra|].
    destruct (G3 k ltac:(lia)) as (w & En & C3 & C4 & C5 & C6 & C7 & C8 & C9). exists w, En. split; [exact C3|]. split; [exact C4|]. split; [exact C5|]. split; [lra|]. split; [exact C7|]. split; [exact C8|].
    intros z Hc Lz Hz. apply C9; [exact Hc|exact Lz|]. intros j Hj Nt. rewrite (Hz j Hj Nt). symmetry. apply (G2 (S k) ltac:(lia)); assumption.
  - intros Hs. split; [apply Hfa, Hs|]. intros k Hk. apply Rnot_lt_le. intros C. apply Hv in C.
    destruct (Nat.eq_dec k (er_nit r)) as [->|Nk].
    + rewrite Hs in Hsu. pose proof (eq_trans Hsu C). discriminate.
    + pose proof (eq_trans (eq_sym (Hd k ltac:(lia))) C). discriminate.
Qed.
End R.
