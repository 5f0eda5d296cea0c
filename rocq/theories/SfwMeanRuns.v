(** * Concrete cases for C108 and C109 *)
From Coq Require Import Reals Lra Lia List Bool ZArith.
From Verif Require Import Num Vec Spec SpecSparse RVec ModelConstraint ModelPenalty PenaltyFacts ModelFrankWolfe FrankWolfeConv FrankWolfeMain FrankWolfeMain2 ModelRandomized SpecFiniteSum ModelSfw SpecSfw SpecSfwMean
  SfwMain SfwMain2 SfwMain3 SfwMain4 SfwMean3 SfwMean4.
Import ListNotations.
Local Open Scope R_scope.

Lemma two_rows_mean : forall V kap bs max_iter, V = SAG /\ kap = 1 \/ V = SAGA /\ kap = 1 + INR bs -> (1 <= bs <= 2)%nat -> (1 <= max_iter)%nat ->
  let batches := arrangements (seq 0 2) bs in let nb := (2 / bs)%nat in
  exists res : list (list nat) -> sfw_result RN,
    (forall w, In w (seqs batches (nb * max_iter)) ->
       minimize_sfw (K:=RN) (fun t => t) two_rows (l1_oracle (K:=RN) 1) V SSublinear None bs 0 Vanilla max_iter (batch_draws nb w) [1] = Ok (res w)) /\
    / INR (length batches ^ (nb * max_iter)) *
      Rsum (map (fun w => mean_loss two_rows half_square (sr_x (res w)) - mean_loss two_rows half_square [0]) (seqs batches (nb * max_iter)))
    <= 2 * (4 + kap * 2 * 32) / (INR (nb * max_iter) + 2).
Proof.
  intros V kap bs max_iter HV Hb Hm Bt nb. destruct (main_C108_choice 2 bs ltac:(lia)) as (_ & Hne & c & Hbal).
  destruct two_rows_hyp as (Hcv & HC & HDi & HD1 & HL & HB).
  destruct (main_C77_l1_oracle_partial 1 1 ltac:(lia) ltac:(lra)) as (Hex & Hcs).
  assert (Hbs : 1 <= INR bs) by (change 1 with (INR 1); apply le_INR; lia).
  apply (main_C108_mean_rate (fun t => t) two_rows half_square V kap (l1_oracle (K:=RN) 1) None bs c Bt 0 max_iter [1] (l1_ball 1) 4 2 4 1 32 [0] HV two_rows_wf Hb Hbal Hne); try assumption; try reflexivity; try lra.
  - eapply Rle_trans; [exact HB|]. lra.
  - change (INR (p_n two_rows)) with (INR 2). cbn [INR]. nra.
  - unfold l1_ball. cbn. rewrite Rabs_R1. lra.
  - unfold l1_ball. cbn. rewrite Rabs_R0. lra.
Qed.

Lemma two_rows_mean_mhk : forall bs max_iter, (1 <= bs <= 2)%nat -> (1 <= max_iter)%nat ->
  let batches := arrangements (seq 0 2) bs in let nb := (2 / bs)%nat in
  exists res : list (list nat) -> sfw_result RN,
    (forall w, In w (seqs batches (nb * max_iter)) ->
       minimize_sfw (K:=RN) (fun t => Rpower t (2 / 3)) two_rows (l1_oracle (K:=RN) 1) MHK SSublinear None bs 0 Vanilla max_iter (batch_draws nb w) [1] = Ok (res w)) /\
    / INR (length batches ^ (nb * max_iter)) *
      Rsum (map (fun w => mean_loss two_rows half_square (sr_x (res w)) - mean_loss two_rows half_square [0]) (seqs batches (nb * max_iter)))
    <= 136 * Rpower (2 / (INR (nb * max_iter) + 8)) (1 / 3).
Proof.
  intros bs max_iter Hb Hm Bt nb. destruct (main_C108_choice 2 bs ltac:(lia)) as (_ & Hne & c & Hbal).
  destruct two_rows_hyp as (Hcv & HC & HDi & HD1 & HL & HB).
  destruct (main_C77_l1_oracle_partial 1 1 ltac:(lia) ltac:(lra)) as (Hex & Hcs).
  assert (Hbs : 1 <= INR bs) by (change 1 with (INR 1); apply le_INR; lia).
  apply (main_C109_mean_rate (fun t => Rpower t (2 / 3)) two_rows half_square (l1_oracle (K:=RN) 1) None bs c Bt 0 max_iter [1] (l1_ball 1) 4 2 4 1 32 136 [0] ltac:(intros; reflexivity) two_rows_wf Hb Hbal Hne); try assumption; try reflexivity; try lra.
  - eapply Rle_trans; [exact HB|]. lra.
  - change (INR (p_n two_rows)) with (INR 2). cbn [INR]. nra.
  - unfold mean_loss. cbn [p_n two_rows seq map Rsum]. rewrite !adot_two by lia. unfold half_square. cbn. lra.
  - unfold l1_ball. cbn. rewrite Rabs_R1. lra.
  - unfold l1_ball. cbn. rewrite Rabs_R0. lra.
Qed.
