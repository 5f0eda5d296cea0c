(** * A concrete case for C119 *)
From Coq Require Import Reals Lra Lia List Bool ZArith.
From Verif Require Import Num Vec Spec SpecSparse RVec ModelConstraint ModelPenalty PenaltyFacts ModelFrankWolfe FrankWolfeConv FrankWolfeMain FrankWolfeMain2 ModelRandomized SpecFiniteSum ModelSfw SpecSfw SpecSfwMean
  SfwMain SfwMain2 SfwMain3 SfwMain4 SfwMean3 SfwMean4 SfwLf3.
Import ListNotations.
Local Open Scope R_scope.

Lemma two_rows_mean_lf : forall bs max_iter, (1 <= bs <= 2)%nat -> (1 <= max_iter)%nat ->
  let batches := arrangements (seq 0 2) bs in let nb := (2 / bs)%nat in let m := 2 / INR bs in
  exists res : list (list nat) -> sfw_result RN,
    (forall w, In w (seqs batches (nb * max_iter)) ->
       minimize_sfw (K:=RN) (fun t => t) two_rows (l1_oracle (K:=RN) 1) LF SSublinear None bs 0 Vanilla max_iter (batch_draws nb w) [1] = Ok (res w)) /\
    / INR (length batches ^ (nb * max_iter)) *
      Rsum (map (fun w => mean_loss two_rows half_square (sr_x (res w)) - mean_loss two_rows half_square [0]) (seqs batches (nb * max_iter)))
    <= 60 * sqrt (m / (2 * m + INR (nb * max_iter) + 1)).
Proof.
  intros bs max_iter Hb Hm Bt nb m. destruct (main_C108_choice 2 bs ltac:(lia)) as (_ & Hne & c & Hbal).
  destruct two_rows_hyp as (Hcv & HC & HDi & HD1 & HL & HB).
  destruct (main_C77_l1_oracle_partial 1 1 ltac:(lia) ltac:(lra)) as (Hex & Hcs).
  destruct (main_C119_mean_rate (fun t => t) two_rows half_square (l1_oracle (K:=RN) 1) None bs c Bt 0 max_iter [1] (l1_ball 1) 4 2 1 [0] two_rows_wf Hb Hbal Hne) as (res & H1 & H2);
    try assumption; try reflexivity; try lra.
  - unfold l1_ball. cbn. rewrite Rabs_R1. lra.
  - unfold l1_ball. cbn. rewrite Rabs_R0. lra.
  - exists res. split; [exact H1|]. eapply Rle_trans; [exact H2|]. apply Req_le.
    change (p_n two_rows) with 2%nat. replace (INR 2) with 2 by (cbn; ring). f_equal.
    cbn [seq map Rsum]. unfold loss_deriv. rewrite !adot_two by lia. cbn. rewrite !Rminus_0_r, Rabs_R1. lra.
Qed.
