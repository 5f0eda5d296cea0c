(** * Concrete case for Frank-Wolfe on the l1 ball in binary64 *)
From Coq Require Import ZArith Reals Lra Lia Bool List.
From Verif Require Import Num Vec Spec RVec ModelConstraint ModelFrankWolfe FloatBase FloatSum FloatPair FloatPairRuns FloatBall FloatBallMain.
Import ListNotations.
Local Open Scope R_scope.

Definition sub_run : result (fw_result F64) :=
  minimize_fw (K:=F64) guard_fg (l1_oracle (K:=F64) n1) FSSublinear None (nlit 1 100) 20 None (Vanilla (K:=F64)) [nofZ F64 1; nofZ F64 0].
(** twelve iterations, all moving *)
Definition sub_check : bool :=
  match sub_run with
  | Ok r => Nat.eqb (length (fr_iters r)) 12 && forallb (fun i => nltb F64 n0 (fi_step i) && nleb F64 (fi_step i) n1) (fr_iters r)
  | Err _ => false
  end.
Lemma sub_runs : sub_check = true.
Proof. vm_compute. reflexivity. Qed.

Lemma sub_bound : (1 + 8 * / 2 ^ 53) ^ 20 * (fv n1 + INR 20 * (INR 2 * powerRZ 2 (-1074))) <= powerRZ 2 1000.
Proof.
  rewrite <- drift_eq, <- ftop_eq. unfold drift. rewrite fv_1. pose proof uro_small. pose proof eta_small.
  assert (P : (1 + 8 * uro) ^ 20 <= 2 ^ 20) by (apply pow_incr; lra).
  pose proof (drift_pow 20). set (q := (1 + 8 * uro) ^ 20) in *. replace (INR 20) with 20 by (cbn; lra). replace (INR 2) with 2 by (cbn; lra).
  apply Rle_trans with (2 ^ 20 * 2 ^ 7).
  - apply Rmult_le_compat; lra.
  - rewrite <- pow_add, (pow_powerRZ 2 (20 + 7)). rewrite ftop_eq.
    change (powerRZ 2 (Z.of_nat (20 + 7))) with (powerRZ (IZR (Zaux.radix_val Zaux.radix2)) 27).
    change (powerRZ 2 1000) with (powerRZ (IZR (Zaux.radix_val Zaux.radix2)) 1000).
    rewrite <- !Raux.bpow_powerRZ. apply Raux.bpow_le. lia.
Qed.
Lemma sub_hyps : fin n1 /\ 0 <= fv n1 /\ Forall fin [nofZ F64 1; nofZ F64 0] /\ Rsum (map (fun a => Rabs (fv a)) [nofZ F64 1; nofZ F64 0]) <= fv n1.
Proof.
  assert (A : nofZ F64 1 = n1) by reflexivity. assert (B : nofZ F64 0 = n0) by reflexivity. rewrite A, B.
  split; [exact fin_1|]. rewrite fv_1. split; [lra|]. split; [repeat constructor|].
  cbn [map Rsum fold_right]. rewrite fv_1, fv_0, Rabs_R1, Rabs_R0. lra.
Qed.
Lemma guard_fin x : length x = 2%nat -> Forall fin x ->
  length (snd (guard_fg x)) = 2%nat /\ Forall (fun g => datum g /\ nisnan g = false) (snd (guard_fg x)).
Proof. intros L H. apply guard_ok; [exact L|]. eapply Forall_impl; [|exact H]. intros a Ha. apply fin_datum; exact Ha. Qed.
