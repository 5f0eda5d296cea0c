(** * Concrete case for the certificate in binary64 *)
From Coq Require Import ZArith Reals Lra Lia Bool List.
From Coq Require Import Floats.SpecFloat.
From Flocq Require Import Core.Core IEEE754.BinarySingleNaN.
From Verif Require Import Num Vec Spec RVec ConvexFacts ModelConstraint ModelFrankWolfe FloatBase FloatSum SplittingLsRuns FloatBall FloatBallMain FloatGap.
Import ListNotations.
Local Open Scope R_scope.

(** half the squared norm: its gradient is the point itself *)
Definition half_fg (x : vec F64) : F64 * vec F64 := (nmul F64 (nlit 1 2) (vdot x x), x).
Definition half_run : result (fw_result F64) :=
  minimize_fw (K:=F64) half_fg (l1_oracle (K:=F64) n1) FSSublinear (Some n1) (nlit 1 2) 20 None (Vanilla (K:=F64)) [nlit 1 10; nlit 7 10].
Definition finb (a : F64) : bool := is_finite_SF a && SpecFloat.valid_binary 53 1024 a.
(** the run stops on its gap test, after moving, at a finite point of the ball with a positive certificate *)
Definition half_check : bool :=
  match half_run with
  | Ok r => match fr_exit r with ExitGap => true | _ => false end && Nat.eqb (length (fr_x r)) 2 && Nat.leb 2 (length (fr_iters r)) &&
      forallb (fun a => finb a && nleb F64 (nabs F64 a) n1) (fr_x r) && finb (fr_cert r) && nltb F64 (nlit 1 3) (fr_cert r)
  | Err _ => false
  end.
Lemma half_runs : half_check = true.
Proof. vm_compute. reflexivity. Qed.

Lemma finb_fin a : finb a = true -> fin a.
Proof. intros H. apply andb_true_iff in H. exact H. Qed.
Lemma big_room : 3 <= powerRZ 2 1000.
Proof. rewrite <- ftop_eq. unfold ftop. apply Rle_trans with (bpow radix2 2); [cbn; lra|apply bpow_le; lia]. Qed.

Lemma half_meets : exists r : fw_result F64, half_run = Ok r /\ fr_exit r = ExitGap /\
  length (snd (half_fg (fr_x r))) = 2%nat /\ length (fr_x r) = 2%nat /\ Forall fin (snd (half_fg (fr_x r))) /\ Forall fin (fr_x r) /\ fin (fr_cert r) /\
  Forall (fun a => Rabs (fv a) <= 1) (snd (half_fg (fr_x r))) /\ Rsum (map (fun a => Rabs (fv a)) (fr_x r)) + fv n1 <= powerRZ 2 1000 /\
  first_order 2 (quad 1) (smul 1) /\
  (forall j, (j < 2)%nat -> Rabs (nth j (smul 1 (map fv (fr_x r))) 0 - fv (nth j (snd (half_fg (fr_x r))) n0)) <= 0).
Proof.
  pose proof half_runs as H. unfold half_check in H. destruct half_run as [r|]; [|discriminate H]. exists r. split; [reflexivity|].
  cbn [half_fg snd]. apply andb_true_iff in H as [H _]. apply andb_true_iff in H as [H Hc]. apply andb_true_iff in H as [H Hx].
  apply andb_true_iff in H as [H _]. apply andb_true_iff in H as [He Hl]. apply Nat.eqb_eq in Hl.
  assert (Fx : Forall (fun a => fin a /\ Rabs (fv a) <= 1) (fr_x r)).
  { rewrite forallb_forall in Hx. apply Forall_forall. intros a Ia. specialize (Hx a Ia). apply andb_true_iff in Hx as [A B].
    pose proof (finb_fin a A) as Fa. destruct (abs_fin a Fa) as [Fb Vb]. split; [exact Fa|]. rewrite leb_fin in B by (exact Fb || exact fin_1).
    rewrite Vb, fv_1 in B. unfold Rleb in B. destruct (Rle_dec _ _) as [Q|Q]; [exact Q|discriminate B]. }
  assert (F1 : Forall fin (fr_x r)) by (eapply Forall_impl; [|exact Fx]; intros a [Q _]; exact Q).
  assert (F2 : Forall (fun a => Rabs (fv a) <= 1) (fr_x r)) by (eapply Forall_impl; [|exact Fx]; intros a [_ Q]; exact Q).
  split; [destruct (fr_exit r); try discriminate He; reflexivity|].
  split; [exact Hl|]. split; [exact Hl|]. split; [exact F1|]. split; [exact F1|]. split; [exact (finb_fin _ Hc)|]. split; [exact F2|]. split; [|split].
  - pose proof big_room. rewrite fv_1. revert F2 Hl. destruct (fr_x r) as [|a [|b [|c l]]]; intros F2 Hl; try discriminate Hl.
    pose proof (Forall_inv F2). pose proof (Forall_inv (Forall_inv_tail F2)). cbn [map Rsum fold_right] in *. cbn in *. lra.
  - apply quad_first_order. lra.
  - intros j Hj. rewrite (nth_smul 1 (map fv (fr_x r)) j), <- fv_0, map_nth, fv_0, Rmult_1_l. unfold Rminus. rewrite Rplus_opp_r, Rabs_R0. lra.
Qed.
