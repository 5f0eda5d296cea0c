(** * Concrete cases for the pairwise Frank-Wolfe bounds *)
From Coq Require Import ZArith Reals List Bool Lra Lia.
From Verif Require Import Num Vec Spec RVec ModelConstraint ModelFrankWolfe ConvexFacts ConstraintFacts FrankWolfeFacts FrankWolfeConv FrankWolfeMain FrankWolfePair FrankWolfePairRun FrankWolfeMain2 FrankWolfeRuns FwPairSteps2 FwPairMain ProxGradMain.
Import ListNotations.

(** f(a, b) = ((a + 1/4)^2 + 2 (b - 1/2)^2) / 2 in binary64 *)
Definition tilt_fg (x : vec F64) : F64 * vec F64 :=
  match x with
  | [a; b] => let p := nadd F64 a (nlit 1 4) in let q := nsub F64 b (nlit 1 2) in
              (nmul F64 (nlit 1 2) (nadd F64 (nmul F64 p p) (nmul F64 (nofZ F64 2) (nmul F64 q q))), [p; nmul F64 (nofZ F64 2) q])
  | _ => (n0, [])
  end.
Definition tilt_check : bool :=
  match minimize_fw (K:=F64) tilt_fg (l1_pairwise_oracle (K:=F64) (nofZ F64 1)) FSDR (Some (nofZ F64 2)) (nlit 1 100) 40 None
      (@Pairwise F64 (nofZ F64 1, 0%nat)) [nofZ F64 1; nofZ F64 0] with
  | Ok r => match fr_exit r with ExitGap => true | _ => false end && Nat.eqb (length (fr_iters r)) 7 &&
            forallb (fun i => nltb F64 n0 (fi_step i)) (fr_iters r)
  | Err _ => false
  end.
Lemma tilt_runs : tilt_check = true.
Proof. vm_compute. reflexivity. Qed.

Local Open Scope R_scope.
Lemma sq_pair_DR n alpha i0 tol m : (i0 < n)%nat -> 0 < alpha -> 0 < tol -> tol < / 2 * (alpha * alpha) -> (0 < m)%nat ->
  grad_ok n sq_fg /\ first_order n (objective sq_fg) (gradient sq_fg) /\ smooth_upper n 1 (objective sq_fg) (gradient sq_fg) /\
  (forall y, length y = n -> l1_ball alpha y -> 0 <= objective sq_fg y) /\
  exists r : fw_result RN, minimize_fw sq_fg (l1_pairwise_oracle (K:=RN) alpha) FSDR (Some 1) tol m None (@Pairwise RN (1, i0)) (vertex n (alpha * 1) i0) = Ok r /\
    fr_iters r <> [].
Proof.
  intros Hi Ha Ht Hta Hm.
  destruct (sq_fw_hyps n alpha (vertex n (alpha * 1) i0) ltac:(lia) ltac:(lra) (vertex_length _ _ _)) as (Hg & Hf & Hsm & _).
  assert (H1 : Rabs 1 <= 1) by (rewrite Rabs_R1; lra).
  assert (Hpos : forall y, 0 <= objective sq_fg y).
  { intros y. change (objective sq_fg) with sq. unfold sq. pose proof (dot_self_nonneg y). lra. }
  split; [exact Hg|]. split; [exact Hf|]. split; [exact Hsm|]. split; [auto|].
  assert (Hst : step_hyp_pair sq_fg (vertex n (alpha * 1) i0) FSDR (Some 1)) by (cbn; rn; lra).
  destruct (main_C45_returns n alpha sq_fg FSDR (Some 1) tol m None 1 i0 (Rlt_le _ _ Ha) Hi H1 Hg Hst) as (r & E); [discriminate|rn; lra|exact Hm|].
  exists r. split; [exact E|]. intros Hnil.
  destruct (run_all n alpha sq_fg 1 1 tol None 1 i0 Ha Hi H1 Hg Hsm (Rle_refl 1) Rlt_0_1 Ht m r E) as (_ & _ & C1 & C2).
  assert (Hex : fr_exit r = ExitGap).
  { destruct (fr_exit r) eqn:Ex; [reflexivity|exfalso; exact (C2 eq_refl eq_refl)|exfalso]. specialize (C1 eq_refl). rewrite Hnil in C1. cbn in C1. lia. }
  destruct (main_C42_certificate_bound_pairwise n alpha sq_fg FSDR (Some 1) tol m None 1 i0 r (Rlt_le _ _ Ha) Hi H1 Hg Hf Hst E) as (_ & _ & C).
  assert (Hz : l1_ball alpha (zeros n)).
  { unfold l1_ball. replace (l1 (zeros n)) with 0; [lra|]. clear. induction n as [|n IH]; cbn; [reflexivity|]. unfold zeros in IH. rewrite <- IH, Rabs_R0. ring. }
  specialize (C Hex (zeros n) (zeros_length n) Hz).
  assert (Hx : fr_x r = vertex n (alpha * 1) i0).
  { pose proof E as E'. apply minimize_fw_loop in E' as (_ & a & _ & E').
    revert Hnil. refine (@fw_loop_ind RN sq_fg _ FSDR (Some 1) tol None (fun it s => fw_inv sq_fg _ tol (vertex n (alpha * 1) i0) it s)
      (fun r => fr_iters r = [] -> fr_x r = vertex n (alpha * 1) i0) m _ m 0 _ r _ _ E').
    2:{ lia. } 2:{ apply fw_inv_init. }
    intros it s o Hit Hv Ho. cbv zeta. split.
    - intros _ Hn. cbn [fw_finish fr_iters fr_x with_lip fs_iters fs_x] in *. destruct Hv as (_ & -> & _). rewrite Hn. reflexivity.
    - intros Hcc ss lip' fgn found log1 Hs stop log2 Hcb. cbn [cb_call] in Hcb. injection Hcb as <- _. split; [intros Hst'; discriminate Hst'|].
      intros _ act Hact. split; [eapply fw_inv_step; eassumption|]. intros _ Hn. cbn in Hn. discriminate Hn. }
  rewrite Hx in C. change (objective sq_fg) with sq in C. unfold sq in C. rewrite dot_zeros_r, norm_vertex in C by exact Hi. rn. lra.
Qed.
