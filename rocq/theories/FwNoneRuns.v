(** * Runs used in PropsFwNone.v *)
From Coq Require Import ZArith Reals List Bool Lra Lia.
From Verif Require Import Num Vec Spec RVec ModelConstraint ModelFrankWolfe ConvexFacts FrankWolfeRuns ModelFwNone FwNoneMain.
Import ListNotations.
Open Scope R_scope.

(** f(x) = x^2/2 on [-1, 1] from x0 = 1: two sublinear steps, 1 and 2/3 *)
Lemma sq_two_steps : exists r : fw_result RN,
  minimize_fw (K:=RN) sq_fg (l1_oracle (K:=RN) 1) FSSublinear (Some 1) 0 2 None Vanilla [1] = Ok r /\ length (fr_iters r) = 2%nat /\
  map (fun i : fw_iter RN => fi_step i : R) (fr_iters r) = [2 / 3; 1].
Proof.
  eexists. split; [|split]; cycle 1.
  3:{ cbv -[Rltb Rleb Reqb Rplus Rmult Rminus Ropp Rdiv Rinv IZR sqrt Rabs R].
      repeat (rcase; try lra). reflexivity. }
  - reflexivity.
  - cbn [fr_iters map fi_step]. apply (f_equal2 cons); [reflexivity|]. apply (f_equal2 cons); [lra|reflexivity].
Qed.
(** hence variant='pairwise' with L1Ball.lmo raises on the same problem *)
Lemma sq_two_steps_raises : forall x0_rep : okey RN,
  minimize_fw_pairwise (K:=RN) sq_fg (l1_lmo_o (K:=RN) 1) FSSublinear (Some 1) 0 2 None x0_rep [1] = Err ValueError.
Proof.
  intros x0_rep. destruct sq_two_steps as (r & Hr & L & _). apply (main_C127_sublinear_partial sq_fg 1 (Some 1) 0 2%nat None x0_rep [1] r Hr).
  rewrite L. destruct x0_rep; lia.
Qed.
(** one iteration, with step 1 <= 1 when the key None is in the dictionary: no exception *)
Lemma sq_one_step : exists (r : fw_result RN) a,
  minimize_fw_pairwise (K:=RN) sq_fg (l1_lmo_o (K:=RN) 1) FSSublinear (Some 1) 0 1 None None [1] = Ok (r, a) /\ length (fr_iters r) = 1%nat.
Proof.
  eexists. eexists. split; cycle 1.
  2:{ cbv -[Rltb Rleb Reqb Rplus Rmult Rminus Ropp Rdiv Rinv IZR sqrt Rabs R].
      repeat (rcase; try lra). reflexivity. }
  reflexivity.
Qed.
