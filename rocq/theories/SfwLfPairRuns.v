(** * SfwLfPairRuns: runs meeting the hypotheses of C135 *)
From Coq Require Import Reals Lra Lia List Bool ZArith.
From Verif Require Import Num Vec Spec SpecSparse RVec ConvexFacts ModelConstraint ConstraintFacts ModelUtilsArr ModelFrankWolfe FrankWolfeConv FrankWolfeMain FrankWolfeMain2
  ModelRandomized SpecFiniteSum ModelSfw SpecSfw SfwMain SfwMain2 SfwMain3 SfwPair SfwPairRuns SfwLfPair.
Import ListNotations.
Local Open Scope R_scope.
Lemma run_C135_vanilla : problem_wf two_rows /\ valid_draws (p_n two_rows) 1 draw_lf /\ convex_set (p_d two_rows) (l1_ball 1) /\
  lmo_feasible (p_d two_rows) (l1_ball 1) (l1_oracle (K:=RN) 1) /\ lmo_sized (p_d two_rows) (l1_oracle (K:=RN) 1) /\ l1_ball 1 [1] /\
  exists r : sfw_result RN, minimize_sfw (K:=RN) (fun t => t) two_rows (l1_oracle (K:=RN) 1) LF SSublinear None 1 (-1) Vanilla 3 draw_lf [1] = Ok r.
Proof.
  destruct (main_C77_l1_oracle_partial 1 1 ltac:(lia) ltac:(lra)) as (He & Hc). pose proof (lmo_exact_feasible _ _ _ He) as Hf.
  assert (Hx : l1_ball 1 [1]) by (unfold l1_ball; cbn; rewrite Rabs_R1; lra).
  split; [exact two_rows_wf|]. split; [exact draw_lf_valid|]. split; [exact Hc|]. split; [exact Hf|]. split; [exact (l1_sized 1 1 ltac:(lia) ltac:(lra))|]. split; [exact Hx|].
  apply (main_C65_returns (fun t => t) two_rows (l1_oracle (K:=RN) 1) LF None 1 (-1) 3 draw_lf [1] (l1_ball 1) two_rows_wf draw_lf_valid Hc Hf Hx eq_refl); [discriminate|lia|lia].
Qed.
Lemma run_C135_pairwise : problem_wf one_exR /\ valid_draws (p_n one_exR) 1 draw0 /\ exists r : sfw_result RN,
  minimize_sfw (K:=RN) (fun t => t) one_exR (l1_pairwise_oracle (K:=RN) 1) LF SSublinear None 1 0 (@Pairwise RN (1, 0%nat)) 1 draw0 (vertex 1 (1 * 1) 0) = Ok r /\
  length (sr_log r) = 1%nat.
Proof.
  destruct run_C131_sub as (A & B & _). split; [exact A|]. split; [exact B|].
  cbv -[Rltb Rleb Reqb Rplus Rmult Rminus Ropp Rdiv Rinv IZR sqrt Rabs R].
  repeat (rcase; try lra). all: eexists; split; [reflexivity|reflexivity].
Qed.
