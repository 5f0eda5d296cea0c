(** * SfwPairRuns: runs of minimize_sfw with lmo_variant='pairwise' (C131) *)
From Coq Require Import Reals Lra Lia List Bool ZArith.
From Verif Require Import Num Vec Spec SpecSparse RVec ConvexFacts ModelConstraint ModelUtilsArr ModelFrankWolfe ModelRandomized SpecFiniteSum ConstraintFacts ModelSfw SpecSfw SfwRuns SfwPair.
Import ListNotations.

(** one sample, one feature, A = [[1]], squared loss, target 1/2 *)
Definition one_ex : problem F64 := @mkP F64 [n1] [0]%nat [0; 1]%nat 1 1 [nlit 1 2] (fun p b => nsub F64 p b) n0.
Definition draw0 (_ : nat) : list nat := [0%nat].
(** does the active set hold a negative weight? *)
Definition neg_weight (s : sfw_state F64) : bool :=
  match sw_active s with Some a => existsb (fun it : rep F64 * F64 => nltb F64 (snd it) n0) a | None => false end.
Lemma main_C131_refuted :
  (* the default step sizes: two iterations pass, the third asks for more weight than the away vertex has *)
  problem_wf one_ex /\ valid_draws 1 1 draw0 /\ problem_wf (sfw_ex (-19) 14) /\ problem_wf (sfw_ex (-10) 7) /\ valid_draws 2 1 draw01 /\
  match minimize_sfw id64 one_ex (l1_pairwise_oracle n1) SAG SSublinear None 1 n0 (@Pairwise F64 (n1, 0%nat)) 2 draw0 [n1] with Ok r => Nat.eqb (length (sr_log r)) 2 | Err _ => false end = true /\
  minimize_sfw id64 one_ex (l1_pairwise_oracle n1) SAG SSublinear None 1 n0 (@Pairwise F64 (n1, 0%nat)) 3 draw0 [n1] = Err ValueError /\
  (* SAGA with step_size='DR': a negative step, a negative weight, and a point outside the ball *)
  match minimize_sfw id64 (sfw_ex (-19) 14) (l1_pairwise_oracle n1) SAGA SDR (Some n1) 1 n0 (@Pairwise F64 (n1, 0%nat)) 1 draw01 [n1] with
  | Ok r => nltb F64 n1 (vnorm1 (sr_x r)) && neg_weight (sr_state r) && existsb (fun q => nltb F64 (si_gamma q) n0) (sr_log r) | Err _ => false end = true /\
  (* SAG with step_size='DR' from the vertex the oracle selects: the direction is 0, the step 0/0, the iterate nan *)
  match minimize_sfw id64 (sfw_ex (-10) 7) (l1_pairwise_oracle n1) SAG SDR (Some n1) 1 n0 (@Pairwise F64 (nofZ F64 (-1), 0%nat)) 1 draw01 [nofZ F64 (-1)] with
  | Ok r => negb (neqb F64 (nth 0 (sr_x r) n0) (nth 0 (sr_x r) n0)) | Err _ => false end = true.
Proof.
  split. { split; [|split; [reflexivity|cbn; lia]]. split; [reflexivity|]. split; [|split; [cbn; lia|repeat constructor]]. intros [|i] Hi; cbn in *; lia. }
  split. { intros it. split; [repeat constructor|]. split; [reflexivity|intros H; congruence]. }
  split; [apply sfw_ex_wf|]. split; [apply sfw_ex_wf|]. split; [apply draw_valid|]. repeat split; vm_compute; reflexivity.
Qed.
(** ** a run meeting the hypotheses of the sublinear theorem, and of the DR theorem *)
Definition one_exR : problem RN := @mkP RN [1%R] [0]%nat [0; 1]%nat 1 1 [(1 / 2)%R] (fun p b => (p - b)%R) 0%R.
Lemma run_C131_sub : problem_wf one_exR /\ valid_draws (p_n one_exR) 1 draw0 /\ exists r : sfw_result RN,
  minimize_sfw (K:=RN) (fun t => t) one_exR (l1_pairwise_oracle (K:=RN) 1%R) SAG SSublinear None 1 0%R (@Pairwise RN (1%R, 0%nat)) 1 draw0 (vertex 1 (1 * 1) 0) = Ok r /\
  length (sr_log r) = 1%nat.
Proof.
  split. { split; [|split; [reflexivity|cbn; lia]]. split; [reflexivity|]. split; [|split; [cbn; lia|repeat constructor]]. intros [|i] Hi; cbn in *; lia. }
  split. { intros it. split; [repeat constructor|]. split; [reflexivity|intros H; congruence]. }
  cbv -[Rltb Rleb Reqb Rplus Rmult Rminus Ropp Rdiv Rinv IZR sqrt Rabs R].
  repeat (rcase; try lra). all: eexists; split; [reflexivity|reflexivity].
Qed.
Lemma run_C131_DR : match minimize_sfw id64 (sfw_ex (-1) 1) (l1_pairwise_oracle n1) SAG SDR (Some (nofZ F64 2)) 1 n0 (@Pairwise F64 (n1, 0%nat)) 2 draw01 [n1] with
  | Ok r => Nat.eqb (length (sr_log r)) 4 && negb (neqb F64 (nth 0 (sr_x r) n0) n1) && nleb F64 (vnorm1 (sr_x r)) n1 && negb (neg_weight (sr_state r)) | Err _ => false end = true.
Proof. vm_compute. reflexivity. Qed.
