(** * runs of minimize_sfw with None as a key of the active set (C133) *)
From Coq Require Import ZArith Bool List Reals Lra Lia.
From Verif Require Import Num Vec Spec SpecSparse RVec ConvexFacts ModelConstraint ModelUtilsArr ModelFrankWolfe ModelRandomized SpecFiniteSum ModelSfw SpecSfw SfwRuns SfwPairRuns ModelFwNone ModelSfwNone.
Import ListNotations.
Local Open Scope R_scope.

(** the vanilla runs of one and of two epochs on the single sample of SfwPairRuns.v *)
Lemma run_C133 : forall k, (1 <= k <= 2)%nat -> exists r : sfw_result RN,
  minimize_sfw (K:=RN) (fun t => t) one_exR (l1_oracle (K:=RN) 1) SAG SSublinear None 1 0 Vanilla k draw0 [1] = Ok r /\ length (sr_log r) = k.
Proof.
  intros [|[|[|k]]] Hk; try lia; cbv -[Rltb Rleb Reqb Rplus Rmult Rminus Ropp Rdiv Rinv IZR sqrt Rabs R].
  all: repeat (rcase; try lra); eexists; split; reflexivity.
Qed.
Definition ok_o (o : result (sfw_result F64 * oactive F64)) : option (nat * nat) := match o with Ok (r, a) => Some (length (sr_log r), length a) | Err _ => None end.
Lemma run_C133_float :
  minimize_sfw_pairwise id64 one_ex (l1_pairwise_o n1) SAG SSublinear None 1 n0 None 3 draw0 [n1] = Err TypeError /\
  ok_o (minimize_sfw_pairwise id64 one_ex (l1_lmo_o n1) SAG SSublinear None 1 n0 None 1 draw0 [n1]) = Some (1, 2)%nat /\
  minimize_sfw_pairwise id64 one_ex (l1_lmo_o n1) SAG SSublinear None 1 n0 None 2 draw0 [n1] = Err ValueError /\
  ok_o (minimize_sfw_pairwise id64 one_ex (l1_pairwise_o n1) SAG SSublinear None 1 n0 (Some (n1, 0%nat)) 2 draw0 [n1]) = Some (2, 2)%nat.
Proof. repeat split; vm_compute; reflexivity. Qed.
