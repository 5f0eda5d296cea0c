(** * minimize_sfw: concrete runs in binary64 (refutations of C65, C66) *)
From Coq Require Import Reals Lra Lia List Bool ZArith.
From Verif Require Import Num Vec Spec SpecSparse ModelConstraint ModelUtilsArr ModelFrankWolfe ModelRandomized SpecFiniteSum ModelSfw SpecSfw.
Import ListNotations.

(** two samples, one feature, A = [[1], [1]], squared loss *)
Definition sfw_ex (b0 b1 : Z) : problem F64 :=
  @mkP F64 [n1; n1] [0; 0]%nat [0; 1; 2]%nat 2 1 [nofZ F64 b0; nofZ F64 b1] (fun p b => nsub F64 p b) n0.
Definition id64 (t : F64) : F64 := t.
Lemma sfw_ex_wf b0 b1 : problem_wf (sfw_ex b0 b1).
Proof.
  split; [|split; [reflexivity|cbn; lia]]. split; [reflexivity|]. split; [|split; [cbn; lia|repeat constructor]].
  intros [|[|i]] Hi; cbn in *; lia.
Qed.
(** the draws of the runs *)
Definition draw01 (_ : nat) : list nat := [0; 1]%nat.
Definition draw_stop (it : nat) : list nat := match it with O => [0; 0]%nat | _ => [1; 0]%nat end.
Lemma draw_valid : valid_draws 2 1 draw01 /\ valid_draws 2 1 draw_stop.
Proof.
  split; intros it; (split; [destruct it; repeat constructor|]); (split; [destruct it; reflexivity|intros H; congruence]).
Qed.

(** ** C65: Demyanov-Rubinov steps *)
Lemma main_C65_DR_refuted :
  (* SAGA: the certificate belongs to another direction, the step is negative, the point leaves the ball *)
  match minimize_sfw id64 (sfw_ex (-10) 7) (l1_oracle n1) SAGA SDR (Some n1) 1 n0 Vanilla 1 draw01 [n0] with
  | Ok r => nltb F64 n1 (vnorm1 (sr_x r)) && existsb (fun q => nltb F64 (si_gamma q) n0) (sr_log r)
  | Err _ => false end = true /\
  (* SAG from a vertex: the direction is 0, the step is 0/0, the iterate is nan *)
  match minimize_sfw id64 (sfw_ex (-10) 7) (l1_oracle n1) SAG SDR (Some n1) 1 n0 Vanilla 1 draw01 [nofZ F64 (-1)] with
  | Ok r => negb (neqb F64 (nth 0 (sr_x r) n0) (nth 0 (sr_x r) n0))
  | Err _ => false end = true /\
  (* MHK and LF: step_size_agg is not defined *)
  minimize_sfw id64 (sfw_ex (-10) 7) (l1_oracle n1) MHK SDR (Some n1) 1 n0 Vanilla 1 draw01 [n0] = Err UnboundLocalError /\
  minimize_sfw id64 (sfw_ex (-10) 7) (l1_oracle n1) LF SDR (Some n1) 1 n0 Vanilla 1 draw01 [n0] = Err UnboundLocalError.
Proof. repeat split; vm_compute; reflexivity. Qed.

(** ** C66: success after the first epoch, but the next epoch moves the point by 4/3 *)
Lemma main_C66_stopping_refuted :
  match minimize_sfw id64 (sfw_ex (-10) 9) (l1_oracle n1) SAG SSublinear None 1 (nlit 1 10) Vanilla 2 draw_stop [nofZ F64 (-1)] with
  | Ok r => sr_success r && Nat.eqb (sr_nit r) 1 && match sr_log r with
      | q2 :: q1 :: q0 :: [] => neqb F64 (sfw_moved q0) n0 && nltb F64 n1 (sfw_moved q1) && nltb F64 n1 (sfw_moved q2)
      | _ => false end
  | Err _ => false end = true.
Proof. vm_compute. reflexivity. Qed.
