(** * Property theorems: copt/constraint.py (C01-C07).  Statements only; proofs are elsewhere.
    [RN] is the model over exact reals; [is_projection], [is_lin_max], the balls and the
    simplex are defined in Spec.v without reference to the model. *)
From Coq Require Import ZArith QArith Reals Lra List Lia.
From Verif Require Import Num Vec Spec RVec ModelConstraint ConstraintFacts.
Import ListNotations.
Open Scope R_scope.

(** C01 *)
Theorem C01_linf_prox_is_projection : forall (alpha : R) (x : list R),
  0 <= alpha -> is_projection (linf_ball alpha) x (@linf_prox RN alpha x).
Proof. exact linf_prox_projection. Qed.
Print Assumptions C01_linf_prox_is_projection.
Example C01_nonvacuous : 0 <= 1 /\ linf_prox (K := QN) 1%Q [(3#1); (-2#1); (1#2)]%Q = [(1#1); (-1#1); (1#2)]%Q.
Proof. split; [lra|]. vm_compute; reflexivity. Qed.

(** C02 *)
Theorem C02_l2_prox_is_projection : forall (alpha : R) (x : list R),
  0 <= alpha -> is_projection (l2_ball alpha) x (@l2_prox RN alpha x) /\
    (norm2 x <= alpha -> @l2_prox RN alpha x = x).
Proof. exact l2_prox_full. Qed.
Print Assumptions C02_l2_prox_is_projection.
Example C02_nonvacuous : 0 <= 1 /\ l2_prox (K := QN) 1%Q [(3#1); (4#1)]%Q = [(3#5); (4#5)]%Q.
Proof. split; [lra|]. vm_compute; reflexivity. Qed.

(** C03 *)
Theorem C03_proj_simplex_is_projection : forall (v : list R) (s : R),
  v <> [] -> 0 < s ->
  exists w, @proj_simplex RN v s = Ok w /\ is_projection (simplex s) v w.
Proof. exact proj_simplex_correct. Qed.
Print Assumptions C03_proj_simplex_is_projection.
(** in every arithmetic, "s > 0 is false" (including s = NaN) raises AssertionError *)
Theorem C03_proj_simplex_rejects : forall (K : Num) (v : vec K) (s : K),
  nltb K n0 s = false -> proj_simplex v s = Err AssertionError.
Proof. exact proj_simplex_bad_s. Qed.
Print Assumptions C03_proj_simplex_rejects.
Example C03_nonvacuous : [3; -1] <> ([] : list R) /\ 0 < 2 /\
  proj_simplex (K := QN) [(3#1); (-1#1); (2#1)]%Q (2#1)%Q = Ok [(3#2); 0; (1#2)]%Q /\
  nltb QN n0 (-1#1)%Q = false /\ nltb F64 n0 (SpecFloat.S754_nan) = false.
Proof. repeat split; try discriminate; try lra; vm_compute; reflexivity. Qed.

(** C04 *)
Theorem C04_l1ball_prox_is_projection : forall (v : list R) (s : R),
  0 < s -> exists w, @l1ball_prox RN s v = Ok w /\ is_projection (l1_ball s) v w /\ (l1 v <= s -> w = v).
Proof. exact (fun v s => proj_l1ball_correct v s). Qed.
Print Assumptions C04_l1ball_prox_is_projection.
Theorem C04_l1ball_prox_rejects : forall (K : Num) (v : vec K) (s : K),
  nltb K n0 s = false -> l1ball_prox s v = Err AssertionError.
Proof. exact (fun K v s => proj_l1ball_bad_s K v s). Qed.
Print Assumptions C04_l1ball_prox_rejects.
Example C04_nonvacuous : 0 < 2 /\ l1ball_prox (K := QN) (2#1)%Q [(3#1); (-2#1); 0]%Q = Ok [(3#2); (-1#2); 0]%Q.
Proof. split; [lra|]. vm_compute; reflexivity. Qed.

(** C05 *)
Theorem C05_l1_lmo : forall (alpha : R) (u x : list R),
  0 <= alpha -> u <> [] -> length x = length u ->
  exists o sign idx, @l1_lmo RN alpha u x = Ok o /\
    lmo_fw o = Some (sign, idx) /\ lmo_away o = None /\ lmo_max_step o = 1 /\
    length (lmo_dir o) = length x /\ (idx < length u)%nat /\
    vplus x (lmo_dir o) = smul (alpha * sign) (unit_vec (length u) idx) /\
    (sign = 1 \/ sign = -1 \/ (sign = 0 /\ u = zeros (length u))) /\
    is_lin_max (l1_ball alpha) u (vplus x (lmo_dir o)).
Proof. exact l1_lmo_correct. Qed.
Print Assumptions C05_l1_lmo.
Theorem C05_l1_lmo_empty : forall (K : Num) (alpha : K) (x : vec K), l1_lmo alpha [] x = Err ValueError.
Proof. exact l1_lmo_empty. Qed.
Print Assumptions C05_l1_lmo_empty.
Example C05_nonvacuous : 0 <= 2 /\ [1; -3] <> ([] : list R) /\ length [5; 5] = length [1; -3] /\
  l1_lmo (K := QN) (2#1)%Q [1; (-3#1)]%Q [(5#1); (5#1)]%Q
   = Ok (mkLmo (K := QN) [(-5#1); (-7#1)]%Q (Some ((-1)%Q, 1%nat)) None 1%Q).
Proof. repeat split; try lra; try discriminate; vm_compute; reflexivity. Qed.

(** C06 *)
Theorem C06_l1_lmo_pairwise : forall (alpha : R) (u x : list R) (act : active RN),
  0 <= alpha -> u <> [] -> length x = length u -> act <> [] ->
  Forall (fun it : rep RN * R => (snd (fst it) < length u)%nat) act ->
  exists o sign idx asign aidx w,
    @l1_lmo_pairwise RN alpha u x act = Ok o /\
    lmo_fw o = Some (sign, idx) /\ lmo_away o = Some (asign, aidx) /\ lmo_max_step o = w /\
    (idx < length u)%nat /\
    lmo_dir o = vminus (smul (alpha * sign) (unit_vec (length u) idx)) (smul (alpha * asign) (unit_vec (length u) aidx)) /\
    is_lin_max (l1_ball alpha) u (smul (alpha * sign) (unit_vec (length u) idx)) /\
    In ((asign, aidx), w) act /\
    (forall s' i' w', In ((s', i'), w') act ->
        dot u (smul (alpha * asign) (unit_vec (length u) aidx)) <= dot u (smul (alpha * s') (unit_vec (length u) i'))) /\
    (sign = 1 \/ sign = -1 \/ (sign = 0 /\ u = zeros (length u))).
Proof. exact l1_lmo_pairwise_correct. Qed.
Print Assumptions C06_l1_lmo_pairwise.
Theorem C06_l1_lmo_pairwise_empty : forall (alpha : R) (u x : list R),
  u <> [] -> length x = length u -> 0 <= alpha -> @l1_lmo_pairwise RN alpha u x [] = Err ValueError.
Proof. exact l1_lmo_pairwise_empty. Qed.
Print Assumptions C06_l1_lmo_pairwise_empty.
Example C06_nonvacuous :
  0 <= 2 /\ [1; -3] <> ([] : list R) /\
  Forall (fun it : rep RN * R => (snd (fst it) < 2)%nat) [((1, 0%nat), 1/2); ((1, 1%nat), 1/2)] /\
  l1_lmo_pairwise (K := QN) (2#1)%Q [1; (-3#1)]%Q [1; 1]%Q [((1%Q, 0%nat), (1#2)%Q); ((1%Q, 1%nat), (1#2)%Q)]
   = Ok (mkLmo (K := QN) [0; (-4#1)]%Q (Some ((-1)%Q, 1%nat)) (Some (1%Q, 1%nat)) (1#2)%Q).
Proof. repeat split; try lra; try discriminate; repeat constructor. Qed.

(** C07.  Full property (false of the code): for every non-empty u, x of equal length and
    s >= 0, [vplus x (lmo_dir o)] is a maximiser of <u,.> over {v >= 0, ||v||_1 <= s}.
    Proved when some coordinate of u is >= 0; refuted when all are negative, where the
    routine returns the infeasible vertex -s e_i. *)
Theorem C07_simplex_lmo_partial : forall (s : R) (u x : list R),
  0 <= s -> u <> [] -> length x = length u ->
  (exists j, (j < length u)%nat /\ 0 <= nth j u 0) ->
  exists o, @simplex_lmo RN s u x = Ok o /\ is_lin_max (solid_simplex s) u (vplus x (lmo_dir o)).
Proof. exact simplex_lmo_partial_lemma. Qed.
Print Assumptions C07_simplex_lmo_partial.
Theorem C07_simplex_lmo_refuted : forall (s : R) (u x : list R),
  0 < s -> u <> [] -> length x = length u -> (forall j, (j < length u)%nat -> nth j u 0 < 0) ->
  exists o, @simplex_lmo RN s u x = Ok o /\ ~ solid_simplex s (vplus x (lmo_dir o)).
Proof. exact simplex_lmo_negative. Qed.
Print Assumptions C07_simplex_lmo_refuted.
Example C07_nonvacuous :
  (exists j, (j < 2)%nat /\ 0 <= nth j [-1; 2] 0) /\
  (forall j, (j < 2)%nat -> nth j [-1; -2] 0 < 0) /\
  simplex_lmo (K := QN) 1%Q [(-1#1); (-2#1)]%Q [0; 0]%Q = Ok (mkLmo (K := QN) [(-1#1); 0]%Q (Some (1%Q, 0%nat)) None 1%Q).
Proof.
  split; [exists 1%nat; simpl; split; [lia|lra]|]. split; [|vm_compute; reflexivity].
  intros [|[|j]] H; simpl in *; try lra; lia.
Qed.
