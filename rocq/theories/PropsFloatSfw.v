(** * Property C132: minimize_sfw on the l1 ball in float64 *)
From Coq Require Import ZArith Reals Lia Bool List.
From Verif Require Import Num Vec Spec SpecSparse ModelConstraint ModelFrankWolfe ModelRandomized SpecFiniteSum ModelSfw SpecSfw SfwRuns FloatBase FloatSfwMain FloatBallRuns FloatSfwRuns.
Import ListNotations.
Open Scope R_scope.

(** C132.  randomized.py minimize_sfw with L1Ball.lmo in binary64, any variant and step rule: as long as
    the gradient estimates have no nan and the steps lie in [0, 1], rounding carries the iterate out of
    the ball of radius alpha by at most a factor (1 + 2^-50) per iteration (plus d subnormals). *)
Theorem C132_iterates : forall (pow23 : F64 -> F64) (P : problem F64) (alpha : F64) variant rule lipschitz bs tol max_iter draws (x0 : vec F64) (r : sfw_result F64),
  let bound (k : nat) := (1 + 8 * / 2 ^ 53) ^ k * (fv alpha + INR k * (INR (p_d P) * powerRZ 2 (-1074))) in
  valid_draws (p_n P) bs draws -> (0 < p_d P)%nat -> fin alpha -> 0 <= fv alpha ->
  Forall fin x0 -> Rsum (map (fun a => Rabs (fv a)) x0) <= fv alpha ->
  minimize_sfw pow23 P (l1_oracle alpha) variant rule lipschitz bs tol (Vanilla (K:=F64)) max_iter draws x0 = Ok r ->
  bound (length (sr_log r)) <= powerRZ 2 1000 ->
  (* no estimate of the gradient has a nan, and the steps lie in [0, 1] *)
  Forall (fun q => Forall (fun g => datum g /\ nisnan g = false) (si_est q) /\
                   datum (si_gamma q) /\ nleb F64 n0 (si_gamma q) = true /\ nleb F64 (si_gamma q) n1 = true) (sr_log r) ->
  (forall j q, nth_error (rev (sr_log r)) j = Some q ->
     Forall fin (sw_x (si_next q)) /\ Rsum (map (fun a => Rabs (fv a)) (sw_x (si_next q))) <= bound (Datatypes.S j)) /\
  Forall fin (sr_x r) /\ Rsum (map (fun a => Rabs (fv a)) (sr_x r)) <= bound (length (sr_log r)).
Proof. exact main_C132_iterates. Qed.
Print Assumptions C132_iterates.

(** With the default steps of SAG, SAGA, MHK and LF the computed steps lie in [0, 1]. *)
Theorem C132_sublinear : forall (pow23 : F64 -> F64) (P : problem F64) (alpha : F64) variant lipschitz bs tol max_iter draws (x0 : vec F64) (r : sfw_result F64),
  let bound (k : nat) := (1 + 8 * / 2 ^ 53) ^ k * (fv alpha + INR k * (INR (p_d P) * powerRZ 2 (-1074))) in
  valid_draws (p_n P) bs draws -> (0 < p_d P)%nat -> fin alpha -> 0 <= fv alpha ->
  Forall fin x0 -> Rsum (map (fun a => Rabs (fv a)) x0) <= fv alpha ->
  minimize_sfw pow23 P (l1_oracle alpha) variant SSublinear lipschitz bs tol (Vanilla (K:=F64)) max_iter draws x0 = Ok r ->
  bound (length (sr_log r)) <= powerRZ 2 1000 -> (Z.of_nat (p_n P) < 2 ^ 53)%Z -> (Z.of_nat (length (sr_log r)) + 7 < 2 ^ 53)%Z ->
  Forall (fun q => datum (si_gamma q) /\ nleb F64 n0 (si_gamma q) = true /\ nleb F64 (si_gamma q) n1 = true) (sr_log r) /\
  (Forall (fun q => Forall (fun g => datum g /\ nisnan g = false) (si_est q)) (sr_log r) ->
   (forall j q, nth_error (rev (sr_log r)) j = Some q ->
     Forall fin (sw_x (si_next q)) /\ Rsum (map (fun a => Rabs (fv a)) (sw_x (si_next q))) <= bound (Datatypes.S j)) /\
   Forall fin (sr_x r) /\ Rsum (map (fun a => Rabs (fv a)) (sr_x r)) <= bound (length (sr_log r))).
Proof. exact main_C132_sublinear. Qed.
Print Assumptions C132_sublinear.

(** The hypotheses are met by two epochs on two samples, for SAG, SAGA and LF. *)
Example C132_nonvacuous : check_C132 SAG && check_C132 SAGA && check_C132 LF = true.
Proof. exact run_C132. Qed.
Example C132_nonvacuous_bound : valid_draws (p_n (sfw_ex (-1) 1)) 1 draw01 /\ (1 + 8 * / 2 ^ 53) ^ 4 * (fv n1 + INR 4 * (INR 1 * powerRZ 2 (-1074))) <= powerRZ 2 1000.
Proof. exact hyps_C132. Qed.
