(** * a run of minimize_sfw in binary64 that meets the hypotheses of C132 *)
From Coq Require Import ZArith Reals Lra Lia Bool List.
From Verif Require Import Num Vec Spec SpecSparse ModelConstraint ModelFrankWolfe ModelRandomized SpecFiniteSum ModelSfw SpecSfw SfwRuns FloatBase FloatSum FloatPair FloatBall FloatBallMain FloatBallRuns.
Import ListNotations.
Open Scope R_scope.

(** two epochs on the two samples of SfwRuns.v, from 0 in [-1, 1]: one of the last three iterations moves, and no estimate has a nan *)
Definition check_C132 (variant : sfw_variant) : bool :=
  match minimize_sfw id64 (sfw_ex (-1) 1) (l1_oracle n1) variant SSublinear None 1 n0 (Vanilla (K:=F64)) 2 draw01 [n0] with
  | Ok r => Nat.eqb (length (sr_log r)) 4 && existsb (fun q => nltb F64 n0 (sfw_moved q)) (firstn 3 (sr_log r)) &&
            forallb (fun q => forallb (fun g : F64 => SpecFloat.valid_binary 53 1024 g && negb (nisnan g)) (si_est q)) (sr_log r)
  | Err _ => false end.
Lemma run_C132 : check_C132 SAG && check_C132 SAGA && check_C132 LF = true.
Proof. vm_compute. reflexivity. Qed.
Lemma hyps_C132 : valid_draws (p_n (sfw_ex (-1) 1)) 1 draw01 /\ (1 + 8 * / 2 ^ 53) ^ 4 * (fv n1 + INR 4 * (INR 1 * powerRZ 2 (-1074))) <= powerRZ 2 1000.
Proof.
  split; [apply draw_valid|].
  rewrite <- drift_eq, <- ftop_eq. unfold drift. rewrite fv_1. pose proof uro_small. pose proof eta_small.
  assert (P : (1 + 8 * uro) ^ 4 <= 2 ^ 4) by (apply pow_incr; lra).
  pose proof (drift_pow 4). set (q := (1 + 8 * uro) ^ 4) in *. replace (INR 4) with 4 by (cbn; lra). replace (INR 1) with 1 by (cbn; lra).
  apply Rle_trans with (2 ^ 4 * 2 ^ 7).
  - apply Rmult_le_compat; lra.
  - rewrite <- pow_add, (pow_powerRZ 2 (4 + 7)). rewrite ftop_eq.
    change (powerRZ 2 (Z.of_nat (4 + 7))) with (powerRZ (IZR (Zaux.radix_val Zaux.radix2)) 11).
    change (powerRZ 2 1000) with (powerRZ (IZR (Zaux.radix_val Zaux.radix2)) 1000).
    rewrite <- !Raux.bpow_powerRZ. apply Raux.bpow_le. lia.
Qed.
