(** * Property C122: pairwise Frank-Wolfe in float64 *)
From Coq Require Import ZArith Lia Bool List.
From Verif Require Import Num Vec ModelConstraint ModelFrankWolfe FloatBase FloatPairMain FloatPairRuns.
Import ListNotations.

(** C122.  frank_wolfe.py minimize_frank_wolfe, variant='pairwise', step='DR', L1Ball.lmo_pairwise,
    in binary64 with every rounding, overflow and nan of the certificate, of the norms and of the
    steps included: the ValueError of update_active_set is never raised, a result is returned,
    and no weight of the active set is ever below zero.  The gradient must not contain nan: a nan
    sign is a dictionary key that differs from itself. *)
Theorem C122_returns : forall (n : nat) (alpha L0 tol : F64) (fg : vec F64 -> F64 * vec F64)
    (cb : option (list (fw_event F64) -> bool)) (max_iter : nat) (sg : F64) (i0 : nat) (x0 : vec F64),
  (0 < n)%nat -> (0 < max_iter)%nat -> (i0 < n)%nat -> sg = n1 \/ sg = nopp F64 n1 ->
  datum alpha -> datum L0 -> nltb F64 n0 L0 = true ->
  nltb F64 tol n0 = false -> nisnan tol = false -> length x0 = n -> Forall datum x0 ->
  (forall x, length x = n -> Forall datum x ->
     length (snd (fg x)) = n /\ Forall (fun g => datum g /\ nisnan g = false) (snd (fg x))) ->
  exists r d, minimize_fw fg (l1_pairwise_oracle alpha) (FSDR (K:=F64)) (Some L0) tol max_iter cb (Pairwise (sg, i0)) x0 = Ok r /\
    length (fr_x r) = n /\ fr_active r = Some d /\ d <> [] /\ NoDup (map fst d) /\
    Forall (fun kv => (snd (fst kv) < n)%nat /\ nltb F64 (snd kv) n0 = false) d /\
    (forall l a kv, In (FwCallback l) (fr_log r) -> fl_active l = Some a -> In kv a -> nltb F64 (snd kv) n0 = false).
Proof. exact main_C122_returns. Qed.
Print Assumptions C122_returns.

(** One call of update_active_set (frank_wolfe.py:97-112). *)
Theorem C122_update : forall (n : nat) (d : active F64) (fw aw : rep F64) (w s : F64),
  NoDup (map fst d) ->
  Forall (fun kv => ((fst (fst kv) = n1 \/ fst (fst kv) = nopp F64 n1 \/ fst (fst kv) = n0) /\ (snd (fst kv) < n)%nat) /\
                    datum (snd kv) /\ nltb F64 (snd kv) n0 = false) d ->
  (fst fw = n1 \/ fst fw = nopp F64 n1 \/ fst fw = n0) -> (snd fw < n)%nat -> In (aw, w) d ->
  datum s -> nltb F64 s n0 = false -> nltb F64 w s = false ->
  exists d', update_active_set d fw aw s = Ok d' /\ d' <> [] /\ NoDup (map fst d') /\
    Forall (fun kv => nltb F64 (snd kv) n0 = false) d'.
Proof. exact main_C122_update. Qed.
Print Assumptions C122_update.

(** a function, with a nan guard on its gradient, that meets the hypotheses for every point *)
Example C122_nonvacuous : (forall x, length x = 2%nat -> Forall datum x ->
    length (snd (guard_fg x)) = 2%nat /\ Forall (fun g => datum g /\ nisnan g = false) (snd (guard_fg x))) /\
  datum (@n1 F64) /\ datum (nofZ F64 2) /\ nltb F64 n0 (nofZ F64 2) = true /\ nltb F64 (nlit 1 100) n0 = false /\
  nisnan (nlit (K:=F64) 1 100) = false /\ Forall datum [nofZ F64 1; nofZ F64 0].
Proof. exact (conj guard_ok guard_hyps). Qed.
(** its run: seven iterations, ended by the gap test, with at least two vertices *)
Example C122_run_nonvacuous : guard_check = true.
Proof. exact guard_runs. Qed.
