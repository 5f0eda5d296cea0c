(** * Property C127: variant='pairwise' with the default x0_rep, or with an oracle without away vertex *)
From Coq Require Import ZArith Reals List Bool Lra Lia.
From Verif Require Import Num Vec Spec RVec ModelConstraint ModelFrankWolfe ConvexFacts FrankWolfeRuns ModelFwNone FwNoneMain FwNoneRuns.
Import ListNotations.
Open Scope R_scope.

(** C127.  "x0_rep may be left at its default None with variant='pairwise', and the pairwise variant runs
    with any of the linear oracles".  Refuted: with the default x0_rep the only item of the active set is
    the key None, which L1Ball.lmo_pairwise cannot unpack. *)
Theorem C127_refuted : forall (K : Num) (fg : vec K -> K * vec K) (alpha : K) (step : fw_strategy K) (lipschitz : option K) (tol : K) (max_iter : nat) (cb : option (list (fw_event K) -> bool)) (x0 : vec K),
  nltb K tol n0 = false -> (0 < max_iter)%nat -> x0 <> [] -> length (snd (fg x0)) = length x0 ->
  minimize_fw_pairwise fg (l1_pairwise_o alpha) step lipschitz tol max_iter cb None x0 = Err TypeError.
Proof. exact main_C127_refuted. Qed.
Print Assumptions C127_refuted.

(** With L1Ball.lmo, whose away vertex is None, the call survives exactly as long as the steps add up to
    no more than the weight of the key None (1 without x0_rep, 0 with x0_rep); then it returns what
    variant='vanilla' returns.  Otherwise update_active_set raises. *)
Theorem C127_vanilla_oracle_partial : forall (fg : list R -> R * list R) (alpha : R) (step : fw_strategy RN) (lipschitz : option R) (tol : R) (max_iter : nat) (cb : option (list (fw_event RN) -> bool)) (x0_rep : okey RN) (x0 : list R) (r : fw_result RN),
  minimize_fw (K:=RN) fg (l1_oracle (K:=RN) alpha) step lipschitz tol max_iter cb Vanilla x0 = Ok r ->
  Forall (fun i : fw_iter RN => 0 <= fi_step i) (fr_iters r) ->
  let w := match x0_rep with None => 1 | Some _ => 0 end in
  (Rsum (map (fun i : fw_iter RN => fi_step i : R) (fr_iters r)) <= w ->
   exists a, minimize_fw_pairwise (K:=RN) fg (l1_lmo_o (K:=RN) alpha) step lipschitz tol max_iter cb x0_rep x0 = Ok (r, a)) /\
  (w < Rsum (map (fun i : fw_iter RN => fi_step i : R) (fr_iters r)) ->
   minimize_fw_pairwise (K:=RN) fg (l1_lmo_o (K:=RN) alpha) step lipschitz tol max_iter cb x0_rep x0 = Err ValueError).
Proof. exact main_C127_vanilla_oracle_partial. Qed.
Print Assumptions C127_vanilla_oracle_partial.

(** With the 2/(t+2) steps the second iteration (the first, if x0_rep is given) raises. *)
Theorem C127_sublinear_partial : forall (fg : list R -> R * list R) (alpha : R) (lipschitz : option R) (tol : R) (max_iter : nat) (cb : option (list (fw_event RN) -> bool)) (x0_rep : okey RN) (x0 : list R) (r : fw_result RN),
  minimize_fw (K:=RN) fg (l1_oracle (K:=RN) alpha) FSSublinear lipschitz tol max_iter cb Vanilla x0 = Ok r ->
  (match x0_rep with None => 2 | Some _ => 1 end <= length (fr_iters r))%nat ->
  minimize_fw_pairwise (K:=RN) fg (l1_lmo_o (K:=RN) alpha) FSSublinear lipschitz tol max_iter cb x0_rep x0 = Err ValueError.
Proof. exact main_C127_sublinear_partial. Qed.
Print Assumptions C127_sublinear_partial.

(** What holds: with a vertex representation and L1Ball.lmo_pairwise the keys are pairs throughout, and
    the run is that of the model without the key None. *)
Theorem C127_pairs_partial : forall (K : Num) (fg : vec K -> K * vec K) (alpha : K) (step : fw_strategy K) (lipschitz : option K) (tol : K) (max_iter : nat) (r0 : rep K) (x0 : vec K), (forall f, step <> FSCallable f) ->
  match minimize_fw fg (l1_pairwise_oracle alpha) step lipschitz tol max_iter None (Pairwise r0) x0 with
  | Ok r => exists (r' : fw_result K) a', fr_active r = Some a' /\ minimize_fw_pairwise fg (l1_pairwise_o alpha) step lipschitz tol max_iter None (Some r0) x0 = Ok (r', map (fun kv => (Some (fst kv), snd kv)) a') /\
      fr_x r' = fr_x r /\ fr_nit r' = fr_nit r /\ fr_cert r' = fr_cert r /\ fr_iters r' = fr_iters r
  | Err e => minimize_fw_pairwise fg (l1_pairwise_o alpha) step lipschitz tol max_iter None (Some r0) x0 = Err e
  end.
Proof. exact main_C127_pairs_partial. Qed.
Print Assumptions C127_pairs_partial.

(** f(x) = x^2/2 on [-1, 1] from 1: the vanilla run makes the two steps 1 and 2/3 *)
Example C127_nonvacuous : exists r : fw_result RN,
  minimize_fw (K:=RN) sq_fg (l1_oracle (K:=RN) 1) FSSublinear (Some 1) 0 2 None Vanilla [1] = Ok r /\ length (fr_iters r) = 2%nat /\
  map (fun i : fw_iter RN => fi_step i : R) (fr_iters r) = [2 / 3; 1].
Proof. exact sq_two_steps. Qed.
Example C127_nonvacuous_raises : forall x0_rep : okey RN,
  minimize_fw_pairwise (K:=RN) sq_fg (l1_lmo_o (K:=RN) 1) FSSublinear (Some 1) 0 2 None x0_rep [1] = Err ValueError.
Proof. exact sq_two_steps_raises. Qed.
Example C127_nonvacuous_returns : exists (r : fw_result RN) a,
  minimize_fw_pairwise (K:=RN) sq_fg (l1_lmo_o (K:=RN) 1) FSSublinear (Some 1) 0 1 None None [1] = Ok (r, a) /\ length (fr_iters r) = 1%nat.
Proof. exact sq_one_step. Qed.
