(** * Property C133: lmo_variant='pairwise' of minimize_sfw with the default x0_rep, or with an oracle without away vertex *)
From Coq Require Import ZArith Reals List Bool Lra Lia.
From Verif Require Import Num Vec Spec SpecSparse RVec ModelConstraint ModelFrankWolfe ModelRandomized SpecFiniteSum ModelSfw SpecSfw SfwRuns SfwPairRuns ModelFwNone ModelSfwNone SfwNoneMain SfwNoneMain2 SfwNoneRuns.
Import ListNotations.
Open Scope R_scope.

(** C133.  "x0_rep of minimize_sfw may be left at its default None with lmo_variant='pairwise', and the
    variant runs with any of the linear oracles".  Refuted: with the default x0_rep the only item of the
    active set is the key None, which L1Ball.lmo_pairwise cannot unpack. *)
Theorem C133_refuted : forall (K : Num) (pow23 : K -> K) (P : problem K) (alpha : K) variant rule lipschitz bs tol max_iter draws (x0 : vec K),
  problem_wf P -> valid_draws (p_n P) bs draws -> (1 <= bs <= p_n P)%nat -> (0 < p_d P)%nat -> length x0 = p_d P -> (0 < max_iter)%nat ->
  variant <> OtherSfw -> (rule = SSublinear \/ rule = SDR /\ lipschitz <> None /\ variant <> MHK) ->
  minimize_sfw_pairwise pow23 P (l1_pairwise_o alpha) variant rule lipschitz bs tol None max_iter draws x0 = Err TypeError.
Proof. exact main_C133_refuted. Qed.
Print Assumptions C133_refuted.

(** With L1Ball.lmo, whose away vertex is None, the call survives exactly as long as the steps add up to
    no more than the weight of the key None (1 without x0_rep, 0 with x0_rep); then it returns what
    lmo_variant='vanilla' returns.  Otherwise update_active_set raises. *)
Theorem C133_vanilla_oracle_partial : forall (pow23 : R -> R) (P : problem RN) (alpha : R) variant rule lipschitz bs tol max_iter draws (x0_rep : okey RN) (x0 : list R) (r : sfw_result RN),
  minimize_sfw (K:=RN) pow23 P (l1_oracle (K:=RN) alpha) variant rule lipschitz bs tol Vanilla max_iter draws x0 = Ok r ->
  Forall (fun q : sfw_iter RN => 0 <= si_gamma q) (sr_log r) ->
  let w := match x0_rep with None => 1 | Some _ => 0 end in
  (Rsum (map (fun q : sfw_iter RN => si_gamma q : R) (sr_log r)) <= w ->
   exists a, minimize_sfw_pairwise (K:=RN) pow23 P (l1_lmo_o (K:=RN) alpha) variant rule lipschitz bs tol x0_rep max_iter draws x0 = Ok (r, a)) /\
  (w < Rsum (map (fun q : sfw_iter RN => si_gamma q : R) (sr_log r)) ->
   minimize_sfw_pairwise (K:=RN) pow23 P (l1_lmo_o (K:=RN) alpha) variant rule lipschitz bs tol x0_rep max_iter draws x0 = Err ValueError).
Proof. exact main_C133_vanilla_oracle_partial. Qed.
Print Assumptions C133_vanilla_oracle_partial.

(** With the default steps of SAG, SAGA and LF the second iteration (the first, if x0_rep is given) raises. *)
Theorem C133_sublinear_partial : forall (pow23 : R -> R) (P : problem RN) (alpha : R) variant lipschitz bs tol max_iter draws (x0_rep : okey RN) (x0 : list R) (r : sfw_result RN),
  valid_draws (p_n P) bs draws -> variant = SAG \/ variant = SAGA \/ variant = LF ->
  minimize_sfw (K:=RN) pow23 P (l1_oracle (K:=RN) alpha) variant SSublinear lipschitz bs tol Vanilla max_iter draws x0 = Ok r ->
  (match x0_rep with None => 2 | Some _ => 1 end <= length (sr_log r))%nat ->
  minimize_sfw_pairwise (K:=RN) pow23 P (l1_lmo_o (K:=RN) alpha) variant SSublinear lipschitz bs tol x0_rep max_iter draws x0 = Err ValueError.
Proof. exact main_C133_sublinear_partial. Qed.
Print Assumptions C133_sublinear_partial.

(** What holds: with a vertex representation and L1Ball.lmo_pairwise the keys are pairs throughout, and
    the run is that of the model without the key None (C131). *)
Theorem C133_pairs_partial : forall (K : Num) (pow23 : K -> K) (P : problem K) (alpha : K) variant rule lipschitz bs tol (r0 : rep K) max_iter draws (x0 : vec K),
  match minimize_sfw pow23 P (l1_pairwise_oracle alpha) variant rule lipschitz bs tol (Pairwise r0) max_iter draws x0 with
  | Ok r => exists (r' : sfw_result K) a', sw_active (sr_state r) = Some a' /\
      minimize_sfw_pairwise pow23 P (l1_pairwise_o alpha) variant rule lipschitz bs tol (Some r0) max_iter draws x0 = Ok (r', map (fun kv => (Some (fst kv), snd kv)) a') /\
      sr_x r' = sr_x r /\ sr_success r' = sr_success r /\ sr_nit r' = sr_nit r /\
      map (fun q => (si_gamma q, si_est q, sw_x (si_next q))) (sr_log r) = map (fun q => (si_gamma q, si_est q, sw_x (si_next q))) (sr_log r')
  | Err e => minimize_sfw_pairwise pow23 P (l1_pairwise_o alpha) variant rule lipschitz bs tol (Some r0) max_iter draws x0 = Err e
  end.
Proof. exact main_C133_pairs_partial. Qed.
Print Assumptions C133_pairs_partial.

Example C133_nonvacuous : forall k, (1 <= k <= 2)%nat -> exists r : sfw_result RN,
  minimize_sfw (K:=RN) (fun t => t) one_exR (l1_oracle (K:=RN) 1) SAG SSublinear None 1 0 Vanilla k draw0 [1] = Ok r /\ length (sr_log r) = k.
Proof. exact run_C133. Qed.
Example C133_nonvacuous_runs :
  minimize_sfw_pairwise id64 one_ex (l1_pairwise_o n1) SAG SSublinear None 1 n0 None 3 draw0 [n1] = Err TypeError /\
  ok_o (minimize_sfw_pairwise id64 one_ex (l1_lmo_o n1) SAG SSublinear None 1 n0 None 1 draw0 [n1]) = Some (1, 2)%nat /\
  minimize_sfw_pairwise id64 one_ex (l1_lmo_o n1) SAG SSublinear None 1 n0 None 2 draw0 [n1] = Err ValueError /\
  ok_o (minimize_sfw_pairwise id64 one_ex (l1_pairwise_o n1) SAG SSublinear None 1 n0 (Some (n1, 0%nat)) 2 draw0 [n1]) = Some (2, 2)%nat.
Proof. exact run_C133_float. Qed.
