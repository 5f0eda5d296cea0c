(** * Property theorems: the line search of minimize_three_split (C116).  Statements only.

    [quad c x] is (c/2) |x|^2, with gradient [smul c x]. *)
From Coq Require Import ZArith QArith Reals List Bool Lra Lia.
From Verif Require Import Num Vec Spec RVec ConvexFacts ModelUtils ModelConstraint ModelPenalty ModelSplitting SplittingFacts ProxGradFacts ProxGradMain
  SplittingMain SplittingThree SplittingThree2 SplittingConv SplittingRuns SplittingLsConv SplittingLsRuns.
Import ListNotations.
Open Scope R_scope.

(** C116: with the line search on, enough iterations lead to success, for a tolerance above what the
    search can resolve (increments of norm 1e-7 and decrease 2^-52) *)
Theorem C116_line_search_converges_partial : forall n (f : vec RN -> RN) (gradf : vec RN -> vec RN) domg domh g h
  (p1 p2 : option (vec RN -> RN -> vec RN)) (x0 : vec RN) (tol : RN) max_iter ls (st : option RN) max_bt (factor : RN)
  (L : R) (zs us : list R),
  convex_on n domg g -> convex_on n domh h -> first_order n f gradf -> smooth_upper n L f gradf -> 0 < L ->
  (forall x s, length x = n -> 0 < s -> is_prox_on domg g s x (match p1 with Some p => p x s | None => x end)) ->
  (forall x s, length x = n -> 0 < s -> is_prox_on domh h s x (match p2 with Some p => p x s | None => x end)) ->
  (forall x, length x = n -> length (gradf x) = n) -> length x0 = n ->
  match st with Some s => 0 < s /\ ls = true | None => True end -> 0 < factor <= 1 -> 0 < tol -> (0 < max_bt)%nat ->
  (* a solution with its multiplier *)
  length zs = n -> subgrad n domh h zs us -> subgrad n domg g zs (smul (-1) (vplus us (gradf zs))) ->
  let s0 := match st with Some s => s | None => 1 / init_lipschitz (fun x => (f x, gradf x)) x0 end in
  s0 * factor ^ (max_bt - 1) <= 1 / L ->
  let smin := Rmin s0 (factor / L) in
  let gain := / (2 * (1 + 2 * s0 * L)) * (tol * smin * (tol * smin)) - 2 * s0 * / 2 ^ 52 in
  1 / 10 ^ 7 < tol * smin -> 0 < gain ->
  (* enough iterations *)
  let z0 := match p2 with Some p => p x0 s0 | None => x0 end in
  let dist := norm2 (vminus z0 zs) + s0 * (norm2 (vminus (gradf z0) (vplus (gradf zs) us)) + norm2 us) in
  dist * dist < (INR max_iter - 1) * gain ->
  exists r, minimize_three_split (fun x => (f x, gradf x)) x0 p1 p2 tol max_iter None ls st max_bt factor None = Ok r /\
    tr_success r = true.
Proof. exact main_C116_line_search_converges_partial. Qed.
Print Assumptions C116_line_search_converges_partial.

(** below that resolution the claim fails: the search is skipped and the run oscillates for ever *)
Theorem C116_refuted : forall (L s a : R) (tol : RN) max_iter max_bt (factor : RN),
  0 < L -> s * L = 2 -> 2 * Rabs a <= 1 / 10 ^ 7 -> tol <= L * (2 * Rabs a) / 2 -> (0 < max_iter)%nat -> (0 < max_bt)%nat ->
  exists r, minimize_three_split (K:=RN) (fun x => (quad L x, smul L x)) [a] None None tol max_iter None true (Some s) max_bt factor None = Ok r /\
    tr_success r = false /\ (tr_x r = [a] \/ tr_x r = [- a]) /\ tr_stepsize r = s.
Proof. exact main_C116_refuted. Qed.
Print Assumptions C116_refuted.

Example C116_nonvacuous :
  (* the box-constrained lasso in any dimension, whatever the starting point *)
  (forall n (alpha a : R) (b x0 : vec RN), 0 <= alpha -> 0 <= a -> length b = n -> length x0 = n ->
     exists max_iter r, minimize_three_split (K:=RN) (fun x => (sqd b x, vminus x b)) x0 (Some (@l1norm_prox RN alpha))
       (Some (fun x _ => @linf_prox RN a x)) (1 / 1000) max_iter None true (Some 8) 4 (1 / 2) None = Ok r /\ tr_success r = true) /\
  (* the refutation: a convex, 100-smooth function with a minimiser, default tolerance *)
  (first_order 1 (quad 100) (smul 100) /\ smooth_upper 1 100 (quad 100) (smul 100) /\
   is_min 1 (fun _ => True) (quad 100) [0] /\
   forall max_iter, (0 < max_iter)%nat ->
     exists r, minimize_three_split (K:=RN) (fun x => (quad 100 x, smul 100 x)) [4 / 10 ^ 8] None None (1 / 10 ^ 6) max_iter None true (Some (1 / 50)) 100
       (7 / 10) None = Ok r /\ tr_success r = false).
Proof. exact ls_runs. Qed.
