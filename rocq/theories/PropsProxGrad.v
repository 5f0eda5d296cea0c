(** * Property theorems: copt/proximal_gradient.py and copt/utils.py:init_lipschitz
    (C32-C40, C73-C75).  Statements only.

    [r_iters r] lists the performed iterations, newest first: [it_x] the point the step starts
    from, [it_f], [it_grad] the value and gradient used there, [it_prox] the parameter of the
    prox call that produced [it_next], [it_step] the value of step_size afterwards, [it_found]
    whether the line search ended by acceptance.  [r_log r] is the log of all calls of user code. *)
From Coq Require Import ZArith QArith Reals List Bool Lra Lia.
From Verif Require Import Num Vec Spec RVec ModelUtils ModelProxGrad ProxGradFacts ProxGradAcc ProxGradMain ProxGradRuns.
Import ListNotations.
Open Scope R_scope.

(** C32: the returned value is 10^j/1000 for the first j whose trial step does not increase f
    (at most 100 trials). *)
Theorem C32_init_lipschitz_first : forall (K : Num) (fg : vec K -> K * vec K) (x0 : vec K),
  let L k := Nat.iter k (fun l => nmul K l (nofZ K 10)) (nlit 1 1000) in
  exists j, (j <= 100)%nat /\ init_lipschitz fg x0 = L j /\
    (forall i, (i < j)%nat ->
       nleb K (fst (fg (vsub x0 (vscale (ndiv K n1 (L i)) (snd (fg x0)))))) (fst (fg x0)) = false) /\
    (j = 100%nat \/
       nleb K (fst (fg (vsub x0 (vscale (ndiv K n1 (L j)) (snd (fg x0)))))) (fst (fg x0)) = true).
Proof. exact main_C32_init_lipschitz_first. Qed.
Print Assumptions C32_init_lipschitz_first.
Theorem C32_init_lipschitz_pos : forall (fg : vec RN -> RN * vec RN) (x0 : vec RN),
  0 < init_lipschitz fg x0.
Proof. exact main_C32_init_lipschitz_pos. Qed.
Print Assumptions C32_init_lipschitz_pos.
(** f(x) = 50 x^2 at x0 = 1: 10^(-3), ..., 10^1 are rejected, 10^2 is accepted *)
Example C32_nonvacuous : Qeq (init_lipschitz (ex_quad 50) [n1]) 100%Q.
Proof. vm_compute. reflexivity. Qed.

(** C33: the success flag *)
Theorem C33_success_certificate : forall (K : Num) (fg : vec K -> K * vec K) (prox : vec K -> K -> vec K)
  (cb : option (list (event K) -> bool)) (step : strategy K) (tol : K) (max_iter max_bt : nat) (factor : K)
  (tc : bool) (x0 : vec K) (r : pg_result K),
  minimize_pg fg prox cb step tol max_iter max_bt factor false tc x0 = Ok r ->
  (r_success r = true ->
     exists it rest c, r_iters r = it :: rest /\ r_cert r = Some c /\ nltb K c tol = true /\
       c = vnorm (vdivs (vsub (it_x it) (r_x r)) (it_step it)) /\
       r_x r = prox (vsub (it_x it) (vscale (it_prox it) (it_grad it))) (it_prox it) /\
       (it_step it = it_prox it \/ it_step it = nmul K (it_prox it) (nlit 11 10)) /\
       it_x it = match rest with [] => x0 | prev :: _ => it_next prev end /\
       r_step r = Some (it_step it)) /\
  (r_success r = false ->
     (r_nit r = max_iter /\ forall c, r_cert r = Some c -> nltb K c tol = false) \/
     (exists c l log', cb = Some c /\ r_log r = EvCallback l :: log' /\ c (r_log r) = true)).
Proof. exact main_C33_success_certificate. Qed.
Print Assumptions C33_success_certificate.
Theorem C33_trace : forall (K : Num) (fg : vec K -> K * vec K) (prox : vec K -> K -> vec K)
  (cb : option (list (event K) -> bool)) (step : strategy K) (tol : K) (max_iter max_bt : nat) (factor : K)
  (tc : bool) (x0 : vec K) (r : pg_result K),
  minimize_pg fg prox cb step tol max_iter max_bt factor false tc x0 = Ok r ->
  r_certs r = (if tc then rev (map (fun it => vnorm (vdivs (vsub (it_x it) (it_next it)) (it_step it))) (r_iters r)) else []) /\
  chain x0 (r_iters r) /\ r_x r = last_point x0 (r_iters r).
Proof. exact main_C33_trace. Qed.
Print Assumptions C33_trace.
Example C33_nonvacuous : exists r,
  minimize_pg (K:=QN) (ex_quad 1) (fun x _ => x) None SBacktracking (nlit 1 10) 100 100 (nlit 1 2) false true [n1] = Ok r /\
  r_success r && Nat.leb 1 (r_nit r) = true.
Proof. apply run_check. vm_compute. reflexivity. Qed.

(** C34.  Full property (false): at most max_iter iterations are performed.  Proved: termination,
    nit <= max_iter and at most max_iter + 1 iterations; refuted: max_iter + 1 iterations are
    performed in every run with tol = 0 and no callback. *)
Theorem C34_terminates_partial : forall (K : Num) (fg : vec K -> K * vec K) (prox : vec K -> K -> vec K)
  (cb : option (list (event K) -> bool)) (step : strategy K) (tol : K) (max_iter max_bt : nat) (factor : K)
  (tc : bool) (x0 : vec K),
  minimize_pg fg prox cb step tol max_iter max_bt factor false tc x0 <> Err OutOfFuel /\
  (forall r, minimize_pg fg prox cb step tol max_iter max_bt factor false tc x0 = Ok r ->
    (r_nit r <= max_iter)%nat /\ (length (r_iters r) <= S max_iter)%nat /\
    (r_nit r <= length (r_iters r) <= S (r_nit r))%nat).
Proof. exact main_C34_terminates_partial. Qed.
Print Assumptions C34_terminates_partial.
Theorem C34_no_exception : forall (K : Num) (fg : vec K -> K * vec K) (prox : vec K -> K -> vec K)
  (cb : option (list (event K) -> bool)) (step : strategy K) (tol : K) (max_iter max_bt : nat) (factor : K)
  (tc : bool) (x0 : vec K), max_bt <> 0%nat -> step <> SFixed -> step <> SOther ->
  exists r, minimize_pg fg prox cb step tol max_iter max_bt factor false tc x0 = Ok r.
Proof. exact main_C34_no_exception. Qed.
Print Assumptions C34_no_exception.
Theorem C34_max_iter_refuted : forall (fg : vec RN -> RN * vec RN) (prox : vec RN -> RN -> vec RN)
  (step : strategy RN) (max_iter max_bt : nat) (factor : RN) (tc : bool) (x0 : vec RN) (r : pg_result RN),
  minimize_pg fg prox None step 0 max_iter max_bt factor false tc x0 = Ok r ->
  length (r_iters r) = S max_iter /\ r_nit r = max_iter.
Proof. exact main_C34_max_iter_refuted. Qed.
Print Assumptions C34_max_iter_refuted.
Example C34_nonvacuous : forall x0, exists r,
  minimize_pg (K:=RN) (fun x => (sq x, x)) (fun x _ => x) None SBacktracking 0 10 100 (6 / 10) false false x0 = Ok r /\
  length (r_iters r) = 11%nat.
Proof. intros x0. destruct (sq_run x0) as (r & A & _ & B). exists r; auto. Qed.

(** C35: nothing happens after a callback returned False. *)
Theorem C35_callback_stops : forall (K : Num) (fg : vec K -> K * vec K) (prox : vec K -> K -> vec K)
  (c : list (event K) -> bool) (step : strategy K) (tol : K) (max_iter max_bt : nat) (factor : K)
  (accelerated tc : bool) (x0 : vec K) (r : pg_result K) (newer older : list (event K)) (l : locals K),
  minimize_pg fg prox (Some c) step tol max_iter max_bt factor accelerated tc x0 = Ok r ->
  r_log r = newer ++ EvCallback l :: older ->
  c (EvCallback l :: older) = true ->
  newer = [] /\ r_x r = lc_x l /\ r_success r = false.
Proof. exact main_C35_callback_stops. Qed.
Print Assumptions C35_callback_stops.
Example C35_nonvacuous : exists r,
  minimize_pg (K:=QN) (ex_quad 1) (fun x _ => x)
    (Some (fun log => match log with EvCallback l :: _ => Nat.eqb (lc_n l) 2 | _ => false end))
    SBacktracking (nlit 1 1000) 100 100 (nlit 1 2) false true [n1] = Ok r /\
  match r_log r with EvCallback l :: _ => Nat.eqb (lc_n l) 2 && Nat.eqb (length (r_iters r)) 2 | _ => false end = true.
Proof. apply run_check. vm_compute. reflexivity. Qed.

(** C36: sufficient decrease; f need not be convex *)
Theorem C36_descent : forall n (f : list R -> R) (gradf : list R -> list R) (dom : list R -> Prop) (g : list R -> R) (prox : list R -> R -> list R),
  (forall x, length x = n -> length (gradf x) = n) ->
  convex_on n dom g ->
  (forall x s, length x = n -> 0 < s -> is_prox_on dom g s x (prox x s)) ->
  forall (cb : option (list (event RN) -> bool)) (tol : R) max_iter max_bt (factor : R) tc (x0 : list R) (r : pg_result RN),
  0 < factor -> length x0 = n -> dom x0 ->
  minimize_pg (K:=RN) (fun x => (f x, gradf x)) prox cb SBacktracking tol max_iter max_bt factor false tc x0 = Ok r ->
  Forall (fun it => it_found it = true) (r_iters r) ->
  chain (K:=RN) x0 (r_iters r) /\ r_x r = last_point (K:=RN) x0 (r_iters r) /\
  Forall (fun it : iter RN =>
    f (it_next it) + g (it_next it) + dist2 (it_next it) (it_x it) / (2 * it_prox it)
      <= f (it_x it) + g (it_x it) /\ 0 < it_prox it) (r_iters r) /\
  f (r_x r) + g (r_x r) <= f x0 + g x0.
Proof. exact main_C36_descent. Qed.
Print Assumptions C36_descent.
(** C37: O(1/k) rate against every comparison point y *)
Theorem C37_rate : forall n (f : list R -> R) (gradf : list R -> list R) (dom : list R -> Prop) (g : list R -> R) (prox : list R -> R -> list R),
  (forall x, length x = n -> length (gradf x) = n) ->
  convex_on n dom g ->
  (forall x s, length x = n -> 0 < s -> is_prox_on dom g s x (prox x s)) ->
  (forall u v, length u = n -> length v = n -> f u + dot (gradf u) (vminus v u) <= f v) ->
  forall (cb : option (list (event RN) -> bool)) (tol : R) max_iter max_bt (factor : R) tc (x0 : list R) (r : pg_result RN) (y : list R),
  0 < factor -> length x0 = n -> length y = n -> dom y ->
  minimize_pg (K:=RN) (fun x => (f x, gradf x)) prox cb SBacktracking tol max_iter max_bt factor false tc x0 = Ok r ->
  Forall (fun it => it_found it = true) (r_iters r) -> r_iters r <> [] ->
  f (r_x r) + g (r_x r) - (f y + g y)
    <= dist2 x0 y / (2 * Rsum (map (fun it : iter RN => it_prox it : R) (r_iters r))).
Proof. exact main_C37_rate. Qed.
Print Assumptions C37_rate.
Theorem C37_smooth_steps : forall n (f : list R -> R) (gradf : list R -> list R) (dom : list R -> Prop) (g : list R -> R) (prox : list R -> R -> list R) (L : R),
  (forall x, length x = n -> length (gradf x) = n) ->
  convex_on n dom g ->
  (forall x s, length x = n -> 0 < s -> is_prox_on dom g s x (prox x s)) ->
  0 < L ->
  (forall u v, length u = n -> length v = n ->
     f v <= f u + dot (gradf u) (vminus v u) + L / 2 * dist2 v u) ->
  forall (cb : option (list (event RN) -> bool)) (tol : R) max_iter max_bt (factor : R) tc (x0 : list R) (r : pg_result RN),
  0 < factor -> length x0 = n ->
  minimize_pg (K:=RN) (fun x => (f x, gradf x)) prox cb SBacktracking tol max_iter max_bt factor false tc x0 = Ok r ->
  Forall (fun it => it_found it = true) (r_iters r) ->
  Forall (fun it : iter RN =>
     Rmin (18 / 10 / init_lipschitz (K:=RN) (fun x => (f x, gradf x)) x0) (factor / L) <= it_prox it) (r_iters r).
Proof. exact main_C37_smooth_steps. Qed.
Print Assumptions C37_smooth_steps.
Theorem C37_rate_explicit : forall n (f : list R -> R) (gradf : list R -> list R) (dom : list R -> Prop) (g : list R -> R) (prox : list R -> R -> list R) (L : R),
  (forall x, length x = n -> length (gradf x) = n) ->
  convex_on n dom g ->
  (forall x s, length x = n -> 0 < s -> is_prox_on dom g s x (prox x s)) ->
  (forall u v, length u = n -> length v = n -> f u + dot (gradf u) (vminus v u) <= f v) ->
  0 < L ->
  (forall u v, length u = n -> length v = n ->
     f v <= f u + dot (gradf u) (vminus v u) + L / 2 * dist2 v u) ->
  forall (cb : option (list (event RN) -> bool)) (tol : R) max_iter max_bt (factor : R) tc (x0 : list R) (r : pg_result RN) (y : list R),
  0 < factor -> length x0 = n -> length y = n -> dom y ->
  minimize_pg (K:=RN) (fun x => (f x, gradf x)) prox cb SBacktracking tol max_iter max_bt factor false tc x0 = Ok r ->
  Forall (fun it => it_found it = true) (r_iters r) -> r_iters r <> [] ->
  f (r_x r) + g (r_x r) - (f y + g y)
    <= dist2 x0 y / (2 * INR (length (r_iters r)) *
         Rmin (18 / 10 / init_lipschitz (K:=RN) (fun x => (f x, gradf x)) x0) (factor / L)).
Proof. exact main_C37_rate_explicit. Qed.
Print Assumptions C37_rate_explicit.
Theorem C37_linesearch_succeeds : forall n (f : list R -> R) (gradf : list R -> list R) (dom : list R -> Prop) (g : list R -> R) (prox : list R -> R -> list R) (L : R),
  (forall x, length x = n -> length (gradf x) = n) ->
  (forall x s, length x = n -> 0 < s -> is_prox_on dom g s x (prox x s)) ->
  0 < L ->
  (forall u v, length u = n -> length v = n ->
     f v <= f u + dot (gradf u) (vminus v u) + L / 2 * dist2 v u) ->
  forall max_bt factor x s, (max_bt > 0)%nat -> 0 < factor -> length x = n -> 0 < s ->
  11 / 10 * s * factor ^ (max_bt - 1) <= / L ->
  let o := line_search (K:=RN) (fun x => (f x, gradf x)) prox max_bt factor x (f x) (gradf x) s in
  ls_found o = true /\ Rmin s (factor / L) <= ls_prox o /\
  ls_fg o = (f (ls_x o), gradf (ls_x o)).
Proof. exact main_C37_linesearch_succeeds. Qed.
Print Assumptions C37_linesearch_succeeds.
Theorem C37_never_exhausted : forall n (f : list R -> R) (gradf : list R -> list R) (dom : list R -> Prop) (g : list R -> R) (prox : list R -> R -> list R) (L : R),
  (forall x, length x = n -> length (gradf x) = n) ->
  (forall x s, length x = n -> 0 < s -> is_prox_on dom g s x (prox x s)) ->
  0 < L ->
  (forall u v, length u = n -> length v = n ->
     f v <= f u + dot (gradf u) (vminus v u) + L / 2 * dist2 v u) ->
  forall (cb : option (list (event RN) -> bool)) (tol : R) max_iter max_bt (factor : R) tc (x0 : list R) (r : pg_result RN),
  0 < factor <= 1 -> length x0 = n ->
  (11 / 10) ^ (S max_iter) * (18 / 10 / init_lipschitz (K:=RN) (fun x => (f x, gradf x)) x0) * factor ^ (max_bt - 1) <= / L ->
  minimize_pg (K:=RN) (fun x => (f x, gradf x)) prox cb SBacktracking tol max_iter max_bt factor false tc x0 = Ok r ->
  Forall (fun it => it_found it = true) (r_iters r).
Proof. exact main_C37_never_exhausted. Qed.
Print Assumptions C37_never_exhausted.
(** C38: what success means; [subgrad n dom F x w] says w is a subgradient of F at x *)
Theorem C38_stationarity : forall n (f : list R -> R) (gradf : list R -> list R) (dom : list R -> Prop) (g : list R -> R) (prox : list R -> R -> list R) (L : R),
  (forall x, length x = n -> length (gradf x) = n) ->
  convex_on n dom g ->
  (forall x s, length x = n -> 0 < s -> is_prox_on dom g s x (prox x s)) ->
  (forall u v, length u = n -> length v = n -> f u + dot (gradf u) (vminus v u) <= f v) ->
  (forall u v, length u = n -> length v = n -> norm2 (vminus (gradf u) (gradf v)) <= L * norm2 (vminus u v)) ->
  forall (cb : option (list (event RN) -> bool)) (step : strategy RN) (tol : R) max_iter max_bt (factor : R) tc (x0 : list R) (r : pg_result RN),
  match step with SCallable h => forall log, 0 < h log | SBacktracking => 0 < factor | _ => False end ->
  length x0 = n ->
  minimize_pg (K:=RN) (fun x => (f x, gradf x)) prox cb step tol max_iter max_bt factor false tc x0 = Ok r ->
  Forall (fun it => it_found it = true) (r_iters r) ->
  r_success r = true ->
  exists c it rest w, r_cert r = Some c /\ c < tol /\ r_iters r = it :: rest /\
    subgrad n dom (fun y => f y + g y) (r_x r) w /\
    norm2 w <= 11 / 10 * c + L * norm2 (vminus (r_x r) (it_x it)) /\
    (c = 0 -> is_min n dom (fun y => f y + g y) (r_x r)).
Proof. exact main_C38_stationarity. Qed.
Print Assumptions C38_stationarity.
(** f(x) = |x|^2/2 in any dimension, g = 0, meets the hypotheses of C36-C38 and C74 with L = 1,
    and its runs with max_iter = 10 have eleven iterations with successful line searches *)
Example C36_C37_C38_C74_nonvacuous : forall x0 : list R, let n := length x0 in
  convex_on n (fun _ => True) (fun _ => 0) /\
  (forall (x : list R) s, 0 < s -> is_prox_on (fun _ => True) (fun _ => 0) s x x) /\
  (forall u v, length u = n -> length v = n -> sq u + dot u (vminus v u) <= sq v) /\
  (forall u v, length u = n -> length v = n -> sq v <= sq u + dot u (vminus v u) + 1 / 2 * dist2 v u) /\
  exists r, minimize_pg (K:=RN) (fun x => (sq x, x)) (fun x _ => x) None SBacktracking 0 10 100 (6 / 10) false false x0 = Ok r /\
    Forall (fun it => it_found it = true) (r_iters r) /\ length (r_iters r) = 11%nat.
Proof.
  intros x0 n. split; [apply zero_convex|]. split; [intros; apply id_prox; auto|].
  split; [apply sq_first_order|]. split; [apply sq_smooth|]. apply sq_run.
Qed.
(** ... and a run on this instance that ends with success = True (for C38): unit steps reach the
    minimiser and then the certificate is 0 *)
Example C38_nonvacuous : exists r,
  minimize_pg (K:=RN) (fun x => (sq x, x)) (fun x _ => x) None (SCallable (K:=RN) (fun _ => 1)) 1 1 1 (6 / 10) false false [3; 4] = Ok r /\
  r_success r = true /\ length (r_iters r) = 2%nat /\ Forall (fun it => it_found it = true) (r_iters r).
Proof. exact sq_run_success. Qed.

(** C39.  Full property (false): an unknown step strategy is rejected with an exception.  True
    for the plain solver, refuted for the accelerated one, which returns x0. *)
Theorem C39_step_rejected_partial : forall (K : Num) (fg : vec K -> K * vec K) (prox : vec K -> K -> vec K)
  (cb : option (list (event K) -> bool)) (step : strategy K) (tol : K) (max_iter max_bt : nat) (factor : K)
  (tc : bool) (x0 : vec K), step = SFixed \/ step = SOther ->
  (match cb with Some c => forall log, c log = false | None => True end) ->
  exists e, minimize_pg fg prox cb step tol max_iter max_bt factor false tc x0 = Err e /\ e <> OutOfFuel.
Proof. exact main_C39_step_rejected_partial. Qed.
Print Assumptions C39_step_rejected_partial.
Theorem C39_accelerated_refuted : forall (K : Num) (fg : vec K -> K * vec K) (prox : vec K -> K -> vec K)
  (step : strategy K) (tol : K) (max_iter max_bt : nat) (factor : K) (tc : bool) (x0 : vec K),
  step = SFixed \/ step = SOther -> max_bt <> 0%nat ->
  exists r, minimize_pg fg prox None step tol max_iter max_bt factor true tc x0 = Ok r /\
    r_x r = x0 /\ r_success r = false /\ r_cert r = None /\ r_nit r = max_iter /\ r_iters r = [].
Proof. exact main_C39_accelerated_refuted. Qed.
Print Assumptions C39_accelerated_refuted.
Theorem C39_backtracking_rejected : forall (K : Num) (fg : vec K -> K * vec K) (prox : vec K -> K -> vec K)
  (cb : option (list (event K) -> bool)) (step : strategy K) (tol : K) (max_iter : nat) (factor : K) (acc tc : bool) (x0 : vec K),
  minimize_pg fg prox cb step tol max_iter 0 factor acc tc x0 = Err ValueError.
Proof. exact main_C39_backtracking_rejected. Qed.
Print Assumptions C39_backtracking_rejected.
Example C39_nonvacuous : minimize_pg (K:=QN) (ex_quad 1) (fun x _ => x) None SOther 0%Q 100 100 0%Q false true [n1] = Err ValueError.
Proof. vm_compute. reflexivity. Qed.

(** C40: the accelerated solver *)
Theorem C40_accelerated : forall (K : Num) (fg : vec K -> K * vec K) (prox : vec K -> K -> vec K)
  (cb : option (list (event K) -> bool)) (step : strategy K) (tol : K) (max_iter max_bt : nat) (factor : K)
  (tc : bool) (x0 : vec K), max_bt <> 0%nat ->
  exists r, minimize_pg fg prox cb step tol max_iter max_bt factor true tc x0 = Ok r /\
  (r_nit r <= max_iter)%nat /\ (length (r_iters r) <= S (r_nit r))%nat /\
  (r_success r = true -> exists c, r_cert r = Some c /\ nltb K c tol = true) /\
  (r_success r = false ->
     (r_nit r = max_iter /\ forall c, r_cert r = Some c -> nltb K c tol = false) \/
     (exists c l log', cb = Some c /\ r_log r = EvCallback l :: log' /\ c (r_log r) = true /\ lc_x l = r_x r)).
Proof. exact main_C40_accelerated. Qed.
Print Assumptions C40_accelerated.
Example C40_nonvacuous : exists r,
  minimize_pg (K:=QN) (ex_quad 1) (fun x _ => x) None SBacktracking (nlit 1 2) 5 100 (nlit 1 2) true true [n1] = Ok r /\
  r_success r && Nat.leb 1 (r_nit r) = true.
Proof. apply run_check. vm_compute. reflexivity. Qed.

(** C73.  Full property (false): the value and gradient used at each iteration are those of the
    current iterate.  True after successful line searches, refuted after an exhausted one. *)
Theorem C73_fresh_partial : forall (K : Num) (fg : vec K -> K * vec K) (prox : vec K -> K -> vec K)
  (cb : option (list (event K) -> bool)) (step : strategy K) (tol : K) (max_iter max_bt : nat) (factor : K)
  (tc : bool) (x0 : vec K) (r : pg_result K),
  minimize_pg fg prox cb step tol max_iter max_bt factor false tc x0 = Ok r ->
  forall newer it older, r_iters r = newer ++ it :: older ->
  (* the line search of the preceding iteration succeeded (or this is the first iteration) *)
  match older with [] => True | prev :: _ => it_found prev = true end ->
  (it_f it, it_grad it) = fg (it_x it) /\
  it_x it = match older with [] => x0 | prev :: _ => it_next prev end.
Proof. exact main_C73_fresh_partial. Qed.
Print Assumptions C73_fresh_partial.
Theorem C73_fresh_refuted : exists r it prev,
  minimize_pg (K:=QN) (ex_quad 50) (fun x _ => x) None SBacktracking (nlit 1 1000000) 1 1 (nlit 6 10) false false [n1] = Ok r /\
  r_iters r = [it; prev] /\ it_x it = it_next prev /\
  it_grad it <> snd (ex_quad 50 (it_x it)).
Proof. exact main_C73_fresh_refuted. Qed.
Print Assumptions C73_fresh_refuted.
Example C73_nonvacuous : forall x0, exists r newer it prev older,
  minimize_pg (K:=RN) (fun x => (sq x, x)) (fun x _ => x) None SBacktracking 0 10 100 (6 / 10) false false x0 = Ok r /\
  r_iters r = newer ++ it :: prev :: older /\ it_found prev = true.
Proof.
  intros x0. destruct (sq_run x0) as (r & A & B & C).
  destruct (r_iters r) as [|a [|b l]] eqn:E; try (discriminate C).
  exists r, [], a, b, l. repeat split; auto. inversion B as [|? ? ? B']; inversion B'; auto.
Qed.

(** C74: O(1/k^2) rate of the accelerated solver *)
Theorem C74_fista_rate : forall n (f : list R -> R) (gradf : list R -> list R) (dom : list R -> Prop) (g : list R -> R) (prox : list R -> R -> list R),
  (forall x, length x = n -> length (gradf x) = n) ->
  convex_on n dom g ->
  (forall x s, length x = n -> 0 < s -> is_prox_on dom g s x (prox x s)) ->
  (forall u v, length u = n -> length v = n -> f u + dot (gradf u) (vminus v u) <= f v) ->
  forall xs, is_min n dom (fun y => f y + g y) xs ->
  forall (cb : option (list (event RN) -> bool)) (step : strategy RN) (tol : R) max_iter max_bt (factor : R) tc (x0 : list R) (r : pg_result RN) (it : iter RN) rest,
  length x0 = n ->
  minimize_pg (K:=RN) (fun x => (f x, gradf x)) prox cb step tol max_iter max_bt factor true tc x0 = Ok r ->
  r_iters r = it :: rest ->
  (* every step was positive and met the sufficient-decrease test; steps never increased *)
  Forall (fun it : iter RN => 0 < it_prox it /\
     f (it_next it) <= f (it_x it) + dot (gradf (it_x it)) (vminus (it_next it) (it_x it))
        + dist2 (it_next it) (it_x it) / (2 * it_step it)) (r_iters r) ->
  nonincr (r_iters r) ->
  f (r_x r) + g (r_x r) - (f xs + g xs)
    <= 2 * dist2 x0 xs / (it_prox it * (INR (length (r_iters r)) + 1) ^ 2).
Proof. exact main_C74_fista_rate. Qed.
Print Assumptions C74_fista_rate.
Theorem C74_fista_constant_step : forall n (f : list R -> R) (gradf : list R -> list R) (dom : list R -> Prop) (g : list R -> R) (prox : list R -> R -> list R) (L : R),
  (forall x, length x = n -> length (gradf x) = n) ->
  convex_on n dom g ->
  (forall x s, length x = n -> 0 < s -> is_prox_on dom g s x (prox x s)) ->
  (forall u v, length u = n -> length v = n -> f u + dot (gradf u) (vminus v u) <= f v) ->
  0 < L ->
  (forall u v, length u = n -> length v = n ->
     f v <= f u + dot (gradf u) (vminus v u) + L / 2 * dist2 v u) ->
  forall xs, is_min n dom (fun y => f y + g y) xs ->
  forall (cb : option (list (event RN) -> bool)) (s : R) (tol : R) max_iter max_bt (factor : R) tc (x0 : list R) (r : pg_result RN),
  0 < s -> s <= / L -> length x0 = n ->
  minimize_pg (K:=RN) (fun x => (f x, gradf x)) prox cb (SCallable (K:=RN) (fun _ => s)) tol max_iter max_bt factor true tc x0 = Ok r ->
  r_iters r <> [] ->
  f (r_x r) + g (r_x r) - (f xs + g xs)
    <= 2 * dist2 x0 xs / (s * (INR (length (r_iters r)) + 1) ^ 2).
Proof. exact main_C74_fista_constant_step. Qed.
Print Assumptions C74_fista_constant_step.
Example C74_nonvacuous : forall x0 : list R, is_min (length x0) (fun _ => True) (fun y => sq y + 0) (repeat 0 (length x0)) /\
  exists r, minimize_pg (K:=RN) (fun x => (sq x, x)) (fun x _ => x) None (SCallable (K:=RN) (fun _ => 1)) 0 1 1 (6 / 10) true false x0 = Ok r /\
  r_iters r <> [].
Proof. exact sq_fista_run. Qed.

(** C75.  Full property (false): success of the accelerated solver bounds the gradient mapping at
    the returned point by (a small multiple of) tol.  A binary64 run refutes it. *)
Theorem C75_accelerated_certificate_refuted : exists r,
  minimize_pg (K:=F64) ex_f64 (fun x _ => x) None SBacktracking (nlit 2 10000) 500 1000 (nlit 6 10) true false [n1] = Ok r /\
  r_success r = true /\
  nltb F64 (nmul F64 (nofZ F64 200) (nlit 2 10000)) (vnorm (snd (ex_f64 (r_x r)))) = true.
Proof. exact main_C75_accelerated_certificate_refuted. Qed.
Print Assumptions C75_accelerated_certificate_refuted.
Theorem C75_accelerated_certificate_partial : forall n (f : list R -> R) (gradf : list R -> list R) (prox : list R -> R -> list R),
  (forall x, length x = n -> length (gradf x) = n) ->
  (forall x s, length x = n -> length (prox x s) = n) ->
  forall (cb : option (list (event RN) -> bool)) (step : strategy RN) (tol : R) max_iter max_bt (factor : R) tc (x0 : list R) (r : pg_result RN),
  length x0 = n ->
  minimize_pg (K:=RN) (fun x => (f x, gradf x)) prox cb step tol max_iter max_bt factor true tc x0 = Ok r ->
  r_success r = true ->
  exists (it : iter RN) rest, r_iters r = it :: rest /\ r_x r = it_next it /\
    let s : R := it_step it in
    let prev : list R := match rest with [] => x0 | p :: _ => it_next p end in
    0 < s ->
    norm2 (smul (/ s) (vminus (r_x r) (prox (vminus (r_x r) (smul s (gradf (r_x r)))) s)))
      < tol + norm2 (vminus (r_x r) prev) / s.
Proof. exact main_C75_accelerated_certificate_partial. Qed.
Print Assumptions C75_accelerated_certificate_partial.
