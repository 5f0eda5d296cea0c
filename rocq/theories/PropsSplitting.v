(** * Property theorems: copt/splitting.py (C50-C54, C78-C82).  Statements only.

    [tr_iters r] / [pr_iters r] list the performed iterations, newest first.  minimize_three_split:
    [ti_z], [ti_u], [ti_in] are z, u and step_size at the start, [ti_x] the new x, [ti_prox] the step
    of the prox_1 call that produced it, [ti_step] step_size at the prox_2 call, [ti_out] step_size at
    the end, [ti_ls]/[ti_found] whether a line search ran and ended by acceptance.
    minimize_primal_dual: [pi_x], [pi_y], [pi_tau] at the start, [pi_ynext], [pi_step] the new values. *)
From Coq Require Import ZArith QArith Reals List Bool Lra Lia.
From Verif Require Import Num Vec Spec RVec ConvexFacts ModelUtils ModelConstraint ModelPenalty ModelSplitting SplittingFacts ProxGradFacts ProxGradMain
  SplittingMain SplittingThree SplittingThree2 SplittingConv SplittingPD SplittingPD2 SplittingLS SplittingRuns.
Import ListNotations.
Open Scope R_scope.

(** C50: success certifies approximate optimality *)
Theorem C50_success : forall n (f : vec RN -> RN) (gradf : vec RN -> vec RN) domg domh g h
  (p1 p2 : option (vec RN -> RN -> vec RN)) (x0 : vec RN) (tol : RN) max_iter cb ls (st : option RN) max_bt (factor : RN) (hL : option RN)
  (r : ts_result RN),
  convex_on n domg g -> convex_on n domh h ->
  (forall x s, length x = n -> 0 < s -> is_prox_on domg g s x (match p1 with Some p => p x s | None => x end)) ->
  (forall x s, length x = n -> 0 < s -> is_prox_on domh h s x (match p2 with Some p => p x s | None => x end)) ->
  (forall x, length x = n -> length (gradf x) = n) -> length x0 = n ->
  match st with Some s => 0 < s | None => True end -> 0 < factor <= 1 ->
  (hL = None \/ hL = Some 0 \/ forall i, In i (tr_iters r) -> 0 < ti_in i) ->
  minimize_three_split (fun x => (f x, gradf x)) x0 p1 p2 tol max_iter cb ls st max_bt factor hL = Ok r ->
  tr_success r = true ->
  exists z u v s, length z = n /\ length (tr_x r) = n /\
    subgrad n domh h z u /\ subgrad n domg g (tr_x r) v /\
    norm2 (vplus (vplus (gradf z) u) v) < tol /\ norm2 (vminus (tr_x r) z) < tol * s /\
    0 < s /\ (hL = None -> tr_stepsize r = s).
Proof. exact main_C50_success. Qed.
Print Assumptions C50_success.
Theorem C50_gap : forall n (f : vec RN -> RN) (gradf : vec RN -> vec RN) domg domh g h
  (p1 p2 : option (vec RN -> RN -> vec RN)) (x0 : vec RN) (tol : RN) max_iter cb ls (st : option RN) max_bt (factor : RN) (hL : option RN)
  (r : ts_result RN),
  convex_on n domg g -> convex_on n domh h -> first_order n f gradf ->
  (forall x s, length x = n -> 0 < s -> is_prox_on domg g s x (match p1 with Some p => p x s | None => x end)) ->
  (forall x s, length x = n -> 0 < s -> is_prox_on domh h s x (match p2 with Some p => p x s | None => x end)) ->
  (forall x, length x = n -> length (gradf x) = n) -> length x0 = n ->
  match st with Some s => 0 < s | None => True end -> 0 < factor <= 1 ->
  (hL = None \/ hL = Some 0 \/ forall i, In i (tr_iters r) -> 0 < ti_in i) ->
  minimize_three_split (fun x => (f x, gradf x)) x0 p1 p2 tol max_iter cb ls st max_bt factor hL = Ok r ->
  tr_success r = true ->
  exists z u s, length z = n /\ subgrad n domh h z u /\ domg (tr_x r) /\ 0 < s /\ (hL = None -> tr_stepsize r = s) /\
    norm2 (vminus (tr_x r) z) < tol * s /\
    forall y, length y = n -> domg y -> domh y ->
      f z + g (tr_x r) + h z - (f y + g y + h y)
        <= tol * norm2 (vminus y (tr_x r)) + norm2 (vplus (gradf z) u) * (tol * s).
Proof. exact main_C50_gap. Qed.
Print Assumptions C50_gap.
Theorem C50_zero_certificate : forall n (f : vec RN -> RN) (gradf : vec RN -> vec RN) domg domh g h
  (p1 p2 : option (vec RN -> RN -> vec RN)) (x0 : vec RN) (tol : RN) max_iter cb ls (st : option RN) max_bt (factor : RN) (hL : option RN)
  (r : ts_result RN),
  convex_on n domg g -> convex_on n domh h -> first_order n f gradf ->
  (forall x s, length x = n -> 0 < s -> is_prox_on domg g s x (match p1 with Some p => p x s | None => x end)) ->
  (forall x s, length x = n -> 0 < s -> is_prox_on domh h s x (match p2 with Some p => p x s | None => x end)) ->
  (forall x, length x = n -> length (gradf x) = n) -> length x0 = n ->
  match st with Some s => 0 < s | None => True end -> 0 < factor <= 1 ->
  (hL = None \/ hL = Some 0 \/ forall i, In i (tr_iters r) -> 0 < ti_in i) ->
  minimize_three_split (fun x => (f x, gradf x)) x0 p1 p2 tol max_iter cb ls st max_bt factor hL = Ok r ->
  (0 < tr_nit r)%nat -> tr_cert r = 0 ->
  is_min n (fun y => domg y /\ domh y) (fun y => f y + g y + h y) (tr_x r).
Proof. exact main_C50_zero_certificate. Qed.
Print Assumptions C50_zero_certificate.
(** box-constrained lasso with the library's own L1Norm.prox and LinfBall.prox meets the hypotheses,
    has a solution, and for every tolerance some run succeeds *)
Example C50_nonvacuous : forall n (alpha a : R) (b x0 : vec RN) (s tol : RN) max_bt (factor : RN), 0 <= alpha -> 0 <= a -> length b = n -> length x0 = n ->
  0 < s -> s < 2 -> 0 < tol -> (0 < max_bt)%nat ->
  box_hyps n alpha a b /\
  exists max_iter r, minimize_three_split (K:=RN) (fun x => (sqd b x, vminus x b)) x0 (Some (@l1norm_prox RN alpha))
    (Some (fun x _ => @linf_prox RN a x)) tol max_iter None false (Some s) max_bt factor None = Ok r /\ tr_success r = true.
Proof. intros. split; [apply box_ok; auto|apply (box_three_split n); auto]. Qed.

(** C51: line search, steps, callbacks *)
Theorem C51_contract : forall (K : Num) (fg : vec K -> K * vec K) (x0 : vec K) p1 p2 (tol : K) max_iter cb ls st max_bt
  (factor : K) hL (r : ts_result K),
  minimize_three_split fg x0 p1 p2 tol max_iter cb ls st max_bt factor hL = Ok r ->
  (0 < max_bt)%nat /\ (tr_nit r < max_iter)%nat /\ length (tr_iters r) = S (tr_nit r) /\
  (tr_success r = true ->
     (0 < tr_nit r)%nat /\ nltb K (tr_cert r) tol = true /\ forall c, cb = Some c -> c (tr_log r) = false) /\
  (tr_success r = false ->
     (exists c, cb = Some c /\ c (tr_log r) = true) \/
     (S (tr_nit r) = max_iter /\ (tr_nit r = 0%nat \/ nltb K (tr_cert r) tol = false))) /\
  (* the callback is called once per iteration, with the iterate of that iteration, and the first
     False stops the run *)
  (forall c, cb = Some c -> length (tr_log r) = S (tr_nit r) /\
     (exists l rest, tr_log r = l :: rest /\ tsl_x l = tr_x r /\ tsl_it l = tr_nit r /\ tsl_cert l = tr_cert r) /\
     forall newer l rest, tr_log r = newer ++ l :: rest -> newer <> [] -> c (l :: rest) = false) /\
  (* no earlier iteration met the tolerance *)
  (forall newer i older, tr_iters r = newer ++ i :: older -> newer <> [] -> older <> [] -> nltb K (ti_cert i) tol = false).
Proof. exact main_C51_contract. Qed.
Print Assumptions C51_contract.
Theorem C51_errors : forall (K : Num) (fg : vec K -> K * vec K) (x0 : vec K) p1 p2 (tol : K) max_iter cb ls st max_bt
  (factor : K) hL,
  let run := minimize_three_split fg x0 p1 p2 tol max_iter cb ls st max_bt factor hL in
  (max_bt = 0%nat -> run = Err ValueError) /\
  ((0 < max_bt)%nat -> max_iter = 0%nat -> run = Err UnboundLocalError) /\
  ((0 < max_bt)%nat -> (0 < max_iter)%nat -> exists r, run = Ok r).
Proof. exact main_C51_errors. Qed.
Print Assumptions C51_errors.
Theorem C51_trace : forall (K : Num) (fg : vec K -> K * vec K) (x0 : vec K) p1 p2 (tol : K) max_iter cb ls st max_bt
  (factor : K) hL (r : ts_result K),
  minimize_three_split fg x0 p1 p2 tol max_iter cb ls st max_bt factor hL = Ok r ->
  let prox1 x s := match p1 with Some p => p x s | None => x end in
  let prox2 x s := match p2 with Some p => p x s | None => x end in
  let s0 := match st with Some s => s | None => ndiv K n1 (init_lipschitz fg x0) end in
  let search_on := match st with Some _ => ls | None => true end in
  forall newer i older, tr_iters r = newer ++ i :: older ->
  let z := ti_z i in let u := ti_u i in let fk := fst (fg z) in let g := snd (fg z) in
  let excess t x := nsub K (fst (fg x)) (nadd K (nadd K fk (vdot g (vsub x z))) (ndiv K (nsq (vnorm (vsub x z))) (nmul K (nofZ K 2) t))) in
  let trial t := prox1 (vsub z (vscale t (vadd u g))) t in
  match older with
  | [] => z = prox2 x0 s0 /\ ti_in i = s0 /\ u = vzeros (length (prox1 (vsub z (vscale s0 g)) s0))
  | p :: _ => z = ti_znext p /\ u = ti_unext p /\ ti_in i = ti_out p
  end /\
  ti_ls i = nltb K (nlit 1 10000000) (vnorm (vsub (trial (ti_in i)) z)) && search_on /\
  ti_x i = trial (ti_prox i) /\
  ti_znext i = prox2 (vadd (ti_x i) (vscale (ti_step i) u)) (ti_step i) /\
  ti_unext i = vadd u (vdivs (vsub (ti_x i) (ti_znext i)) (ti_step i)) /\
  ti_cert i = ndiv K (vnorm (vsub (ti_x i) z)) (ti_step i) /\
  (ti_ls i = false -> ti_prox i = ti_in i /\ ti_step i = ti_in i /\ ti_out i = ti_in i) /\
  (ti_ls i = true -> exists j, (j < max_bt)%nat /\ ti_prox i = Nat.iter j (fun t => nmul K t factor) (ti_in i) /\
     (forall m, (m < j)%nat -> let t := Nat.iter m (fun t => nmul K t factor) (ti_in i) in
        nleb K (excess t (trial t)) (nlit 1 4503599627370496) = false) /\
     (if ti_found i then nleb K (excess (ti_prox i) (ti_x i)) (nlit 1 4503599627370496) = true /\ ti_step i = ti_prox i
      else nleb K (excess (ti_prox i) (ti_x i)) (nlit 1 4503599627370496) = false /\ S j = max_bt /\
           ti_step i = nmul K (ti_prox i) factor) /\
     (hL = None -> ti_out i = ti_step i)).
Proof. exact main_C51_trace. Qed.
Print Assumptions C51_trace.
Theorem C51_steps : forall (f : vec RN -> RN) (gradf : vec RN -> vec RN) (x0 : vec RN) p1 p2 (tol : RN) max_iter cb ls st max_bt
  (factor : RN) (r : ts_result RN),
  0 < factor <= 1 -> match st with Some s => 0 < s | None => True end ->
  minimize_three_split (fun x => (f x, gradf x)) x0 p1 p2 tol max_iter cb ls st max_bt factor None = Ok r ->
  let s0 := match st with Some s => s | None => 1 / init_lipschitz (fun x => (f x, gradf x)) x0 end in
  0 < tr_stepsize r <= s0 /\
  forall newer i older, tr_iters r = newer ++ i :: older ->
    0 < ti_step i <= s0 /\ tr_stepsize r <= ti_step i /\
    match older with [] => ti_step i <= s0 | p :: _ => ti_step i <= ti_step p end /\
    (ti_ls i = true -> ti_found i = true ->
       f (ti_x i) <= f (ti_z i) + dot (gradf (ti_z i)) (vminus (ti_x i) (ti_z i))
                     + dot (vminus (ti_x i) (ti_z i)) (vminus (ti_x i) (ti_z i)) / (2 * ti_step i) + / 2 ^ 52) /\
    (ti_ls i = true -> ti_found i = false -> ti_step i = ti_in i * factor ^ max_bt) /\
    (ti_ls i = false -> ti_step i = ti_in i).
Proof. exact main_C51_steps. Qed.
Print Assumptions C51_steps.
Theorem C51_smooth : forall n (f : vec RN -> RN) (gradf : vec RN -> vec RN) domg domh g h
  (p1 p2 : option (vec RN -> RN -> vec RN)) (x0 : vec RN) (tol : RN) max_iter cb ls (st : option RN) max_bt (factor : RN)
  (r : ts_result RN) (L : R),
  convex_on n domg g -> convex_on n domh h ->
  (forall x s, length x = n -> 0 < s -> is_prox_on domg g s x (match p1 with Some p => p x s | None => x end)) ->
  (forall x s, length x = n -> 0 < s -> is_prox_on domh h s x (match p2 with Some p => p x s | None => x end)) ->
  (forall x, length x = n -> length (gradf x) = n) -> length x0 = n ->
  match st with Some s => 0 < s | None => True end -> 0 < factor <= 1 ->
  0 < L -> smooth_upper n L f gradf ->
  minimize_three_split (fun x => (f x, gradf x)) x0 p1 p2 tol max_iter cb ls st max_bt factor None = Ok r ->
  let s0 := match st with Some s => s | None => 1 / init_lipschitz (fun x => (f x, gradf x)) x0 end in
  s0 * factor ^ (max_bt - 1) <= 1 / L ->
  Rmin s0 (factor / L) <= tr_stepsize r /\ Forall (fun i => ti_ls i = true -> ti_found i = true) (tr_iters r).
Proof. exact main_C51_smooth. Qed.
Print Assumptions C51_smooth.
Example C51_nonvacuous : exists r : ts_result F64,
  minimize_three_split (K:=F64) f_2sq [n1] None None (nlit 1 10) 20 None true (Some n1) 100 (nlit 7 10) None = Ok r /\
  (tr_success r && Nat.ltb 0 (tr_nit r) && forallb (fun i => ti_found i) (filter (fun i => ti_ls i) (tr_iters r))
   && nltb F64 (tr_stepsize r) (nlit 6 10)) = true.
Proof. apply run_check. vm_compute. reflexivity. Qed.
Example C51_callback_nonvacuous : exists r : ts_result F64,
  minimize_three_split (K:=F64) f_2sq [n1] None None n0 6 (Some (fun log => Nat.eqb (length log) 2)) true (Some n1) 100 (nlit 7 10) None = Ok r /\
  (negb (tr_success r) && Nat.eqb (tr_nit r) 1) = true.
Proof. apply run_check. vm_compute. reflexivity. Qed.

(** C52: residuals and fixed points of the primal-dual iteration *)
Theorem C52_residual : forall n m (f : vec RN -> RN) (gradf : vec RN -> vec RN) domg domh g h (p1 p2 : option (vec RN -> RN -> vec RN))
  (L : option ((vec RN -> vec RN) * (vec RN -> vec RN))) (x0 : vec RN) (tol : RN) max_iter cb (step : RN) step2 ls mls fuel (r : pd_result RN) (M : R),
  let mv x := match L with Some (a, _) => a x | None => x end in
  let rmv y := match L with Some (_, b) => b y | None => y end in
  convex_on n domg g -> convex_on m domh h ->
  (forall x s, length x = n -> 0 < s -> is_prox_on domg g s x (match p1 with Some p => p x s | None => x end)) ->
  (forall x s, length x = m -> 0 < s -> is_prox_on domh h s x (match p2 with Some p => p x s | None => x end)) ->
  (forall x, length x = n -> length (gradf x) = n) ->
  (forall x, length x = n -> length (mv x) = m) -> (forall y, length y = m -> length (rmv y) = n) ->
  (forall a b, length a = m -> length b = m -> norm2 (vminus (rmv a) (rmv b)) <= M * norm2 (vminus a b)) -> 0 <= M ->
  length x0 = n -> 0 < step -> match step2 with Some t => 0 < t | None => True end ->
  minimize_primal_dual (fun x => (f x, gradf x)) x0 p1 p2 L tol max_iter cb step step2 ls mls fuel = Ok r ->
  forall i, In i (pr_iters r) ->
  let x := pi_x i in let x' := ps_x (pi_step i) in let y := pi_y i in let y' := pi_ynext i in
  let dx := norm2 (vminus x' x) in let dy := norm2 (vminus y' y) in
  0 < pi_tau i /\ 0 < ps_sigma (pi_step i) /\
  exists a v th, subgrad m domh h a y' /\ norm2 (vminus a (mv x)) = dy / pi_tau i /\
    subgrad n domg g x' v /\ 0 < th /\ (ls = false -> th = 1) /\
    norm2 (vplus (vplus (gradf x) (rmv y')) v) <= dx / ps_sigma (pi_step i) + M * th * dy.
Proof. exact main_C52_residual. Qed.
Print Assumptions C52_residual.
Theorem C52_fixed_point : forall n m (f : vec RN -> RN) (gradf : vec RN -> vec RN) domg domh g h (p1 p2 : option (vec RN -> RN -> vec RN))
  (L : option ((vec RN -> vec RN) * (vec RN -> vec RN))) (x0 : vec RN) (tol : RN) max_iter cb (step : RN) step2 ls mls fuel (r : pd_result RN),
  let mv x := match L with Some (a, _) => a x | None => x end in
  let rmv y := match L with Some (_, b) => b y | None => y end in
  convex_on n domg g -> convex_on m domh h -> first_order n f gradf ->
  (forall x s, length x = n -> 0 < s -> is_prox_on domg g s x (match p1 with Some p => p x s | None => x end)) ->
  (forall x s, length x = m -> 0 < s -> is_prox_on domh h s x (match p2 with Some p => p x s | None => x end)) ->
  (forall x, length x = n -> length (gradf x) = n) ->
  (forall x, length x = n -> length (mv x) = m) -> (forall y, length y = m -> length (rmv y) = n) ->
  (* rmatvec is the transpose of matvec *)
  (forall x y, length x = n -> length y = m -> dot (mv x) y = dot x (rmv y)) ->
  length x0 = n -> 0 < step -> match step2 with Some t => 0 < t | None => True end ->
  minimize_primal_dual (fun x => (f x, gradf x)) x0 p1 p2 L tol max_iter cb step step2 ls mls fuel = Ok r ->
  forall i, In i (pr_iters r) -> ps_x (pi_step i) = pi_x i -> pi_ynext i = pi_y i ->
  is_min n (fun x => domg x /\ domh (mv x)) (fun x => f x + g x + h (mv x)) (pi_x i) /\
  subgrad m domh h (mv (pi_x i)) (pi_y i).
Proof. exact main_C52_fixed_point. Qed.
Print Assumptions C52_fixed_point.
Example C52_nonvacuous : forall n (alpha a : R) (b x0 : vec RN) (tol : RN) mls fuel, 0 <= alpha -> 0 <= a -> length b = n -> length x0 = n ->
  0 < tol -> (0 < mls)%nat ->
  box_hyps n alpha a b /\
  exists max_iter r, minimize_primal_dual (K:=RN) (fun x => (sqd b x, vminus x b)) x0 (Some (@l1norm_prox RN alpha))
    (Some (fun x _ => @linf_prox RN a x)) None tol max_iter None (1 / 2) (Some (1 / 2)) false mls fuel = Ok r /\ pr_success r = true.
Proof. intros. split; [apply box_ok; auto|apply (box_primal_dual n); auto]. Qed.
(** a run that starts at the solution 0 stays there *)
Example C52_fixed_nonvacuous : exists r : pd_result F64,
  minimize_primal_dual (K:=F64) f_2sq [n0] None None None (nlit 1 100) 5 None n1 None true 1 100 = Ok r /\
  match pr_iters r with i :: _ => neqb F64 (nth 0 (ps_x (pi_step i)) n0) (nth 0 (pi_x i) n0) && neqb F64 (nth 0 (pi_ynext i) n0) (nth 0 (pi_y i) n0) | [] => false end = true.
Proof. apply run_check. vm_compute. reflexivity. Qed.

(** C53: meaning of success *)
Theorem C53_success : forall (K : Num) (fg : vec K -> K * vec K) x0 p1 p2 L (tol : K) max_iter cb (step : K) step2 ls mls fuel (r : pd_result K),
  minimize_primal_dual fg x0 p1 p2 L tol max_iter cb step step2 ls mls fuel = Ok r ->
  (pr_nit r < max_iter)%nat /\ length (pr_iters r) = S (pr_nit r) /\
  (exists i older, pr_iters r = i :: older /\ pr_x r = ps_x (pi_step i) /\ pr_y r = pi_ynext i /\
     pi_x i = match older with [] => x0 | p :: _ => ps_x (pi_step p) end /\
     pi_y i = match older with [] => match L with Some (mv, _) => mv x0 | None => x0 end | p :: _ => pi_ynext p end /\
     (pr_success r = true ->
        let incr := nadd K (vnorm (vsub (pr_x r) (pi_x i))) (vnorm (vsub (pr_y r) (pi_y i))) in
        pr_cert r = Some incr /\ nltb K incr tol = true /\ Nat.modulo (pr_nit r) 100 = 0%nat)) /\
  (pr_success r = false ->
     (exists c, cb = Some c /\ c (pr_log r) = true /\ length (pr_log r) = S (pr_nit r)) \/ S (pr_nit r) = max_iter) /\
  (pr_success r = false -> forall c, pr_cert r = Some c -> nltb K c tol = false).
Proof. exact main_C53_success. Qed.
Print Assumptions C53_success.
Example C53_nonvacuous : exists r : pd_result F64,
  minimize_primal_dual (K:=F64) (fun x => (nmul F64 (nlit 1 2) (vdot x x), x)) [nlit 1 1000] None None None (nlit 1 100) 12 None (nlit 1 2) None false 1 0 = Ok r /\
  pr_success r = true.
Proof. apply run_check. vm_compute. reflexivity. Qed.

(** C54.  Full property (false): reaching max_iter without meeting tol sets success False and, for
    the primal-dual solver, warns.  success is right in both solvers; the warning is never issued
    (line 335 tests it >= max_iter after "for it in range(max_iter)"). *)
Theorem C54_flag_partial : forall (K : Num) (fg : vec K -> K * vec K) (x0 : vec K) p1 p2 L (tol : K) max_iter (step : K) step2 ls mls fuel st max_bt factor hL,
  (forall r, minimize_primal_dual fg x0 p1 p2 L tol max_iter None step step2 ls mls fuel = Ok r ->
     (pr_success r = true <-> exists c, pr_cert r = Some c /\ nltb K c tol = true) /\ (pr_success r = false -> S (pr_nit r) = max_iter)) /\
  (forall r, minimize_three_split fg x0 p1 p2 tol max_iter None ls st max_bt factor hL = Ok r ->
     (tr_success r = true <-> (0 < tr_nit r)%nat /\ nltb K (tr_cert r) tol = true) /\ (tr_success r = false -> S (tr_nit r) = max_iter)).
Proof. exact main_C54_flag_partial. Qed.
Print Assumptions C54_flag_partial.
Theorem C54_warning_refuted : forall (K : Num) (fg : vec K -> K * vec K) x0 p1 p2 L (tol : K) max_iter cb (step : K) step2 ls mls fuel (r : pd_result K),
  minimize_primal_dual fg x0 p1 p2 L tol max_iter cb step step2 ls mls fuel = Ok r -> pr_warned r = false.
Proof. exact main_C54_warning_refuted. Qed.
Print Assumptions C54_warning_refuted.
Theorem C54_errors : forall (K : Num) (fg : vec K -> K * vec K) x0 p1 p2 L (tol : K) max_iter cb (step : K) step2 ls mls fuel,
  let run := minimize_primal_dual fg x0 p1 p2 L tol max_iter cb step step2 ls mls fuel in
  (mls = 0%nat -> run = Err ValueError) /\
  ((0 < mls)%nat -> max_iter = 0%nat -> run = Err UnboundLocalError) /\
  (* without line search the run always completes *)
  ((0 < mls)%nat -> (0 < max_iter)%nat -> ls = false -> exists r, run = Ok r).
Proof. exact main_C54_errors. Qed.
Print Assumptions C54_errors.
Example C54_nonvacuous : exists r : pd_result F64,
  minimize_primal_dual (K:=F64) f_2sq [n1] None None None n0 3 None (nlit 1 1000) None false 1 0 = Ok r /\
  (negb (pr_success r) && Nat.eqb (pr_nit r) 2) = true.
Proof. apply run_check. vm_compute. reflexivity. Qed.

(** C78: minimize_three_split with a fixed step s < 2/L succeeds for every tolerance *)
Theorem C78_fixed_step_converges : forall n (f : vec RN -> RN) (gradf : vec RN -> vec RN) domg domh g h
  (p1 p2 : option (vec RN -> RN -> vec RN)) (x0 : vec RN) (tol : RN) max_iter (s : RN) max_bt (factor : RN) (hL : option RN)
  (L : R) (zs us : list R),
  convex_on n domg g -> convex_on n domh h -> first_order n f gradf -> smooth_upper n L f gradf -> 0 < L ->
  (forall x s, length x = n -> 0 < s -> is_prox_on domg g s x (match p1 with Some p => p x s | None => x end)) ->
  (forall x s, length x = n -> 0 < s -> is_prox_on domh h s x (match p2 with Some p => p x s | None => x end)) ->
  (forall x, length x = n -> length (gradf x) = n) -> length x0 = n ->
  0 < s -> s * L < 2 -> 0 < tol -> (0 < max_bt)%nat ->
  (* a solution with its multiplier *)
  length zs = n -> subgrad n domh h zs us -> subgrad n domg g zs (smul (-1) (vplus us (gradf zs))) ->
  (* enough iterations *)
  let prox1 x s := match p1 with Some p => p x s | None => x end in
  let prox2 x s := match p2 with Some p => p x s | None => x end in
  let z0 := prox2 x0 s in
  let w1 := prox1 (vminus z0 (smul s (gradf z0))) s in
  dist2 w1 (vplus zs (smul s us)) < (INR max_iter - 1) * ((1 - s * L / 2) * (s * tol * (s * tol))) ->
  exists r, minimize_three_split (fun x => (f x, gradf x)) x0 p1 p2 tol max_iter None false (Some s) max_bt factor hL = Ok r /\
    tr_success r = true.
Proof. exact main_C78_fixed_step_converges. Qed.
Print Assumptions C78_fixed_step_converges.
(** C80: minimize_primal_dual without line search succeeds under the Condat-Vu condition *)
Theorem C80_fixed_step_converges : forall n m (f : vec RN -> RN) (gradf : vec RN -> vec RN) domg domh g h (p1 p2 : option (vec RN -> RN -> vec RN))
  (L : option ((vec RN -> vec RN) * (vec RN -> vec RN))) (x0 : vec RN) (tol : RN) max_iter (step : RN) step2 mls fuel (Lf M : R) (xs ys : list R),
  let mv x := match L with Some (a, _) => a x | None => x end in
  let rmv y := match L with Some (_, b) => b y | None => y end in
  let tau := match step2 with Some t => t | None => / 2 * step end in
  convex_on n domg g -> convex_on m domh h -> first_order n f gradf -> smooth_upper n Lf f gradf -> 0 < Lf ->
  (forall x s, length x = n -> 0 < s -> is_prox_on domg g s x (match p1 with Some p => p x s | None => x end)) ->
  (forall x s, length x = m -> 0 < s -> is_prox_on domh h s x (match p2 with Some p => p x s | None => x end)) ->
  (forall x, length x = n -> length (gradf x) = n) ->
  (forall x, length x = n -> length (mv x) = m) -> (forall y, length y = m -> length (rmv y) = n) ->
  (forall x y, length x = n -> length y = m -> dot (mv x) y = dot x (rmv y)) ->
  (forall x y, length x = n -> length y = n -> norm2 (vminus (mv x) (mv y)) <= M * norm2 (vminus x y)) -> 0 <= M ->
  length x0 = n -> 0 < step -> 0 < tau -> 0 < tol -> (0 < mls)%nat ->
  (* the Condat-Vu step-size condition *)
  0 < / step - Lf / 2 -> M * M < (/ step - Lf / 2) * / tau ->
  (* a saddle point *)
  length xs = n -> length ys = m -> subgrad m domh h (mv xs) ys -> subgrad n domg g xs (smul (-1) (vplus (rmv ys) (gradf xs))) ->
  (* enough iterations *)
  let k := ((/ step - Lf / 2) * / tau - M * M) / ((/ step - Lf / 2) + / tau) in
  dist2 x0 xs / step + dist2 (mv x0) ys / tau + 2 * dot (vminus (mv x0) (mv xs)) (vminus (mv x0) ys)
    < INR ((max_iter + 99) / 100) * (k / 2 * (tol * tol)) ->
  exists r, minimize_primal_dual (fun x => (f x, gradf x)) x0 p1 p2 L tol max_iter None step step2 false mls fuel = Ok r /\
    pr_success r = true.
Proof. exact main_C80_fixed_step_converges. Qed.
Print Assumptions C80_fixed_step_converges.
(** both are met by the problem of C50_nonvacuous and C52_nonvacuous, which are proved from them *)

(** C79.  Full property (false): a step accepted by the primal-dual line search satisfies the stability
    condition s t |L d|^2 + 2 s D_f <= |d|^2 (Malitsky and Pock 2018, the cited reference).  The code
    compares with |L d|^2 instead of |d|^2: proved what is accepted (stable when |L|^2 <= 2); for
    f = g = 0, h = t^2/2, L = 10 the default solver violates the condition in each of 12 iterations
    and |x| exceeds 10^19. *)
Theorem C79_accepted_partial : forall (f : vec RN -> RN) (gradf : vec RN -> vec RN) (p1 p2 : option (vec RN -> RN -> vec RN))
  (L : option ((vec RN -> vec RN) * (vec RN -> vec RN))) (x0 : vec RN) (tol : RN) max_iter cb (step : RN) step2 mls fuel (r : pd_result RN) (M : R),
  let mv x := match L with Some (a, _) => a x | None => x end in
  0 <= M -> (forall x y, norm2 (vminus (mv x) (mv y)) <= M * norm2 (vminus x y)) ->
  minimize_primal_dual (fun x => (f x, gradf x)) x0 p1 p2 L tol max_iter cb step step2 true mls fuel = Ok r ->
  forall i, In i (pr_iters r) ->
  let x := pi_x i in let x' := ps_x (pi_step i) in let s := ps_sigma (pi_step i) in let t := ps_tau (pi_step i) in
  let dL := vminus (mv x') (mv x) in let d := vminus x' x in
  (norm2 dL <= / 10 ^ 10 /\ t = pi_tau i) \/
  (s * t * dot dL dL + 2 * s * (f x' - f x - dot (gradf x) d) <= / 2 * dot dL dL /\
   s * t * dot dL dL + 2 * s * (f x' - f x - dot (gradf x) d) <= M * M / 2 * dot d d).
Proof. exact main_C79_accepted_partial. Qed.
Print Assumptions C79_accepted_partial.
Theorem C79_unstable_refuted : exists r : pd_result F64,
  minimize_primal_dual f_zero [n1] None (Some p_half_sq) (Some L10) (nlit 1 1000000) 12 None n1 None true 1000 100 = Ok r /\
  (pr_success r = false /\ pr_nit r = 11%nat /\
   forallb mp_violated (pr_iters r) = true /\
   nltb F64 (nofZ F64 (10 ^ 19)) (vnorm (pr_x r)) = true).
Proof. exact main_C79_unstable_refuted. Qed.
Print Assumptions C79_unstable_refuted.

(** C81.  Full property (false): with h_Lipschitz the step size stays a positive number.  Proved when
    the quadratic bound holds exactly at the accepted point; false when it holds only up to machine
    epsilon: the square root of a negative number gives step_size = x = NaN. *)
Theorem C81_update_partial : forall (f : vec RN -> RN) (gradf : vec RN -> vec RN) (x0 : vec RN) p1 p2 (tol : RN) max_iter cb ls st max_bt
  (factor h : RN) (r : ts_result RN),
  0 < factor <= 1 ->
  minimize_three_split (fun x => (f x, gradf x)) x0 p1 p2 tol max_iter cb ls st max_bt factor (Some h) = Ok r ->
  forall i, In i (tr_iters r) -> 0 < ti_in i ->
  let d := vminus (ti_x i) (ti_z i) in
  (ti_ls i = false -> ti_out i = ti_in i) /\
  (ti_ls i = true -> ti_out i <= 102 / 100 * ti_step i) /\
  (ti_ls i = true -> h = 0 -> ti_out i = 102 / 100 * ti_step i) /\
  (ti_ls i = true ->
     f (ti_x i) <= f (ti_z i) + dot (gradf (ti_z i)) d + dot d d / (2 * ti_prox i) ->
     ti_step i <= ti_out i).
Proof. exact main_C81_update_partial. Qed.
Print Assumptions C81_update_partial.
Theorem C81_nan_refuted : exists r : ts_result F64,
  minimize_three_split f_c101 [nlit 2 10000000] None None (nlit 1 1000000000) 3 None true (Some n1) 100 (nlit 7 10) (Some (nlit 1 100000000)) = Ok r /\
  (tr_success r = false /\ is_nan (tr_stepsize r) = true /\ forallb is_nan (tr_x r) = true /\ length (tr_x r) = 1%nat).
Proof. exact main_C81_nan_refuted. Qed.
Print Assumptions C81_nan_refuted.
Example C81_nonvacuous : exists r : ts_result F64,
  minimize_three_split (K:=F64) f_2sq [n1] None None n0 3 None true (Some n1) 100 (nlit 7 10) (Some n1) = Ok r /\
  forallb (fun i => ti_ls i && nltb F64 n0 (ti_in i) && nltb F64 (ti_step i) (ti_out i)) (tr_iters r) = true.
Proof. apply run_check. vm_compute. reflexivity. Qed.

(** C82.  Full property (false): max_iter_ls bounds the rounds of the primal-dual line search.  It is
    never used: more than 9 rounds with max_iter_ls = 1, and an endless loop when f returns NaN.
    Proved: over the reals the search ends for smooth f and L bounded below. *)
Theorem C82_terminates_partial : forall n m (f : vec RN -> RN) (gradf : vec RN -> vec RN) (p1 p2 : option (vec RN -> RN -> vec RN))
  (L : option ((vec RN -> vec RN) * (vec RN -> vec RN))) (x0 : vec RN) (tol : RN) max_iter cb (step : RN) step2 ls mls (Lf c : R),
  let mv x := match L with Some (a, _) => a x | None => x end in
  let rmv y := match L with Some (_, b) => b y | None => y end in
  (forall x s, length x = n -> length (match p1 with Some p => p x s | None => x end) = n) ->
  (forall x s, length x = m -> length (match p2 with Some p => p x s | None => x end) = m) ->
  (forall x, length x = n -> length (gradf x) = n) ->
  (forall x, length x = n -> length (mv x) = m) -> (forall y, length y = m -> length (rmv y) = n) ->
  0 <= Lf -> smooth_upper n Lf f gradf ->
  (* L is bounded below *)
  (forall x y, length x = n -> length y = n -> norm2 (vminus x y) <= c * norm2 (vminus (mv x) (mv y))) ->
  length x0 = n -> 0 < step -> match step2 with Some t => 0 < t | None => True end ->
  (0 < mls)%nat -> (0 < max_iter)%nat ->
  exists N, forall fuel, (N <= fuel)%nat ->
    exists r, minimize_primal_dual (fun x => (f x, gradf x)) x0 p1 p2 L tol max_iter cb step step2 ls mls fuel = Ok r.
Proof. exact main_C82_terminates_partial. Qed.
Print Assumptions C82_terminates_partial.
Theorem C82_rounds_refuted : 
  (exists r : pd_result F64, minimize_primal_dual f_2sq [n1] None None None n0 1 None n1 None true 1 10 = Ok r) /\
  minimize_primal_dual f_2sq [n1] None None None n0 1 None n1 None true 1 9 = Err OutOfFuel.
Proof. exact main_C82_rounds_refuted. Qed.
Print Assumptions C82_rounds_refuted.
Theorem C82_unbounded_refuted : exists (fg : vec F64 -> F64 * vec F64) (x0 : vec F64),
  forall tol max_iter cb step step2 mls fuel, (0 < mls)%nat -> (0 < max_iter)%nat ->
  minimize_primal_dual fg x0 None None None tol max_iter cb step step2 true mls fuel = Err OutOfFuel.
Proof. exact main_C82_unbounded_refuted. Qed.
Print Assumptions C82_unbounded_refuted.
Example C82_nonvacuous : forall n b, length b = n ->
  smooth_upper n 1 (sqd b) (fun x => vminus x b) /\ (forall x y : list R, length x = n -> length y = n -> norm2 (vminus x y) <= 1 * norm2 (vminus x y)).
Proof. intros. split; [apply sqd_smooth; auto|intros; lra]. Qed.
