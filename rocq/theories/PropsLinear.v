(** * Linear convergence (C92)

    Statements about [minimize_pg] (ModelProxGrad.v) at the real instance, alone and composed with the losses of
    ModelLoss.v and the l1 penalty of ModelPenalty.v.  [is_min], [convex_on], [is_prox_on] are in Spec.v /
    ConvexFacts.v; [ridge], [mean_loss], [opnorm] in SpecLoss.v. *)
From Coq Require Import Reals List Bool Lra Lia Psatz.
From Verif Require Import Num Vec Spec RVec ConvexFacts SpecLoss LossFacts LossLink LossMain LossMain2 ModelPenalty ModelLoss ModelUtils ModelProxGrad ProxGradFacts ProxGradMain ProxGradRuns LossEnd PropsLoss ProxGradLin.
Import ListNotations.
Open Scope R_scope.
Local Notation log1pR := (fun t : R => ln (1 + t)) (only parsing).

(** C92: with a mu-strongly convex f, every iteration multiplies the squared distance to the minimiser by at
    most 1 - mu*m, where m bounds the steps from below *)
Theorem C92_backtracking : forall n (f : list R -> R) (gradf : list R -> list R) (dom : list R -> Prop) (g : list R -> R) (prox : list R -> R -> list R) (L mu : R),
  (forall x, length x = n -> length (gradf x) = n) ->
  convex_on n dom g ->
  (forall x s, length x = n -> 0 < s -> is_prox_on dom g s x (prox x s)) ->
  0 <= mu -> (forall u v, length u = n -> length v = n -> f u + dot (gradf u) (vminus v u) + mu / 2 * dist2 v u <= f v) ->
  0 < L -> (forall u v, length u = n -> length v = n -> f v <= f u + dot (gradf u) (vminus v u) + L / 2 * dist2 v u) ->
  forall (cb : option (list (event RN) -> bool)) (tol : R) max_iter max_bt (factor : R) tc (x0 : list R) (r : pg_result RN) (y : list R),
  0 < factor -> length x0 = n -> is_min n dom (fun z => f z + g z) y ->
  minimize_pg (K:=RN) (fun x => (f x, gradf x)) prox cb SBacktracking tol max_iter max_bt factor false tc x0 = Ok r ->
  Forall (fun it => it_found it = true) (r_iters r) ->
  let m := Rmin (18 / 10 / init_lipschitz (K:=RN) (fun x => (f x, gradf x)) x0) (factor / L) in
  dist2 (r_x r) y <= (1 - mu * m) ^ length (r_iters r) * dist2 x0 y /\
  (r_iters r <> [] -> f (r_x r) + g (r_x r) - (f y + g y) <= (1 - mu * m) ^ length (r_iters r) * dist2 x0 y / (2 * m)).
Proof. exact main_C92_backtracking. Qed.
Print Assumptions C92_backtracking.
Theorem C92_fixed_step : forall n (f : list R -> R) (gradf : list R -> list R) (dom : list R -> Prop) (g : list R -> R) (prox : list R -> R -> list R) (L mu s : R),
  (forall x, length x = n -> length (gradf x) = n) ->
  convex_on n dom g ->
  (forall x s, length x = n -> 0 < s -> is_prox_on dom g s x (prox x s)) ->
  0 <= mu -> (forall u v, length u = n -> length v = n -> f u + dot (gradf u) (vminus v u) + mu / 2 * dist2 v u <= f v) ->
  0 < L -> (forall u v, length u = n -> length v = n -> f v <= f u + dot (gradf u) (vminus v u) + L / 2 * dist2 v u) ->
  0 < s <= 1 / L ->
  forall (cb : option (list (event RN) -> bool)) (tol : R) max_iter max_bt (factor : R) tc (x0 : list R) (r : pg_result RN) (y : list R),
  length x0 = n -> is_min n dom (fun z => f z + g z) y ->
  minimize_pg (K:=RN) (fun x => (f x, gradf x)) prox cb (SCallable (K:=RN) (fun _ => s)) tol max_iter max_bt factor false tc x0 = Ok r ->
  dist2 (r_x r) y <= (1 - mu * s) ^ length (r_iters r) * dist2 x0 y /\
  (r_iters r <> [] -> f (r_x r) + g (r_x r) - (f y + g y) <= (1 - mu * s) ^ length (r_iters r) * dist2 x0 y / (2 * s)).
Proof. exact main_C92_fixed_step. Qed.
Print Assumptions C92_fixed_step.
(** the run ends with success = True as soon as max_iter is large enough for the tolerance *)
Theorem C92_success : forall n (f : list R -> R) (gradf : list R -> list R) (dom : list R -> Prop) (g : list R -> R) (prox : list R -> R -> list R) (L mu s : R),
  (forall x, length x = n -> length (gradf x) = n) ->
  convex_on n dom g ->
  (forall x s, length x = n -> 0 < s -> is_prox_on dom g s x (prox x s)) ->
  0 <= mu -> (forall u v, length u = n -> length v = n -> f u + dot (gradf u) (vminus v u) + mu / 2 * dist2 v u <= f v) ->
  0 < L -> (forall u v, length u = n -> length v = n -> f v <= f u + dot (gradf u) (vminus v u) + L / 2 * dist2 v u) ->
  0 < s <= 1 / L ->
  forall (tol : R) max_iter max_bt (factor : R) tc (x0 : list R) (y : list R),
  length x0 = n -> is_min n dom (fun z => f z + g z) y -> max_bt <> 0%nat -> 0 < tol ->
  2 * sqrt ((1 - mu * s) ^ max_iter * dist2 x0 y) < s * tol ->
  exists r : pg_result RN,
  minimize_pg (K:=RN) (fun x => (f x, gradf x)) prox None (SCallable (K:=RN) (fun _ => s)) tol max_iter max_bt factor false tc x0 = Ok r /\ r_success r = true.
Proof. exact main_C92_success. Qed.
Print Assumptions C92_success.
(** the ridge losses of copt/loss.py, alpha = the strong convexity constant, step = 1/lipschitz *)
Theorem C92_square_l1 : forall (svds1 : matrix RN -> result RN) (A : matrix RN) (b : list R) (alpha lam s L : R) (xs : list R) cb (tol : R) max_iter max_bt (factor : R) tc (x0 : list R) (r : pg_result RN),
  rect (m_cols A) (m_rows A) -> length b = length (m_rows A) -> (0 < length (m_rows A))%nat -> 0 <= alpha -> 0 <= lam ->
  svds1 A = Ok s -> opnorm (m_cols A) (m_rows A) s -> sq_lipschitz (K:=RN) svds1 A alpha = Ok L -> 0 < L ->
  is_min (m_cols A) (fun _ => True) (fun y => ridge alpha (mean_loss sq_term (m_rows A) b) y + lam * l1 y) xs -> length x0 = m_cols A ->
  minimize_pg (K:=RN) (as_fg (fun x => sq_f_grad (K:=RN) A b alpha x true)) (l1norm_prox (K:=RN) lam) cb (SCallable (K:=RN) (fun _ => 1 / L)) tol max_iter max_bt factor false tc x0 = Ok r ->
  dist2 (r_x r) xs <= (1 - alpha / L) ^ length (r_iters r) * dist2 x0 xs /\
  (r_iters r <> [] -> (ridge alpha (mean_loss sq_term (m_rows A) b) (r_x r) + lam * l1 (r_x r)) - (ridge alpha (mean_loss sq_term (m_rows A) b) xs + lam * l1 xs)
    <= (1 - alpha / L) ^ length (r_iters r) * (L / 2 * dist2 x0 xs)).
Proof. exact main_C92_square_l1. Qed.
Print Assumptions C92_square_l1.
Theorem C92_huber_l1 : forall (svds1 : matrix RN -> result RN) (A : matrix RN) (b : list R) (alpha delta lam s L : R) (xs : list R) cb (tol : R) max_iter max_bt (factor : R) tc (x0 : list R) (r : pg_result RN),
  rect (m_cols A) (m_rows A) -> length b = length (m_rows A) -> (0 < length (m_rows A))%nat -> 0 <= alpha -> 0 < delta -> 0 <= lam ->
  svds1 A = Ok s -> opnorm (m_cols A) (m_rows A) s -> hub_lipschitz (K:=RN) svds1 A alpha = Ok L -> 0 < L ->
  is_min (m_cols A) (fun _ => True) (fun y => ridge alpha (mean_loss (hub_term delta) (m_rows A) b) y + lam * l1 y) xs -> length x0 = m_cols A ->
  minimize_pg (K:=RN) (as_fg (fun x => hub_f_grad (K:=RN) A b alpha delta x true)) (l1norm_prox (K:=RN) lam) cb (SCallable (K:=RN) (fun _ => 1 / L)) tol max_iter max_bt factor false tc x0 = Ok r ->
  dist2 (r_x r) xs <= (1 - alpha / L) ^ length (r_iters r) * dist2 x0 xs /\
  (r_iters r <> [] -> (ridge alpha (mean_loss (hub_term delta) (m_rows A) b) (r_x r) + lam * l1 (r_x r)) - (ridge alpha (mean_loss (hub_term delta) (m_rows A) b) xs + lam * l1 xs)
    <= (1 - alpha / L) ^ length (r_iters r) * (L / 2 * dist2 x0 xs)).
Proof. exact main_C92_huber_l1. Qed.
Print Assumptions C92_huber_l1.
Theorem C92_logistic_l1 : forall (svds1 : matrix RN -> result RN) (A0 : option (matrix RN)) (A : matrix RN) (b : list R) (alpha lam s L : R) (xs : list R) cb (tol : R) max_iter max_bt (factor : R) tc (x0 : list R) (r : pg_result RN),
  log_init (K:=RN) A0 b = Ok A -> rect (m_cols A) (m_rows A) -> 0 <= alpha -> 0 <= lam ->
  svds1 A = Ok s -> opnorm (m_cols A) (m_rows A) s -> log_lipschitz (K:=RN) svds1 A alpha = Ok L -> 0 < L ->
  is_min (m_cols A) (fun _ => True) (fun y => ridge alpha (mean_loss log_term (m_rows A) b) y + lam * l1 y) xs -> length x0 = m_cols A ->
  minimize_pg (K:=RN) (as_fg (fun x => log_f_grad (K:=RN) exp log1pR A b alpha false x true)) (l1norm_prox (K:=RN) lam) cb (SCallable (K:=RN) (fun _ => 1 / L)) tol max_iter max_bt factor false tc x0 = Ok r ->
  dist2 (r_x r) xs <= (1 - alpha / L) ^ length (r_iters r) * dist2 x0 xs /\
  (r_iters r <> [] -> (ridge alpha (mean_loss log_term (m_rows A) b) (r_x r) + lam * l1 (r_x r)) - (ridge alpha (mean_loss log_term (m_rows A) b) xs + lam * l1 xs)
    <= (1 - alpha / L) ^ length (r_iters r) * (L / 2 * dist2 x0 xs)).
Proof. exact main_C92_logistic_l1. Qed.
Print Assumptions C92_logistic_l1.

(** the hypotheses hold for f = |x|^2/2 (mu = L = 1) in every dimension ... *)
Example C92_nonvacuous_strong : forall n u v, length u = n -> length v = n -> sq u + dot u (vminus v u) + 1 / 2 * dist2 v u <= sq v.
Proof.
  intros n u v Hu Hv. unfold sq. rewrite dist2_dot by lia. unfold vminus. rewrite !dot_lin_l, !dot_lin_r by leng.
  rewrite (dot_comm v u). lra.
Qed.
(** ... backtracking: eleven iterations from any point, each accepted ... *)
Example C92_nonvacuous_run : forall x0 : list R, exists r,
  minimize_pg (K:=RN) (fun x => (sq x, x)) (fun x _ => x) None SBacktracking 0 10 100 (6 / 10) false false x0 = Ok r /\
  Forall (fun it => it_found it = true) (r_iters r) /\ length (r_iters r) = 11%nat /\
  is_min (length x0) (fun _ => True) (fun z => sq z + 0) (repeat 0 (length x0)).
Proof.
  intros x0. destruct (sq_run x0) as (r & A & B & C). exists r. split; [exact A|split; [exact B|split; [exact C|]]].
  split; [apply repeat_length|split; [exact I|]]. intros y Hy _. unfold sq. rewrite dot_zeros_r. pose proof (dot_self_nonneg y). lra.
Qed.
(** ... half steps from (3, 4) reach tolerance 1 within ten iterations ... *)
Example C92_nonvacuous_success : exists r,
  minimize_pg (K:=RN) (fun x => (sq x, x)) (fun x _ => x) None (SCallable (K:=RN) (fun _ => 1 / 2)) 1 10 1 (6 / 10) false false [3; 4] = Ok r /\ r_success r = true.
Proof.
  apply (C92_success 2 sq (fun x => x) (fun _ => True) (fun _ => 0) (fun x _ => x) 1 1 (1 / 2)) with (y := [0; 0]); try lra; auto.
  - apply zero_convex.
  - intros. apply id_prox; auto.
  - apply C92_nonvacuous_strong.
  - apply sq_smooth.
  - split; [reflexivity|split; [exact I|]]. intros y Hy _. destruct y as [|a [|b [|? ?]]]; cbn in Hy; try lia.
    unfold sq, dot, Rsum; cbn. pose proof (Rle_0_sqr a). pose proof (Rle_0_sqr b). unfold Rsqr in *. lra.
  - assert (E : (1 - 1 * (1 / 2)) ^ 10 * dist2 [3; 4] [0; 0] = (5 / 32) * (5 / 32)) by (unfold dist2, Rsum; cbn; field).
    rewrite E, sqrt_square by lra. lra.
Qed.
(** ... and ridge regression (alpha = 1) with an l1 penalty *)
Example C92_nonvacuous_loss : exists (L : R) (r : pg_result RN), sq_lipschitz (K:=RN) (fun _ => Ok 5) exA 1 = Ok L /\ 0 < 1 / L < 1 /\
  is_min (m_cols exA) (fun _ => True) (fun y => ridge 1 (mean_loss sq_term (m_rows exA) [0; 0]) y + 2 * l1 y) [0; 0] /\
  minimize_pg (K:=RN) (as_fg (fun x => sq_f_grad (K:=RN) exA [0; 0] 1 x true)) (l1norm_prox (K:=RN) 2) None (SCallable (K:=RN) (fun _ => 1 / L)) 0 50 1 (/ 2) false false [7; -8] = Ok r /\
  length (r_iters r) = 51%nat.
Proof.
  destruct C88_nonvacuous as (L & _ & EL & PL & Hm & _). exists L.
  assert (Hok : exists r : pg_result RN, minimize_pg (K:=RN) (as_fg (fun x => sq_f_grad (K:=RN) exA [0; 0] 1 x true)) (l1norm_prox (K:=RN) 2) None (SCallable (K:=RN) (fun _ => 1 / L)) 0 50 1 (/ 2) false false [7; -8] = Ok r) by (apply pg_ok; auto).
  destruct Hok as (r & H). exists r. split; [exact EL|]. split; [|split; [exact Hm|split; [exact H|]]].
  - unfold sq_lipschitz in EL. cbn [bind] in EL. injection EL as EL.
    split; [apply Rdiv_lt_0_compat; lra|]. apply Rmult_lt_reg_r with L; auto. unfold Rdiv. rewrite Rmult_assoc, Rinv_l by lra. lra.
  - apply (main_C34_max_iter_refuted _ _ _ _ _ _ _ _ _ H).
Qed.
