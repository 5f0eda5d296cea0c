(** * Properties of copt/loss.py (C19-C26, C88, C89)

    [exp] and [fun t => ln (1 + t)] stand for np.exp and np.log1p, [sigma] for scipy.special.expit, and
    [svds1] for svds(A, k=1, return_singular_vectors=False)[0]. *)
From Coq Require Import Reals ZArith Bool List Lra Lia Permutation.
From Verif Require Import Num Vec Spec RVec SpecLoss ModelPenalty PenaltyFacts ModelTv ModelLoss ModelUtils ModelProxGrad ModelConstraint ModelFrankWolfe
  LossLink LossMain LossMain2 LossMain3 LossEnd SvdExists2.
Import ListNotations.
Open Scope R_scope.
Local Notation log1pR := (fun t : R => ln (1 + t)) (only parsing).

(** a data matrix used by the examples: two samples, largest singular value 5 *)
Definition exA : matrix RN := mkMat (K:=RN) [[3; 4]; [0; 0]] 2.
Lemma exA_ok : rect (m_cols exA) (m_rows exA) /\ log_init (K:=RN) (Some exA) [0; 1] = Ok exA /\ opnorm (m_cols exA) (m_rows exA) 5.
Proof.
  split; [repeat constructor|]. split; [apply log_init_R; split; [discriminate|]; split; [repeat constructor; lra|reflexivity]|].
  split; [lra|]. split.
  - intros [|a [|b [|? ?]]] Hv; cbn in Hv; try lia. unfold norm2. cbn. apply Rsqr_incr_0_var; [|apply Rmult_le_pos; [lra|apply sqrt_pos]].
    pose proof (Rle_0_sqr (3 * a + 4 * b)) as Q1. pose proof (Rle_0_sqr a) as Q2. pose proof (Rle_0_sqr b) as Q3. pose proof (Rle_0_sqr (4 * a - 3 * b)) as Q4. unfold Rsqr in Q1, Q2, Q3, Q4.
    rewrite Rsqr_mult, !Rsqr_sqrt by lra. unfold Rsqr. lra.
  - exists [3; 4]. split; [reflexivity|]. split; [intros E; injection E as E _; lra|]. unfold norm2. cbn.
    replace ((3 * 3 + (4 * 4 + 0)) * (3 * 3 + (4 * 4 + 0)) + ((0 * 3 + (0 * 4 + 0)) * (0 * 3 + (0 * 4 + 0)) + 0)) with (25 * 25) by ring.
    replace (3 * 3 + (4 * 4 + 0)) with (5 * 5) by ring. rewrite !sqrt_square by lra. ring.
Qed.

(** C19: value, without and with intercept.  The bound is the error of logsig's asymptotic branches. *)
Theorem C19_value : forall (A0 : option (matrix RN)) (A : matrix RN) (b : list R) (alpha : R) (x : list R),
  log_init (K:=RN) A0 b = Ok A -> rect (m_cols A) (m_rows A) -> length x = m_cols A ->
  exists v : R, log_call (K:=RN) exp log1pR A b alpha false x = Ok (RLoss (K:=RN) v) /\
    (exists g, log_f_grad (K:=RN) exp log1pR A b alpha false x true = Ok (RPair (K:=RN) v g)) /\
    Rabs (v - ridge alpha (mean_loss log_term (m_rows A) b) x) <= exp (-33) /\
    ((forall r, In r (m_rows A) -> -18 <= dot r x < 37) -> v = ridge alpha (mean_loss log_term (m_rows A) b) x).
Proof. exact main_C19_value. Qed.
Print Assumptions C19_value.
Theorem C19_intercept : forall (A0 : option (matrix RN)) (A : matrix RN) (b : list R) (alpha : R) (w : list R) (c : R),
  log_init (K:=RN) A0 b = Ok A -> rect (m_cols A) (m_rows A) -> length w = m_cols A ->
  exists v : R, log_call (K:=RN) exp log1pR A b alpha true (w ++ [c]) = Ok (RLoss (K:=RN) v) /\
    Rabs (v - (mean_loss_c log_term (m_rows A) b w c + alpha / 2 * dot w w)) <= exp (-33) /\
    ((forall r, In r (m_rows A) -> -18 <= dot r w + c < 37) -> v = mean_loss_c log_term (m_rows A) b w c + alpha / 2 * dot w w).
Proof. exact main_C19_intercept. Qed.
Print Assumptions C19_intercept.
Example C19_nonvacuous : exists v : R, log_call (K:=RN) exp log1pR exA [0; 1] 1 false [1; -1] = Ok (RLoss (K:=RN) v) /\
  v = mean_loss log_term (m_rows exA) [0; 1] [1; -1] + 1 / 2 * dot [1; -1] [1; -1].
Proof.
  destruct exA_ok as (H1 & H2 & _). destruct (C19_value (Some exA) exA [0; 1] 1 [1; -1] H2 H1 eq_refl) as (v & E & _ & V).
  exists v. split; [exact E|]. apply V. intros r [<-|[<-|[]]]; cbn; lra.
Qed.

(** C20: exact gradient *)
Theorem C20_gradient : forall (A0 : option (matrix RN)) (A : matrix RN) (b : list R) (alpha : R) (x : list R),
  log_init (K:=RN) A0 b = Ok A -> rect (m_cols A) (m_rows A) -> length x = m_cols A ->
  exists (v : R) (g : list R), log_f_grad (K:=RN) exp log1pR A b alpha false x true = Ok (RPair (K:=RN) v g) /\
    is_gradient (m_cols A) (ridge alpha (mean_loss log_term (m_rows A) b)) x g.
Proof. exact main_C20_gradient. Qed.
Print Assumptions C20_gradient.
Theorem C20_intercept : forall (A0 : option (matrix RN)) (A : matrix RN) (b : list R) (alpha : R) (w : list R) (c : R),
  log_init (K:=RN) A0 b = Ok A -> rect (m_cols A) (m_rows A) -> length w = m_cols A ->
  exists g : list R, log_f_grad (K:=RN) exp log1pR A b alpha true (w ++ [c]) true = Ok (RGrad (K:=RN) g) /\
    is_gradient (S (m_cols A)) (fun y => mean_loss_c log_term (m_rows A) b (removelast y) (last y 0) + alpha / 2 * dot (removelast y) (removelast y)) (w ++ [c]) g.
Proof. exact main_C20_intercept. Qed.
Print Assumptions C20_intercept.
Theorem C20_expit : forall (t b : R), expit_b (K:=RN) exp t b = sigma t - b /\ log_sigma (K:=RN) exp true t = sigma t /\ log_sigma (K:=RN) exp false t = sigma t.
Proof. exact main_C20_expit. Qed.
Print Assumptions C20_expit.
(** C21 *)
Theorem C21_square : forall (A : matrix RN) (b : list R) (alpha : R) (x : list R),
  rect (m_cols A) (m_rows A) -> length b = length (m_rows A) -> (0 < length (m_rows A))%nat -> length x = m_cols A ->
  let F := fun y => / (2 * INR (length (m_rows A))) * dist2 (matvec (m_rows A) y) b + alpha / 2 * dot y y in
  sq_call (K:=RN) A b alpha x = Ok (F x) /\ sq_f_grad (K:=RN) A b alpha x false = Ok (RLoss (K:=RN) (F x)) /\
  exists g, sq_f_grad (K:=RN) A b alpha x true = Ok (RPair (K:=RN) (F x) g) /\ is_gradient (m_cols A) F x g.
Proof. exact main_C21_square. Qed.
Print Assumptions C21_square.
Theorem C21_shapes : forall (K : Num) (A : matrix K) (b : vec K) (alpha : K) (x : vec K),
  (length x <> m_cols A -> sq_call A b alpha x = Err ValueError /\ forall rg, sq_f_grad A b alpha x rg = Err ValueError) /\
  (length x = m_cols A -> length b <> length (m_rows A) -> length b <> 1%nat -> length (m_rows A) <> 1%nat ->
     sq_call A b alpha x = Err ValueError /\ forall rg, sq_f_grad A b alpha x rg = Err ValueError) /\
  (length x = m_cols A -> length (m_rows A) = 1%nat -> (2 <= length b)%nat ->
     (exists v, sq_call A b alpha x = Ok v) /\ sq_f_grad A b alpha x true = Err ValueError).
Proof. exact main_C21_shapes. Qed.
Print Assumptions C21_shapes.
(** C22 *)
Theorem C22_huber : forall (A : matrix RN) (b : list R) (alpha delta : R) (x : list R),
  rect (m_cols A) (m_rows A) -> length b = length (m_rows A) -> (0 < length (m_rows A))%nat -> 0 < delta -> length x = m_cols A ->
  let F := ridge alpha (mean_loss (hub_term delta) (m_rows A) b) in
  hub_call (K:=RN) A b alpha delta x = Ok (RLoss (K:=RN) (F x)) /\
  exists g, hub_f_grad (K:=RN) A b alpha delta x true = Ok (RPair (K:=RN) (F x) g) /\ is_gradient (m_cols A) F x g.
Proof. exact main_C22_huber. Qed.
Print Assumptions C22_huber.
Example C20_C21_C22_nonvacuous : rect (m_cols exA) (m_rows exA) /\ log_init (K:=RN) (Some exA) [0; 1] = Ok exA /\
  length [0; 1] = length (m_rows exA) /\ (0 < length (m_rows exA))%nat /\ length [1; -1] = m_cols exA /\
  (* a residual exactly at the kink *) Rabs (dot [3; 4] [1; -1] - 0) = 1.
Proof. destruct exA_ok as (H1 & H2 & _). repeat split; auto; try (cbn; lia). cbn. rewrite Rabs_left; lra. Qed.

(** C23: lipschitz bounds the gradient differences; for LogLoss and SquareLoss no smaller constant does *)
Theorem C23_log : forall (svds1 : matrix RN -> result RN) (A0 : option (matrix RN)) (A : matrix RN) (b : list R) (alpha s : R),
  log_init (K:=RN) A0 b = Ok A -> rect (m_cols A) (m_rows A) -> 0 <= alpha -> svds1 A = Ok s -> opnorm (m_cols A) (m_rows A) s ->
  exists L : R, log_lipschitz (K:=RN) svds1 A alpha = Ok L /\
  forall (x y : list R) (vx vy : R) (gx gy : list R), length x = m_cols A -> length y = m_cols A ->
    log_f_grad (K:=RN) exp log1pR A b alpha false x true = Ok (RPair (K:=RN) vx gx) ->
    log_f_grad (K:=RN) exp log1pR A b alpha false y true = Ok (RPair (K:=RN) vy gy) ->
    norm2 (vminus gx gy) <= L * norm2 (vminus x y).
Proof. exact main_C23_log. Qed.
Print Assumptions C23_log.
Theorem C23_sq : forall (svds1 : matrix RN -> result RN) (A : matrix RN) (b : list R) (alpha s : R),
  rect (m_cols A) (m_rows A) -> length b = length (m_rows A) -> (0 < length (m_rows A))%nat ->
  0 <= alpha -> svds1 A = Ok s -> opnorm (m_cols A) (m_rows A) s ->
  exists L : R, sq_lipschitz (K:=RN) svds1 A alpha = Ok L /\
  forall (x y : list R) (vx vy : R) (gx gy : list R), length x = m_cols A -> length y = m_cols A ->
    sq_f_grad (K:=RN) A b alpha x true = Ok (RPair (K:=RN) vx gx) ->
    sq_f_grad (K:=RN) A b alpha y true = Ok (RPair (K:=RN) vy gy) ->
    norm2 (vminus gx gy) <= L * norm2 (vminus x y).
Proof. exact main_C23_sq. Qed.
Print Assumptions C23_sq.
Theorem C23_huber : forall (svds1 : matrix RN -> result RN) (A : matrix RN) (b : list R) (alpha delta s : R),
  rect (m_cols A) (m_rows A) -> length b = length (m_rows A) -> (0 < length (m_rows A))%nat -> 0 < delta ->
  0 <= alpha -> svds1 A = Ok s -> opnorm (m_cols A) (m_rows A) s ->
  exists L : R, hub_lipschitz (K:=RN) svds1 A alpha = Ok L /\
  forall (x y : list R) (vx vy : R) (gx gy : list R), length x = m_cols A -> length y = m_cols A ->
    hub_f_grad (K:=RN) A b alpha delta x true = Ok (RPair (K:=RN) vx gx) ->
    hub_f_grad (K:=RN) A b alpha delta y true = Ok (RPair (K:=RN) vy gy) ->
    norm2 (vminus gx gy) <= L * norm2 (vminus x y).
Proof. exact main_C23_huber. Qed.
Print Assumptions C23_huber.
Theorem C23_sq_tight : forall (svds1 : matrix RN -> result RN) (A : matrix RN) (b : list R) (alpha s L M : R),
  rect (m_cols A) (m_rows A) -> length b = length (m_rows A) -> (0 < length (m_rows A))%nat ->
  svds1 A = Ok s -> opnorm (m_cols A) (m_rows A) s -> sq_lipschitz (K:=RN) svds1 A alpha = Ok L ->
  (forall (x y : list R) (vx vy : R) (gx gy : list R), length x = m_cols A -> length y = m_cols A ->
    sq_f_grad (K:=RN) A b alpha x true = Ok (RPair (K:=RN) vx gx) ->
    sq_f_grad (K:=RN) A b alpha y true = Ok (RPair (K:=RN) vy gy) ->
    norm2 (vminus gx gy) <= M * norm2 (vminus x y)) -> L <= M.
Proof. exact main_C23_sq_tight. Qed.
Print Assumptions C23_sq_tight.
Theorem C23_log_tight : forall (svds1 : matrix RN -> result RN) (A0 : option (matrix RN)) (A : matrix RN) (b : list R) (alpha s L M : R),
  log_init (K:=RN) A0 b = Ok A -> rect (m_cols A) (m_rows A) ->
  svds1 A = Ok s -> opnorm (m_cols A) (m_rows A) s -> log_lipschitz (K:=RN) svds1 A alpha = Ok L ->
  (forall (x y : list R) (vx vy : R) (gx gy : list R), length x = m_cols A -> length y = m_cols A ->
    log_f_grad (K:=RN) exp log1pR A b alpha false x true = Ok (RPair (K:=RN) vx gx) ->
    log_f_grad (K:=RN) exp log1pR A b alpha false y true = Ok (RPair (K:=RN) vy gy) ->
    norm2 (vminus gx gy) <= M * norm2 (vminus x y)) -> L <= M.
Proof. exact main_C23_log_tight. Qed.
Print Assumptions C23_log_tight.
Theorem C23_max_log : forall (A0 : option (matrix RN)) (A : matrix RN) (b : list R) (alpha : R),
  log_init (K:=RN) A0 b = Ok A -> rect (m_cols A) (m_rows A) -> 0 <= alpha ->
  exists M : R, log_max_lipschitz (K:=RN) A alpha = Ok M /\
  forall (i : nat) (r : list R) (bi : R), nth_error (m_rows A) i = Some r -> nth_error b i = Some bi ->
  forall x y gx gy, length x = m_cols A -> length y = m_cols A ->
    is_gradient (m_cols A) (ridge alpha (fun w => log_term bi (dot r w))) x gx ->
    is_gradient (m_cols A) (ridge alpha (fun w => log_term bi (dot r w))) y gy ->
    norm2 (vminus gx gy) <= M * norm2 (vminus x y).
Proof. exact main_C23_max_log. Qed.
Print Assumptions C23_max_log.
Theorem C23_max_sq : forall (A : matrix RN) (b : list R) (alpha : R),
  rect (m_cols A) (m_rows A) -> m_rows A <> [] -> 0 <= alpha ->
  exists M : R, sq_max_lipschitz (K:=RN) A alpha = Ok M /\
  forall (i : nat) (r : list R) (bi : R), nth_error (m_rows A) i = Some r -> nth_error b i = Some bi ->
  forall x y gx gy, length x = m_cols A -> length y = m_cols A ->
    is_gradient (m_cols A) (ridge alpha (fun w => sq_term bi (dot r w))) x gx ->
    is_gradient (m_cols A) (ridge alpha (fun w => sq_term bi (dot r w))) y gy ->
    norm2 (vminus gx gy) <= M * norm2 (vminus x y).
Proof. exact main_C23_max_sq. Qed.
Print Assumptions C23_max_sq.
Theorem C23_max_log_tight : forall (A0 : option (matrix RN)) (A : matrix RN) (b : list R) (alpha M : R),
  log_init (K:=RN) A0 b = Ok A -> rect (m_cols A) (m_rows A) -> (0 < m_cols A)%nat -> log_max_lipschitz (K:=RN) A alpha = Ok M ->
  exists (i : nat) (r : list R) (bi : R), nth_error (m_rows A) i = Some r /\ nth_error b i = Some bi /\
  forall M' : R, (forall x y gx gy, length x = m_cols A -> length y = m_cols A ->
    is_gradient (m_cols A) (ridge alpha (fun w => log_term bi (dot r w))) x gx ->
    is_gradient (m_cols A) (ridge alpha (fun w => log_term bi (dot r w))) y gy ->
    norm2 (vminus gx gy) <= M' * norm2 (vminus x y)) -> M <= M'.
Proof. exact main_C23_max_log_tight. Qed.
Print Assumptions C23_max_log_tight.
Theorem C23_max_sq_tight : forall (A : matrix RN) (b : list R) (alpha M : R),
  rect (m_cols A) (m_rows A) -> length b = length (m_rows A) -> m_rows A <> [] -> (0 < m_cols A)%nat -> sq_max_lipschitz (K:=RN) A alpha = Ok M ->
  exists (i : nat) (r : list R) (bi : R), nth_error (m_rows A) i = Some r /\ nth_error b i = Some bi /\
  forall M' : R, (forall x y gx gy, length x = m_cols A -> length y = m_cols A ->
    is_gradient (m_cols A) (ridge alpha (fun w => sq_term bi (dot r w))) x gx ->
    is_gradient (m_cols A) (ridge alpha (fun w => sq_term bi (dot r w))) y gy ->
    norm2 (vminus gx gy) <= M' * norm2 (vminus x y)) -> M <= M'.
Proof. exact main_C23_max_sq_tight. Qed.
Print Assumptions C23_max_sq_tight.
Example C23_nonvacuous : exists svds1 : matrix RN -> result RN, svds1 exA = Ok 5 /\ opnorm (m_cols exA) (m_rows exA) 5 /\
  log_lipschitz (K:=RN) svds1 exA 1 = Ok (33 / 8) /\ sq_max_lipschitz (K:=RN) exA 1 = Ok 26 /\ (0 < m_cols exA)%nat.
Proof.
  exists (fun _ => Ok 5). destruct exA_ok as (_ & _ & H). split; [reflexivity|]. split; [exact H|]. split; [|split; [|cbn; lia]].
  - unfold log_lipschitz. cbn [bind]. f_equal. rewrite INR_eq, nlit_R. cbn. field.
  - destruct (row_max (m_rows exA)) as (m & E & U & i & r & Er & Em); [discriminate|]. unfold sq_max_lipschitz. rewrite E. cbn [bind]. f_equal.
    pose proof (U [3; 4] (or_introl eq_refl)) as U1. apply nth_error_In in Er. cbn in U1. destruct Er as [<-|[<-|[]]]; cbn in Em; rn; lra.
Qed.
(** the norm of a matrix exists *)
Theorem C23_opnorm_exists : forall d A, rect d A -> (0 < d)%nat -> exists s, opnorm d A s.
Proof. exact main_C23_opnorm_exists. Qed.
Print Assumptions C23_opnorm_exists.

(** C24.  Full property (false): hessian_mv is the derivative of the gradient.  Proved: it is off by
    (1 - 1/n) * alpha * s, since the ridge term is divided by n; exact when alpha = 0 or n = 1.  Refuted for
    every data set with n >= 2, alpha <> 0. *)
Theorem C24_hessian_partial : forall (A0 : option (matrix RN)) (A : matrix RN) (b : list R) (alpha : R) (x : list R),
  log_init (K:=RN) A0 b = Ok A -> rect (m_cols A) (m_rows A) -> length x = m_cols A ->
  exists G H : list R -> list R,
    (forall y : list R, length y = m_cols A -> exists v : R, log_f_grad (K:=RN) exp log1pR A b alpha false y true = Ok (RPair (K:=RN) v (G y))) /\
    (forall s : list R, length s = m_cols A -> log_hessian_mv (K:=RN) sigma A alpha false x s = Ok (H s)) /\
    is_derivative (m_cols A) G x (fun s => vplus (H s) (smul ((1 - / INR (length b)) * alpha) s)) /\
    (alpha = 0 \/ length b = 1%nat -> is_derivative (m_cols A) G x H).
Proof. exact main_C24_hessian_partial. Qed.
Print Assumptions C24_hessian_partial.
Theorem C24_intercept_partial : forall (A0 : option (matrix RN)) (A : matrix RN) (b : list R) (alpha : R) (x : list R),
  log_init (K:=RN) A0 b = Ok A -> rect (m_cols A) (m_rows A) -> length x = S (m_cols A) ->
  exists G H : list R -> list R,
    (forall y : list R, length y = S (m_cols A) -> log_f_grad (K:=RN) exp log1pR A b alpha true y true = Ok (RGrad (K:=RN) (G y))) /\
    (forall s : list R, length s = S (m_cols A) -> log_hessian_mv (K:=RN) sigma A alpha true x s = Ok (H s)) /\
    is_derivative (S (m_cols A)) G x (fun s => vplus (H s) (smul ((1 - / INR (length b)) * alpha) (removelast s) ++ [0])).
Proof. exact main_C24_intercept_partial. Qed.
Print Assumptions C24_intercept_partial.
Theorem C24_refuted : forall (A0 : option (matrix RN)) (A : matrix RN) (b : list R) (alpha : R) (x : list R) (G H : list R -> list R),
  log_init (K:=RN) A0 b = Ok A -> rect (m_cols A) (m_rows A) -> length x = m_cols A ->
  (0 < m_cols A)%nat -> (2 <= length b)%nat -> alpha <> 0 ->
  (forall y : list R, length y = m_cols A -> exists v : R, log_f_grad (K:=RN) exp log1pR A b alpha false y true = Ok (RPair (K:=RN) v (G y))) ->
  (forall s : list R, length s = m_cols A -> log_hessian_mv (K:=RN) sigma A alpha false x s = Ok (H s)) ->
  ~ is_derivative (m_cols A) G x H.
Proof. exact main_C24_refuted. Qed.
Print Assumptions C24_refuted.
Example C24_nonvacuous : log_init (K:=RN) (Some exA) [0; 1] = Ok exA /\ rect (m_cols exA) (m_rows exA) /\ length [1; -1] = m_cols exA /\
  (0 < m_cols exA)%nat /\ (2 <= length [0; 1])%nat /\ 1 <> 0 /\
  exists G H : list R -> list R,
    (forall y : list R, length y = m_cols exA -> exists v : R, log_f_grad (K:=RN) exp log1pR exA [0; 1] 1 false y true = Ok (RPair (K:=RN) v (G y))) /\
    (forall s : list R, length s = m_cols exA -> log_hessian_mv (K:=RN) sigma exA 1 false [1; -1] s = Ok (H s)).
Proof.
  destruct exA_ok as (H1 & H2 & _). repeat split; auto; try (cbn; lia); try lra.
  destruct (C24_hessian_partial (Some exA) exA [0; 1] 1 [1; -1] H2 H1 eq_refl) as (G & H & HG & HH & _). exists G, H. auto.
Qed.

(** C25: real labels; over floats a nan label is accepted *)
Theorem C25_labels : forall (A0 : option (matrix RN)) (b : list R), b <> [] ->
  let A := match A0 with Some A => A | None => eye (K:=RN) (length b) end in
  (log_init (K:=RN) A0 b = Err ValueError <-> (Exists (fun t => t < 0 \/ 1 < t) b \/ (A0 <> None /\ length (m_rows A) <> length b))) /\
  (log_init (K:=RN) A0 b <> Err ValueError -> log_init (K:=RN) A0 b = Ok A).
Proof. exact main_C25_labels. Qed.
Print Assumptions C25_labels.
Theorem C25_empty : forall (K : Num) (A0 : option (matrix K)), log_init A0 [] = Err ValueError.
Proof. exact main_C25_empty. Qed.
Print Assumptions C25_empty.
Example C25_nonvacuous : log_init (K:=RN) None [0; 1; 1 / 2] = Ok (eye (K:=RN) 3) /\ log_init (K:=RN) None [0; 2] = Err ValueError.
Proof.
  split.
  - destruct (C25_labels None [0; 1; 1 / 2] ltac:(discriminate)) as [[H1 _] H2]. apply H2. clear H2. intros E. destruct (H1 E) as [X|[X _]]; [|apply X; reflexivity].
    apply Exists_exists in X. destruct X as (t & [<-|[<-|[<-|[]]]] & Ht); lra.
  - destruct (C25_labels None [0; 2] ltac:(discriminate)) as [[_ H1] _]. apply H1. left. right. left. lra.
Qed.
Example C25_nan_accepted : match log_init (K:=F64) None [nofZ F64 0; ndiv F64 (nofZ F64 0) (nofZ F64 0)] with Ok _ => true | Err _ => false end = true.
Proof. vm_compute. reflexivity. Qed.

(** C26: every schedule of the parallel loop, every arithmetic; then the gradient, coordinate by coordinate *)
Theorem C26_schedules : forall (K : Num) (np_exp : K -> K) (s1 s2 : list nat) (p y : list K), length y = length p ->
  Permutation s1 (seq 0 (length p)) -> Permutation s2 (seq 0 (length p)) ->
  exists out, log_partial_deriv np_exp s1 p y = Ok out /\ log_partial_deriv np_exp s2 p y = Ok out /\ length out = length p.
Proof. exact main_C26_schedules. Qed.
Print Assumptions C26_schedules.
Theorem C26_log : forall (A0 : option (matrix RN)) (A : matrix RN) (b : list R) (alpha : R) (x : list R) (sched : list nat),
  log_init (K:=RN) A0 b = Ok A -> rect (m_cols A) (m_rows A) -> length x = m_cols A -> Permutation sched (seq 0 (length b)) ->
  exists (p u : list R) (v : R) (g : list R), mat_dot (K:=RN) A x = Ok p /\ log_partial_deriv (K:=RN) exp sched p b = Ok u /\
    log_f_grad (K:=RN) exp log1pR A b alpha false x true = Ok (RPair (K:=RN) v g) /\ length g = m_cols A /\
    forall j, (j < m_cols A)%nat -> nth j g 0 = Rsum (map2 (fun ui r => ui * nth j r 0) u (m_rows A)) / INR (length b) + alpha * nth j x 0.
Proof. exact main_C26_log. Qed.
Print Assumptions C26_log.
Theorem C26_square : forall (A : matrix RN) (b : list R) (alpha : R) (x : list R),
  rect (m_cols A) (m_rows A) -> length b = length (m_rows A) -> (0 < length (m_rows A))%nat -> length x = m_cols A ->
  exists (p u : list R) (v : R) (g : list R), mat_dot (K:=RN) A x = Ok p /\ sq_partial_deriv (K:=RN) p b = Ok u /\
    sq_f_grad (K:=RN) A b alpha x true = Ok (RPair (K:=RN) v g) /\ length g = m_cols A /\
    forall j, (j < m_cols A)%nat -> nth j g 0 = Rsum (map2 (fun ui r => ui * nth j r 0) u (m_rows A)) / INR (length b) + alpha * nth j x 0.
Proof. exact main_C26_square. Qed.
Print Assumptions C26_square.
Example C26_nonvacuous : log_partial_deriv (K:=F64) (fun t => t) [1; 0]%nat [nofZ F64 2; nofZ F64 (-3)] [nofZ F64 1; nofZ F64 0] = log_partial_deriv (K:=F64) (fun t => t) [0; 1]%nat [nofZ F64 2; nofZ F64 (-3)] [nofZ F64 1; nofZ F64 0] /\
  Permutation [1; 0]%nat (seq 0 (length [0; 1])).
Proof. split; [vm_compute; reflexivity|]. cbn. apply perm_swap. Qed.

(** C88: with a callable step the solver never uses objective values; so LogLoss's rounding of the value is
    harmless there, and the rates hold for the documented objectives of the three losses *)
Theorem C88_values_unused : forall (K : Num) (fg1 fg2 : vec K -> K * vec K) prox cb (step : list (event K) -> K) (tol : K) max_iter max_bt (factor : K) acc tc (x0 : vec K) (r1 : pg_result K),
  (forall x, snd (fg1 x) = snd (fg2 x)) ->
  minimize_pg fg1 prox cb (SCallable step) tol max_iter max_bt factor acc tc x0 = Ok r1 ->
  exists r2, minimize_pg fg2 prox cb (SCallable step) tol max_iter max_bt factor acc tc x0 = Ok r2 /\
    r_x r1 = r_x r2 /\ r_success r1 = r_success r2 /\ r_cert r1 = r_cert r2 /\ r_nit r1 = r_nit r2 /\ r_step r1 = r_step r2 /\
    r_certs r1 = r_certs r2 /\ r_warned r1 = r_warned r2 /\ r_log r1 = r_log r2 /\ length (r_iters r1) = length (r_iters r2).
Proof. exact main_C88_values_unused. Qed.
Print Assumptions C88_values_unused.
Theorem C88_returns : forall (K : Num) (fg : vec K -> K * vec K) prox (step : list (event K) -> K) (tol : K) max_iter max_bt (factor : K) tc (x0 : vec K),
  (0 < max_bt)%nat -> exists r : pg_result K, minimize_pg fg prox None (SCallable step) tol max_iter max_bt factor true tc x0 = Ok r /\ r_iters r <> [].
Proof. exact main_C88_returns. Qed.
Print Assumptions C88_returns.
Theorem C88_square_l1 : forall (svds1 : matrix RN -> result RN) (A : matrix RN) (b : list R) (alpha lam s L : R) (xs : list R) cb (tol : R) max_iter max_bt (factor : R) tc (x0 : list R) (r : pg_result RN),
  rect (m_cols A) (m_rows A) -> length b = length (m_rows A) -> (0 < length (m_rows A))%nat -> 0 <= alpha -> 0 <= lam ->
  svds1 A = Ok s -> opnorm (m_cols A) (m_rows A) s -> sq_lipschitz (K:=RN) svds1 A alpha = Ok L -> 0 < L ->
  is_min (m_cols A) (fun _ => True) (fun y => ridge alpha (mean_loss sq_term (m_rows A) b) y + lam * l1 y) xs -> length x0 = m_cols A ->
  minimize_pg (K:=RN) (as_fg (fun x => sq_f_grad (K:=RN) A b alpha x true)) (l1norm_prox (K:=RN) lam) cb (SCallable (K:=RN) (fun _ => 1 / L)) tol max_iter max_bt factor true tc x0 = Ok r ->
  r_iters r <> [] ->
  (ridge alpha (mean_loss sq_term (m_rows A) b) (r_x r) + lam * l1 (r_x r)) - (ridge alpha (mean_loss sq_term (m_rows A) b) xs + lam * l1 xs)
    <= 2 * L * dist2 x0 xs / (INR (length (r_iters r)) + 1) ^ 2.
Proof. exact main_C88_square_l1. Qed.
Print Assumptions C88_square_l1.
Theorem C88_huber_l1 : forall (svds1 : matrix RN -> result RN) (A : matrix RN) (b : list R) (alpha delta lam s L : R) (xs : list R) cb (tol : R) max_iter max_bt (factor : R) tc (x0 : list R) (r : pg_result RN),
  rect (m_cols A) (m_rows A) -> length b = length (m_rows A) -> (0 < length (m_rows A))%nat -> 0 <= alpha -> 0 < delta -> 0 <= lam ->
  svds1 A = Ok s -> opnorm (m_cols A) (m_rows A) s -> hub_lipschitz (K:=RN) svds1 A alpha = Ok L -> 0 < L ->
  is_min (m_cols A) (fun _ => True) (fun y => ridge alpha (mean_loss (hub_term delta) (m_rows A) b) y + lam * l1 y) xs -> length x0 = m_cols A ->
  minimize_pg (K:=RN) (as_fg (fun x => hub_f_grad (K:=RN) A b alpha delta x true)) (l1norm_prox (K:=RN) lam) cb (SCallable (K:=RN) (fun _ => 1 / L)) tol max_iter max_bt factor true tc x0 = Ok r ->
  r_iters r <> [] ->
  (ridge alpha (mean_loss (hub_term delta) (m_rows A) b) (r_x r) + lam * l1 (r_x r)) - (ridge alpha (mean_loss (hub_term delta) (m_rows A) b) xs + lam * l1 xs)
    <= 2 * L * dist2 x0 xs / (INR (length (r_iters r)) + 1) ^ 2.
Proof. exact main_C88_huber_l1. Qed.
Print Assumptions C88_huber_l1.
Theorem C88_logistic_l1 : forall (svds1 : matrix RN -> result RN) (A0 : option (matrix RN)) (A : matrix RN) (b : list R) (alpha lam s L : R) (xs : list R) cb (tol : R) max_iter max_bt (factor : R) tc (x0 : list R) (r : pg_result RN),
  log_init (K:=RN) A0 b = Ok A -> rect (m_cols A) (m_rows A) -> 0 <= alpha -> 0 <= lam ->
  svds1 A = Ok s -> opnorm (m_cols A) (m_rows A) s -> log_lipschitz (K:=RN) svds1 A alpha = Ok L -> 0 < L ->
  is_min (m_cols A) (fun _ => True) (fun y => ridge alpha (mean_loss log_term (m_rows A) b) y + lam * l1 y) xs -> length x0 = m_cols A ->
  minimize_pg (K:=RN) (as_fg (fun x => log_f_grad (K:=RN) exp log1pR A b alpha false x true)) (l1norm_prox (K:=RN) lam) cb (SCallable (K:=RN) (fun _ => 1 / L)) tol max_iter max_bt factor true tc x0 = Ok r ->
  r_iters r <> [] ->
  (ridge alpha (mean_loss log_term (m_rows A) b) (r_x r) + lam * l1 (r_x r)) - (ridge alpha (mean_loss log_term (m_rows A) b) xs + lam * l1 xs)
    <= 2 * L * dist2 x0 xs / (INR (length (r_iters r)) + 1) ^ 2.
Proof. exact main_C88_logistic_l1. Qed.
Print Assumptions C88_logistic_l1.
Theorem C88_square_fw : forall (svds1 : matrix RN -> result RN) (A : matrix RN) (b : list R) (alpha rad s L tol : R) max_iter (x0 y : list R),
  rect (m_cols A) (m_rows A) -> length b = length (m_rows A) -> (0 < length (m_rows A))%nat -> (0 < m_cols A)%nat -> 0 <= alpha -> 0 <= rad -> 0 <= tol -> (0 < max_iter)%nat ->
  svds1 A = Ok s -> opnorm (m_cols A) (m_rows A) s -> sq_lipschitz (K:=RN) svds1 A alpha = Ok L -> 0 < L ->
  length x0 = m_cols A -> l1_ball rad x0 -> length y = m_cols A -> l1_ball rad y ->
  exists r : fw_result RN,
    minimize_fw (K:=RN) (as_fg (fun x => sq_f_grad (K:=RN) A b alpha x true)) (l1_oracle (K:=RN) rad) FSDR (Some L) tol max_iter None Vanilla x0 = Ok r /\ length (fr_x r) = m_cols A /\
    l1_ball rad (fr_x r) /\ (length (fr_iters r) <= max_iter)%nat /\
    (ridge alpha (mean_loss sq_term (m_rows A) b) (fr_x r) - ridge alpha (mean_loss sq_term (m_rows A) b) y <= tol \/
     ridge alpha (mean_loss sq_term (m_rows A) b) (fr_x r) - ridge alpha (mean_loss sq_term (m_rows A) b) y <= 8 * L * (rad * rad) / (INR max_iter + 2)).
Proof. exact main_C88_square_fw. Qed.
Print Assumptions C88_square_fw.
Theorem C88_huber_fw : forall (svds1 : matrix RN -> result RN) (A : matrix RN) (b : list R) (alpha delta rad s L tol : R) max_iter (x0 y : list R),
  rect (m_cols A) (m_rows A) -> length b = length (m_rows A) -> (0 < length (m_rows A))%nat -> (0 < m_cols A)%nat -> 0 <= alpha -> 0 < delta -> 0 <= rad -> 0 <= tol -> (0 < max_iter)%nat ->
  svds1 A = Ok s -> opnorm (m_cols A) (m_rows A) s -> hub_lipschitz (K:=RN) svds1 A alpha = Ok L -> 0 < L ->
  length x0 = m_cols A -> l1_ball rad x0 -> length y = m_cols A -> l1_ball rad y ->
  exists r : fw_result RN,
    minimize_fw (K:=RN) (as_fg (fun x => hub_f_grad (K:=RN) A b alpha delta x true)) (l1_oracle (K:=RN) rad) FSDR (Some L) tol max_iter None Vanilla x0 = Ok r /\ length (fr_x r) = m_cols A /\
    l1_ball rad (fr_x r) /\ (length (fr_iters r) <= max_iter)%nat /\
    (ridge alpha (mean_loss (hub_term delta) (m_rows A) b) (fr_x r) - ridge alpha (mean_loss (hub_term delta) (m_rows A) b) y <= tol \/
     ridge alpha (mean_loss (hub_term delta) (m_rows A) b) (fr_x r) - ridge alpha (mean_loss (hub_term delta) (m_rows A) b) y <= 8 * L * (rad * rad) / (INR max_iter + 2)).
Proof. exact main_C88_huber_fw. Qed.
Print Assumptions C88_huber_fw.
Example C88_nonvacuous : exists (L : R) (r : pg_result RN), sq_lipschitz (K:=RN) (fun _ => Ok 5) exA 1 = Ok L /\ 0 < L /\
  is_min (m_cols exA) (fun _ => True) (fun y => ridge 1 (mean_loss sq_term (m_rows exA) [0; 0]) y + 2 * l1 y) [0; 0] /\
  minimize_pg (K:=RN) (as_fg (fun x => sq_f_grad (K:=RN) exA [0; 0] 1 x true)) (l1norm_prox (K:=RN) 2) None (SCallable (K:=RN) (fun _ => 1 / L)) 0 50 1 (/ 2) true false [7; -8] = Ok r /\
  r_iters r <> [].
Proof.
  exists (25 / 2 + 1). destruct (C88_returns RN (as_fg (fun x => sq_f_grad (K:=RN) exA [0; 0] 1 x true)) (l1norm_prox (K:=RN) 2) (fun _ => 1 / (25 / 2 + 1)) 0 50 1 (/ 2) false [7; -8] ltac:(lia)) as (r & E & N).
  exists r. split; [|split; [lra|split; [|split; [exact E|exact N]]]].
  - unfold sq_lipschitz. cbn [bind]. f_equal. rewrite INR_eq. cbn. field.
  - split; [reflexivity|]. split; [exact I|]. intros y Hy _. destruct y as [|a [|b [|? ?]]]; cbn in Hy; try lia.
    unfold ridge, mean_loss, sq_term, l1. cbn. rewrite Rabs_R0. pose proof (Rabs_pos a). pose proof (Rabs_pos b).
    pose proof (Rle_0_sqr a). pose proof (Rle_0_sqr b). pose proof (Rle_0_sqr (3 * a + 4 * b)). unfold Rsqr in *. lra.
Qed.

(** C89.  Full property (false): in intercept mode f_grad returns (loss, gradient) and lipschitz bounds the
    gradient differences.  It returns the gradient alone, and the constant ignores the intercept column. *)
Theorem C89_pair_refuted : forall (A0 : option (matrix RN)) (A : matrix RN) (b : list R) (alpha : R) (y : list R),
  log_init (K:=RN) A0 b = Ok A -> rect (m_cols A) (m_rows A) -> length y = S (m_cols A) ->
  exists g : list R, length g = S (m_cols A) /\
    log_f_grad (K:=RN) exp log1pR A b alpha true y true = Ok (RGrad (K:=RN) g) /\
    as_fg (fun x => log_f_grad (K:=RN) exp log1pR A b alpha true x true) y = (0, []).
Proof. exact main_C89_pair_refuted. Qed.
Print Assumptions C89_pair_refuted.
Theorem C89_lipschitz_refuted : exists (svds1 : matrix RN -> result RN) (A : matrix RN) (b : list R) (s L : R) (x y gx gy : list R),
  log_init (K:=RN) (Some A) b = Ok A /\ rect (m_cols A) (m_rows A) /\ svds1 A = Ok s /\ opnorm (m_cols A) (m_rows A) s /\
  log_lipschitz (K:=RN) svds1 A 0 = Ok L /\
  log_f_grad (K:=RN) exp log1pR A b 0 true x true = Ok (RGrad (K:=RN) gx) /\
  log_f_grad (K:=RN) exp log1pR A b 0 true y true = Ok (RGrad (K:=RN) gy) /\
  L * norm2 (vminus x y) < norm2 (vminus gx gy).
Proof. exact main_C89_lipschitz_refuted. Qed.
Print Assumptions C89_lipschitz_refuted.
