(** * The nuclear ball and the nuclear norm inside the solvers *)
From Coq Require Import Reals List Bool Lra Lia Psatz.
From Verif Require Import Num Vec Spec RVec ConvexFacts SpecTrace ModelPenalty PenaltyFacts PenaltyFacts3 ModelTrace ModelTraceSolve TraceFacts TraceMain SplittingRuns
  ModelUtils ModelProxGrad ProxGradFacts ProxGradMain ProxGradLin ModelConstraint ModelFrankWolfe FrankWolfeFacts FrankWolfeConv FrankWolfeMain FrankWolfeMain2 FrankWolfeRuns.
Import ListNotations.
Open Scope R_scope.

(** ** geometry *)
Lemma nuc_lin m n u v t a b : length u = (m * n)%nat -> length v = (m * n)%nat -> 0 <= t <= 1 -> is_nuc m n u a -> is_nuc m n v b ->
  exists c, is_nuc m n (lin (1 - t) u t v) c /\ c <= (1 - t) * a + t * b.
Proof.
  intros Hu Hv Ht Ha Hb. destruct (nuc_exists m n (lin (1 - t) u t v)) as (c & Hc); [rewrite lin_length; lia|].
  exists c. split; [exact Hc|]. apply Hc. intros r (Z & HZ & ->).
  pose proof (nuc_dual m n u a Z 1 Ha ltac:(lra) HZ). pose proof (nuc_dual m n v b Z 1 Hb ltac:(lra) HZ).
  rewrite dot_lin_l by (destruct HZ; lia). nra.
Qed.
Lemma nuc_ball_convex m n alpha : convex_set (m * n) (nuc_ball m n alpha).
Proof.
  intros u v t Hu Hv (a & Ha & La) (b & Hb & Lb) Ht. destruct (nuc_lin m n u v t a b Hu Hv Ht Ha Hb) as (c & Hc & Lc).
  exists c. split; [exact Hc|]. nra.
Qed.
Lemma nuc_convex m n alpha (nuc : list R -> R) : 0 <= alpha -> (forall Y, length Y = (m * n)%nat -> is_nuc m n Y (nuc Y)) ->
  convex_on (m * n) (fun _ => True) (fun y => alpha * nuc y).
Proof.
  intros Ha HN. split; [intros ? ? ? ? ? ? ? ?; exact I|]. intros u v t Hu Hv _ _ Ht.
  destruct (nuc_lin m n u v t _ _ Hu Hv Ht (HN u Hu) (HN v Hv)) as (c & Hc & Lc).
  rewrite <- (nuc_unique m n _ _ _ Hc (HN (lin (1 - t) u t v) ltac:(rewrite lin_length; lia))). nra.
Qed.
Lemma norm2_outer a b : norm2 (outer a b) = norm2 a * norm2 b.
Proof. unfold norm2. rewrite outer_outer by reflexivity. apply sqrt_mult; apply dot_self_nonneg. Qed.
(** the Frobenius norm is at most the nuclear norm *)
Lemma frob_nuc m n Y t : length Y = (m * n)%nat -> is_nuc m n Y t -> norm2 Y <= t.
Proof.
  intros LY HN. pose proof (nuc_nonneg m n Y t HN) as Ht. pose proof (norm2_nonneg Y) as Hy.
  destruct (Rle_lt_or_eq_dec 0 (norm2 Y) Hy) as [Hp|E]; [|lra].
  assert (HZ : op_le m n Y (norm2 Y)).
  { split; [exact LY|]. intros a b Ha Hb. pose proof (cauchy_schwarz Y (outer a b)) as C. rewrite norm2_outer in C.
    pose proof (Rle_abs (dot Y (outer a b))). lra. }
  pose proof (nuc_dual m n Y t Y (norm2 Y) HN Hy HZ) as D.
  assert (E : dot Y Y = norm2 Y * norm2 Y) by (unfold norm2; rewrite sqrt_sqrt; [reflexivity|apply dot_self_nonneg]).
  rewrite E in D. apply Rmult_le_reg_l with (norm2 Y); lra.
Qed.
Lemma nuc_diameter m n alpha : diameter2 (m * n) (nuc_ball m n alpha) (4 * (alpha * alpha)).
Proof.
  intros x y Hx Hy (a & Ha & La) (b & Hb & Lb).
  pose proof (frob_nuc m n x a Hx Ha). pose proof (frob_nuc m n y b Hy Hb).
  pose proof (norm2_nonneg x). pose proof (norm2_nonneg y).
  assert (N : norm2 (vminus x y) <= norm2 x + norm2 y).
  { unfold vminus. eapply Rle_trans; [apply norm2_triangle; congruence|]. replace (-1) with (- (1)) by lra. rewrite Rabs_Ropp, Rabs_R1. lra. }
  pose proof (norm2_nonneg (vminus x y)).
  rewrite dist2_dot by congruence.
  replace (dot (vminus x y) (vminus x y)) with (norm2 (vminus x y) * norm2 (vminus x y)) by (unfold norm2; rewrite sqrt_sqrt; [reflexivity|apply dot_self_nonneg]).
  replace (4 * (alpha * alpha)) with ((2 * alpha) * (2 * alpha)) by ring. apply Rmult_le_compat; lra.
Qed.

(** ** Frank-Wolfe with TraceBall.lmo *)
Lemma trace_lmo_exact m n alpha svds : 0 <= alpha -> (2 <= m)%nat -> (2 <= n)%nat ->
  (forall u, length u = (m * n)%nat -> svds_at m n svds u) -> lmo_exact (m * n) (nuc_ball m n alpha) (trace_oracle (K:=RN) svds alpha m n).
Proof.
  intros Ha Hm Hn Hs u x a Hu Hx Hd.
  destruct (main_C08_lmo_partial m n alpha u x svds Ha Hm Hn Hu (eq_trans Hx (eq_sym Hu)) (Hs u Hu)) as (o & E & _ & _ & E3 & E4 & E5).
  exists o. split; [exact E|]. split; [exact (eq_trans E4 Hx)|]. split; [exact E5|exact E3].
Qed.
Lemma fw_dr_ball n (dom : list R -> Prop) lmo (L D2 : R) fg tol max_iter x0 y :
  lmo_exact n dom lmo -> convex_set n dom -> diameter2 n dom D2 -> 0 < L -> 0 <= tol -> (0 < max_iter)%nat ->
  grad_ok n fg -> first_order n (objective fg) (gradient fg) -> smooth_upper n L (objective fg) (gradient fg) ->
  length x0 = n -> dom x0 -> length y = n -> dom y ->
  exists r : fw_result RN,
    minimize_fw fg lmo FSDR (Some L) tol max_iter None Vanilla x0 = Ok r /\
    dom (fr_x r) /\ (length (fr_iters r) <= max_iter)%nat /\
    (objective fg (fr_x r) - objective fg y <= tol \/
     objective fg (fr_x r) - objective fg y <= 2 * (L * D2) / (INR max_iter + 2)).
Proof.
  intros Hl Hc HD HL Ht Hm Hg Hf Hsm Hx Hb Hy Hby. rename max_iter into m.
  destruct (main_C41_returns n dom fg lmo FSDR (Some L) tol m None x0 Hg Hc (lmo_exact_feasible _ _ _ Hl) Hx Hb HL Ht Hm) as (r & E).
  { discriminate. }
  exists r. split; [exact E|].
  pose proof (main_C41_feasible n dom fg lmo FSDR (Some L) tol m None x0 r Hg Hc (lmo_exact_feasible _ _ _ Hl) Hx Hb HL E) as (F & _).
  split; [exact F|].
  pose proof (main_C49_certificate_partial RN fg lmo FSDR (Some L) tol m None Vanilla x0 r E) as H49.
  destruct (main_C42_certificate_bound n dom fg lmo FSDR (Some L) tol m None x0 r Hg Hc Hl Hf Hx Hb HL E) as (_ & _ & H42).
  assert (Hlen : (length (fr_iters r) <= m)%nat /\ fr_exit r <> ExitCallback).
  { pose proof E as E'. apply minimize_fw_loop in E' as (_ & a & _ & E').
    refine (@fw_loop_ind RN fg _ FSDR (Some L) tol None (fun it s => fw_inv fg _ tol x0 it s)
      (fun r => (length (fr_iters r) <= m)%nat /\ fr_exit r <> ExitCallback) m _ m 0 _ r _ _ E').
    2:{ lia. } 2:{ apply fw_inv_init. }
    intros it s o Hit Hv Ho. cbv zeta. assert (Hlen : length (fs_iters s) = it) by apply Hv. split.
    - intros _. cbn. split; [lia|discriminate].
    - intros Hcc ss lip' fgn found log1 Hs stop log2 Hcb. cbn [cb_call] in Hcb. injection Hcb as <- _. split; [intros Hst; discriminate Hst|].
      intros _ act Hact. split; [eapply fw_inv_step; eassumption|]. intros _. cbn. split; [lia|discriminate]. }
  destruct Hlen as (Hlen & Hnc). split; [exact Hlen|].
  destruct (fr_exit r) eqn:Ex.
  - left. destruct (H42 eq_refl y Hy Hby) as (A & B). lra.
  - congruence.
  - right. destruct H49 as (i & rest & Hi & _ & _ & _ & Hk).
    pose proof (main_C47_rate_DR n dom fg lmo L L D2 tol m None x0 r y Hg Hc Hl Hf Hsm (Rle_refl L) HL HD Hx Hb Hy Hby E) as R.
    rewrite Hk in R. apply R. rewrite Hi. discriminate.
Qed.
Lemma main_C93_frank_wolfe : forall m n (alpha L : R) (svds : list (list R) -> list R * list R) fg tol max_iter (x0 y : list R),
  (2 <= m)%nat -> (2 <= n)%nat -> 0 <= alpha -> 0 < L -> 0 <= tol -> (0 < max_iter)%nat ->
  (forall u, length u = (m * n)%nat -> svds_at m n svds u) ->
  grad_ok (m * n) fg -> first_order (m * n) (objective fg) (gradient fg) -> smooth_upper (m * n) L (objective fg) (gradient fg) ->
  length x0 = (m * n)%nat -> nuc_ball m n alpha x0 -> length y = (m * n)%nat -> nuc_ball m n alpha y ->
  exists r : fw_result RN,
    minimize_fw (K:=RN) fg (trace_oracle (K:=RN) svds alpha m n) FSDR (Some L) tol max_iter None Vanilla x0 = Ok r /\
    nuc_ball m n alpha (fr_x r) /\ (length (fr_iters r) <= max_iter)%nat /\
    (objective fg (fr_x r) - objective fg y <= tol \/
     objective fg (fr_x r) - objective fg y <= 8 * L * (alpha * alpha) / (INR max_iter + 2)).
Proof.
  intros m n alpha L svds fg tol max_iter x0 y Hm Hn Ha HL Ht Hmi Hs Hg Hf Hsm Hx Bx Hy By.
  destruct (fw_dr_ball (m * n) (nuc_ball m n alpha) (trace_oracle (K:=RN) svds alpha m n) L (4 * (alpha * alpha)) fg tol max_iter x0 y
    (trace_lmo_exact m n alpha svds Ha Hm Hn Hs) (nuc_ball_convex m n alpha) (nuc_diameter m n alpha) HL Ht Hmi Hg Hf Hsm Hx Bx Hy By) as (r & A & B & C & D).
  exists r. split; [exact A|split; [exact B|split; [exact C|]]].
  replace (8 * L * (alpha * alpha)) with (2 * (L * (4 * (alpha * alpha)))) by ring. exact D.
Qed.
Lemma main_C93_thin : forall (K : Num) (svds : list (vec K) -> vec K * vec K) (alpha : K) m n fg step lipschitz (tol : K) max_iter cb x0,
  (m <= 1 \/ n <= 1)%nat -> (0 < max_iter)%nat ->
  minimize_fw fg (trace_oracle svds alpha m n) step lipschitz tol max_iter cb Vanilla x0 = Err ValueError.
Proof.
  intros K svds alpha m n fg step lipschitz tol max_iter cb x0 H Hm. unfold minimize_fw. destruct (nltb K tol n0); [reflexivity|]. cbn [bind].
  destruct (fg x0) as [f0 g0]. destruct max_iter as [|k]; [lia|]. cbn [fw_loop call_lmo trace_oracle fs_grad fs_x].
  rewrite (main_C08_lmo_refuted K alpha m n _ _ svds H). reflexivity.
Qed.

(** ** proximal gradient with TraceNorm.prox and TraceBall.prox *)
Section Pen.
Variables (m n : nat) (alpha : R) (svd : list (list R) -> list (list R) * list R * list (list R)) (nuc : list R -> R).
Hypothesis Hsvd : forall x, length x = (m * n)%nat -> svd_at m n svd x.
Hypothesis Hnuc : forall Y, length Y = (m * n)%nat -> is_nuc m n Y (nuc Y).
Lemma trace_prox_on x s : 0 <= alpha -> length x = (m * n)%nat -> 0 < s -> is_prox_on (fun _ => True) (fun y => alpha * nuc y) s x (or_self (K:=RN) (trace_norm_prox (K:=RN) svd alpha m n) x s).
Proof.
  intros Ha Hx Hs. destruct (main_C18_prox m n alpha s x svd nuc ltac:(nra) Hx (Hsvd x Hx) Hnuc) as (p & E & P).
  unfold or_self. rewrite E. exact P.
Qed.
Lemma trace_ball_prox_on x s : 0 < alpha -> length x = (m * n)%nat -> 0 < s -> is_prox_on (nuc_ball m n alpha) (fun _ => 0) s x (or_self (K:=RN) (trace_ball_prox2 (K:=RN) svd alpha m n) x s).
Proof.
  intros Ha Hx Hs. destruct (main_C08_prox m n alpha x svd Ha Hx (Hsvd x Hx)) as (p & E & P).
  unfold or_self, trace_ball_prox2. rewrite E. apply projection_prox; auto.
Qed.
End Pen.
(** the penalty: backtracking at rate 1/N, acceleration at rate 1/N^2 *)
Lemma main_C93_prox_rate : forall m n (alpha : R) (svd : list (list R) -> list (list R) * list R * list (list R)) (nuc : list R -> R),
  (forall x, length x = (m * n)%nat -> svd_at m n svd x) -> (forall Y, length Y = (m * n)%nat -> is_nuc m n Y (nuc Y)) -> 0 <= alpha ->
  forall (f : list R -> R) (gradf : list R -> list R) (L : R),
  (forall x, length x = (m * n)%nat -> length (gradf x) = (m * n)%nat) ->
  (forall u v, length u = (m * n)%nat -> length v = (m * n)%nat -> f u + dot (gradf u) (vminus v u) <= f v) ->
  0 < L -> (forall u v, length u = (m * n)%nat -> length v = (m * n)%nat -> f v <= f u + dot (gradf u) (vminus v u) + L / 2 * dist2 v u) ->
  forall (cb : option (list (event RN) -> bool)) (tol : R) max_iter max_bt (factor : R) tc (x0 : list R) (r : pg_result RN) (y : list R),
  0 < factor -> length x0 = (m * n)%nat -> length y = (m * n)%nat ->
  minimize_pg (K:=RN) (fun x => (f x, gradf x)) (or_self (K:=RN) (trace_norm_prox (K:=RN) svd alpha m n)) cb SBacktracking tol max_iter max_bt factor false tc x0 = Ok r ->
  Forall (fun it => it_found it = true) (r_iters r) -> r_iters r <> [] ->
  f (r_x r) + alpha * nuc (r_x r) - (f y + alpha * nuc y)
    <= dist2 x0 y / (2 * INR (length (r_iters r)) * Rmin (18 / 10 / init_lipschitz (K:=RN) (fun x => (f x, gradf x)) x0) (factor / L)).
Proof.
  intros m n alpha svd nuc Hs Hn Ha f gradf L Hgl Hfo HL HLs cb tol max_iter max_bt factor tc x0 r y Hf Hx Hy H Hfd Hne.
  apply (main_C37_rate_explicit (m * n) f gradf (fun _ => True) (fun y => alpha * nuc y) (or_self (K:=RN) (trace_norm_prox (K:=RN) svd alpha m n)) L) with (cb := cb) (tol := tol) (max_iter := max_iter) (max_bt := max_bt) (tc := tc); auto.
  - apply nuc_convex; auto.
  - intros x s Lx Ps. apply trace_prox_on; auto.
Qed.
Lemma main_C93_prox_accelerated : forall m n (alpha : R) (svd : list (list R) -> list (list R) * list R * list (list R)) (nuc : list R -> R),
  (forall x, length x = (m * n)%nat -> svd_at m n svd x) -> (forall Y, length Y = (m * n)%nat -> is_nuc m n Y (nuc Y)) -> 0 <= alpha ->
  forall (f : list R -> R) (gradf : list R -> list R) (L : R),
  (forall x, length x = (m * n)%nat -> length (gradf x) = (m * n)%nat) ->
  (forall u v, length u = (m * n)%nat -> length v = (m * n)%nat -> f u + dot (gradf u) (vminus v u) <= f v) ->
  0 < L -> (forall u v, length u = (m * n)%nat -> length v = (m * n)%nat -> f v <= f u + dot (gradf u) (vminus v u) + L / 2 * dist2 v u) ->
  forall (cb : option (list (event RN) -> bool)) (s tol : R) max_iter max_bt (factor : R) tc (x0 : list R) (r : pg_result RN) (xs : list R),
  0 < s -> s <= / L -> length x0 = (m * n)%nat -> is_min (m * n) (fun _ => True) (fun y => f y + alpha * nuc y) xs ->
  minimize_pg (K:=RN) (fun x => (f x, gradf x)) (or_self (K:=RN) (trace_norm_prox (K:=RN) svd alpha m n)) cb (SCallable (K:=RN) (fun _ => s)) tol max_iter max_bt factor true tc x0 = Ok r ->
  r_iters r <> [] ->
  f (r_x r) + alpha * nuc (r_x r) - (f xs + alpha * nuc xs) <= 2 * dist2 x0 xs / (s * (INR (length (r_iters r)) + 1) ^ 2).
Proof.
  intros m n alpha svd nuc Hs Hn Ha f gradf L Hgl Hfo HL HLs cb s tol max_iter max_bt factor tc x0 r xs Ps PL Hx Hmin H Hne.
  apply (main_C74_fista_constant_step (m * n) f gradf (fun _ => True) (fun y => alpha * nuc y) (or_self (K:=RN) (trace_norm_prox (K:=RN) svd alpha m n)) L) with (cb := cb) (tol := tol) (max_iter := max_iter) (max_bt := max_bt) (factor := factor) (tc := tc); auto.
  - apply nuc_convex; auto.
  - intros x s' Lx Ps'. apply trace_prox_on; auto.
Qed.
(** the constraint: every iterate after the first is in the ball; rate 1/N against every point of the ball *)
Lemma main_C93_ball_rate : forall m n (alpha : R) (svd : list (list R) -> list (list R) * list R * list (list R)),
  (forall x, length x = (m * n)%nat -> svd_at m n svd x) -> 0 < alpha ->
  forall (f : list R -> R) (gradf : list R -> list R) (L : R),
  (forall x, length x = (m * n)%nat -> length (gradf x) = (m * n)%nat) ->
  (forall u v, length u = (m * n)%nat -> length v = (m * n)%nat -> f u + dot (gradf u) (vminus v u) <= f v) ->
  0 < L -> (forall u v, length u = (m * n)%nat -> length v = (m * n)%nat -> f v <= f u + dot (gradf u) (vminus v u) + L / 2 * dist2 v u) ->
  forall (cb : option (list (event RN) -> bool)) (tol : R) max_iter max_bt (factor : R) tc (x0 : list R) (r : pg_result RN) (y : list R),
  0 < factor -> length x0 = (m * n)%nat -> length y = (m * n)%nat -> nuc_ball m n alpha y ->
  minimize_pg (K:=RN) (fun x => (f x, gradf x)) (or_self (K:=RN) (trace_ball_prox2 (K:=RN) svd alpha m n)) cb SBacktracking tol max_iter max_bt factor false tc x0 = Ok r ->
  Forall (fun it => it_found it = true) (r_iters r) -> r_iters r <> [] ->
  nuc_ball m n alpha (r_x r) /\
  f (r_x r) - f y <= dist2 x0 y / (2 * INR (length (r_iters r)) * Rmin (18 / 10 / init_lipschitz (K:=RN) (fun x => (f x, gradf x)) x0) (factor / L)).
Proof.
  intros m n alpha svd Hs Ha f gradf L Hgl Hfo HL HLs cb tol max_iter max_bt factor tc x0 r y Hf Hx Hy By H Hfd Hne.
  assert (Cv : convex_on (m * n) (nuc_ball m n alpha) (fun _ => 0)).
  { split; [apply nuc_ball_convex|]. intros. lra. }
  assert (Pr : forall (x : list R) s, length x = (m * n)%nat -> 0 < s -> is_prox_on (nuc_ball m n alpha) (fun _ => 0) s x (or_self (K:=RN) (trace_ball_prox2 (K:=RN) svd alpha m n) x s)).
  { intros x s Lx Ps. apply trace_ball_prox_on; auto. }
  split.
  - destruct (run_good (m * n) f gradf (nuc_ball m n alpha) (fun _ => 0) _ Hgl Pr cb SBacktracking tol max_iter max_bt factor tc x0 r Hf Hx H Hfd) as (_ & B & C & _).
    rewrite B. destruct (r_iters r) as [|it l]; [congruence|]. cbn [last_point]. apply Forall_inv in C. apply (ProxGradConv.good_dom _ _ _ _ _ _ C).
  - pose proof (main_C37_rate_explicit (m * n) f gradf (nuc_ball m n alpha) (fun _ => 0) _ L Hgl Cv Pr Hfo HL HLs cb tol max_iter max_bt factor tc x0 r y Hf Hx Hy By H Hfd Hne) as R.
    lra.
Qed.
