(** * Concrete instances for the splitting theorems: box-constrained lasso, diverging and NaN runs *)
From Coq Require Import ZArith QArith Reals List Bool Lra Lia Psatz.
From Verif Require Import Num Vec Spec RVec ConvexFacts ModelUtils ModelConstraint ConstraintFacts ModelPenalty PenaltyFacts PenaltyFacts3
  ModelSplitting SplittingFacts ProxGradFacts ProxGradMain SplittingMain SplittingThree SplittingThree2 SplittingConv SplittingPD SplittingPD2 SplittingLS.
Import ListNotations.
Open Scope R_scope.

(** ** the library's own penalties and constraints meet the hypotheses on prox_1 and prox_2 *)
Lemma projection_prox C (x p : list R) s : 0 < s -> is_projection C x p -> is_prox_on C (fun _ => 0) s x p.
Proof.
  intros Hs (L & D & M & U). unfold is_prox_on, prox_obj. split; [exact L|]. split; [exact D|]. split.
  - intros y Ly Dy. specialize (M y Ly Dy). lra.
  - intros y Ly Dy H. apply U; auto. lra.
Qed.
Lemma linf_ball_convex n a : convex_on n (linf_ball a) (fun _ => 0).
Proof.
  split; [|intros; lra]. intros u v t Lu Lv Hu Hv Ht. unfold linf_ball in *.
  apply Forall_forall. intros y Hy. destruct (In_nth _ _ 0 Hy) as (i & Hi & <-). rewrite lin_length in Hi by lia.
  rewrite nth_lin by lia.
  assert (A : Rabs (nth i u 0) <= a) by (apply (proj1 (Forall_forall _ _) Hu), nth_In; lia).
  assert (B : Rabs (nth i v 0) <= a) by (apply (proj1 (Forall_forall _ _) Hv), nth_In; lia).
  eapply Rle_trans; [apply Rabs_triang|]. rewrite !Rabs_mult, !(Rabs_pos_eq t), !(Rabs_pos_eq (1 - t)) by lra.
  assert ((1 - t) * Rabs (nth i u 0) <= (1 - t) * a) by (apply Rmult_le_compat_l; lra).
  assert (t * Rabs (nth i v 0) <= t * a) by (apply Rmult_le_compat_l; lra). lra.
Qed.
Lemma l1_lin a b (u v : list R) : length u = length v -> l1 (lin a u b v) <= Rabs a * l1 u + Rabs b * l1 v.
Proof.
  revert v. induction u as [|p u IH]; intros [|q v] L; try discriminate L; [cbn; lra|].
  assert (L' : length u = length v) by (cbn in L; lia). specialize (IH v L').
  unfold l1 in *. cbn in *. pose proof (Rabs_triang (a * p) (b * q)) as T. rewrite !Rabs_mult in T. lra.
Qed.
Lemma l1_convex n alpha : 0 <= alpha -> convex_on n (fun _ => True) (@l1norm_call RN alpha).
Proof.
  intros Ha. split; [red; auto|]. intros u v t Lu Lv _ _ Ht. rewrite !l1norm_call_R.
  pose proof (l1_lin (1 - t) t u v ltac:(lia)) as H. rewrite !Rabs_pos_eq in H by lra.
  assert (alpha * l1 (lin (1 - t) u t v) <= alpha * ((1 - t) * l1 u + t * l1 v)) by (apply Rmult_le_compat_l; assumption).
  rn. lra.
Qed.
Lemma l1_prox_on n alpha : 0 <= alpha -> forall x s, length x = n -> 0 < s -> is_prox_on (fun _ => True) (@l1norm_call RN alpha) s x (@l1norm_prox RN alpha x s).
Proof. intros Ha x s _ Hs. apply l1norm_prox_call. apply Rmult_le_pos; lra. Qed.

Definition sqd (b : list R) (x : list R) : R := / 2 * dot (vminus x b) (vminus x b).
Lemma sqd_first_order n b : length b = n -> first_order n (sqd b) (fun x => vminus x b).
Proof.
  intros Lb u v Lu Lv. unfold sqd. pose proof (dot_self_nonneg (vminus v u)) as H. revert H. ipx.
  rewrite (dot_comm v u), (dot_comm b u), (dot_comm b v). lra.
Qed.
Lemma sqd_smooth n b : length b = n -> smooth_upper n 1 (sqd b) (fun x => vminus x b).
Proof. intros Lb u v Lu Lv. unfold sqd. ipx. rewrite (dot_comm v u), (dot_comm b u), (dot_comm b v). lra. Qed.
Lemma archimedean_bound a q : 0 < q -> exists N, a < INR N * q.
Proof.
  intros Hq. set (N := Z.to_nat (up (a / q))). exists N.
  assert (HN : a / q < INR N).
  { destruct (archimed (a / q)) as [A _]. unfold N. destruct (Z_le_gt_dec 0 (up (a / q))) as [Z|Z].
    - rewrite INR_IZR_INZ, Z2Nat.id by exact Z. lra.
    - assert (IZR (up (a / q)) <= 0) by (apply IZR_le; lia). pose proof (pos_INR (Z.to_nat (up (a / q)))). lra. }
  apply Rmult_lt_reg_r with (/ q); [apply Rinv_0_lt_compat; exact Hq|]. rewrite Rmult_assoc, Rinv_r by lra. unfold Rdiv in HN. lra.
Qed.

(** Box-constrained lasso min |x - b|^2/2 + alpha |x|_1 over |x|_inf <= a with the models of
    L1Norm.prox and LinfBall.prox; a solution exists with a multiplier *)
Definition box_hyps (n : nat) (alpha a : R) (b : list R) : Prop :=
  convex_on n (fun _ => True) (@l1norm_call RN alpha) /\ convex_on n (linf_ball a) (fun _ => 0) /\
  first_order n (sqd b) (fun x => vminus x b) /\ smooth_upper n 1 (sqd b) (fun x => vminus x b) /\
  (forall x s, length x = n -> 0 < s -> is_prox_on (fun _ => True) (@l1norm_call RN alpha) s x (@l1norm_prox RN alpha x s)) /\
  (forall x s, length x = n -> 0 < s -> is_prox_on (linf_ball a) (fun _ => 0) s x (@linf_prox RN a x)) /\
  (forall x, length x = n -> length (vminus x b) = n).
Lemma box_ok n alpha a b : 0 <= alpha -> 0 <= a -> length b = n -> box_hyps n alpha a b.
Proof.
  intros Ha H0 Lb. split; [apply l1_convex; auto|]. split; [apply linf_ball_convex|]. split; [apply sqd_first_order; auto|].
  split; [apply sqd_smooth; auto|]. split; [apply l1_prox_on; auto|].
  split; [intros x s _ Hs; apply projection_prox; auto; apply linf_prox_projection; auto|]. intros x Lx. leng.
Qed.
(** the solution in one coordinate *)
Lemma box_coord (alpha a b : R) : 0 <= alpha -> 0 <= a -> exists z u,
  Rabs z <= a /\ (forall y, Rabs y <= a -> u * (y - z) <= 0) /\ (forall y, alpha * Rabs z + - (u + (z - b)) * (y - z) <= alpha * Rabs y).
Proof.
  intros Ha H0.
  assert (Abs : forall t, t <= Rabs t /\ - t <= Rabs t) by (intros t; split; [apply Rle_abs|rewrite <- Rabs_Ropp; apply Rle_abs]).
  destruct (Rle_or_lt b alpha) as [B1|B1]; [destruct (Rle_or_lt (- alpha) b) as [B2|B2]|].
  - exists 0, 0. rewrite Rabs_R0. split; [lra|]. split; [intros; lra|]. intros y. destruct (Abs y). assert (0 <= Rabs y) by apply Rabs_pos.
    destruct (Rcase_abs y); nra.
  - destruct (Rle_or_lt (- a) (b + alpha)) as [C|C].
    + exists (b + alpha), 0. rewrite Rabs_left by lra. split; [lra|]. split; [intros; lra|]. intros y. destruct (Abs y). nra.
    + exists (- a), (b + alpha + a). rewrite Rabs_Ropp, Rabs_pos_eq by lra. split; [lra|]. split.
      * intros y Hy. destruct (Abs y). nra.
      * intros y. destruct (Abs y). nra.
  - destruct (Rle_or_lt (b - alpha) a) as [C|C].
    + exists (b - alpha), 0. rewrite Rabs_pos_eq by lra. split; [lra|]. split; [intros; lra|]. intros y. destruct (Abs y). nra.
    + exists a, (b - alpha - a). rewrite Rabs_pos_eq by lra. split; [lra|]. split.
      * intros y Hy. destruct (Abs y). nra.
      * intros y. destruct (Abs y). nra.
Qed.
Lemma box_solution n alpha a b : 0 <= alpha -> 0 <= a -> length b = n -> exists zs us,
  length zs = n /\ subgrad n (linf_ball a) (fun _ => 0) zs us /\
  subgrad n (fun _ => True) (@l1norm_call RN alpha) zs (smul (-1) (vplus us (vminus zs b))).
Proof.
  intros Ha H0. revert n. induction b as [|t b IH]; intros n Lb.
  - cbn in Lb. subst n. exists [], []. split; [reflexivity|]. split; [|split; [reflexivity|split; [exact I|]]].
    + split; [reflexivity|]. split; [constructor|]. intros [|y ys] Ly _; [cbn; lra|discriminate Ly].
    + intros [|y ys] Ly _; [cbn; lra|discriminate Ly].
  - destruct n as [|n]; [discriminate Lb|]. destruct (IH n) as (zs & us & Lz & (Lu & Dz & Sz) & (Lw & _ & Sw)); [cbn in Lb; lia|].
    destruct (box_coord alpha a t Ha H0) as (z & u & A1 & A2 & A3).
    exists (z :: zs), (u :: us). split; [cbn; lia|]. split; [|split; [|split; [exact I|]]].
    + split; [cbn; lia|]. split; [constructor; assumption|]. intros [|y ys] Ly Dy; [discriminate Ly|].
      pose proof (Forall_inv Dy) as H2. pose proof (Forall_inv_tail Dy) as H3. specialize (A2 y H2). assert (Lys : length ys = n) by (cbn in Ly; lia).
      pose proof (Sz ys Lys H3) as S. cbn in S |- *. unfold vminus in S. lra.
    + exact (f_equal S Lw).
    + intros [|y ys] Ly _; [discriminate Ly|]. assert (Lys : length ys = n) by (cbn in Ly; lia).
      pose proof (Sw ys Lys I) as S. specialize (A3 y). rewrite !l1norm_call_R in *. unfold l1 in *. cbn in S |- *. rn.
      unfold vminus, vplus, smul in S |- *. unfold l1 in S. lra.
Qed.

Lemma box_three_split n (alpha a : R) (b x0 : vec RN) (s tol : RN) max_bt (factor : RN) hL : 0 <= alpha -> 0 <= a -> length b = n -> length x0 = n ->
  0 < s -> s < 2 -> 0 < tol -> (0 < max_bt)%nat ->
  exists max_iter r, minimize_three_split (K:=RN) (fun x => (sqd b x, vminus x b)) x0 (Some (@l1norm_prox RN alpha))
    (Some (fun x _ => @linf_prox RN a x)) tol max_iter None false (Some s) max_bt factor hL = Ok r /\ tr_success r = true.
Proof.
  intros Ha H0 Lb Lx Hs Hs2 Htol Hbt. destruct (box_ok n alpha a b Ha H0 Lb) as (A1 & A2 & A3 & A4 & A5 & A6 & A7).
  destruct (box_solution n alpha a b Ha H0 Lb) as (zs & us & Lz & S1 & S2).
  set (z0 := @linf_prox RN a x0). set (w1 := @l1norm_prox RN alpha (vminus z0 (smul s (vminus z0 b))) s).
  destruct (archimedean_bound (dist2 w1 (vplus zs (smul s us))) ((1 - s * 1 / 2) * (s * tol * (s * tol)))) as (N & HN).
  { apply Rmult_lt_0_compat; [rn; lra|]. assert (0 < s * tol) by (apply Rmult_lt_0_compat; assumption). apply Rmult_lt_0_compat; assumption. }
  exists (S N).
  destruct (main_C78_fixed_step_converges n (sqd b) (fun x => vminus x b) (fun _ => True) (linf_ball a) (@l1norm_call RN alpha) (fun _ => 0)
    (Some (@l1norm_prox RN alpha)) (Some (fun x _ => @linf_prox RN a x)) x0 tol (S N) s max_bt factor hL 1 zs us
    A1 A2 A3 A4 Rlt_0_1 A5 A6 A7 Lx Hs) as (r & Hr); auto.
  - rn. lra.
  - rewrite S_INR. replace (INR N + 1 - 1) with (INR N) by ring. exact HN.
  - exists r. exact Hr.
Qed.

Lemma id_norm (x y : list R) : norm2 (vminus x y) <= 1 * norm2 (vminus x y).
Proof. lra. Qed.
Lemma box_primal_dual n (alpha a : R) (b x0 : vec RN) (tol : RN) mls fuel : 0 <= alpha -> 0 <= a -> length b = n -> length x0 = n ->
  0 < tol -> (0 < mls)%nat ->
  exists max_iter r, minimize_primal_dual (K:=RN) (fun x => (sqd b x, vminus x b)) x0 (Some (@l1norm_prox RN alpha))
    (Some (fun x _ => @linf_prox RN a x)) None tol max_iter None (1 / 2) (Some (1 / 2)) false mls fuel = Ok r /\ pr_success r = true.
Proof.
  intros Ha H0 Lb Lx Htol Hbt. destruct (box_ok n alpha a b Ha H0 Lb) as (A1 & A2 & A3 & A4 & A5 & A6 & A7).
  destruct (box_solution n alpha a b Ha H0 Lb) as (zs & us & Lz & S1 & S2).
  set (V := dist2 x0 zs / (1 / 2) + dist2 x0 us / (1 / 2) + 2 * dot (vminus x0 zs) (vminus x0 us)).
  set (k := ((/ (1 / 2) - 1 / 2) * / (1 / 2) - 1 * 1) / (/ (1 / 2) - 1 / 2 + / (1 / 2))).
  assert (Ei : / (1 / 2) = 2) by lra.
  assert (Hk : 0 < k) by (unfold k; rewrite Ei; lra).
  destruct (archimedean_bound V (k / 2 * (tol * tol))) as (N & HN).
  { apply Rmult_lt_0_compat; [lra|]. apply Rmult_lt_0_compat; exact Htol. }
  exists (100 * N)%nat.
  assert (EN : ((100 * N + 99) / 100)%nat = N).
  { replace (100 * N + 99)%nat with (99 + N * 100)%nat by lia. rewrite Nat.div_add by lia. reflexivity. }
  destruct (main_C80_fixed_step_converges n n (sqd b) (fun x => vminus x b) (fun _ => True) (linf_ball a) (@l1norm_call RN alpha) (fun _ => 0)
    (Some (@l1norm_prox RN alpha)) (Some (fun x _ => @linf_prox RN a x)) None x0 tol (100 * N) (1 / 2) (Some (1 / 2)) mls fuel 1 1 zs us
    A1 A2 A3 A4 Rlt_0_1 A5 A6 A7) as (r & Hr); auto; try lra.
  - intros. apply id_norm.
  - apply S1.
  - rewrite EN. exact HN.
  - exists r. exact Hr.
Qed.

(** ** runs in binary64 *)
Definition f_zero (x : vec F64) : F64 * vec F64 := (n0, map (fun _ => n0) x).
Definition L10 : (vec F64 -> vec F64) * (vec F64 -> vec F64) := (vscale (nofZ F64 10), vscale (nofZ F64 10)).
Definition p_half_sq (z : vec F64) (s : F64) : vec F64 := vdivs z (nadd F64 n1 s).   (* prox of t^2/2 *)
(** the condition of Malitsky-Pock: s t |L d|^2 + 2 s D <= |d|^2; here D = 0 *)
Definition mp_violated (i : pd_iter F64) : bool :=
  let d := vsub (ps_x (pi_step i)) (pi_x i) in let dL := vscale (nofZ F64 10) d in
  nltb F64 (vdot d d) (nmul F64 (nmul F64 (ps_sigma (pi_step i)) (ps_tau (pi_step i))) (vdot dL dL)).
Lemma main_C79_unstable_refuted : exists r : pd_result F64,
  minimize_primal_dual f_zero [n1] None (Some p_half_sq) (Some L10) (nlit 1 1000000) 12 None n1 None true 1000 100 = Ok r /\
  (pr_success r = false /\ pr_nit r = 11%nat /\
   forallb mp_violated (pr_iters r) = true /\
   nltb F64 (nofZ F64 (10 ^ 19)) (vnorm (pr_x r)) = true).
Proof.
  match goal with |- exists r, ?m = _ /\ _ => 
    destruct (run_check m (fun r => negb (pr_success r) && (Nat.eqb (pr_nit r) 11 && (forallb mp_violated (pr_iters r) &&
      nltb F64 (nofZ F64 (10 ^ 19)) (vnorm (pr_x r)))))) as (r & E & H) end.
  - vm_compute. reflexivity.
  - apply andb_prop in H as [H1 H]. apply andb_prop in H as [H2 H]. apply andb_prop in H as [H3 H4].
    exists r. split; [exact E|]. split; [apply negb_true_iff, H1|]. split; [apply Nat.eqb_eq, H2|]. split; [exact H3|exact H4].
Qed.

Definition f_c101 (x : vec F64) : F64 * vec F64 := (nmul F64 (nmul F64 (nlit 1 2) (nlit 101 100)) (vdot x x), vscale (nlit 101 100) x).
Definition is_nan (x : F64) : bool := match x with SpecFloat.S754_nan => true | _ => false end.
Lemma main_C81_nan_refuted : exists r : ts_result F64,
  minimize_three_split f_c101 [nlit 2 10000000] None None (nlit 1 1000000000) 3 None true (Some n1) 100 (nlit 7 10) (Some (nlit 1 100000000)) = Ok r /\
  (tr_success r = false /\ is_nan (tr_stepsize r) = true /\ forallb is_nan (tr_x r) = true /\ length (tr_x r) = 1%nat).
Proof.
  match goal with |- exists r, ?m = _ /\ _ => 
    destruct (run_check m (fun r => negb (tr_success r) && (is_nan (tr_stepsize r) && (forallb is_nan (tr_x r) && Nat.eqb (length (tr_x r)) 1)))) as (r & E & H) end.
  - vm_compute. reflexivity.
  - apply andb_prop in H as [H1 H]. apply andb_prop in H as [H2 H]. apply andb_prop in H as [H3 H4].
    exists r. split; [exact E|]. split; [apply negb_true_iff, H1|]. split; [exact H2|]. split; [exact H3|apply Nat.eqb_eq, H4].
Qed.

Lemma fuel_check {A} (m : result A) : match m with Err OutOfFuel => true | _ => false end = true -> m = Err OutOfFuel.
Proof. destruct m as [|[]]; intros H; try discriminate H; reflexivity. Qed.
(** more than max_iter_ls rounds with finite data *)
Definition f_2sq (x : vec F64) : F64 * vec F64 := (nmul F64 (nofZ F64 2) (vdot x x), vscale (nofZ F64 4) x).
Lemma main_C82_rounds_refuted : 
  (exists r : pd_result F64, minimize_primal_dual f_2sq [n1] None None None n0 1 None n1 None true 1 10 = Ok r) /\
  minimize_primal_dual f_2sq [n1] None None None n0 1 None n1 None true 1 9 = Err OutOfFuel.
Proof.
  split.
  - match goal with |- exists r, ?m = _ => destruct (run_check m (fun _ => true)) as (r & E & _); [vm_compute; reflexivity|exists r; exact E] end.
  - apply fuel_check. vm_compute. reflexivity.
Qed.

Lemma main_C54_flag_partial : forall (K : Num) (fg : vec K -> K * vec K) (x0 : vec K) p1 p2 L (tol : K) max_iter (step : K) step2 ls mls fuel st max_bt factor hL,
  (forall r, minimize_primal_dual fg x0 p1 p2 L tol max_iter None step step2 ls mls fuel = Ok r ->
     (pr_success r = true <-> exists c, pr_cert r = Some c /\ nltb K c tol = true) /\ (pr_success r = false -> S (pr_nit r) = max_iter)) /\
  (forall r, minimize_three_split fg x0 p1 p2 tol max_iter None ls st max_bt factor hL = Ok r ->
     (tr_success r = true <-> (0 < tr_nit r)%nat /\ nltb K (tr_cert r) tol = true) /\ (tr_success r = false -> S (tr_nit r) = max_iter)).
Proof.
  intros. split; intros r H.
  - destruct (main_C53_success _ _ _ _ _ _ _ _ _ _ _ _ _ _ _ H) as (_ & _ & (i & older & _ & _ & _ & _ & _ & A) & B & C).
    split.
    + destruct (pr_success r); split; auto; try discriminate.
      * intros _. destruct (A eq_refl) as (A1 & A2 & _). eauto.
      * intros (c & E1 & E2). rewrite (C eq_refl c E1) in E2. discriminate E2.
    + intros E. destruct (B E) as [(c & Ec & _)|E']; [discriminate Ec|exact E'].
  - destruct (main_C51_contract _ _ _ _ _ _ _ _ _ _ _ _ _ _ H) as (_ & _ & _ & A & B & _).
    split.
    + destruct (tr_success r); split; auto; try discriminate.
      * intros _. destruct (A eq_refl) as (A1 & A2 & _). auto.
      * intros (E1 & E2). destruct (B eq_refl) as [(c & Ec & _)|(_ & [Z|Z])]; [discriminate Ec|lia|rewrite Z in E2; discriminate E2].
    + intros E. destruct (B E) as [(c & Ec & _)|(E' & _)]; [discriminate Ec|exact E'].
Qed.
