(** * Instances of C104-C106: a convex and a concave objective on the l1 ball, a concave loss with a quadratic penalty *)
From Coq Require Import ZArith Bool List Lia Reals Lra.
From Verif Require Import Num Vec Spec RVec ConvexFacts PenaltyFacts ModelConstraint ModelFrankWolfe ModelUtils ModelProxGrad ProxGradFacts ProxGradConv ProxGradMain FrankWolfeFacts FrankWolfeConv FrankWolfeMain FrankWolfeMain2 FrankWolfeRuns FwStops PgStops.
Import ListNotations.
Local Open Scope R_scope.

Lemma sq_stops_DR n (x0 : vec RN) : (0 < n)%nat -> length x0 = n -> l1_ball 1 x0 ->
  exists r : fw_result RN, minimize_fw sq_fg (l1_oracle (K:=RN) 1) FSDR (Some 1) (1 / 10) 400 None Vanilla x0 = Ok r /\
    fw_stops n (l1_ball 1) sq_fg (1 / 10) 322 r.
Proof.
  intros Hn Hx Hb. destruct (main_C77_l1_oracle_partial n 1 Hn Rle_0_1) as (Hl & Hc).
  destruct (sq_fw_hyps n 1 x0 Hn Rle_0_1 Hx) as (Hg & Hf & Hsm & _ & _).
  destruct (main_C104_DR n (l1_ball 1) sq_fg (l1_oracle (K:=RN) 1) 1 1 (4 * (1 * 1)) (1 / 10) 400 x0 161 Hg Hc Hl Hf Hsm (Rle_refl 1) Rlt_0_1 (l1_diameter n 1 Rle_0_1) Hx Hb) as (r & E & S & _); [lra|lia|lia| |].
  { rewrite INR_IZR_INZ. simpl. lra. }
  exists r. split; [exact E|exact S].
Qed.
Lemma pow_small : 1 <= 1 * (9 / 10) ^ 330 * 2 ^ 99.
Proof.
  assert (H1 : (1 / 2) ^ 3 <= (9 / 10) ^ 11) by (simpl; lra).
  assert (H2 : ((1 / 2) ^ 3) ^ 30 <= ((9 / 10) ^ 11) ^ 30) by (apply pow_incr; split; [apply pow_le; lra|exact H1]).
  rewrite <- !pow_mult in H2. change (11 * 30)%nat with 330%nat in H2. change (3 * 30)%nat with 90%nat in H2.
  assert (H3 : (1 / 2) ^ 90 * 2 ^ 90 = 1). { rewrite <- Rpow_mult_distr. replace (1 / 2 * 2) with 1 by lra. apply pow1. }
  assert (H4 : 2 ^ 90 <= 2 ^ 99) by (apply Rle_pow; [lra|lia]).
  assert (H5 : 0 < (1 / 2) ^ 90) by (apply pow_lt; lra). assert (H6 : 0 < 2 ^ 90) by (apply pow_lt; lra).
  rewrite Rmult_1_l. rewrite <- H3 at 1. apply Rmult_le_compat; lra.
Qed.
Lemma sq_stops_bt n (x0 : vec RN) : (0 < n)%nat -> length x0 = n -> l1_ball 1 x0 ->
  exists r : fw_result RN, minimize_fw sq_fg (l1_oracle (K:=RN) 1) FSBacktracking (Some 1) (1 / 4) 330 None Vanilla x0 = Ok r /\
    fw_stops n (l1_ball 1) sq_fg (1 / 4) 258 r.
Proof.
  intros Hn Hx Hb. destruct (main_C77_l1_oracle_partial n 1 Hn Rle_0_1) as (Hl & Hc).
  destruct (sq_fw_hyps n 1 x0 Hn Rle_0_1 Hx) as (Hg & Hf & Hsm & _ & _).
  destruct (main_C104_backtracking n (l1_ball 1) sq_fg (l1_oracle (K:=RN) 1) 1 1 (4 * (1 * 1)) (1 / 4) 330 x0 129 Hg Hc Hl Hf Hsm Rlt_0_1 pow_small (l1_diameter n 1 Rle_0_1) Hx Hb) as (r & E & S & _); [lra|lia|lia| |].
  { rewrite INR_IZR_INZ. simpl Z.of_nat. rewrite Rmax_right by lra. unfold EPS. lra. }
  exists r. split; [exact E|exact S].
Qed.

(** f(x) = -|x|^2/2: concave, so not covered by C47 *)
Definition neg_fg (x : vec RN) : RN * vec RN := (- sq x, smul (-1) x).
Lemma neg_hyps n : grad_ok n neg_fg /\ smooth_upper n 1 (objective neg_fg) (gradient neg_fg) /\ ~ (forall n, first_order n (objective neg_fg) (gradient neg_fg)).
Proof.
  split; [intros x H; cbn; rewrite smul_length; exact H|]. split.
  - intros u v Hu Hv. change (- sq v <= - sq u + dot (smul (-1) u) (vminus v u) + 1 / 2 * dist2 v u).
    pose proof (sq_first_order n u v Hu Hv). rewrite dot_smul_l. pose proof (dist2_nonneg v u). lra.
  - intros H. specialize (H 1%nat [0] [1] eq_refl eq_refl). revert H. unfold objective, gradient, neg_fg, sq. cbn. lra.
Qed.
Lemma neg_stops n (x0 : vec RN) : (0 < n)%nat -> length x0 = n -> l1_ball 1 x0 ->
  exists r : fw_result RN, minimize_fw neg_fg (l1_oracle (K:=RN) 1) FSDR (Some 1) (1 / 10) 500 None Vanilla x0 = Ok r /\
    fw_stops n (l1_ball 1) neg_fg (1 / 10) 401 r.
Proof.
  intros Hn Hx Hb. destruct (main_C77_l1_oracle_partial n 1 Hn Rle_0_1) as (Hl & Hc). destruct (neg_hyps n) as (Hg & Hsm & _).
  assert (Hlow : forall y, length y = n -> l1_ball 1 y -> - (1 / 2) <= objective neg_fg y).
  { intros y Hy Hby. change (- (1 / 2) <= - (/ 2 * dot y y)). pose proof (dot_self_l1 y). pose proof (l1_nonneg y). unfold l1_ball in Hby. assert (l1 y * l1 y <= 1 * 1) by (apply Rmult_le_compat; assumption). lra. }
  destruct (main_C105_DR n (l1_ball 1) neg_fg (l1_oracle (K:=RN) 1) 1 1 (4 * (1 * 1)) (- (1 / 2)) (1 / 10) 500 x0 401 Hg Hc Hl Hsm (Rle_refl 1) Rlt_0_1 ltac:(lra) (l1_diameter n 1 Rle_0_1) Hx Hb Hlow) as (r & E & S & _); [lra|lia| |].
  { rewrite INR_IZR_INZ. simpl Z.of_nat. rewrite Rmin_right by lra.
    change (objective neg_fg x0) with (- (/ 2 * dot x0 x0)). pose proof (dot_self_nonneg x0). lra. }
  exists r. split; [exact E|exact S].
Qed.
Lemma neg_stops_bt n (x0 : vec RN) : (0 < n)%nat -> length x0 = n -> l1_ball 1 x0 ->
  exists r : fw_result RN, minimize_fw neg_fg (l1_oracle (K:=RN) 1) FSBacktracking (Some 1) (1 / 2) 330 None Vanilla x0 = Ok r /\
    fw_stops n (l1_ball 1) neg_fg (1 / 2) 33 r.
Proof.
  intros Hn Hx Hb. destruct (main_C77_l1_oracle_partial n 1 Hn Rle_0_1) as (Hl & Hc). destruct (neg_hyps n) as (Hg & Hsm & _).
  assert (Hlow : forall y, length y = n -> l1_ball 1 y -> - (1 / 2) <= objective neg_fg y).
  { intros y Hy Hby. change (- (1 / 2) <= - (/ 2 * dot y y)). pose proof (dot_self_l1 y). pose proof (l1_nonneg y). unfold l1_ball in Hby. assert (l1 y * l1 y <= 1 * 1) by (apply Rmult_le_compat; assumption). lra. }
  destruct (main_C105_backtracking n (l1_ball 1) neg_fg (l1_oracle (K:=RN) 1) 1 1 (4 * (1 * 1)) (- (1 / 2)) (1 / 2) 330 x0 33 Hg Hc Hl Hsm Rlt_0_1 pow_small ltac:(lra) (l1_diameter n 1 Rle_0_1) Hx Hb Hlow) as (r & E & S & _); [lra|lia| |].
  { rewrite INR_IZR_INZ. simpl Z.of_nat. rewrite Rmax_right by lra. rewrite Rmin_right by lra. unfold EPS.
    change (objective neg_fg x0) with (- (/ 2 * dot x0 x0)). pose proof (dot_self_nonneg x0). lra. }
  exists r. split; [exact E|exact S].
Qed.

(** proximal gradient with f(x) = -|x|^2/2 and g(x) = |x|^2, prox_sg(x) = x / (1 + 2 s) *)
Definition cave (x : list R) : R := - sq x.
Definition cave_grad (x : list R) : list R := smul (-1) x.
Definition quad_prox (x : list R) (s : R) : list R := smul (/ (1 + 2 * s)) x.
Lemma quad_prox_ok (x : list R) (s : R) : 0 < s -> is_prox_on (fun _ => True) (fun y => dot y y) s x (quad_prox x s).
Proof.
  intros Hs. unfold quad_prox. set (c := / (1 + 2 * s)). assert (Hc : c * (1 + 2 * s) = 1) by (unfold c; field; lra).
  assert (Hp : forall y, length y = length x -> prox_obj (fun y => dot y y) s x y = prox_obj (fun y => dot y y) s x (smul c x) + (s + / 2) * dist2 y (smul c x)).
  { intros y Hy. unfold prox_obj, c. ipx. rewrite ?(dot_comm y x). field. lra. }
  split; [apply smul_length|]. split; [exact I|]. split.
  - intros y Hy _. rewrite (Hp y Hy). pose proof (dist2_nonneg y (smul c x)). pose proof (Rmult_le_pos (s + / 2) _ ltac:(lra) H). lra.
  - intros y Hy _ H. rewrite (Hp y Hy) in H. apply dist2_zero; [rewrite smul_length; exact Hy|].
    pose proof (dist2_nonneg y (smul c x)). destruct (Rle_or_lt (dist2 y (smul c x)) 0) as [|P]; [assumption|]. pose proof (Rmult_lt_0_compat (s + / 2) _ ltac:(lra) P). lra.
Qed.
Lemma cave_hyps n : (forall x, length x = n -> length (cave_grad x) = n) /\
  convex_on n (fun _ => True) (fun y => dot y y) /\
  (forall u v, length u = n -> length v = n -> cave v <= cave u + dot (cave_grad u) (vminus v u) + 1 / 2 * dist2 v u) /\
  (forall u v, length u = n -> length v = n -> norm2 (vminus (cave_grad u) (cave_grad v)) <= 1 * norm2 (vminus u v)) /\
  (forall y, length y = n -> 0 <= cave y + dot y y).
Proof.
  split; [intros x H; unfold cave_grad; rewrite smul_length; exact H|]. split; [|split; [|split]].
  - split; [intros u v t _ _ _ _ _; exact I|]. intros u v t Hu Hv _ _ Ht.
    assert (D : 0 <= dot u u - 2 * dot u v + dot v v).
    { replace (dot u u - 2 * dot u v + dot v v) with (dist2 u v) by (ipx; rewrite ?(dot_comm v u); ring). apply dist2_nonneg. }
    rewrite dot_lin_l, !dot_lin_r by (rewrite ?lin_length; lia). rewrite (dot_comm v u).
    pose proof (Rmult_le_pos (t * (1 - t)) _ ltac:(apply Rmult_le_pos; lra) D). lra.
  - exact (proj1 (proj2 (neg_hyps n))).
  - intros u v Hu Hv. unfold cave_grad. rewrite Rmult_1_l.
    replace (vminus (smul (-1) u) (smul (-1) v)) with (smul (-1) (vminus u v)); [rewrite norm2_smul, Rabs_left by lra; lra|].
    apply nth_ext with (d := 0) (d' := 0); [leng|]. intros j Hj. unfold vminus. rewrite ?nth_smul, ?nth_lin by leng. rewrite ?nth_smul. ring.
  - intros y Hy. unfold cave, sq. pose proof (dot_self_nonneg y). lra.
Qed.
Lemma cave_stops_fixed n (x0 : list R) : length x0 = n -> dot x0 x0 <= 1 ->
  exists r : pg_result RN, minimize_pg (K:=RN) (fun x => (cave x, cave_grad x)) quad_prox None (SCallable (K:=RN) (fun _ => 1)) (1 / 10) 200 100 (1 / 2) false false x0 = Ok r /\
    pg_stops n cave cave_grad (fun _ => True) (fun y => dot y y) 1 (1 / 10) x0 101 r.
Proof.
  intros Hx Hb. destruct (cave_hyps n) as (H1 & H2 & H3 & H4 & H5).
  apply (main_C106_fixed_step n cave cave_grad (fun _ => True) (fun y => dot y y) quad_prox 1 0 1 H1 H2 (fun x s _ Hs => quad_prox_ok x s Hs) Rle_0_1 H3 H4 (fun y Hy _ => H5 y Hy) Rlt_0_1); try lra; try exact Hx; try exact I; try lia.
  rewrite INR_IZR_INZ. simpl Z.of_nat. unfold cave, sq. lra.
Qed.
(** with backtracking: whatever the start, some iteration budget and some number of halvings are enough *)
Lemma cave_stops_bt n (x0 : list R) (tol : R) : length x0 = n -> 0 < tol ->
  exists max_iter max_bt a (r : pg_result RN), minimize_pg (K:=RN) (fun x => (cave x, cave_grad x)) quad_prox None SBacktracking tol max_iter max_bt (1 / 2) false false x0 = Ok r /\
    pg_stops n cave cave_grad (fun _ => True) (fun y => dot y y) 1 tol x0 a r.
Proof.
  intros Hx Ht. pose proof (main_C32_init_lipschitz_pos (fun x => (cave x, cave_grad x)) x0) as HL. destruct (cave_hyps n) as (H1 & H2 & H3 & H4 & H5).
  set (L0 := init_lipschitz (K:=RN) (fun x => (cave x, cave_grad x)) x0) in *.
  assert (HL0 : 0 < 18 / 10 / L0) by (apply Rdiv_lt_0_compat; lra).
  set (d := Rmin (18 / 10 / L0) (1 / 2 / 1) * (tol * tol) / 2).
  assert (Hd : 0 < d). { unfold d. apply Rdiv_lt_0_compat; [|lra]. apply Rmult_lt_0_compat; [apply Rmin_pos; lra|apply Rmult_lt_0_compat; assumption]. }
  assert (exists a : nat, (cave x0 + dot x0 x0 - 0) / d < INR a) as (a & Ha).
  { exists (Z.to_nat (up ((cave x0 + dot x0 x0 - 0) / d))). pose proof (archimed ((cave x0 + dot x0 x0 - 0) / d)) as (U & _).
    rewrite INR_IZR_INZ, Z2Nat.id; [lra|]. apply le_IZR.
    assert (0 <= (cave x0 + dot x0 x0 - 0) / d); [|lra]. apply Rmult_le_pos; [specialize (H5 x0 Hx); lra|left; apply Rinv_0_lt_compat; exact Hd]. }
  apply (Rmult_lt_compat_r d _ _ Hd) in Ha. replace ((cave x0 + dot x0 x0 - 0) / d * d) with (cave x0 + dot x0 x0 - 0) in Ha by (field; lra).
  set (A := (11 / 10) ^ (S a) * (18 / 10 / L0)). assert (HA : 0 < A) by (unfold A; apply Rmult_lt_0_compat; [apply pow_lt; lra|exact HL0]).
  destruct (pow_lt_1_zero (1 / 2) ltac:(rewrite Rabs_right; lra) (/ A) (Rinv_0_lt_compat _ HA)) as (N & HN). specialize (HN N (le_n N)). rewrite Rabs_right in HN by (apply Rle_ge, pow_le; lra).
  destruct (main_C106_backtracking n cave cave_grad (fun _ => True) (fun y => dot y y) quad_prox 1 0 H1 H2 (fun x s _ Hs => quad_prox_ok x s Hs) Rlt_0_1 H3 H4 (fun y Hy _ => H5 y Hy) tol a (S N) (1 / 2) false x0 a) as (r & E & P); try exact Hx; try exact I; try exact Ht; try lia; try lra.
  - fold L0. fold A. replace (S N - 1)%nat with N by lia. replace (/ 1) with (A * / A) by (field; lra). apply Rmult_le_compat_l; lra.
  - fold L0. fold d. lra.
  - exists a, (S N), a, r. split; [exact E|exact P].
Qed.
Lemma sq_stops_sublinear n (x0 : vec RN) : (0 < n)%nat -> length x0 = n -> l1_ball 1 x0 ->
  exists r : fw_result RN, minimize_fw sq_fg (l1_oracle (K:=RN) 1) FSSublinear None (1 / 10) 400 None Vanilla x0 = Ok r /\
    fw_stops n (l1_ball 1) sq_fg (1 / 10) 322 r.
Proof.
  intros Hn Hx Hb. destruct (main_C77_l1_oracle_partial n 1 Hn Rle_0_1) as (Hl & Hc).
  destruct (sq_fw_hyps n 1 x0 Hn Rle_0_1 Hx) as (Hg & Hf & _ & Hcu & _).
  destruct (main_C104_sublinear n (l1_ball 1) sq_fg (l1_oracle (K:=RN) 1) None (1 / 10) 400 x0 (4 * (1 * 1)) 161 Hg Hc Hl Hf Hcu Hx Hb) as (r & E & S & _); [lra|lia|lia| |].
  { rewrite INR_IZR_INZ. simpl. lra. }
  exists r. split; [exact E|exact S].
Qed.
