(** TraceBall and TraceNorm, at the reals, for every valid decomposition. *)
From Coq Require Import Reals Lra Lia List Bool ZArith Arith.
From Verif Require Import Num Vec Spec SpecTrace RVec ConvexFacts PenaltyFacts UtilsMain RandomizedProx SfwRate
  ModelConstraint ModelPenalty ConstraintFacts ModelTrace TraceFacts.
Import ListNotations.
Open Scope R_scope.

(** * Reshaping *)
Lemma rows_of_matrix {K : Num} m n : forall (x : vec K), length x = (m * n)%nat ->
  length (rows_of m n x) = m /\ Forall (fun r => length r = n) (rows_of m n x) /\ concat (rows_of m n x) = x.
Proof.
  induction m as [|m IH]; intros x H; cbn [rows_of].
  - destruct x; [|discriminate H]. repeat split; constructor.
  - cbn in H. destruct (IH (skipn n x)) as (A & B & C); [rewrite skipn_length; lia|].
    repeat split; cbn.
    + now rewrite A.
    + constructor; [rewrite firstn_length; lia|exact B].
    + rewrite C. apply firstn_skipn.
Qed.

Lemma rows_of_R m n (x : list R) : length x = (m * n)%nat -> matrix_of m n x (rows_of (K := RN) m n x).
Proof. intros H. exact (rows_of_matrix (K := RN) m n x H). Qed.

Lemma reshape_ok {K : Num} m n (x : vec K) : length x = (m * n)%nat -> reshape m n x = Ok (rows_of m n x).
Proof. intros H. unfold reshape. now rewrite (proj2 (Nat.eqb_eq _ _) H). Qed.
Lemma reshape_err {K : Num} m n (x : vec K) : length x <> (m * n)%nat -> reshape m n x = Err ValueError.
Proof. intros H. unfold reshape. now rewrite (proj2 (Nat.eqb_neq _ _) H). Qed.

(** * Recomposition *)
Lemma dot_vmul_col : forall k (r s : list R) (c : list R), length r = k -> length s = k -> length c = k ->
  dot (vmul (K := RN) r s) c = Rsum (map (fun l => nth l r 0 * nth l s 0 * nth l c 0) (seq 0 k)).
Proof.
  induction k as [|k IH]; intros [|a r] [|b s] [|e c] H1 H2 H3; cbn in H1, H2, H3; try lia.
  - reflexivity.
  - cbn [seq map Rsum]. rewrite <- seq_shift, map_map. cbn [nth].
    rewrite <- (IH r s c) by lia. reflexivity.
Qed.

Lemma recompose_R m n k (U : list (list R)) (s : list R) (Vt : list (list R)) :
  length U = m -> Forall (fun r => length r = k) U -> length s = k -> length Vt = k ->
  recompose (K := RN) n U s Vt = compose m n k U s Vt.
Proof.
  intros LU FU Ls LV. unfold recompose, matmul, compose, grid. f_equal.
  rewrite map_map.
  assert (EU : U = map (fun i => nth i U []) (seq 0 m)).
  { apply (list_ext _ _ []); [now rewrite map_length, seq_length|]. intros i Hi. rewrite nth_map_seq by lia. reflexivity. }
  rewrite EU at 1. etransitivity; [apply map_map|]. apply map_ext_in. intros i Hi. apply in_seq in Hi.
  apply map_ext. intros j. rewrite vdot_R.
  rewrite (dot_vmul_col k).
  - apply Rsum_ext_seq. intros l Hl. f_equal.
    change (nth l (map (fun b : list R => nth j b 0) Vt) 0 = nth j (nth l Vt []) 0).
    rewrite (nth_indep _ 0 (nth j [] 0)) by (rewrite map_length; lia).
    exact (map_nth (fun b : list R => nth j b 0) Vt [] l).
  - rewrite Forall_forall in FU. apply FU, nth_In. lia.
  - exact Ls.
  - now rewrite map_length.
Qed.

(** * The common part of the two prox: replacing s by t >= 0 in a decomposition *)
Lemma svd_replace m n k x U s Vt t : is_svd m n k x U s Vt -> length t = k -> Forall (fun v => 0 <= v) t ->
  is_svd m n k (compose m n k U t Vt) U t Vt.
Proof.
  intros (Lx & LU & FU & Ls & LV & Ps & OU & OV & _) Lt Pt. pose proof (compose_expands m n k U t Vt) as (A & B).
  unfold is_svd. intuition.
Qed.

Lemma dot_minus_seq (s t : list R) k : length s = k -> length t = k ->
  dot (vminus s t) t = Rsum (map (fun l => nth l (vminus s t) 0 * nth l t 0) (seq 0 k)).
Proof. intros A B. apply dot_seq; [unfold vminus; rewrite lin_length; lia|exact B]. Qed.

Lemma spectral_vi m n k x U s Vt t c : is_svd m n k x U s Vt -> length t = k -> Forall (fun v => 0 <= v) t ->
  0 <= c -> (forall l, (l < k)%nat -> Rabs (nth l s 0 - nth l t 0) <= c) ->
  let p := compose m n k U t Vt in
  length p = length x /\ is_nuc m n p (Rsum t) /\
  forall y ty, is_nuc m n y ty -> length y = (m * n)%nat ->
    dot (vminus x p) (vminus y p) <= c * ty - dot (vminus s t) t.
Proof.
  intros HS Lt Pt Hc Hd p. pose proof (svd_replace m n k x U s Vt t HS Lt Pt) as HP.
  destruct (svd_frames _ _ _ _ _ _ _ HS) as (Fr & Ex). destruct (svd_frames _ _ _ _ _ _ _ HP) as (_ & Ep).
  destruct HS as (Lx & LU & FU & Ls & LV & Ps & OU & OV & _).
  fold p in Ep, HP.
  assert (Ed : expands m n k (vminus x p) U (vminus s t) Vt) by (apply expands_minus; assumption).
  split; [rewrite Lx; apply Ep|]. split; [exact (nuc_svd _ _ _ _ _ _ _ HP)|].
  intros y ty Hy Ly.
  assert (Lp : length p = (m * n)%nat) by apply Ep.
  replace (dot (vminus x p) (vminus y p)) with (dot (vminus x p) y - dot (vminus x p) p).
  2:{ assert (Ld : length (vminus x p) = (m * n)%nat) by (unfold vminus; rewrite lin_length; lia).
      unfold vminus at 4. rewrite dot_lin_r by congruence. ring. }
  assert (E : dot (vminus x p) p = dot (vminus s t) t).
  { rewrite (expand_expand m n k _ p U (vminus s t) t Vt Fr Ed Ep). symmetry. now apply dot_minus_seq. }
  rewrite E. rewrite dot_comm.
  assert (O : op_le m n (vminus x p) c).
  { apply (expand_op m n k _ U (vminus s t) Vt c Fr Ed Hc). intros l Hl. rewrite nth_vminus by congruence. auto. }
  pose proof (nuc_dual m n y ty _ c Hy Hc O). lra.
Qed.

(** * TraceNorm *)
Lemma soft_facts tau s : 0 <= tau -> 0 <= s -> exists t, soft_thr (K := RN) tau s = t /\ 0 <= t /\ Rabs (s - t) <= tau /\ (s - t) * t = tau * t.
Proof.
  intros Ht Hs. rewrite soft_thr_R by exact Ht. eexists. split; [reflexivity|].
  destruct (Rltb_spec tau s); [|destruct (Rltb_spec s (- tau))].
  - replace (s - (s - tau)) with tau by ring. rewrite Rabs_right by lra. repeat split; lra.
  - lra.
  - rewrite Rminus_0_r, Rabs_right by lra. repeat split; lra.
Qed.

Lemma nth_map_soft tau (s : list R) l : (l < length s)%nat ->
  nth l (map (soft_thr (K := RN) tau) s) 0 = soft_thr (K := RN) tau (nth l s 0).
Proof.
  intros H. rewrite (nth_indep _ 0 (soft_thr (K := RN) tau 0)) by (rewrite map_length; exact H).
  exact (map_nth (soft_thr (K := RN) tau) s 0 l).
Qed.

Lemma main_C18_prox (m n : nat) (alpha step : R) (x : list R)
  (svd : list (list R) -> list (list R) * list R * list (list R)) (nuc : list R -> R) :
  0 <= alpha * step -> length x = (m * n)%nat -> svd_at m n svd x ->
  (forall Y, length Y = (m * n)%nat -> is_nuc m n Y (nuc Y)) ->
  exists p, trace_norm_prox (K := RN) svd alpha m n x step = Ok p /\ is_prox (fun y => alpha * nuc y) step x p.
Proof.
  intros Ha Lx HS HN. destruct (HS _ (rows_of_R m n x Lx)) as (k & S).
  unfold trace_norm_prox. rewrite reshape_ok by exact Lx. cbn [bind].
  destruct (svd (rows_of (K := RN) m n x)) as [[U s] Vt]. cbn [fst snd] in S. eexists. split; [reflexivity|].
  pose proof S as (_ & LU & FU & Ls & LV & Ps & OU & OV & _).
  change (nmul RN alpha step) with (alpha * step).
  set (t := map (soft_thr (K := RN) (alpha * step)) s : list R).
  assert (Lt : length t = k) by (unfold t; now rewrite map_length).
  assert (Nt : forall l, (l < k)%nat -> nth l t 0 = soft_thr (K := RN) (alpha * step) (nth l s 0))
    by (intros l Hl; apply nth_map_soft; lia).
  assert (Pn : forall l, (l < k)%nat -> 0 <= nth l s 0).
  { intros l Hl. rewrite Forall_forall in Ps. apply Ps, nth_In. lia. }
  assert (Pt : Forall (fun v => 0 <= v) t).
  { apply Forall_forall. intros v Hv. apply in_map_iff in Hv as (w & <- & Hw).
    rewrite Forall_forall in Ps. destruct (soft_facts (alpha * step) w Ha (Ps w Hw)) as (q & -> & Hq & _). exact Hq. }
  rewrite (recompose_R m n k U t Vt LU FU Lt LV).
  destruct (spectral_vi m n k x U s Vt t (alpha * step) S Lt Pt Ha) as (Lp & Np & VI).
  { intros l Hl. rewrite (Nt l Hl). destruct (soft_facts (alpha * step) _ Ha (Pn l Hl)) as (q & -> & _ & Hq & _). exact Hq. }
  apply prox_intro; [exact Lp|]. intros y Ly. rewrite Lx in Ly.
  specialize (VI y (nuc y) (HN y Ly) Ly).
  assert (E : dot (vminus s t) t = alpha * step * Rsum t).
  { rewrite (dot_minus_seq s t k Ls Lt).
    transitivity (Rsum (map (fun l => (alpha * step) * nth l t 0) (seq 0 k))).
    - apply Rsum_ext_seq. intros l Hl. rewrite nth_vminus by congruence. rewrite (Nt l Hl).
      destruct (soft_facts (alpha * step) _ Ha (Pn l Hl)) as (q & -> & _ & _ & Hq). exact Hq.
    - rewrite Rsum_map_mult. f_equal. f_equal. rewrite <- Lt. clear. apply (list_ext _ _ 0); [now rewrite map_length, seq_length|].
      intros i Hi. rewrite map_length, seq_length in Hi. now rewrite nth_map_seq. }
  rewrite (nuc_unique m n _ _ _ (HN _ (eq_trans Lp Lx)) Np). rewrite E in VI. lra.
Qed.

Lemma main_C18_nuc_exists (m n : nat) :
  exists nuc : list R -> R, forall Y, length Y = (m * n)%nat -> is_nuc m n Y (nuc Y).
Proof.
  exists (fun Y => match Nat.eq_dec (length Y) (m * n) with left H => proj1_sig (nuc_exists m n Y H) | right _ => 0 end).
  intros Y H. destruct (Nat.eq_dec (length Y) (m * n)) as [H'|H']; [|contradiction]. apply proj2_sig.
Qed.

Lemma main_C18_call (m n : nat) (alpha : R) (x : list R) (svdvals : list (list R) -> list R) (t : R) :
  length x = (m * n)%nat -> svals_at m n svdvals x -> is_nuc m n x t ->
  trace_norm_call (K := RN) svdvals alpha m n x = Ok (alpha * t).
Proof.
  intros Lx HS Ht. destruct (HS _ (rows_of_R m n x Lx)) as (k & U & Vt & S).
  unfold trace_norm_call. rewrite reshape_ok by exact Lx. cbn [bind]. rewrite vsum_R.
  now rewrite (nuc_unique m n x _ _ Ht (nuc_svd _ _ _ _ _ _ _ S)).
Qed.

Lemma main_C18_shape (K : Num) (svd : svd_fun (K := K)) (svdvals : list (vec K) -> vec K) (alpha step : K) (m n : nat) (x : vec K) :
  length x <> (m * n)%nat ->
  trace_norm_prox svd alpha m n x step = Err ValueError /\ trace_norm_call svdvals alpha m n x = Err ValueError.
Proof. intros H. unfold trace_norm_prox, trace_norm_call. now rewrite reshape_err. Qed.

(** * TraceBall *)
Lemma l1_ge : forall (t : list R), Rsum t <= l1 t.
Proof. induction t as [|a t IH]; cbn; [lra|]. pose proof (Rle_abs a). lra. Qed.
Lemma l1_of_nonneg : forall (t : list R), Forall (fun v => 0 <= v) t -> l1 t = Rsum t.
Proof. induction 1 as [|a t Ha H IH]; cbn; [reflexivity|]. now rewrite IH, Rabs_pos_eq. Qed.

Lemma abs_closer : forall (t s : list R), length t = length s -> Forall (fun v => 0 <= v) s -> dist2 (map Rabs t) s <= dist2 t s.
Proof.
  induction t as [|a t IH]; intros [|b s] L H; cbn in *; try lia; try lra.
  inversion H as [|? ? Hb Hs]; subst. specialize (IH s ltac:(lia) Hs).
  assert ((Rabs a - b) * (Rabs a - b) <= (a - b) * (a - b)); [|lra].
  unfold Rabs. destruct (Rcase_abs a); nra.
Qed.
Lemma l1_abs : forall (t : list R), l1 (map Rabs t) = l1 t.
Proof. induction t as [|a t IH]; cbn; [reflexivity|]. now rewrite IH, Rabs_Rabsolu. Qed.

Lemma proj_nonneg_l1 alpha (s t : list R) : Forall (fun v => 0 <= v) s -> is_projection (l1_ball alpha) s t ->
  Forall (fun v => 0 <= v) t.
Proof.
  intros Ps (L & C & Mn & Un).
  assert (E : map Rabs t = t).
  { apply Un; [now rewrite map_length| |apply abs_closer; assumption]. unfold l1_ball. now rewrite l1_abs. }
  rewrite <- E. apply Forall_forall. intros v Hv. apply in_map_iff in Hv as (w & <- & _). apply Rabs_pos.
Qed.

Lemma proj_vi (C : list R -> Prop) (x p : list R) : is_projection C x p ->
  forall y, length y = length x -> C y -> (forall t, 0 < t -> t <= 1 -> C (lin (1 - t) p t y)) ->
  dot (vminus x p) (vminus y p) <= 0.
Proof.
  intros (L & Cp & Mn & _) y Ly Cy HC.
  assert (G : 0 <= - (2 * dot (vminus x p) (vminus y p))); [|lra].
  apply (small_t _ (dist2 y p)). intros t Ht Ht1.
  assert (Ll : length (lin (1 - t) p t y) = length x) by (rewrite lin_length; lia).
  specialize (Mn _ Ll (HC t Ht Ht1)).
  assert (E : dist2 (lin (1 - t) p t y) x = dist2 p x - 2 * t * dot (vminus x p) (vminus y p) + t * t * dist2 y p).
  { rewrite (dist2_expand _ p x Ll L).
    assert (Em : vminus (lin (1 - t) p t y) p = smul t (vminus y p)).
    { clear - Ly L. unfold vminus. revert p y Ly L. induction x as [|c x IH]; intros [|b p] [|a y] Ly L; cbn in *; try lia; [reflexivity|].
      f_equal; [ring|]. apply IH; lia. }
    rewrite Em, dot_smul_r.
    replace (dist2 (lin (1 - t) p t y) p) with (t * t * dist2 y p); [ring|].
    clear - Ly L. revert p y Ly L. induction x as [|c x IH]; intros [|b p] [|a y] Ly L; cbn in *; try lia; [ring|].
    rewrite <- (IH p y) by lia. ring. }
  rewrite E in Mn. apply Rmult_le_reg_l with t; [exact Ht|]. lra.
Qed.

Lemma l1_zeros : forall N, l1 (zeros N) = 0.
Proof. induction N as [|N IH]; [reflexivity|]. change (Rabs 0 + l1 (zeros N) = 0). rewrite IH, Rabs_R0. ring. Qed.

Lemma l1_lin : forall (u v : list R) a b, 0 <= a -> 0 <= b -> length u = length v ->
  l1 (lin a u b v) <= a * l1 u + b * l1 v.
Proof.
  induction u as [|x u IH]; intros [|y v] a b Ha Hb L; cbn in *; try lia; [lra|].
  specialize (IH v a b Ha Hb ltac:(lia)).
  pose proof (Rabs_triang (a * x) (b * y)) as T. rewrite !Rabs_mult, (Rabs_pos_eq a), (Rabs_pos_eq b) in T by assumption.
  lra.
Qed.

Lemma l1_single : forall N j c, (j < N)%nat -> l1 (smul c (unit_vec N j)) = Rabs c.
Proof.
  intros N j c Hj. rewrite l1_Rsum. unfold unit_vec, smul. rewrite !map_map.
  rewrite <- (single_sum (Rabs c) j N Hj). apply Rsum_ext_seq. intros i Hi.
  destruct (Nat.eqb i j); rewrite ?Rmult_1_r, ?Rmult_0_r, ?Rabs_R0; reflexivity.
Qed.

Lemma dot_single (v : list R) N j c : length v = N -> (j < N)%nat -> dot v (smul c (unit_vec N j)) = c * nth j v 0.
Proof.
  intros L Hj. rewrite dot_smul_r. f_equal.
  rewrite (dot_seq v (unit_vec N j) N L (unit_vec_length N j)).
  rewrite <- (single_sum (nth j v 0) j N Hj). apply Rsum_ext_seq. intros i Hi.
  rewrite nth_unit_vec by exact Hi. destruct (Nat.eqb_spec i j); [subst; ring|ring].
Qed.

Lemma l1_proj_gap alpha (s t : list R) l : 0 < alpha -> is_projection (l1_ball alpha) s t -> (l < length s)%nat ->
  alpha * Rabs (nth l s 0 - nth l t 0) <= dot (vminus s t) t.
Proof.
  intros Ha HP Hl. pose proof HP as (L & C & _).
  assert (G : forall e, Rabs e = 1 -> alpha * (e * (nth l s 0 - nth l t 0)) <= dot (vminus s t) t).
  { intros e He. set (y := smul (alpha * e) (unit_vec (length s) l)).
    assert (Ly : length y = length s) by (unfold y; now rewrite smul_length, unit_vec_length).
    assert (Cy : l1_ball alpha y).
    { unfold l1_ball, y. rewrite l1_single by exact Hl. rewrite Rabs_mult, He, Rabs_pos_eq; lra. }
    assert (V : dot (vminus s t) (vminus y t) <= 0).
    { apply (proj_vi _ _ _ HP y Ly Cy). intros q Hq Hq1. unfold l1_ball in *.
      eapply Rle_trans; [apply l1_lin; try lra; congruence|]. nra. }
    assert (Ld : length (vminus s t) = length s) by (unfold vminus; rewrite lin_length; lia).
    unfold vminus at 2 in V. rewrite dot_lin_r in V by congruence.
    unfold y in V. rewrite (dot_single (vminus s t) (length s) l) in V; [|unfold vminus; rewrite lin_length; lia|exact Hl].
    rewrite nth_vminus in V by congruence. lra. }
  pose proof (G 1 Rabs_R1). pose proof (G (-1) ltac:(rewrite Rabs_left; lra)).
  unfold Rabs. destruct (Rcase_abs _); lra.
Qed.

Lemma main_C08_prox (m n : nat) (alpha : R) (x : list R)
  (svd : list (list R) -> list (list R) * list R * list (list R)) :
  0 < alpha -> length x = (m * n)%nat -> svd_at m n svd x ->
  exists p, trace_ball_prox (K := RN) svd alpha m n x = Ok p /\ is_projection (nuc_ball m n alpha) x p.
Proof.
  intros Ha Lx HS. destruct (HS _ (rows_of_R m n x Lx)) as (k & S).
  unfold trace_ball_prox. rewrite reshape_ok by exact Lx. cbn [bind].
  destruct (svd (rows_of (K := RN) m n x)) as [[U s] Vt]. cbn [fst snd] in S.
  assert (W : exists t : list R, proj_l1ball (K := RN) s alpha = Ok t /\ is_projection (l1_ball alpha) s t).
  { destruct (proj_l1ball_correct s alpha Ha) as (t & Et & HP & _). exists t. split; assumption. }
  destruct W as (t & Et & HP).
  exists (recompose (K := RN) n U t Vt).
  split. { exact (f_equal (fun r => bind r (fun t0 => Ok (recompose (K := RN) n U t0 Vt))) Et). }
  pose proof S as (_ & LU & FU & Ls & LV & Ps & OU & OV & _).
  assert (Lt : length t = k) by (rewrite <- Ls; apply HP).
  pose proof (proj_nonneg_l1 alpha s t Ps HP) as Pt.
  rewrite (recompose_R m n k U t Vt LU FU Lt LV).
  set (D := dot (vminus s t) t).
  assert (HD : 0 <= D).
  { unfold D. assert (V : dot (vminus s t) (vminus (zeros (length s)) t) <= 0).
    { apply (proj_vi _ _ _ HP); [apply zeros_length| |].
      - unfold l1_ball. rewrite l1_zeros. lra.
      - intros q Hq Hq1. pose proof HP as (L & C & _). unfold l1_ball in *.
        eapply Rle_trans; [apply l1_lin; try lra; rewrite zeros_length; congruence|]. rewrite l1_zeros. nra. }
    assert (Ld : length (vminus s t) = length s) by (unfold vminus; rewrite lin_length; lia).
    assert (Lts : length t = length s) by congruence.
    unfold vminus at 2 in V. rewrite dot_lin_r, dot_zeros_r in V by (rewrite ?zeros_length; congruence). lra. }
  assert (Hc : 0 <= D / alpha) by (apply Rmult_le_pos; [exact HD|left; now apply Rinv_0_lt_compat]).
  destruct (spectral_vi m n k x U s Vt t (D / alpha) S Lt Pt Hc) as (Lp & Np & VI).
  { intros l Hl. apply Rmult_le_reg_l with alpha; [exact Ha|].
    replace (alpha * (D / alpha)) with D by (field; lra). apply (l1_proj_gap alpha s t l Ha HP). lia. }
  apply projection_intro; [exact Lp| |].
  - exists (Rsum t). split; [exact Np|]. rewrite <- (l1_of_nonneg t Pt). apply HP.
  - intros y Ly (ty & Hy & By). rewrite Lx in Ly. specialize (VI y ty Hy Ly). fold D in VI.
    assert (D / alpha * ty <= D); [|lra].
    replace D with (D / alpha * alpha) at 2 by (field; lra). now apply Rmult_le_compat_l.
Qed.

Lemma main_C08_prox_inside (m n : nat) (alpha : R) (x : list R)
  (svd : list (list R) -> list (list R) * list R * list (list R)) :
  0 < alpha -> length x = (m * n)%nat -> svd_at m n svd x -> nuc_ball m n alpha x ->
  trace_ball_prox (K := RN) svd alpha m n x = Ok x.
Proof.
  intros Ha Lx HS HB. destruct (main_C08_prox m n alpha x svd Ha Lx HS) as (p & E & HP).
  rewrite E. f_equal. symmetry. apply HP; [reflexivity|exact HB|].
  assert (Z : forall v : list R, dist2 v v = 0) by (induction v as [|a v IH]; cbn; [reflexivity|rewrite IH; ring]).
  rewrite Z. apply dist2_nonneg.
Qed.

Lemma main_C08_prox_errors (K : Num) (svd : svd_fun (K := K)) (alpha : K) (m n : nat) (x : vec K) :
  (length x <> (m * n)%nat -> trace_ball_prox svd alpha m n x = Err ValueError) /\
  (length x = (m * n)%nat -> nltb K n0 alpha = false -> trace_ball_prox svd alpha m n x = Err AssertionError).
Proof.
  unfold trace_ball_prox. split.
  - intros H. now rewrite reshape_err.
  - intros H Ha. rewrite reshape_ok by exact H. cbn [bind]. destruct (svd (rows_of m n x)) as [[U s] Vt].
    now rewrite proj_l1ball_bad_s.
Qed.

(** What TraceBall.__call__ decides: membership up to float32 eps. *)
Lemma main_C08_call (m n : nat) (alpha : R) (x : list R) (svdvals : list (list R) -> list R) :
  length x = (m * n)%nat -> svals_at m n svdvals x ->
  exists b, trace_ball_call (K := RN) svdvals alpha m n x = Ok b /\
    (b = true <-> nuc_ball m n (alpha + / 8388608) x).
Proof.
  intros Lx HS. destruct (HS _ (rows_of_R m n x Lx)) as (k & U & Vt & S).
  unfold trace_ball_call. rewrite reshape_ok by exact Lx. cbn [bind]. eexists. split; [reflexivity|].
  pose proof (nuc_svd _ _ _ _ _ _ _ S) as Nx. rewrite vsum_R. rn. rewrite nlit_R.
  replace (1 / 8388608) with (/ 8388608) by lra.
  destruct (Rleb_spec (Rsum (svdvals (rows_of (K := RN) m n x))) (alpha + / 8388608)) as [H|H].
  - split; [intros _; exists (Rsum (svdvals (rows_of (K := RN) m n x))); split; assumption|reflexivity].
  - split; [discriminate|]. intros (t & Ht & B). rewrite (nuc_unique m n x _ _ Ht Nx) in B. lra.
Qed.

(** * TraceBall.lmo *)
Lemma outer_flat_R (a b : list R) : outer_flat (K := RN) a b = outer a b.
Proof. reflexivity. Qed.

Lemma top_nonneg m n u a b : is_top_pair m n u a b -> 0 <= dot u (outer a b).
Proof.
  intros (La & Lb & Na & Nb & (Lu & B)).
  specialize (B (smul (-1) a) b ltac:(now rewrite smul_length) Lb).
  rewrite norm2_smul, Na, Nb, Rabs_left in B by lra.
  assert (E : outer (smul (-1) a) b = smul (-1) (outer a b)).
  { clear. induction a as [|x a IH]; cbn; [reflexivity|]. rewrite map_app. f_equal; [|exact IH].
    rewrite map_map. apply map_ext. intros y. ring. }
  rewrite E, dot_smul_r in B. lra.
Qed.

Lemma main_C08_lmo_partial (m n : nat) (alpha : R) (u x : list R) (svds : list (list R) -> list R * list R) :
  0 <= alpha -> (2 <= m)%nat -> (2 <= n)%nat -> length u = (m * n)%nat -> length x = length u -> svds_at m n svds u ->
  exists o, trace_ball_lmo (K := RN) svds alpha m n u x = Ok o /\
    lmo_fw o = None /\ lmo_away o = None /\ lmo_max_step o = 1 /\ length (lmo_dir o) = length x /\
    is_lin_max (nuc_ball m n alpha) u (vplus x (lmo_dir o)).
Proof.
  intros Ha Hm Hn Lu Lx HS. pose proof (HS _ (rows_of_R m n u Lu)) as T.
  unfold trace_ball_lmo. rewrite reshape_ok by exact Lu. cbn [bind].
  destruct (Nat.leb_spec (Nat.min m n) 1); [lia|].
  destruct (svds (rows_of (K := RN) m n u)) as [a b]. cbn [fst snd] in T.
  pose proof T as (La & Lb & Na & Nb & O). pose proof (top_nonneg _ _ _ _ _ T) as P.
  assert (Lo : length (outer a b) = (m * n)%nat) by (rewrite outer_length; congruence).
  assert (Ev : vscale (K := RN) alpha (outer_flat (K := RN) a b) = smul alpha (outer a b)) by apply vscale_R.
  assert (Lv : length (vscale (K := RN) alpha (outer_flat (K := RN) a b)) = (m * n)%nat).
  { rewrite Ev, smul_length. exact Lo. }
  assert (Eb : Nat.eqb (length x) (length (vscale (K := RN) alpha (outer_flat (K := RN) a b))) = true).
  { apply Nat.eqb_eq. etransitivity; [|symmetry; exact Lv]. congruence. }
  exists (mkLmo (K := RN) (vsub (K := RN) (vscale (K := RN) alpha (outer_flat (K := RN) a b)) x) None None 1).
  split.
  { etransitivity; [|exact (f_equal (fun c : bool => if negb c then Err ValueError else Ok (mkLmo (K := RN) (vsub (K := RN) (vscale (K := RN) alpha (outer_flat (K := RN) a b)) x) None None 1)) Eb)]. reflexivity. }
  cbn [lmo_fw lmo_away lmo_max_step lmo_dir]. do 3 (split; [reflexivity|]).
  rewrite Ev, vsub_R.
  assert (Ls : length (smul alpha (outer a b)) = (m * n)%nat) by now rewrite smul_length.
  split; [unfold vminus; rewrite lin_length; lia|].
  assert (E : vplus x (vminus (smul alpha (outer a b)) x) = smul alpha (outer a b)).
  { apply (list_ext _ _ 0); unfold vplus, vminus in *; rewrite ?lin_length; try (rewrite ?lin_length; lia).
    intros i Hi. rewrite nth_lin by (rewrite lin_length; lia). rewrite nth_lin by lia. ring. }
  rewrite E. repeat split; [congruence| |].
  - destruct (nuc_exists m n (smul alpha (outer a b)) Ls) as (t & Ht). exists t. split; [exact Ht|].
    apply Ht. intros r (Z & (LZ & B) & ->). rewrite dot_smul_l, dot_comm.
    specialize (B a b La Lb). rewrite Na, Nb in B.
    rewrite <- (Rmult_1_r alpha) at 2. apply Rmult_le_compat_l; lra.
  - intros y Ly (t & Ht & Bt). rewrite dot_smul_r, dot_comm.
    pose proof (nuc_dual m n y t u _ Ht P O) as H1.
    assert (dot u (outer a b) * t <= dot u (outer a b) * alpha) by now apply Rmult_le_compat_l. lra.
Qed.

(** A single row or column: scipy's svds cannot compute one singular triplet of it. *)
Lemma main_C08_lmo_refuted (K : Num) (alpha : K) (m n : nat) (u x : vec K) (svds : list (vec K) -> vec K * vec K) :
  (m <= 1 \/ n <= 1)%nat -> trace_ball_lmo svds alpha m n u x = Err ValueError.
Proof.
  intros H. unfold trace_ball_lmo, reshape. destruct (Nat.eqb (length u) (m * n)); [|reflexivity]. cbn [bind].
  now rewrite (proj2 (Nat.leb_le (Nat.min m n) 1)) by lia.
Qed.
