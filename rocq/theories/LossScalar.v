(** * The scalar losses: logistic, square, Huber (independent of the model) *)
From Coq Require Import Reals List Lra Lia Psatz.
From Verif Require Import Num Vec Spec RVec SpecLoss LossFacts.
Import ListNotations.
Open Scope R_scope.

Lemma mvt_any f f' x y : (forall t, derivable_pt_lim f t (f' t)) ->
  exists xi, f y - f x = f' xi * (y - x) /\ Rmin x y <= xi <= Rmax x y.
Proof.
  intros H. destruct (Rtotal_order x y) as [L|[E|L]].
  - destruct (MVT_cor2 f f' x y L) as (c & Ec & Hc); [intros; apply H|]. exists c. rewrite Rmin_left, Rmax_right by lra. split; [exact Ec|lra].
  - subst. exists y. rewrite Rmin_left, Rmax_left by lra. split; [ring|lra].
  - destruct (MVT_cor2 f f' y x L) as (c & Ec & Hc); [intros; apply H|]. exists c. rewrite Rmin_right, Rmax_left by lra. split; [lra|lra].
Qed.
Lemma gap_of_derivative f f' c : (forall t, derivable_pt_lim f t (f' t)) ->
  (forall x y, x <= y -> 0 <= f' y - f' x <= c * (y - x)) ->
  forall x y, 0 <= f y - f x - f' x * (y - x) <= c / 2 * ((y - x) * (y - x)).
Proof.
  intros Hd Hm x y. split.
  - destruct (mvt_any f f' x y Hd) as (xi & E & Hxi). rewrite E.
    replace (f' xi * (y - x) - f' x * (y - x)) with ((f' xi - f' x) * (y - x)) by ring.
    destruct (Rle_dec x y).
    + rewrite Rmin_left, Rmax_right in Hxi by lra. pose proof (Hm x xi ltac:(lra)). nra.
    + rewrite Rmin_right, Rmax_left in Hxi by lra. pose proof (Hm xi x ltac:(lra)). nra.
  - set (g := fun t => f t - (f' x * (t - x) + c / 2 * ((t - x) * (t - x)))).
    assert (Hg : forall t, derivable_pt_lim g t (f' t - (f' x + c * (t - x)))).
    { intros t. unfold g. apply derivable_pt_lim_minus; [apply Hd|].
      assert (D : derivable_pt_lim (fun t => t - x) t 1).
      { replace 1 with (1 - 0) by ring. apply derivable_pt_lim_minus; [apply derivable_pt_lim_id|apply derivable_pt_lim_const]. }
      apply derivable_pt_lim_plus.
      - pose proof (derivable_pt_lim_scal (fun t => t - x) (f' x) t 1 D) as D2. rewrite Rmult_1_r in D2. exact D2.
      - replace (c * (t - x)) with (c / 2 * (1 * (t - x) + (t - x) * 1)) by field.
        apply (derivable_pt_lim_scal (fun t => (t - x) * (t - x))). apply (derivable_pt_lim_mult (fun t => t - x) (fun t => t - x)); exact D. }
    destruct (mvt_any g _ x y Hg) as (xi & E & Hxi). unfold g in E.
    enough ((f' xi - (f' x + c * (xi - x))) * (y - x) <= 0) by lra.
    destruct (Rle_dec x y).
    + rewrite Rmin_left, Rmax_right in Hxi by lra. pose proof (Hm x xi ltac:(lra)). nra.
    + rewrite Rmin_right, Rmax_left in Hxi by lra. pose proof (Hm xi x ltac:(lra)). nra.
Qed.

(** ** logistic *)
Lemma sigma_pos t : 0 < sigma t < 1.
Proof.
  unfold sigma. pose proof (exp_pos (- t)). split; [apply Rinv_0_lt_compat; lra|].
  replace 1 with (/ 1) at 2 by apply Rinv_1. apply Rinv_lt_contravar; lra.
Qed.
Lemma d_exp_neg t : derivable_pt_lim (fun t => 1 + exp (- t)) t (- exp (- t)).
Proof.
  replace (- exp (- t)) with (0 + exp (- t) * (-1)) by ring.
  apply (derivable_pt_lim_plus (fun _ => 1) (fun t => exp (- t))); [apply derivable_pt_lim_const|].
  apply (derivable_pt_lim_comp (fun t => - t) exp); [|apply derivable_pt_lim_exp].
  replace (-1) with (- (1)) by ring. apply (derivable_pt_lim_opp id). apply derivable_pt_lim_id.
Qed.
Lemma d_sigma t : derivable_pt_lim sigma t (sigma t * (1 - sigma t)).
Proof.
  pose proof (exp_pos (- t)) as P.
  assert (D : derivable_pt_lim (fun t => 1 / (1 + exp (- t))) t ((0 * (1 + exp (- t)) - (- exp (- t)) * 1) / Rsqr (1 + exp (- t)))).
  { apply (derivable_pt_lim_div (fun _ => 1) (fun t => 1 + exp (- t))); [apply derivable_pt_lim_const|apply d_exp_neg|lra]. }
  replace (sigma t * (1 - sigma t)) with ((0 * (1 + exp (- t)) - (- exp (- t)) * 1) / Rsqr (1 + exp (- t))).
  - intros eps He. destruct (D eps He) as (dl & H). exists dl. intros h Hh1 Hh2. specialize (H h Hh1 Hh2). unfold sigma.
    replace (/ (1 + exp (- (t + h))) - / (1 + exp (- t))) with (1 / (1 + exp (- (t + h))) - 1 / (1 + exp (- t))) by (unfold Rdiv; ring).
    exact H.
  - unfold sigma, Rsqr. field. lra.
Qed.
Lemma sigma_quarter t : 0 <= sigma t * (1 - sigma t) <= / 4.
Proof. pose proof (sigma_pos t). pose proof (Rle_0_sqr (sigma t - / 2)) as S. unfold Rsqr in S. split; nra. Qed.
Lemma sigma_mono x y : x <= y -> 0 <= sigma y - sigma x <= / 4 * (y - x).
Proof.
  intros H. destruct (mvt_any sigma _ x y d_sigma) as (xi & E & _). rewrite E. pose proof (sigma_quarter xi). nra.
Qed.
Lemma sigma_lip x y : Rabs (sigma x - sigma y) <= / 4 * Rabs (x - y).
Proof.
  destruct (Rle_dec x y).
  - pose proof (sigma_mono x y ltac:(lra)). rewrite !Rabs_left1 by lra. lra.
  - pose proof (sigma_mono y x ltac:(lra)). rewrite !Rabs_right by lra. lra.
Qed.
(** second order: the derivative of sigma is 1/4-Lipschitz *)
Lemma dsigma_lip x y : Rabs (sigma x * (1 - sigma x) - sigma y * (1 - sigma y)) <= / 4 * Rabs (x - y).
Proof.
  replace (sigma x * (1 - sigma x) - sigma y * (1 - sigma y)) with ((sigma x - sigma y) * (1 - sigma x - sigma y)) by ring.
  rewrite Rabs_mult. pose proof (sigma_lip x y). pose proof (sigma_pos x). pose proof (sigma_pos y).
  assert (Rabs (1 - sigma x - sigma y) <= 1) by (apply Rabs_le; lra).
  pose proof (Rabs_pos (sigma x - sigma y)). pose proof (Rabs_pos (1 - sigma x - sigma y)). nra.
Qed.
Lemma sigma_second x y : Rabs (sigma y - sigma x - sigma x * (1 - sigma x) * (y - x)) <= / 4 * ((y - x) * (y - x)).
Proof.
  destruct (mvt_any sigma _ x y d_sigma) as (xi & E & Hxi). rewrite E.
  replace (sigma xi * (1 - sigma xi) * (y - x) - sigma x * (1 - sigma x) * (y - x))
    with ((sigma xi * (1 - sigma xi) - sigma x * (1 - sigma x)) * (y - x)) by ring.
  rewrite Rabs_mult. pose proof (dsigma_lip xi x) as D.
  assert (Hd : Rabs (xi - x) <= Rabs (y - x)).
  { destruct (Rle_dec x y).
    - rewrite Rmin_left, Rmax_right in Hxi by lra. rewrite !Rabs_right by lra. lra.
    - rewrite Rmin_right, Rmax_left in Hxi by lra. rewrite !Rabs_left1 by lra. lra. }
  assert (Q : (y - x) * (y - x) = Rabs (y - x) * Rabs (y - x)) by (unfold Rabs; destruct (Rcase_abs (y - x)); ring).
  rewrite Q. pose proof (Rabs_pos (y - x)). pose proof (Rabs_pos (xi - x)). pose proof (Rabs_pos (sigma xi * (1 - sigma xi) - sigma x * (1 - sigma x))). nra.
Qed.

Lemma ln_sigma t : ln (sigma t) = - ln (1 + exp (- t)).
Proof. unfold sigma. pose proof (exp_pos (- t)). apply ln_Rinv. lra. Qed.
Lemma ln_1m_sigma t : ln (1 - sigma t) = - t - ln (1 + exp (- t)).
Proof.
  pose proof (exp_pos (- t)). replace (1 - sigma t) with (exp (- t) * sigma t) by (unfold sigma; field; lra).
  rewrite ln_mult by (try apply exp_pos; apply sigma_pos). rewrite ln_exp, ln_sigma. ring.
Qed.
Lemma log_term_eq b t : log_term b t = (1 - b) * t - ln (sigma t).
Proof. unfold log_term. rewrite ln_1m_sigma, ln_sigma. ring. Qed.
Definition dlog (b t : R) : R := sigma t - b.
Lemma d_log_term b t : derivable_pt_lim (log_term b) t (dlog b t).
Proof.
  pose proof (exp_pos (- t)) as P.
  assert (D : derivable_pt_lim (fun t => (1 - b) * t + ln (1 + exp (- t))) t ((1 - b) * 1 + / (1 + exp (- t)) * (- exp (- t)))).
  { apply (derivable_pt_lim_plus (fun t => (1 - b) * t) (fun t => ln (1 + exp (- t)))).
    - apply (derivable_pt_lim_scal id). apply derivable_pt_lim_id.
    - apply (derivable_pt_lim_comp (fun t => 1 + exp (- t)) ln); [apply d_exp_neg|apply derivable_pt_lim_ln; lra]. }
  replace (dlog b t) with ((1 - b) * 1 + / (1 + exp (- t)) * (- exp (- t))) by (unfold dlog, sigma; field; lra).
  intros eps He. destruct (D eps He) as (dl & H). exists dl. intros h Hh1 Hh2. specialize (H h Hh1 Hh2).
  rewrite !log_term_eq, !ln_sigma. unfold Rminus at 3 5. rewrite !Ropp_involutive. exact H.
Qed.
Lemma log_gap b x y : 0 <= log_term b y - log_term b x - dlog b x * (y - x) <= / 4 / 2 * ((y - x) * (y - x)).
Proof.
  apply (gap_of_derivative (log_term b) (dlog b)); [apply d_log_term|]. intros u v Huv. unfold dlog. pose proof (sigma_mono u v Huv). lra.
Qed.
Lemma log_lip b x y : Rabs (dlog b x - dlog b y) <= / 4 * Rabs (x - y).
Proof. unfold dlog. replace (sigma x - b - (sigma y - b)) with (sigma x - sigma y) by ring. apply sigma_lip. Qed.

(** ** square *)
Definition dsq (b t : R) : R := t - b.
Lemma sq_gap b x y : 0 <= sq_term b y - sq_term b x - dsq b x * (y - x) <= 1 / 2 * ((y - x) * (y - x)).
Proof. unfold sq_term, dsq. replace (/ 2 * ((y - b) * (y - b)) - / 2 * ((x - b) * (x - b)) - (x - b) * (y - x)) with (/ 2 * ((y - x) * (y - x))) by field. pose proof (Rle_0_sqr (y - x)) as S. unfold Rsqr in S. lra. Qed.
Lemma sq_lip b x y : Rabs (dsq b x - dsq b y) <= 1 * Rabs (x - y).
Proof. unfold dsq. replace (x - b - (y - b)) with (x - y) by ring. lra. Qed.

(** ** Huber *)
Definition dhub (delta b t : R) : R := if Rle_dec (Rabs (t - b)) delta then t - b else if Rle_dec 0 (t - b) then delta else - delta.
Lemma huber_cases delta t : 0 < delta ->
  (t < - delta /\ huber delta t = delta * (- t - / 2 * delta)) \/ (- delta <= t <= delta /\ huber delta t = / 2 * (t * t)) \/
  (delta < t /\ huber delta t = delta * (t - / 2 * delta)).
Proof.
  intros Hd. unfold huber. destruct (Rle_dec (Rabs t) delta) as [L|L].
  - apply abs_le_inv in L. right; left. split; auto.
  - unfold Rabs in *. destruct (Rcase_abs t).
    + left. split; [lra|auto].
    + right; right. split; [lra|auto].
Qed.
Lemma dhub_cases delta b t : 0 < delta ->
  (t - b < - delta /\ dhub delta b t = - delta) \/ (- delta <= t - b <= delta /\ dhub delta b t = t - b) \/
  (delta < t - b /\ dhub delta b t = delta).
Proof.
  intros Hd. unfold dhub. destruct (Rle_dec (Rabs (t - b)) delta) as [L|L].
  - apply abs_le_inv in L. right; left. split; auto.
  - unfold Rabs in *. destruct (Rcase_abs (t - b)); destruct (Rle_dec 0 (t - b)); [lra|left; split; lra|right; right; split; lra|lra].
Qed.
Lemma hub_gap delta b x y : 0 < delta ->
  0 <= hub_term delta b y - hub_term delta b x - dhub delta b x * (y - x) <= 1 / 2 * ((y - x) * (y - x)).
Proof.
  intros Hd. unfold hub_term.
  replace (y - x) with ((y - b) - (x - b)) by ring.
  assert (Dx : dhub delta b x = dhub delta 0 (x - b)) by (unfold dhub; rewrite !Rminus_0_r; auto).
  rewrite Dx. generalize (y - b) (x - b). clear Dx x y b. intros y x.
  pose proof (huber_cases delta x Hd) as Hx. pose proof (huber_cases delta y Hd) as Hy. pose proof (dhub_cases delta 0 x Hd) as Dx.
  rewrite Rminus_0_r in Dx.
  destruct Hx as [[Lx Ex]|[[Lx Ex]|[Lx Ex]]]; rewrite Ex; destruct Hy as [[Ly Ey]|[[Ly Ey]|[Ly Ey]]]; rewrite Ey;
  destruct Dx as [[Mx Fx]|[[Mx Fx]|[Mx Fx]]]; rewrite Fx; try (exfalso; lra); split;
  try (pose proof (Rle_0_sqr (y - x)) as S1; unfold Rsqr in S1; lra); try nra.
Qed.
Lemma hub_lip delta b x y : 0 < delta -> Rabs (dhub delta b x - dhub delta b y) <= 1 * Rabs (x - y).
Proof.
  intros Hd. pose proof (dhub_cases delta b x Hd) as Dx. pose proof (dhub_cases delta b y Hd) as Dy.
  destruct Dx as [[Lx Ex]|[[Lx Ex]|[Lx Ex]]]; rewrite Ex; destruct Dy as [[Ly Ey]|[[Ly Ey]|[Ly Ey]]]; rewrite Ey;
  unfold Rabs; repeat destruct (Rcase_abs _); lra.
Qed.

(** ** the accuracy of the piecewise log-sigmoid *)
Lemma ln_1p_upper u : -1 < u -> ln (1 + u) <= u.
Proof.
  intros Hu. destruct (Req_dec u 0) as [->|N]; [rewrite Rplus_0_r, ln_1; lra|].
  rewrite <- (ln_exp u) at 2. apply Rlt_le, ln_increasing; [lra|]. apply exp_ineq1. auto.
Qed.
Lemma ln_1p_lower u : 0 <= u -> u - u * u <= ln (1 + u).
Proof.
  intros Hu. assert (E : ln (1 + u) = - ln (1 + (- u / (1 + u)))).
  { rewrite <- ln_Rinv. - f_equal. field. lra. - replace (1 + - u / (1 + u)) with (/ (1 + u)) by (field; lra). apply Rinv_0_lt_compat; lra. }
  rewrite E. assert (-1 < - u / (1 + u)).
  { assert (u / (1 + u) < 1); [|unfold Rdiv in *; lra]. apply Rmult_lt_reg_r with (1 + u); [lra|]. unfold Rdiv. rewrite Rmult_assoc, Rinv_l by lra. lra. }
  pose proof (ln_1p_upper _ H). assert (u / (1 + u) >= u - u * u).
  { apply Rle_ge. apply Rmult_le_reg_r with (1 + u); [lra|]. unfold Rdiv. rewrite (Rmult_assoc u), Rinv_l by lra. nra. }
  unfold Rdiv in *. lra.
Qed.
Lemma exp_le x y : x <= y -> exp x <= exp y.
Proof. intros [H| ->]; [apply Rlt_le, exp_increasing; auto|lra]. Qed.
Lemma ln_sigma_neg t : ln (sigma t) = t - ln (1 + exp t).
Proof.
  pose proof (exp_pos t). pose proof (exp_pos (- t)).
  replace (sigma t) with (exp t * / (1 + exp t)).
  - rewrite ln_mult, ln_exp, ln_Rinv by (try apply exp_pos; try apply Rinv_0_lt_compat; lra). ring.
  - unfold sigma. rewrite exp_Ropp. field. lra.
Qed.
