(** * C118: LogLoss with any alpha against the exact documented loss, over IEEE binary64 *)
From Coq Require Import Reals Lra Lia List Bool ZArith.
From Coq Require Import Floats.SpecFloat.
From Verif Require Import Num Vec Spec RVec SpecLoss LossScalar ModelTv ModelLoss LossFacts FloatBase FloatRuns FloatSum FloatPair FloatSimplex2 FloatSimplex4 FloatLogistic FloatLogistic2 FloatNorm FloatGrad FloatGradMain FloatLoss FloatLossMain FloatLossFin FloatValue FloatValueMain FloatValueFin.
From Flocq Require Import Core.Core IEEE754.BinarySingleNaN.
Import ListNotations.
Local Open Scope R_scope.

Lemma ln_sigma_mono c a : c <= a -> 0 <= ln (sigma a) - ln (sigma c) <= a - c.
Proof.
  intros H. rewrite !ln_sigma. pose proof (exp_pos (- a)) as Pa. pose proof (exp_pos (- c)) as Pc. assert (E1 : exp (- a) <= exp (- c)) by (destruct (Rle_lt_or_eq_dec _ _ H) as [Q| ->]; [left; apply exp_increasing; lra|lra]).
  split.
  - assert (ln (1 + exp (- a)) <= ln (1 + exp (- c))) by (destruct E1 as [Q| ->]; [left; apply ln_increasing; lra|lra]). lra.
  - assert (E2 : exp (- c) = exp (a - c) * exp (- a)) by (rewrite <- exp_plus; f_equal; ring).
    assert (E3 : 1 <= exp (a - c)) by (rewrite <- exp_0; destruct (Rle_lt_or_eq_dec _ _ H) as [Q| ->]; [left; apply exp_increasing; lra|right; f_equal; ring]).
    assert (E4 : ln (1 + exp (- c)) <= ln (exp (a - c) * (1 + exp (- a)))).
    { assert (Q : 1 + exp (- c) <= exp (a - c) * (1 + exp (- a))) by (rewrite Rmult_plus_distr_l, <- E2; lra). destruct Q as [Q| ->]; [left; apply ln_increasing; lra|lra]. }
    rewrite ln_mult, ln_exp in E4 by lra. lra.
Qed.
Lemma log_term_lip v c a : 0 <= v <= 1 -> Rabs (log_term v a - log_term v c) <= Rabs (a - c).
Proof.
  intros Hv. assert (G : forall c a, c <= a -> Rabs (log_term v a - log_term v c) <= a - c).
  { intros c0 a0 H. pose proof (ln_sigma_mono c0 a0 H) as M. rewrite !log_term_eq. replace ((1 - v) * a0 - ln (sigma a0) - ((1 - v) * c0 - ln (sigma c0))) with ((1 - v) * (a0 - c0) - (ln (sigma a0) - ln (sigma c0))) by ring.
    assert (0 <= (1 - v) * (a0 - c0) <= 1 * (a0 - c0)) by (split; [apply Rmult_le_pos|apply Rmult_le_compat_r]; lra). apply Rabs_le. lra. }
  destruct (Rle_dec c a) as [H|H]; [rewrite (Rabs_right (a - c)) by lra; apply G, H|]. rewrite <- Rabs_Ropp, Ropp_minus_distr, (Rabs_left (a - c)) by lra. replace (- (a - c)) with (c - a) by ring. apply G. lra.
Qed.
Definition margins_err (x : list F64) (rows : list (list F64)) : R := Rsum (map (fun r => csr_err (length x) (dot (fabs r) (fabs x))) rows).
Definition log_val_err (d : R) (alpha : F64) (x : list F64) (rows : list (list F64)) (Z : R) : R :=
  let n := INR (length rows) in let X := dot (map fv x) (map fv x) in let Cx := csr_err (length x) X in
  let E := (3 * d + (6 * n + 14) * / 2 ^ 53) * (Z + 1) in
  E + margins_err x rows / n + Rabs (fv alpha) / 2 * Cx + 4 * / 2 ^ 53 * (Z + 1 + E + Rabs (fv alpha) / 2 * (X + Cx)) + 3 * powerRZ 2 (-1075) * (1 + X + Cx).
Lemma margins_sum (x : list F64) : Forall fin x -> forall (rows : list (list F64)) (b : list F64), length b = length rows ->
  Forall (fun r => length r = length x) rows -> Forall (Forall fin) rows -> Forall (fun c => 0 <= fv c <= 1) b -> Forall fin (map (fun r => vdot (K:=F64) r x) rows) ->
  Rabs (Rsum (map2 log_term (map fv b) (map fv (map (fun r => vdot (K:=F64) r x) rows))) - Rsum (map (fun p => log_term (fst p) (dot (snd p) (map fv x))) (combine (map fv b) (map (map fv) rows)))) <= margins_err x rows.
Proof.
  intros Fx. unfold margins_err. induction rows as [|r rows IH]; intros [|c b] Lb HR FR Bb Fz; cbn in Lb; try discriminate.
  - cbn. rewrite Rminus_0_r, Rabs_R0. lra.
  - specialize (IH b (eq_add_S _ _ Lb) (Forall_inv_tail HR) (Forall_inv_tail FR) (Forall_inv_tail Bb) (Forall_inv_tail Fz)).
    cbn [map] in Fz. pose proof (margin_err r x (Forall_inv HR) (fin_data _ (Forall_inv FR)) (fin_data _ Fx) (Forall_inv Fz)) as M.
    cbn [map map2 combine Rsum fst snd]. pose proof (log_term_lip (fv c) (dot (map fv r) (map fv x)) (fv (vdot (K:=F64) r x)) (Forall_inv Bb)) as Lp.
    match goal with |- Rabs (?p + ?q - (?u + ?w)) <= _ => replace (p + q - (u + w)) with ((p - u) + (q - w)) by ring end.
    eapply Rle_trans; [apply Rabs_triang|]. lra.
Qed.
Lemma log_term_bound v t : 0 <= v <= 1 -> 0 <= log_term v t <= Rabs t + 1.
Proof.
  intros Hv. rewrite log_term_eq. pose proof (ln_sigma_abs t) as L.
  assert (S0 : 0 < sigma t) by (unfold sigma; apply Rinv_0_lt_compat; pose proof (exp_pos (- t)); lra).
  (* -ln sigma(t) = -ln sigma(-t) - t *)
  assert (Sy : ln (sigma t) = ln (sigma (- t)) + t).
  { rewrite !ln_sigma, Ropp_involutive. replace (1 + exp t) with (exp t * (1 + exp (- t))) by (rewrite Rmult_plus_distr_l, <- exp_plus; replace (t + - t) with 0 by ring; rewrite exp_0; ring).
    rewrite ln_mult, ln_exp by (pose proof (exp_pos t); pose proof (exp_pos (- t)); lra). ring. }
  pose proof (ln_sigma_abs (- t)) as L'. rewrite Rabs_Ropp in L'.
  assert (E : (1 - v) * t - ln (sigma t) = (1 - v) * - ln (sigma (- t)) + v * - ln (sigma t)) by (rewrite Sy; ring). rewrite E.
  assert (A1 : 0 <= (1 - v) * - ln (sigma (- t)) <= (1 - v) * (Rabs t + 1)) by (split; [apply Rmult_le_pos; lra|apply Rmult_le_compat_l; lra]).
  assert (A2 : 0 <= v * - ln (sigma t) <= v * (Rabs t + 1)) by (split; [apply Rmult_le_pos; lra|apply Rmult_le_compat_l; lra]). lra.
Qed.
Lemma terms_bound Z : forall (b z : list F64), Forall (fun c => 0 <= fv c <= 1) b -> Forall (fun c => Rabs (fv c) <= Z) z ->
  0 <= Rsum (map2 log_term (map fv b) (map fv z)) <= INR (length z) * (Z + 1) .
Proof.
  induction b as [|c b IH]; intros [|t z] Hb Hz; cbn [map map2 Rsum length]; rewrite ?S_INR; try (cbn; lra).
  - assert (P : 0 <= Z) by (eapply Rle_trans; [apply Rabs_pos|exact (Forall_inv Hz)]). split; [lra|]. apply Rmult_le_pos; [pose proof (pos_INR (length z))|]; lra.
  - destruct (IH z (Forall_inv_tail Hb) (Forall_inv_tail Hz)) as [I1 I2]. pose proof (log_term_bound (fv c) (fv t) (Forall_inv Hb)) as B. pose proof (Forall_inv Hz) as Q. cbn beta in Q. lra.
Qed.
(** mean + (0.5 * alpha) * D *)
Lemma log_round (m M E al D X Cx : R) : repr m -> Rabs (m - M) <= E -> 0 <= X -> Rabs (D - X) <= Cx ->
  Rabs (rnd (m + rnd (rnd (/ 2 * al) * D)) - (M + al / 2 * X)) <= E + Rabs al / 2 * Cx + 4 * uro * (Rabs M + E + Rabs al / 2 * (X + Cx)) + 3 * eta * (1 + X + Cx).
Proof.
  intros Rm Hm PX HD. pose proof uro_pos as U. pose proof eta_pos as H0. pose proof (Rabs_pos al) as Pa. assert (U1 : uro <= / 1000) by (rewrite uro_val; lra).
  assert (BD : Rabs D <= X + Cx) by (replace D with (X + (D - X)) by ring; eapply Rle_trans; [apply Rabs_triang|]; rewrite (Rabs_pos_eq X PX); lra). pose proof (Rabs_pos D) as PD.
  assert (BA : Rabs (/ 2 * (al * D)) <= Rabs al / 2 * (X + Cx)) by (rewrite !Rabs_mult, (Rabs_right (/ 2)) by lra; assert (Rabs al * Rabs D <= Rabs al * (X + Cx)) by (apply Rmult_le_compat_l; lra); lra).
  set (B := Rabs al / 2 * (X + Cx)) in *. set (Y := X + Cx) in *. assert (PB : 0 <= B) by (eapply Rle_trans; [apply Rabs_pos|exact BA]).
  assert (PY : 0 <= Y) by lra. assert (PE : 0 <= eta * Y) by (apply Rmult_le_pos; lra).
  pose proof (rnd_err (/ 2 * al)) as Q1.
  assert (Q2 : Rabs (rnd (/ 2 * al) * D - / 2 * (al * D)) <= 1 * uro * B + eta * Y).
  { replace (rnd (/ 2 * al) * D - / 2 * (al * D)) with ((rnd (/ 2 * al) - / 2 * al) * D) by ring. rewrite Rabs_mult.
    apply Rle_trans with ((uro * Rabs (/ 2 * al) + eta) * Y); [apply Rmult_le_compat; try apply Rabs_pos; lra|]. rewrite Rabs_mult, (Rabs_right (/ 2)) by lra. right. unfold B. field. }
  pose proof (rstep 1 (eta * Y) _ _ _ ltac:(lra) PE BA Q2) as Q3. set (p := rnd (rnd (/ 2 * al) * D)) in *.
  assert (QB : 0 <= uro * B) by (apply Rmult_le_pos; lra).
  pose proof (rnd_add_err m p Rm (repr_rnd _)) as R1.
  assert (EE : 0 <= E) by (eapply Rle_trans; [apply Rabs_pos|exact Hm]).
  assert (Bm : Rabs m <= Rabs M + E) by (replace m with (M + (m - M)) by ring; eapply Rle_trans; [apply Rabs_triang|]; lra).
  assert (Bp : Rabs p <= B + ((1 + 1 + 1 / 1000) * uro * B + (1 + / 1000) * (eta * Y) + eta)) by (replace p with (/ 2 * (al * D) + (p - / 2 * (al * D))) by ring; eapply Rle_trans; [apply Rabs_triang|]; lra).
  assert (M1 : uro * Rabs (m + p) <= uro * (Rabs M + E) + uro * B + uro * ((1 + 1 + 1 / 1000) * uro * B + (1 + / 1000) * (eta * Y) + eta)).
  { rewrite <- !Rmult_plus_distr_l. apply Rmult_le_compat_l; [lra|]. eapply Rle_trans; [apply Rabs_triang|]. lra. }
  assert (M2 : uro * ((1 + 1 + 1 / 1000) * uro * B + (1 + / 1000) * (eta * Y) + eta) <= / 1000 * ((1 + 1 + 1 / 1000) * uro * B + (1 + / 1000) * (eta * Y) + eta)) by (apply Rmult_le_compat_r; lra).
  assert (B4 : Rabs (/ 2 * (al * (D - X))) <= Rabs al / 2 * Cx).
  { rewrite !Rabs_mult, (Rabs_right (/ 2)) by lra. assert (Rabs al * Rabs (D - X) <= Rabs al * Cx) by (apply Rmult_le_compat_l; lra). lra. }
  replace (rnd (m + p) - (M + al / 2 * X)) with ((rnd (m + p) - (m + p)) + ((m - M) + ((p - / 2 * (al * D)) + / 2 * (al * (D - X))))) by field.
  eapply Rle_trans; [apply Rabs_triang|]. eapply Rle_trans; [apply Rplus_le_compat_l, Rabs_triang|]. eapply Rle_trans; [apply Rplus_le_compat_l, Rplus_le_compat_l, Rabs_triang|].
  assert (PM : 0 <= uro * (Rabs M + E)) by (apply Rmult_le_pos; [lra|pose proof (Rabs_pos M); lra]).
  replace (4 * uro * (Rabs M + E + B)) with (4 * (uro * (Rabs M + E)) + 4 * (uro * B)) by ring. replace (3 * eta * (1 + X + Cx)) with (3 * eta + 3 * (eta * Y)) by (unfold Y; ring). lra.
Qed.
Definition log_mean np_exp np_log1p (b z : list F64) : F64 := vmean (map2 (fun bi zi => nsub F64 (nmul F64 (nsub F64 n1 bi) zi) (logsig np_exp np_log1p zi)) b (map (fun t : F64 => nadd F64 t n0) z)).
Lemma log_loss_is np_exp np_log1p (A : matrix F64) (b : list F64) (alpha : F64) (x z : list F64) : mat_dot A x = Ok z ->
  log_call np_exp np_log1p A b alpha false x = Ok (RLoss (nadd F64 (log_mean np_exp np_log1p b z) (nmul F64 (nmul F64 (nlit 1 2) alpha) (vdot x x)))).
Proof. intros Hz. unfold log_call, log_f_grad, split_intercept. cbn [bind]. rewrite Hz. reflexivity. Qed.
Lemma log_mean_datum (d : R) (np_exp np_log1p : F64 -> F64) (b z : list F64) (Z : R) :
  0 <= d <= 1 / 1000 -> exp_accurate d np_exp -> log1p_accurate d np_log1p -> length b = length z -> b <> [] ->
  Forall fin b -> Forall (fun c => 0 <= fv c <= 1) b -> Forall fin z -> Forall (fun c => Rabs (fv c) <= Z) z ->
  INR (length b) <= 2 ^ 50 -> INR (length b) * (3 * (Z + 1)) <= powerRZ 2 1020 -> datum (log_mean np_exp np_log1p b z).
Proof.
  intros Hd He Hl Lb Nb Fb Bb Fz Bz Hn Hbig.
  assert (Fz0 : Forall fin (map (fun t : F64 => nadd F64 t n0) z) /\ Forall (fun c => Rabs (fv c) <= Z) (map (fun t : F64 => nadd F64 t n0) z)).
    { clear - Fz Bz. induction Fz as [|a z Fa Fz IH]; [split; constructor|]. destruct (IH (Forall_inv_tail Bz)) as [I1 I2]. destruct (add_zero_r a false Fa) as [F V].
      pose proof (Forall_inv Bz) as Q. cbn [map]. split; constructor; try assumption. change (Rabs (fv (nadd F64 a (S754_zero false))) <= Z). rewrite V. exact Q. }
    destruct Fz0 as [Fz' Bz'].
    assert (N1 : 1 <= INR (length b)) by (destruct b; [congruence|]; cbn [length]; rewrite S_INR; pose proof (pos_INR (length b)); lra).
    assert (Z0 : 0 <= Z) by (destruct z as [|a z0]; [destruct b; [congruence|discriminate Lb]|]; apply Rle_trans with (2 := Forall_inv Bz), Rabs_pos).
    assert (Bn : Z + 1 <= INR (length b) * (Z + 1)) by (rewrite <- (Rmult_1_l (Z + 1)) at 1; apply Rmult_le_compat_r; lra). pose proof Hbig as Hb. rewrite two1020 in Hb.
    destruct (terms_err d np_exp np_log1p Z Hd He Hl ltac:(lra) b _ ltac:(rewrite map_length; exact Lb) Fb Bb Fz' Bz') as (T1 & T2 & _).
    unfold log_mean, vmean. apply div_datum; [apply vsum_datum, fin_data, T1|]. apply fin_datum. apply (nofnat_fin _). rewrite T2, map_length, <- Lb. apply lt_IZR. rewrite <- INR_IZR_INZ. apply Rle_lt_trans with (1 := Hn). simpl. lra.
Qed.
(** the mean over the samples, at the computed margins *)
Lemma log_mean_err (d : R) (np_exp np_log1p : F64 -> F64) (A : matrix F64) (b x z : list F64) (Z : R) :
  0 <= d <= 1 / 1000 -> exp_accurate d np_exp -> log1p_accurate d np_log1p ->
  mat_dot A x = Ok z -> fin (vdot (K:=F64) x x) -> length b = length z -> b <> [] ->
  Forall fin b -> Forall (fun c => 0 <= fv c <= 1) b -> Forall fin z -> Forall (fun c => Rabs (fv c) <= Z) z ->
  INR (length b) <= 2 ^ 50 -> INR (length b) * (3 * (Z + 1)) <= powerRZ 2 1020 ->
  fin (log_mean np_exp np_log1p b z) /\ Rabs (fv (log_mean np_exp np_log1p b z) - Rsum (map2 log_term (map fv b) (map fv z)) / INR (length b)) <= (3 * d + (6 * INR (length b) + 14) * / 2 ^ 53) * (Z + 1).
Proof.
  intros Hd He Hl Hz Fs Lb Nb Fb Bb Fz Bz Hn Hbig.
  pose proof (log_mean_datum d np_exp np_log1p b z Z Hd He Hl Lb Nb Fb Bb Fz Bz Hn Hbig) as Dm.
  destruct (main_C118_value_partial d np_exp np_log1p A b x z Z Hd He Hl Hz Fs Lb Nb Fb Bb Fz Bz Hn Hbig) as (L & EL & FL & B).
  rewrite (log_loss_is _ _ _ _ _ _ _ Hz) in EL. apply Ok_inj, loss_inj in EL. subst L. set (m := log_mean np_exp np_log1p b z) in *.
  destruct (fin_zero_mul (vdot x x) Fs) as [sg Hsg]. rewrite Hsg in FL, B.
  assert (Fzz : fin (S754_zero sg)) by (split; reflexivity).
  destruct (add_val _ _ Dm (fin_datum _ Fzz) FL) as (Fm & _ & _). destruct (add_zero_r m sg Fm) as [_ V]. rewrite V in B. split; assumption.
Qed.

(** copt/loss.py:39-40, 75-98: the value LogLoss returns, without an intercept, for any alpha *)
Lemma main_C118_ridge_partial : forall (d : R) (np_exp np_log1p : F64 -> F64) (A : matrix F64) (b : list F64) (alpha : F64) (x z : list F64) (Z : R),
  0 <= d <= 1 / 1000 -> exp_accurate d np_exp -> log1p_accurate d np_log1p ->
  Forall (fun r => length r = m_cols A) (m_rows A) -> length b = length (m_rows A) -> b <> [] -> INR (length b) <= 2 ^ 50 ->
  Forall (Forall fin) (m_rows A) -> Forall fin b -> Forall (fun c => 0 <= fv c <= 1) b -> Forall fin x -> fin alpha ->
  mat_dot A x = Ok z -> Forall fin z -> Forall (fun c => Rabs (fv c) <= Z) z -> INR (length b) * (3 * (Z + 1)) <= powerRZ 2 1020 ->
  exists (L : F64) (g : list F64), log_call np_exp np_log1p A b alpha false x = Ok (RLoss L) /\ log_f_grad np_exp np_log1p A b alpha false x true = Ok (RPair L g) /\
    (fin L -> Rabs (fv L - ridge (fv alpha) (mean_loss log_term (map (map fv) (m_rows A)) (map fv b)) (map fv x)) <= log_val_err d alpha x (m_rows A) Z).
Proof.
  intros d np_exp np_log1p A b alpha x z Z Hd He Hl HR Lb Nb Hn FR Fb Bb Fx Fa Hz Fz Bz Hbig.
  assert (Ez : z = map (fun r => vdot (K:=F64) r x) (m_rows A) /\ length x = m_cols A).
  { unfold mat_dot in Hz. destruct (Nat.eqb (length x) (m_cols A)) eqn:E; [|discriminate]. apply Ok_inj in Hz. apply Nat.eqb_eq in E. split; [symmetry; exact Hz|exact E]. }
  destruct Ez as [Ez Lx]. assert (Lz : length z = length (m_rows A)) by (rewrite Ez, map_length; reflexivity).
  assert (Lbz : length b = length z) by (rewrite Lz; exact Lb).
  exists (nadd F64 (log_mean np_exp np_log1p b z) (nmul F64 (nmul F64 (nlit 1 2) alpha) (vdot x x))). eexists.
  split; [apply (log_loss_is _ _ _ _ _ _ _ Hz)|]. split.
  { unfold log_f_grad, split_intercept. cbn [bind]. rewrite Hz. cbn [bind negb]. unfold tmat_dot.
    rewrite map2_length, map_length, <- Lbz, Nat.min_id. unfold n_samples. change (@length (vec F64) (m_rows A)) with (length (m_rows A)) in *. rewrite Lb, Nat.eqb_refl. cbn [bind]. reflexivity. }
  intros FL. destruct half_fin as [Fh Vh].
  assert (Dx : datum (vdot (K:=F64) x x)) by (apply vdot_datum; apply fin_data, Fx). assert (Dha := mul_datum _ _ (fin_datum _ Fh) (fin_datum _ Fa)).
  pose proof (log_mean_datum d np_exp np_log1p b z Z Hd He Hl Lbz Nb Fb Bb Fz Bz Hn Hbig) as Dm.
  destruct (add_val _ _ Dm (mul_datum _ _ Dha Dx) FL) as (Fm & Fp & ->). destruct (mul_val _ _ Dha Dx Fp) as (Fha & Fs & ->). destruct (mul_val _ _ (fin_datum _ Fh) (fin_datum _ Fa) Fha) as (_ & _ & ->). rewrite Vh.
  destruct (log_mean_err d np_exp np_log1p A b x z Z Hd He Hl Hz Fs Lbz Nb Fb Bb Fz Bz Hn Hbig) as [_ E0].
  pose proof (dot_err x (length x) (sqs x) Fx (le_n _) (Rle_refl _) Fs) as E2. rewrite sqs_dot in E2.
  set (m := log_mean np_exp np_log1p b z) in *. set (M := Rsum (map2 log_term (map fv b) (map fv z)) / INR (length b)) in *.
  assert (PX : 0 <= dot (map fv x) (map fv x)) by (rewrite <- sqs_dot; apply sqs_pos).
  pose proof (log_round (fv m) M _ (fv alpha) _ _ _ (fin_repr _ Fm) E0 PX E2) as RR.
  assert (N1 : 1 <= INR (length b)) by (destruct b; [congruence|]; cbn [length]; rewrite S_INR; pose proof (pos_INR (length b)); lra).
  destruct (terms_bound Z b z Bb Bz) as [TB1 TB2].
  assert (I : 0 < / INR (length b)) by (apply Rinv_0_lt_compat; lra).
  assert (BM : Rabs M <= Z + 1).
  { unfold M, Rdiv. rewrite Rabs_mult, (Rabs_pos_eq (/ _)), Rabs_pos_eq by lra. apply Rle_trans with (INR (length z) * (Z + 1) * / INR (length b)); [apply Rmult_le_compat_r; lra|]. rewrite <- Lbz. right. field. lra. }
  assert (HRx : Forall (fun r : list F64 => length r = length x) (m_rows A)) by (eapply Forall_impl; [|exact HR]; intros r Hr; exact (eq_trans Hr (eq_sym Lx))).
  pose proof (margins_sum x Fx (m_rows A) b Lb HRx FR Bb ltac:(rewrite <- Ez; exact Fz)) as MS. rewrite <- Ez in MS.
  unfold ridge, mean_loss. rewrite map_length. set (S := Rsum (map (fun p => log_term (fst p) (dot (snd p) (map fv x))) (combine (map fv b) (map (map fv) (m_rows A))))) in *.
  unfold log_val_err. cbv zeta. rewrite two53, <- eta_pow.
  change (@length (vec F64) (m_rows A)) with (@length (list F64) (m_rows A)) in *. assert (LbL : length b = @length (list F64) (m_rows A)) by exact Lb. rewrite <- LbL.
  set (X := dot (map fv x) (map fv x)) in *. set (Cx := csr_err (length x) X) in *. rewrite two53 in E0, RR. set (E := (3 * d + (6 * INR (length b) + 14) * uro) * (Z + 1)) in *.
  assert (MD : Rabs (M - S / INR (length b)) <= margins_err x (m_rows A) / INR (length b)).
  { unfold M. replace (_ / _ - _ / _) with ((Rsum (map2 log_term (map fv b) (map fv z)) - S) * / INR (length b)) by (field; lra). unfold Rdiv. rewrite Rabs_mult, (Rabs_pos_eq (/ _)) by lra. apply Rmult_le_compat_r; lra. }
  assert (UM : 4 * uro * (Rabs M + E + Rabs (fv alpha) / 2 * (X + Cx)) <= 4 * uro * (Z + 1 + E + Rabs (fv alpha) / 2 * (X + Cx))) by (pose proof uro_pos; apply Rmult_le_compat_l; lra).
  match goal with |- Rabs (?r - (?s + ?p)) <= _ => replace (r - (s + p)) with ((r - (M + p)) + (M - s)) by ring end.
  eapply Rle_trans; [apply Rabs_triang|]. lra.
Qed.
(** the value is finite when nothing is near the overflow threshold *)
Lemma main_C118_finite_partial : forall (d : R) (np_exp np_log1p : F64 -> F64) (A : matrix F64) (b : list F64) (alpha : F64) (x z : list F64) (Z : R) (L : F64),
  0 <= d <= 1 / 1000 -> exp_accurate d np_exp -> log1p_accurate d np_log1p ->
  length b = length (m_rows A) -> b <> [] -> INR (length b) <= 2 ^ 50 -> INR (length x) <= 2 ^ 50 ->
  Forall fin b -> Forall (fun c => 0 <= fv c <= 1) b -> Forall fin x -> fin alpha ->
  mat_dot A x = Ok z -> Forall fin z -> Forall (fun c => Rabs (fv c) <= Z) z -> INR (length b) * (3 * (Z + 1)) <= powerRZ 2 1020 ->
  dot (map fv x) (map fv x) <= powerRZ 2 1000 -> Rabs (fv alpha) <= powerRZ 2 1000 -> Rabs (fv alpha) * dot (map fv x) (map fv x) <= powerRZ 2 1000 ->
  log_call np_exp np_log1p A b alpha false x = Ok (RLoss L) -> fin L.
Proof.
  intros d np_exp np_log1p A b alpha x z Z L Hd He Hl Lb Nb Hn Hx Fb Bb Fx Fa Hz Fz Bz Hbig. rewrite <- !sqs_dot.
  change (powerRZ 2 1000) with (powerRZ (IZR (Zaux.radix_val Zaux.radix2)) 1000). rewrite <- Raux.bpow_powerRZ. intros Bx Ba Bax HL.
  assert (Lbz : length b = length z).
  { unfold mat_dot in Hz. destruct (Nat.eqb (length x) (m_cols A)); [|discriminate]. apply Ok_inj in Hz. rewrite <- Hz, map_length. exact Lb. }
  rewrite (log_loss_is _ _ _ _ _ _ _ Hz) in HL. apply Ok_inj, loss_inj in HL. subst L.
  assert (B1 : 1 <= bpow radix2 1000) by (change 1 with (bpow radix2 0); apply bpow_le; lia).
  assert (B2 : bpow radix2 1010 = 1024 * bpow radix2 1000) by (change 1010%Z with (10 + 1000)%Z; rewrite bpow_plus; reflexivity).
  assert (B3 : bpow radix2 1020 = 1024 * bpow radix2 1010) by (change 1020%Z with (10 + 1010)%Z; rewrite bpow_plus; reflexivity).
  assert (B4 : bpow radix2 1023 = 8 * bpow radix2 1020) by (change 1023%Z with (3 + 1020)%Z; rewrite bpow_plus; reflexivity).
  destruct (dot_fin x Fx Hx ltac:(lra)) as [Fdx Bdx]. pose proof (Rabs_pos (fv alpha)) as Pa. pose proof (sqs_pos x) as Px.
  assert (BD : Rabs (fv alpha) * Rabs (fv (vdot (K:=F64) x x)) <= bpow radix2 1020).
  { apply Rle_trans with (Rabs (fv alpha) * (2 * sqs x + 1)); [apply Rmult_le_compat_l; lra|]. rewrite Rmult_plus_distr_l, <- Rmult_assoc, (Rmult_comm _ 2), Rmult_assoc. lra. }
  destruct (log_mean_err d np_exp np_log1p A b x z Z Hd He Hl Hz Fdx Lbz Nb Fb Bb Fz Bz Hn Hbig) as [Fm Em].
  assert (N1 : 1 <= INR (length b)) by (destruct b; [congruence|]; cbn [length]; rewrite S_INR; pose proof (pos_INR (length b)); lra).
  assert (Z0 : 0 <= Z) by (destruct z as [|a z0]; [destruct b; [congruence|discriminate Lbz]|]; apply Rle_trans with (2 := Forall_inv Bz), Rabs_pos).
  destruct (terms_bound Z b z Bb Bz) as [TB1 TB2]. assert (I : 0 < / INR (length b)) by (apply Rinv_0_lt_compat; lra).
  assert (BM : Rabs (Rsum (map2 log_term (map fv b) (map fv z)) / INR (length b)) <= Z + 1).
  { unfold Rdiv. rewrite Rabs_mult, (Rabs_pos_eq (/ _)), Rabs_pos_eq by lra. apply Rle_trans with (INR (length z) * (Z + 1) * / INR (length b)); [apply Rmult_le_compat_r; lra|]. rewrite <- Lbz. right. field. lra. }
  assert (U : (3 * d + (6 * INR (length b) + 14) * / 2 ^ 53) <= 1).
  { assert ((6 * INR (length b) + 14) * / 2 ^ 53 <= (6 * 2 ^ 50 + 14) * / 2 ^ 53) by (apply Rmult_le_compat_r; [apply Rlt_le, Rinv_0_lt_compat, pow_lt; lra|lra]). assert ((6 * 2 ^ 50 + 14) * / 2 ^ 53 <= 8 / 10) by (simpl; lra). lra. }
  assert (UZ : (3 * d + (6 * INR (length b) + 14) * / 2 ^ 53) * (Z + 1) <= 1 * (Z + 1)) by (apply Rmult_le_compat_r; lra).
  assert (Bn : 1 * (3 * (Z + 1)) <= INR (length b) * (3 * (Z + 1))) by (apply Rmult_le_compat_r; lra). rewrite two1020 in Hbig.
  assert (Bm : Rabs (fv (log_mean np_exp np_log1p b z)) <= bpow radix2 1020).
  { set (m := fv (log_mean np_exp np_log1p b z)) in *. set (M := Rsum _ / _) in *. replace m with (M + (m - M)) by ring. eapply Rle_trans; [apply Rabs_triang|]. lra. }
  destruct (half_ok _ Fa ltac:(lra)) as (F6 & _ & H6).
  assert (S2 : Rabs (fv (nmul F64 (nlit 1 2) alpha) * fv (vdot (K:=F64) x x)) <= bpow radix2 1020) by (rewrite Rabs_mult; eapply Rle_trans; [|exact BD]; apply Rmult_le_compat_r; [apply Rabs_pos|exact H6]).
  destruct (mul_fin _ _ F6 Fdx) as [F7 V7]; [apply rnd_fits; lra|]. pose proof (rnd_pow_le _ S2) as H7. rewrite <- V7 in H7.
  exact (proj1 (two_fin _ _ Fm F7 Bm H7)).
Qed.
Lemma run_C118_ridge : let A := mkMat [[n1 (n:=F64)]; [nofZ F64 (-2)]] 1 in let x := [nofZ F64 3] in let b := [n1 (n:=F64); n0] in
  Forall (fun r => length r = m_cols A) (m_rows A) /\ length b = length (m_rows A) /\ b <> [] /\ Forall (Forall fin) (m_rows A) /\ Forall fin x /\ fin (n1 (n:=F64)) /\ INR (length x) <= 2 ^ 50 /\
  dot (map fv x) (map fv x) <= powerRZ 2 1000 /\ Rabs (fv (n1 (n:=F64))) <= powerRZ 2 1000 /\ Rabs (fv (n1 (n:=F64))) * dot (map fv x) (map fv x) <= powerRZ 2 1000.
Proof.
  destruct run_C136 as (H1 & H2 & H3 & _ & _ & H6 & H7 & _ & H9 & H10 & _ & _ & _ & _ & _ & _ & _ & H18 & H19 & H20 & _).
  repeat (split; [assumption|]). assumption.
Qed.
