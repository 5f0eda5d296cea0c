(** * LogLoss.f_grad in binary64: the loss, partial_deriv, and infinite margins *)
From Coq Require Import ZArith Reals List Bool Lra Lia Psatz Permutation.
From Coq Require Import Floats.SpecFloat.
From Flocq Require Import Core.Core IEEE754.BinarySingleNaN.
From Verif Require Import Num Vec Spec RVec SpecLoss LossScalar ModelPenalty ModelTv ModelConstraint ModelLoss LossMain3 FloatBase FloatProx FloatNan FloatSum FloatSimplex2 FloatSimplex3 FloatSimplex4 FloatLogistic.
Import ListNotations.
Local Open Scope R_scope.

(** ** correctly rounded functions exist (d = 2^-53), so the accuracy hypotheses can be met *)
Definition to_f64 (r : R) : F64 :=
  SpecFloat.binary_normalize 53 1024 (Ztrunc (scaled_mantissa radix2 f64exp (rnd r))) (cexp radix2 f64exp (rnd r)) false.
Lemma to_f64_ok r : Rabs (rnd r) < fbig -> fin (to_f64 r) /\ fv (to_f64 r) = rnd r.
Proof.
  intros H. unfold to_f64. rewrite binary_normalize_eq, fin_B2SF_iff, fv_B.
  generalize (binary_normalize_correct 53 1024 Hprec Hmax mode_NE (Ztrunc (scaled_mantissa radix2 f64exp (rnd r))) (cexp radix2 f64exp (rnd r)) false).
  assert (Ef : F2R (Float radix2 (Ztrunc (scaled_mantissa radix2 f64exp (rnd r))) (cexp radix2 f64exp (rnd r))) = rnd r).
  { symmetry. apply (repr_rnd r). }
  rewrite Ef. cbv zeta. change (round radix2 f64exp (round_mode mode_NE) (rnd r)) with (rnd (rnd r)).
  rewrite (rnd_repr _ (repr_rnd r)). rewrite Rlt_bool_true by exact H. intros (A & B & _). split; [exact B|exact A].
Qed.
Definition cr_exp (x : F64) : F64 := to_f64 (exp (fv x)).
Definition cr_log1p (x : F64) : F64 := to_f64 (ln (1 + fv x)).
Lemma big_bound r : Rabs r <= bpow radix2 1023 -> fin (to_f64 r) /\ fv (to_f64 r) = rnd r.
Proof. intros H. apply to_f64_ok, rnd_fits, H. Qed.
Lemma cr_exp_accurate : exp_accurate (/ 2 ^ 53) cr_exp.
Proof.
  intros x Hx H18. unfold cr_exp. replace (/ 2 ^ 53) with uro by (symmetry; apply two53).
  assert (B : 0 < exp (fv x) <= 3 ^ 18).
  { split; [apply exp_pos|]. apply Rle_trans with (exp 18).
    - destruct H18 as [H|H]; [left; apply exp_increasing, H|rewrite H; lra].
    - replace 18 with (INR 18 * 1) by (rewrite INR_IZR_INZ; simpl Z.of_nat; lra). rewrite exp_nat.
      apply pow_incr. split; [left; apply exp_pos|apply exp_le_3]. }
  destruct (big_bound (exp (fv x))) as [F V].
  - rewrite Rabs_pos_eq by lra. apply Rle_trans with (3 ^ 18); [lra|]. apply Rle_trans with (bpow radix2 40); [simpl; lra|apply bpow_le; lia].
  - split; [exact F|]. rewrite V. split; [apply rnd_ge_repr; [apply repr_0|lra]|].
    pose proof (rnd_err (exp (fv x))) as E. rewrite (Rabs_pos_eq (exp (fv x))) in E by lra. pose proof tiny_eta. fold tiny. pose proof eta_pos. lra.
Qed.
Lemma cr_log1p_accurate : log1p_accurate (/ 2 ^ 53) cr_log1p.
Proof.
  intros x Hx H0. unfold cr_log1p. replace (/ 2 ^ 53) with uro by (symmetry; apply two53).
  pose proof (ln1p_pos (fv x) H0) as P.
  destruct (big_bound (ln (1 + fv x))) as [F V].
  - rewrite Rabs_pos_eq by exact P.
    apply Rle_trans with (ln (bpow radix2 1024 + bpow radix2 1024)).
    + assert (fv x < bpow radix2 1024) by (pose proof (fin_small x Hx) as S1; rewrite Rabs_pos_eq in S1 by exact H0; exact S1).
      assert (1 <= bpow radix2 1024) by (change 1 with (bpow radix2 0); apply bpow_le; lia).
      left. apply ln_increasing; lra.
    + replace (bpow radix2 1024 + bpow radix2 1024) with (bpow radix2 1025) by (change 1025%Z with (1 + 1024)%Z; rewrite bpow_plus; change (bpow radix2 1) with 2; ring).
      rewrite bpow_exp. rewrite ln_exp. apply Rle_trans with 2000.
      * change (IZR radix2) with 2. pose proof (ln_upper 1 ltac:(lra)) as L. replace (1 + 1) with 2 in L by ring. lra.
      * apply Rle_trans with (bpow radix2 11); [simpl; lra|apply bpow_le; lia].
  - split; [exact F|]. rewrite V. pose proof (rnd_err (ln (1 + fv x))) as E. rewrite (Rabs_pos_eq (ln (1 + fv x))) in E by exact P.
    pose proof tiny_eta. fold tiny. pose proof eta_pos. lra.
Qed.

(** ** partial_deriv *)
Lemma main_C117_partial_deriv : forall (d : R) (np_exp : F64 -> F64) (sched : list nat) (p y : list F64),
  0 <= d <= 1 / 1000 -> exp_accurate d np_exp -> length y = length p -> Permutation sched (seq 0 (length p)) ->
  Forall fin p -> Forall fin y -> Forall (fun b => 0 <= fv b <= 1) y ->
  exists out, log_partial_deriv np_exp sched p y = Ok out /\ length out = length p /\
    forall i, (i < length p)%nat -> fin (nth i out n0) /\
      Rabs (fv (nth i out n0) - (sigma (nth i (map fv p) 0) - nth i (map fv y) 0)) <= 2 * d + 6 * / 2 ^ 53.
Proof.
  intros d np_exp sched p y Hd He Ly HP Fp Fy By. exists (map2 (pd1 np_exp) p y).
  split; [apply partial_any; auto|]. split; [rewrite map2_length, Ly; apply Nat.min_id|].
  clear HP sched. revert y Ly Fy By. induction Fp as [|a p Fa Fp IH]; intros [|c y] Ly Fy By i Hi; cbn in Hi, Ly; try lia; try discriminate.
  destruct i as [|i]; cbn [map2 map nth].
  - change (pd1 np_exp a c) with (expit_b np_exp a c).
    destruct (main_C117_expit d np_exp a c Hd He Fa (Forall_inv Fy) (Forall_inv By)) as (F & E & _). split; assumption.
  - apply (IH y (eq_add_S _ _ Ly) (Forall_inv_tail Fy) (Forall_inv_tail By) i). apply Nat.succ_lt_mono, Hi.
Qed.

(** ** one term of the loss *)
Lemma ln_sigma_abs t : 0 <= - ln (sigma t) <= Rabs t + 1.
Proof.
  rewrite ln_sigma. pose proof (exp_pos (- t)) as P. pose proof (ln1p_pos (exp (- t)) ltac:(lra)) as Q.
  split; [lra|]. rewrite Ropp_involutive. destruct (Rle_lt_dec 0 t) as [H|H].
  - pose proof (exp_nonpos (- t) ltac:(lra)) as E. pose proof (ln_upper (exp (- t)) ltac:(lra)) as U. pose proof (Rabs_pos t). lra.
  - assert (L : ln (1 + exp (- t)) = - t + ln (1 + exp t)).
    { replace (1 + exp (- t)) with (exp (- t) * (1 + exp t)).
      - rewrite ln_mult, ln_exp by (pose proof (exp_pos t); lra). reflexivity.
      - rewrite Rmult_plus_distr_l, <- exp_plus. replace (- t + t) with 0 by ring. rewrite exp_0. ring. }
    rewrite L. rewrite Rabs_left by exact H. pose proof (exp_nonpos t ltac:(lra)) as E. pose proof (ln_upper (exp t) ltac:(lra)) as U. lra.
Qed.
Lemma term_err d np_exp np_log1p (b z : F64) Z : 0 <= d <= 1 / 1000 -> exp_accurate d np_exp -> log1p_accurate d np_log1p ->
  fin b -> 0 <= fv b <= 1 -> fin z -> Rabs (fv z) <= Z -> Z <= bpow radix2 1020 ->
  let t := nsub F64 (nmul F64 (nsub F64 n1 b) z) (logsig np_exp np_log1p z) in
  fin t /\ Rabs (fv t - log_term (fv b) (fv z)) <= (3 * d + 9 * uro) * (Z + 1) /\ Rabs (fv t) <= 3 * (Z + 1).
Proof.
  intros Hd He Hl FB HB FZ BZ HZ t.
  pose proof uro_pos as Up. pose proof uro_small as Us. pose proof tiny_pos as Tp. pose proof eta_pos as Ep. pose proof tiny_eta as Te.
  assert (Ts : tiny <= uro * / 1152921504606846976) by (pose proof tiny_small as T; rewrite bpow_m60 in T; exact T).
  assert (Tu : tiny <= uro / 100) by lra.
  destruct (main_C117_logsig d np_exp np_log1p z Hd He Hl FZ) as [FL EL].
  fold tiny in EL. rewrite two53 in EL. rewrite log_term_eq.
  pose proof (ln_sigma_abs (fv z)) as LB. set (l := ln (sigma (fv z))) in *.
  rewrite (Rabs_left1 l) in EL by lra.
  set (L := logsig np_exp np_log1p z) in *. set (zz := fv z) in *. set (v := fv b) in *.
  pose proof (Rabs_pos zz) as Pz.
  assert (C1 : (3 * d + 4 * uro) * - l <= (3 * d + 4 * uro) * (Z + 1)) by (apply Rmult_le_compat_l; lra).
  assert (C2 : (3 * d + 4 * uro) * (Z + 1) <= 4 / 1000 * (Z + 1)) by (apply Rmult_le_compat_r; lra).
  assert (UZ : uro <= uro * (Z + 1)) by (rewrite <- (Rmult_1_r uro) at 1; apply Rmult_le_compat_l; lra).
  assert (UZ2 : uro * (Z + 1) <= 1 / 1000000 * (Z + 1)) by (apply Rmult_le_compat_r; lra).
  apply Rabs_le_inv in EL. pose proof BZ as BZ0. apply Rabs_le_inv in BZ.
  assert (Fit : forall r, Rabs r <= 4 * (Z + 1) -> Rabs (rnd r) < fbig).
  { intros r Hr. apply rnd_fits. apply Rle_trans with (1 := Hr). change 1023%Z with (3 + 1020)%Z. rewrite bpow_plus. change (bpow radix2 3) with 8.
    assert (1 <= bpow radix2 1020) by (change 1 with (bpow radix2 0); apply bpow_le; lia). lra. }
  assert (R1 : repr 1) by (rewrite <- fv_1; apply fin_repr, fin_1).
  assert (B1 : Rabs (fv n1 - fv b) <= 1000) by (rewrite fv_1; fold v; apply Rabs_le; lra).
  destruct (sub_fin n1 b fin_1 FB (fits_small _ B1)) as [F1 V1]. rewrite fv_1 in V1. fold v in V1.
  pose proof (rnd_sub_err 1 v R1 (fin_repr _ FB)) as E1. rewrite (Rabs_pos_eq (1 - v)) in E1 by lra.
  assert (A1 : 0 <= rnd (1 - v) <= 1) by (split; [apply rnd_ge_repr; [apply repr_0|lra]|apply rnd_le_repr; [exact R1|lra]]).
  set (a1 := rnd (1 - v)) in *. apply Rabs_le_inv in E1.
  assert (UV : uro * (1 - v) <= uro * 1) by (apply Rmult_le_compat_l; lra).
  pose proof (prod_bound2 a1 zz Z A1 BZ ltac:(lra)) as P1.
  assert (B2 : Rabs (fv (nsub F64 n1 b) * fv z) <= 4 * (Z + 1)) by (rewrite V1; fold zz; apply Rabs_le; lra).
  destruct (mul_fin _ z F1 FZ (Fit _ B2)) as [F2 V2]. rewrite V1 in V2. fold zz in V2.
  pose proof (rnd_err (a1 * zz)) as E2.
  assert (UA : uro * Rabs (a1 * zz) <= uro * Z) by (apply Rmult_le_compat_l; [lra|apply Rabs_le; lra]).
  apply Rabs_le_inv in E2. set (p := rnd (a1 * zz)) in *.
  assert (B3 : Rabs (fv (nmul F64 (nsub F64 n1 b) z) - fv L) <= 21 / 10 * (Z + 1)) by (rewrite V2; apply Rabs_le; lra).
  assert (B4 : Rabs (fv (nmul F64 (nsub F64 n1 b) z) - fv L) <= 4 * (Z + 1)) by (eapply Rle_trans; [exact B3|lra]).
  destruct (sub_fin _ L F2 FL (Fit _ B4)) as [F3 V3]. rewrite V2 in V3. fold t in F3, V3.
  pose proof (rnd_sub_err p (fv L) (repr_rnd _) (fin_repr _ FL)) as E3.
  rewrite V2 in B3.
  assert (U3 : uro * Rabs (p - fv L) <= uro * (21 / 10 * (Z + 1))) by (apply Rmult_le_compat_l; lra).
  apply Rabs_le_inv in E3. apply Rabs_le_inv in B3. rewrite V3.
  assert (T2 : - (uro * Z) <= (a1 - (1 - v)) * zz <= uro * Z).
  { assert (Q : Rabs ((a1 - (1 - v)) * zz) <= uro * Z).
    { rewrite Rabs_mult. apply Rmult_le_compat; try apply Rabs_pos; apply Rabs_le; lra. }
    apply Rabs_le_inv in Q. exact Q. }
  assert (X : (1 - v) * zz = a1 * zz - (a1 - (1 - v)) * zz) by ring.
  split; [exact F3|]. split.
  - rewrite X. apply Rabs_le. split; lra.
  - apply Rabs_le. split; lra.
Qed.

(** ** the mean *)
Lemma terms_err d np_exp np_log1p Z : 0 <= d <= 1 / 1000 -> exp_accurate d np_exp -> log1p_accurate d np_log1p -> Z <= bpow radix2 1020 ->
  forall (b z : list F64), length b = length z -> Forall fin b -> Forall (fun c => 0 <= fv c <= 1) b -> Forall fin z -> Forall (fun c => Rabs (fv c) <= Z) z ->
  let ts := map2 (fun bi zi => nsub F64 (nmul F64 (nsub F64 n1 bi) zi) (logsig np_exp np_log1p zi)) b z in
  Forall fin ts /\ length ts = length z /\ Rsum (fabs ts) <= INR (length z) * (3 * (Z + 1)) /\
  Rabs (Rsum (map fv ts) - Rsum (map2 log_term (map fv b) (map fv z))) <= INR (length z) * ((3 * d + 9 * uro) * (Z + 1)).
Proof.
  intros Hd He Hl HZ. induction b as [|c b IH]; intros [|a z] Lb Fb Bb Fz Bz; try discriminate Lb.
  - cbn. rewrite Rminus_0_r, Rabs_R0. repeat split; try constructor; lra.
  - cbn in Lb. destruct (IH z (eq_add_S _ _ Lb) (Forall_inv_tail Fb) (Forall_inv_tail Bb) (Forall_inv_tail Fz) (Forall_inv_tail Bz)) as (I1 & I2 & I3 & I4).
    destruct (term_err d np_exp np_log1p c a Z Hd He Hl (Forall_inv Fb) (Forall_inv Bb) (Forall_inv Fz) (Forall_inv Bz) HZ) as (T1 & T2 & T3).
    cbn [map2 map length]. split; [constructor; [exact T1|exact I1]|]. split; [cbn; f_equal; exact I2|].
    rewrite S_INR. unfold fabs in *. cbn [map Rsum]. split; [lra|].
    set (t := nsub F64 _ _) in *.
    match goal with |- Rabs (?a + ?b - (?c + ?e)) <= _ => replace (a + b - (c + e)) with ((a - c) + (b - e)) by ring end.
    eapply Rle_trans; [apply Rabs_triang|]. lra.
Qed.
Lemma quot_fin (s m : F64) : fin s -> fin m -> 1 <= fv m -> Rabs (fv s) <= bpow radix2 1023 ->
  fin (ndiv F64 s m) /\ fv (ndiv F64 s m) = rnd (fv s / fv m).
Proof.
  intros Fs Fm Hm Hs. apply div_fin; auto; [lra|]. apply rnd_fits. apply Rle_trans with (2 := Hs).
  unfold Rdiv. rewrite Rabs_mult, (Rabs_pos_eq (/ fv m)) by (left; apply Rinv_0_lt_compat; lra).
  rewrite <- (Rmult_1_r (Rabs (fv s))) at 2. apply Rmult_le_compat_l; [apply Rabs_pos|]. rewrite <- Rinv_1. apply Rinv_le_contravar; lra.
Qed.

Lemma add_zero_r (a : F64) sg : fin a -> fin (nadd F64 a (S754_zero sg)) /\ fv (nadd F64 a (S754_zero sg)) = fv a.
Proof.
  intros Fa. assert (Fz : fin (S754_zero sg)) by (split; reflexivity). assert (Vz : fv (S754_zero sg) = 0) by reflexivity.
  assert (E : rnd (fv a + fv (S754_zero sg)) = fv a) by (rewrite Vz, Rplus_0_r; apply rnd_fin, Fa).
  destruct (add_fin a (S754_zero sg) Fa Fz) as [F V]; [rewrite E; apply fin_small, Fa|]. rewrite E in V. split; assumption.
Qed.
Lemma fin_zero_mul (m : F64) : fin m -> exists sg, nmul F64 (nmul F64 (nlit 1 2) n0) m = S754_zero sg.
Proof. intros [H _]. destruct m as [s|s| |s m e]; try discriminate H; eexists; reflexivity. Qed.

Lemma main_C118_value_partial : forall (d : R) (np_exp np_log1p : F64 -> F64) (A : matrix F64) (b x z : list F64) (Z : R),
  0 <= d <= 1 / 1000 -> exp_accurate d np_exp -> log1p_accurate d np_log1p ->
  mat_dot A x = Ok z -> fin (vdot x x) -> length b = length z -> b <> [] ->
  Forall fin b -> Forall (fun c => 0 <= fv c <= 1) b -> Forall fin z -> Forall (fun c => Rabs (fv c) <= Z) z ->
  INR (length b) <= 2 ^ 50 -> INR (length b) * (3 * (Z + 1)) <= powerRZ 2 1020 ->
  exists L, log_call np_exp np_log1p A b n0 false x = Ok (RLoss L) /\ fin L /\
    Rabs (fv L - Rsum (map2 log_term (map fv b) (map fv z)) / INR (length b))
    <= (3 * d + (6 * INR (length b) + 14) * / 2 ^ 53) * (Z + 1).
Proof.
  intros d np_exp np_log1p A b x z Z Hd He Hl Hz Fx Lb Nb Fb Bb Fz Bz Hn Hbig.
  rewrite two53. rewrite two1020 in Hbig. unfold log_call, log_f_grad, split_intercept. cbn [bind]. rewrite Hz. cbn [bind negb].
  assert (Fz0 : Forall fin (map (fun t : F64 => nadd F64 t n0) z) /\ map fv (map (fun t : F64 => nadd F64 t n0) z) = map fv z).
  { clear - Fz. induction Fz as [|a z Fa Fz [I1 I2]]; [split; constructor|]. destruct (add_zero_r a false Fa) as [F V].
    cbn [map]. split; [constructor; [exact F|exact I1]|]. f_equal; [exact V|exact I2]. }
  destruct Fz0 as [Fz' Vz'].
  set (z' := map (fun t : F64 => nadd F64 t n0) z) in *. change (map (fun t : F64 => (t + n0)%num) z) with z'.
  assert (Lz' : length z' = length z) by apply map_length.
  assert (Bz' : Forall (fun c => Rabs (fv c) <= Z) z').
  { apply Forall_forall. intros c Hc. rewrite Forall_forall in Bz.
    assert (In (fv c) (map fv z)) by (rewrite <- Vz'; apply in_map, Hc). apply in_map_iff in H as (c0 & E & Hc0). rewrite <- E. apply Bz, Hc0. }
  assert (N1 : 1 <= INR (length b)).
  { change 1 with (INR 1). apply le_INR. destruct b; [contradiction Nb; reflexivity|cbn; lia]. }
  assert (Z0 : 0 <= Z).
  { destruct z as [|a z0]; [destruct b; [contradiction Nb; reflexivity|discriminate Lb]|]. apply Rle_trans with (2 := Forall_inv Bz). apply Rabs_pos. }
  set (n := INR (length b)) in *.
  assert (Bn : Z + 1 <= n * (Z + 1)) by (rewrite <- (Rmult_1_l (Z + 1)) at 1; apply Rmult_le_compat_r; lra).
  destruct (terms_err d np_exp np_log1p Z Hd He Hl ltac:(lra) b z' ltac:(rewrite Lz'; exact Lb) Fb Bb Fz' Bz') as (T1 & T2 & T3 & T4).
  rewrite Vz' in T4.
  set (ts := map2 (fun bi zi => nsub F64 (nmul F64 (nsub F64 n1 bi) zi) (logsig np_exp np_log1p zi)) b z') in *.
  change (map2 (fun bi zi : F64 => ((n1 - bi) * zi - logsig np_exp np_log1p zi)%num) b z') with ts.
  rewrite Lz', <- Lb in T2, T3, T4. fold n in T3, T4.
  pose proof uro_pos as Up. pose proof uro_small as Us. pose proof eta_pos as Ep.
  assert (Nu : n * uro <= / 8).
  { apply Rle_trans with (2 ^ 50 * uro); [apply Rmult_le_compat_r; lra|]. rewrite uro_val. simpl. lra. }
  destruct (fsum_err ts T1) as [FS ES]; [rewrite T2; fold n; exact Nu|lra|].
  rewrite T2 in ES. fold n in ES.
  destruct (nofnat_fin (length ts)) as [Fn Vn].
  { rewrite T2. apply lt_IZR. rewrite <- INR_IZR_INZ. fold n. apply Rle_lt_trans with (1 := Hn). simpl. lra. }
  assert (Vn' : fv (@nofnat F64 (length ts)) = n) by (rewrite Vn, T2; reflexivity). clear Vn. rename Vn' into Vn.
  set (S1 := Rsum (map fv ts)) in *. set (S0 := Rsum (map2 log_term (map fv b) (map fv z))) in *.
  assert (AS : Rabs S1 <= n * (3 * (Z + 1))).
  { apply Rle_trans with (2 := T3). unfold S1. rewrite fabs_map. apply Rsum_abs. }
  assert (M1 : 2 * n * uro * Rsum (fabs ts) <= 2 * n * uro * (n * (3 * (Z + 1)))).
  { apply Rmult_le_compat_l; [|exact T3]. apply Rmult_le_pos; lra. }
  assert (M2 : 2 * n * uro * (n * (3 * (Z + 1))) <= 1 / 4 * (n * (3 * (Z + 1)))).
  { apply Rmult_le_compat_r; [|lra]. apply Rmult_le_pos; lra. }
  assert (AF : Rabs (fv (vsum ts)) <= 5 / 4 * (n * (3 * (Z + 1)))).
  { replace (fv (vsum ts)) with ((fv (vsum ts) - S1) + S1) by ring. eapply Rle_trans; [apply Rabs_triang|]. lra. }
  assert (Big : bpow radix2 1023 = 8 * bpow radix2 1020) by (change 1023%Z with (3 + 1020)%Z; rewrite bpow_plus; reflexivity).
  pose proof (bpow_gt_0 radix2 1020) as P1020.
  destruct (quot_fin (vsum ts) (nofnat (length ts)) FS Fn ltac:(rewrite Vn; exact N1) ltac:(lra)) as [FM VM]. rewrite Vn in VM.
  change (ndiv F64 (vsum ts) (nofnat (length ts))) with (vmean ts) in FM, VM.
  destruct (fin_zero_mul (vdot x x) Fx) as [sg Hsg].
  change (nlit 1 2 * n0 * vdot x x)%num with (nmul F64 (nmul F64 (nlit 1 2) n0) (vdot x x)). rewrite Hsg.
  destruct (add_zero_r (vmean ts) sg FM) as [FO VO].
  eexists. split; [reflexivity|]. split; [exact FO|].
  change (fv (vmean ts + S754_zero sg)%num) with (fv (nadd F64 (vmean ts) (S754_zero sg))). rewrite VO, VM.
  pose proof (rnd_err (fv (vsum ts) / n)) as RE.
  assert (In0 : 0 < / n <= 1) by (split; [apply Rinv_0_lt_compat; lra|rewrite <- Rinv_1; apply Rinv_le_contravar; lra]).
  assert (AQ : Rabs (fv (vsum ts) / n) <= 15 / 4 * (Z + 1)).
  { unfold Rdiv. rewrite Rabs_mult, (Rabs_pos_eq (/ n)) by lra.
    apply Rle_trans with (5 / 4 * (n * (3 * (Z + 1))) * / n); [apply Rmult_le_compat_r; lra|].
    replace (5 / 4 * (n * (3 * (Z + 1))) * / n) with (15 / 4 * (Z + 1)) by (field; lra). lra. }
  assert (UQ : uro * Rabs (fv (vsum ts) / n) <= uro * (15 / 4 * (Z + 1))) by (apply Rmult_le_compat_l; lra).
  assert (D1 : Rabs (fv (vsum ts) / n - S0 / n) <= 6 * n * uro * (Z + 1) + (3 * d + 9 * uro) * (Z + 1)).
  { replace (fv (vsum ts) / n - S0 / n) with (((fv (vsum ts) - S1) + (S1 - S0)) * / n) by (field; lra).
    rewrite Rabs_mult, (Rabs_pos_eq (/ n)) by lra.
    apply Rle_trans with ((2 * n * uro * (n * (3 * (Z + 1))) + n * ((3 * d + 9 * uro) * (Z + 1))) * / n).
    - apply Rmult_le_compat_r; [lra|]. eapply Rle_trans; [apply Rabs_triang|]. lra.
    - right. field. lra. }
  assert (EU : eta <= uro * (Z + 1)).
  { assert (Te : eta <= tiny) by (rewrite tiny_eta; lra). assert (Ts : tiny <= uro * / 1152921504606846976) by (pose proof tiny_small as T; rewrite bpow_m60 in T; exact T).
    assert (uro * 1 <= uro * (Z + 1)) by (apply Rmult_le_compat_l; lra). lra. }
  replace (rnd (fv (vsum ts) / n) - S0 / n) with ((rnd (fv (vsum ts) / n) - fv (vsum ts) / n) + (fv (vsum ts) / n - S0 / n)) by ring.
  eapply Rle_trans; [apply Rabs_triang|]. 
  replace ((3 * d + (6 * n + 14) * uro) * (Z + 1)) with (6 * n * uro * (Z + 1) + (3 * d + 9 * uro) * (Z + 1) + 5 * (uro * (Z + 1))) by ring.
  lra.
Qed.

(** ** infinite margins *)
Lemma zero_of (m : F64) : fin m -> fv m = 0 -> exists sg, m = S754_zero sg.
Proof.
  intros [H _] V. destruct m as [s|s| |s m e]; try discriminate H; [exists s; reflexivity|].
  exfalso. unfold fv, SF2R in V. assert (N : F2R (Float radix2 (cond_Zopp s (Zpos m)) e) <> 0) by (apply F2R_neq_0; destruct s; discriminate). contradiction.
Qed.
Lemma label1_nan (c : F64) sg (l : F64) : fin c -> fv c = 1 -> nsub F64 (nmul F64 (nsub F64 n1 c) (S754_infinity sg)) l = S754_nan.
Proof.
  intros Fc V.
  assert (E : rnd (fv n1 - fv c) = 0) by (rewrite fv_1, V; replace (1 - 1) with 0 by ring; apply rnd_0).
  destruct (sub_fin n1 c fin_1 Fc) as [F VV]; [rewrite E, Rabs_R0; apply bpow_gt_0|]. rewrite E in VV.
  destruct (zero_of _ F VV) as [s ->]. reflexivity.
Qed.
Lemma label0_nan (np_exp np_log1p : F64 -> F64) (c : F64) : fin c -> fv c = 0 ->
  nsub F64 (nmul F64 (nsub F64 n1 c) (S754_infinity true)) (logsig np_exp np_log1p (S754_infinity true : F64)) = S754_nan.
Proof. intros Fc V. destruct (zero_of _ Fc V) as [[|] ->]; reflexivity. Qed.

(** a sample classified correctly with an infinite margin makes the loss nan *)
Lemma main_C118_infinite_margin : forall (np_exp np_log1p : F64 -> F64) (A : matrix F64) (b : list F64) (alpha : F64) (x z : list F64) (i : nat) (sg : bool),
  mat_dot A x = Ok z -> length b = length z -> (i < length z)%nat -> fin (nth i b n0) ->
  nth i z n0 = S754_infinity sg -> fv (nth i b n0) = (if sg then 0 else 1) ->
  log_call np_exp np_log1p A b alpha false x = Ok (RLoss (K:=F64) S754_nan).
Proof.
  intros np_exp np_log1p A b alpha x z i sg Hz Lb Hi Fb Hinf Vb.
  unfold log_call, log_f_grad, split_intercept. cbn [bind]. rewrite Hz. cbn [bind negb].
  set (ts := map2 _ b _).
  assert (In S754_nan ts) as Hnan.
  { unfold ts. clear ts Hz. revert b i Lb Hi Fb Hinf Vb. induction z as [|a z IH]; intros [|c b] i Lb Hi Fb Hinf Vb; cbn in Lb, Hi; try discriminate Lb; try (exfalso; clear - Hi; lia).
    destruct i as [|i]; cbn [nth] in *; cbn [map map2 In].
    - left. rewrite Hinf. change (nadd F64 (S754_infinity sg) n0) with (S754_infinity sg). destruct sg.
      + exact (label0_nan np_exp np_log1p c Fb Vb).
      + exact (label1_nan c false _ Fb Vb).
    - right. apply (IH b i (eq_add_S _ _ Lb)); auto. apply Nat.succ_lt_mono, Hi. }
  unfold vmean. unfold vsum at 1. rewrite (sum_nan ts _ Hnan). reflexivity.
Qed.

(** 2^1023 *)
Definition huge : F64 := S754_finite false 4503599627370496 971.
Lemma huge_fin : fin huge.
Proof. split; reflexivity. Qed.
Lemma huge_v : 0 <= fv huge.
Proof. unfold fv, SF2R, huge. apply F2R_ge_0. cbn. lia. Qed.
Lemma main_C118_refuted :
  exists (A : matrix F64) (b x : list F64), log_init (Some A) b = Ok A /\ Forall (Forall fin) (m_rows A) /\ Forall fin b /\ Forall fin x /\
    0 <= mean_loss log_term (map (map fv) (m_rows A)) (map fv b) (map fv x) <= 1 /\
    forall (np_exp np_log1p : F64 -> F64) (alpha : F64), log_call np_exp np_log1p A b alpha false x = Ok (RLoss (K:=F64) S754_nan).
Proof.
  exists (mkMat [[nofZ F64 2]] 1), [n1 (n:=F64)], [huge].
  split; [reflexivity|]. split; [repeat constructor|]. split; [repeat constructor|]. split; [repeat constructor|]. split.
  - unfold mean_loss. cbn [m_rows map combine fst snd Rsum length INR]. rewrite fv_1, Rplus_0_r.
    unfold log_term. set (t := dot _ _).
    assert (Ht : 0 <= t).
    { unfold t. cbn. rewrite Rplus_0_r. apply Rmult_le_pos; [|apply huge_v]. unfold fv, SF2R. apply F2R_ge_0. cbn. lia. }
    replace (- (1 * ln (sigma t) + (1 - 1) * ln (1 - sigma t)) / 1) with (- ln (sigma t)) by field.
    rewrite ln_sigma, Ropp_involutive. pose proof (exp_nonpos (- t) ltac:(lra)) as E. split; [apply ln1p_pos; lra|].
    pose proof (ln_upper (exp (- t)) ltac:(lra)). lra.
  - intros np_exp np_log1p alpha.
    apply (main_C118_infinite_margin np_exp np_log1p _ _ alpha _ [S754_infinity false] 0 false); try reflexivity; [cbn; lia|apply fin_1|].
    cbn [nth]. exact fv_1.
Qed.

(** two samples, x = (3) *)
Lemma run_C118 : let A := mkMat [[n1 (n:=F64)]; [nofZ F64 (-2)]] 1 in let x := [nofZ F64 3] in let z := [nofZ F64 3; nofZ F64 (-6)] in let b := [n1 (n:=F64); n0] in
  0 <= / 2 ^ 53 <= 1 / 1000 /\ exp_accurate (/ 2 ^ 53) cr_exp /\ log1p_accurate (/ 2 ^ 53) cr_log1p /\
  mat_dot A x = Ok z /\ fin (vdot x x) /\ Forall fin b /\ Forall (fun c => 0 <= fv c <= 1) b /\ Forall fin z /\ Forall (fun c => Rabs (fv c) <= 6) z /\
  INR 2 <= 2 ^ 50 /\ INR 2 * (3 * (6 + 1)) <= powerRZ 2 1020.
Proof.
  cbv zeta. split; [rewrite two53; pose proof uro_pos; pose proof uro_small; lra|].
  split; [exact cr_exp_accurate|]. split; [exact cr_log1p_accurate|]. split; [reflexivity|]. split; [split; reflexivity|].
  split; [repeat constructor|]. split; [repeat constructor; rewrite ?fv_1, ?fv_0; lra|]. split; [repeat constructor|].
  split; [apply Forall_cons; [unfold fv, SF2R, F2R; simpl; apply Rabs_le; lra|apply Forall_cons; [unfold fv, SF2R, F2R; simpl; apply Rabs_le; lra|apply Forall_nil]]|].
  split; [simpl; lra|]. rewrite two1020. apply Rle_trans with (bpow radix2 10); [simpl; lra|apply bpow_le; lia].
Qed.
