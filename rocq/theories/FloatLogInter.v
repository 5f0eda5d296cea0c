(** * C118: LogLoss with an intercept against the exact documented loss, over IEEE binary64 *)
From Coq Require Import Reals Lra Lia List Bool ZArith.
From Coq Require Import Floats.SpecFloat.
From Verif Require Import Num Vec Spec RVec SpecLoss LossScalar ModelPenalty ModelTv ModelConstraint ModelLoss LossMain3 FloatBase FloatProx FloatNan FloatSum FloatSimplex2 FloatSimplex3 FloatSimplex4 FloatLogistic FloatGrad FloatGradMain FloatLoss FloatLossMain FloatLossFin FloatValue FloatValueMain FloatValueFin FloatPair FloatNorm FloatLogistic2 FloatLogValue.
From Flocq Require Import Core.Core IEEE754.BinarySingleNaN.
Import ListNotations.
Local Open Scope R_scope.

Definition terms_mean np_exp np_log1p (b z : list F64) : F64 := vmean (map2 (fun bi zi => nsub F64 (nmul F64 (nsub F64 n1 bi) zi) (logsig np_exp np_log1p zi)) b z).
Lemma terms_mean_err (d : R) (np_exp np_log1p : F64 -> F64) (b z : list F64) (Z : R) :
  0 <= d <= 1 / 1000 -> exp_accurate d np_exp -> log1p_accurate d np_log1p -> length b = length z -> b <> [] ->
  Forall fin b -> Forall (fun c => 0 <= fv c <= 1) b -> Forall fin z -> Forall (fun c => Rabs (fv c) <= Z) z ->
  INR (length b) <= 2 ^ 50 -> INR (length b) * (3 * (Z + 1)) <= powerRZ 2 1020 ->
  fin (terms_mean np_exp np_log1p b z) /\ Rabs (fv (terms_mean np_exp np_log1p b z) - Rsum (map2 log_term (map fv b) (map fv z)) / INR (length b)) <= (3 * d + (6 * INR (length b) + 14) * / 2 ^ 53) * (Z + 1).
Proof.
  intros Hd He Hl Lb Nb Fb Bb Fz Bz Hn Hbig. rewrite two53. rewrite two1020 in Hbig.
  assert (N1 : 1 <= INR (length b)).
  { change 1 with (INR 1). apply le_INR. destruct b; [contradiction Nb; reflexivity|cbn; lia]. }
  assert (Z0 : 0 <= Z).
  { destruct z as [|a z0]; [destruct b; [contradiction Nb; reflexivity|discriminate Lb]|]. apply Rle_trans with (2 := Forall_inv Bz). apply Rabs_pos. }
  set (n := INR (length b)) in *.
  assert (Bn : Z + 1 <= n * (Z + 1)) by (rewrite <- (Rmult_1_l (Z + 1)) at 1; apply Rmult_le_compat_r; lra).
  destruct (terms_err d np_exp np_log1p Z Hd He Hl ltac:(lra) b z Lb Fb Bb Fz Bz) as (T1 & T2 & T3 & T4). unfold terms_mean.
  set (ts := map2 (fun bi zi => nsub F64 (nmul F64 (nsub F64 n1 bi) zi) (logsig np_exp np_log1p zi)) b z) in *.
  rewrite <- Lb in T2, T3, T4. fold n in T3, T4.
  pose proof uro_pos as Up. pose proof uro_small as Us. pose proof eta_pos as Ep.
  assert (Nu : n * uro <= / 8).
  { apply Rle_trans with (2 ^ 50 * uro); [apply Rmult_le_compat_r; lra|]. rewrite uro_val. simpl. lra. }
  destruct (fsum_err ts T1) as [FS ES]; [rewrite T2; fold n; exact Nu|lra|].
  rewrite T2 in ES. fold n in ES.
  destruct (nofnat_fin (length ts)) as [Fn Vn].
  { rewrite T2. apply lt_IZR. rewrite <- INR_IZR_INZ. fold n. apply Rle_lt_trans with (1 := Hn). simpl. lra. }
  assert (Vn' : fv (@nofnat F64 (length ts)) = n) by (rewrite Vn, T2; reflexivity). clear Vn. rename Vn' into Vn.
  set (S1 := Rsum (map fv ts)) in *. set (S0 := Rsum (map2 log_term (map fv b) (map fv z))) in *.
  assert (AS : Rabs S1 <= n * (3 * (Z + 1))).
  { apply Rle_trans with (2 := T3). unfold S1. rewrite fabs_map. apply Rsum_abs. }
  assert (M1 : 2 * n * uro * Rsum (fabs ts) <= 2 * n * uro * (n * (3 * (Z + 1)))).
  { apply Rmult_le_compat_l; [|exact T3]. apply Rmult_le_pos; lra. }
  assert (M2 : 2 * n * uro * (n * (3 * (Z + 1))) <= 1 / 4 * (n * (3 * (Z + 1)))).
  { apply Rmult_le_compat_r; [|lra]. apply Rmult_le_pos; lra. }
  assert (AF : Rabs (fv (vsum ts)) <= 5 / 4 * (n * (3 * (Z + 1)))).
  { replace (fv (vsum ts)) with ((fv (vsum ts) - S1) + S1) by ring. eapply Rle_trans; [apply Rabs_triang|]. lra. }
  assert (Big : bpow radix2 1023 = 8 * bpow radix2 1020) by (change 1023%Z with (3 + 1020)%Z; rewrite bpow_plus; reflexivity).
  pose proof (bpow_gt_0 radix2 1020) as P1020.
  destruct (quot_fin (vsum ts) (nofnat (length ts)) FS Fn ltac:(rewrite Vn; exact N1) ltac:(lra)) as [FM VM]. rewrite Vn in VM.
  change (ndiv F64 (vsum ts) (nofnat (length ts))) with (vmean ts) in FM, VM.
  split; [exact FM|]. rewrite VM.
  pose proof (rnd_err (fv (vsum ts) / n)) as RE.
  assert (In0 : 0 < / n <= 1) by (split; [apply Rinv_0_lt_compat; lra|rewrite <- Rinv_1; apply Rinv_le_contravar; lra]).
  assert (AQ : Rabs (fv (vsum ts) / n) <= 15 / 4 * (Z + 1)).
  { unfold Rdiv. rewrite Rabs_mult, (Rabs_pos_eq (/ n)) by lra.
    apply Rle_trans with (5 / 4 * (n * (3 * (Z + 1))) * / n); [apply Rmult_le_compat_r; lra|].
    replace (5 / 4 * (n * (3 * (Z + 1))) * / n) with (15 / 4 * (Z + 1)) by (field; lra). lra. }
  assert (UQ : uro * Rabs (fv (vsum ts) / n) <= uro * (15 / 4 * (Z + 1))) by (apply Rmult_le_compat_l; lra).
  assert (D1 : Rabs (fv (vsum ts) / n - S0 / n) <= 6 * n * uro * (Z + 1) + (3 * d + 9 * uro) * (Z + 1)).
  { replace (fv (vsum ts) / n - S0 / n) with (((fv (vsum ts) - S1) + (S1 - S0)) * / n) by (field; lra).
    rewrite Rabs_mult, (Rabs_pos_eq (/ n)) by lra.
    apply Rle_trans with ((2 * n * uro * (n * (3 * (Z + 1))) + n * ((3 * d + 9 * uro) * (Z + 1))) * / n).
    - apply Rmult_le_compat_r; [lra|]. eapply Rle_trans; [apply Rabs_triang|]. lra.
    - right. field. lra. }
  assert (EU : eta <= uro * (Z + 1)).
  { assert (Te : eta <= tiny) by (rewrite tiny_eta; lra). assert (Ts : tiny <= uro * / 1152921504606846976) by (pose proof tiny_small as T; rewrite bpow_m60 in T; exact T).
    assert (uro * 1 <= uro * (Z + 1)) by (apply Rmult_le_compat_l; lra). lra. }
  replace (rnd (fv (vsum ts) / n) - S0 / n) with ((rnd (fv (vsum ts) / n) - fv (vsum ts) / n) + (fv (vsum ts) / n - S0 / n)) by ring.
  eapply Rle_trans; [apply Rabs_triang|]. 
  replace ((3 * d + (6 * n + 14) * uro) * (Z + 1)) with (6 * n * uro * (Z + 1) + (3 * d + 9 * uro) * (Z + 1) + 5 * (uro * (Z + 1))) by ring.
  lra.
Qed.

Lemma margins_sum_c (w : list F64) (c : F64) (Z : R) : Forall fin w -> fin c -> forall (rows : list (list F64)) (b : list F64), length b = length rows ->
  Forall (fun r => length r = length w) rows -> Forall (Forall fin) rows -> Forall (fun v => 0 <= fv v <= 1) b ->
  let z := map (fun t => nadd F64 t c) (map (fun r => vdot (K:=F64) r w) rows) in Forall fin z -> Forall (fun t => Rabs (fv t) <= Z) z ->
  Rabs (Rsum (map2 log_term (map fv b) (map fv z)) - Rsum (map (fun p => log_term (fst p) (dot (snd p) (map fv w) + fv c)) (combine (map fv b) (map (map fv) rows)))) <= margins_err w rows + INR (length rows) * (2 * uro * Z).
Proof.
  intros Fw Fc. unfold margins_err. induction rows as [|r rows IH]; intros [|v b] Lb HR FR Bb Fz Bz; cbn in Lb; try discriminate.
  - cbn. rewrite Rminus_0_r, Rabs_R0. lra.
  - specialize (IH b (eq_add_S _ _ Lb) (Forall_inv_tail HR) (Forall_inv_tail FR) (Forall_inv_tail Bb) (Forall_inv_tail Fz) (Forall_inv_tail Bz)).
    cbn [map] in Fz, Bz. pose proof (Forall_inv Fz) as F1. pose proof (Forall_inv Bz) as B1. cbn beta in B1.
    assert (Dr : datum (vdot (K:=F64) r w)) by (apply vdot_datum; apply fin_data; [exact (Forall_inv FR)|exact Fw]).
    destruct (add_val _ _ Dr (fin_datum _ Fc) F1) as (F2 & _ & V).
    pose proof (margin_err r w (Forall_inv HR) (fin_data _ (Forall_inv FR)) (fin_data _ Fw) F2) as M.
    cbn [map map2 combine Rsum fst snd length]. rewrite S_INR. pose proof (log_term_lip (fv v) (dot (map fv r) (map fv w) + fv c) (fv (nadd F64 (vdot (K:=F64) r w) c)) (Forall_inv Bb)) as Lp.
    assert (Q : Rabs (fv (nadd F64 (vdot (K:=F64) r w) c) - (dot (map fv r) (map fv w) + fv c)) <= csr_err (length w) (dot (fabs r) (fabs w)) + 2 * uro * Z).
    { rewrite V in B1 |- *. set (s := fv (vdot (K:=F64) r w)) in *. pose proof (rnd_add_err s (fv c) (fin_repr _ F2) (fin_repr _ Fc)) as R1. pose proof uro_pos as U. assert (U1 : uro <= / 1000) by (rewrite uro_val; lra).
      assert (H1 : Rabs (s + fv c) <= Rabs (rnd (s + fv c)) + uro * Rabs (s + fv c)).
      { replace (s + fv c) with (rnd (s + fv c) - (rnd (s + fv c) - (s + fv c))) at 1 by ring. eapply Rle_trans; [apply Rabs_triang|]. rewrite Rabs_Ropp. lra. }
      assert (H2 : uro * Rabs (s + fv c) <= / 1000 * Rabs (s + fv c)) by (apply Rmult_le_compat_r; [apply Rabs_pos|lra]).
      assert (H3 : Rabs (s + fv c) <= 2 * Z) by (pose proof (Rabs_pos (s + fv c)); pose proof (Rabs_pos (rnd (s + fv c))); lra).
      assert (H4 : uro * Rabs (s + fv c) <= uro * (2 * Z)) by (apply Rmult_le_compat_l; lra).
      replace (rnd (s + fv c) - (dot (map fv r) (map fv w) + fv c)) with ((rnd (s + fv c) - (s + fv c)) + (s - dot (map fv r) (map fv w))) by ring.
      eapply Rle_trans; [apply Rabs_triang|]. lra. }
    match goal with |- Rabs (?p + ?q - (?u + ?x)) <= _ => replace (p + q - (u + x)) with ((p - u) + (q - x)) by ring end.
    eapply Rle_trans; [apply Rabs_triang|]. lra.
Qed.
Lemma split_last (w : list F64) (c : F64) : split_intercept true (w ++ [c]) = Ok (w, c).
Proof. unfold split_intercept. rewrite rev_app_distr. cbn. rewrite removelast_last. reflexivity. Qed.
(** copt/loss.py:39-40, 75-98: the value LogLoss returns with an intercept *)
Lemma main_C118_intercept_partial : forall (d : R) (np_exp np_log1p : F64 -> F64) (A : matrix F64) (b : list F64) (alpha : F64) (w : list F64) (c : F64) (ax z : list F64) (Z : R),
  0 <= d <= 1 / 1000 -> exp_accurate d np_exp -> log1p_accurate d np_log1p ->
  Forall (fun r => length r = m_cols A) (m_rows A) -> length b = length (m_rows A) -> b <> [] -> INR (length b) <= 2 ^ 50 ->
  Forall (Forall fin) (m_rows A) -> Forall fin b -> Forall (fun v => 0 <= fv v <= 1) b -> Forall fin w -> fin c -> fin alpha ->
  mat_dot A w = Ok ax -> z = map (fun t => nadd F64 t c) ax -> Forall fin z -> Forall (fun v => Rabs (fv v) <= Z) z -> INR (length b) * (3 * (Z + 1)) <= powerRZ 2 1020 ->
  exists L : F64, log_call np_exp np_log1p A b alpha true (w ++ [c]) = Ok (RLoss L) /\
    (fin L -> Rabs (fv L - (mean_loss_c log_term (map (map fv) (m_rows A)) (map fv b) (map fv w) (fv c) + fv alpha / 2 * dot (map fv w) (map fv w))) <= log_val_err d alpha w (m_rows A) Z + 2 * / 2 ^ 53 * Z).
Proof.
  intros d np_exp np_log1p A b alpha w c ax z Z Hd He Hl HR Lb Nb Hn FR Fb Bb Fw Fc Fa Hz Ezc Fz Bz Hbig.
  assert (Ez : ax = map (fun r => vdot (K:=F64) r w) (m_rows A) /\ length w = m_cols A).
  { unfold mat_dot in Hz. destruct (Nat.eqb (length w) (m_cols A)) eqn:E; [|discriminate]. apply Ok_inj in Hz. apply Nat.eqb_eq in E. split; [symmetry; exact Hz|exact E]. }
  destruct Ez as [Ez Lx]. assert (Lz : length z = length (m_rows A)) by (rewrite Ezc, Ez, !map_length; reflexivity).
  assert (Lbz : length b = length z) by (rewrite Lz; exact Lb).
  exists (nadd F64 (terms_mean np_exp np_log1p b z) (nmul F64 (nmul F64 (nlit 1 2) alpha) (vdot w w))).
  split. { unfold log_call, log_f_grad. rewrite split_last. cbn [bind]. rewrite Hz. cbn [bind negb]. rewrite Ezc. reflexivity. }
  intros FL. destruct half_fin as [Fh Vh].
  assert (Dx : datum (vdot (K:=F64) w w)) by (apply vdot_datum; apply fin_data, Fw). assert (Dha := mul_datum _ _ (fin_datum _ Fh) (fin_datum _ Fa)).
  destruct (terms_mean_err d np_exp np_log1p b z Z Hd He Hl Lbz Nb Fb Bb Fz Bz Hn Hbig) as [Fm E0].
  destruct (add_val _ _ (fin_datum _ Fm) (mul_datum _ _ Dha Dx) FL) as (_ & Fp & ->). destruct (mul_val _ _ Dha Dx Fp) as (Fha & Fs & ->). destruct (mul_val _ _ (fin_datum _ Fh) (fin_datum _ Fa) Fha) as (_ & _ & ->). rewrite Vh.
  pose proof (dot_err w (length w) (sqs w) Fw (le_n _) (Rle_refl _) Fs) as E2. rewrite sqs_dot in E2.
  set (m := terms_mean np_exp np_log1p b z) in *. set (M := Rsum (map2 log_term (map fv b) (map fv z)) / INR (length b)) in *.
  assert (PX : 0 <= dot (map fv w) (map fv w)) by (rewrite <- sqs_dot; apply sqs_pos).
  pose proof (log_round (fv m) M _ (fv alpha) _ _ _ (fin_repr _ Fm) E0 PX E2) as RR.
  assert (N1 : 1 <= INR (length b)) by (destruct b; [congruence|]; cbn [length]; rewrite S_INR; pose proof (pos_INR (length b)); lra).
  destruct (terms_bound Z b z Bb Bz) as [TB1 TB2].
  assert (I : 0 < / INR (length b)) by (apply Rinv_0_lt_compat; lra).
  assert (BM : Rabs M <= Z + 1).
  { unfold M, Rdiv. rewrite Rabs_mult, (Rabs_pos_eq (/ _)), Rabs_pos_eq by lra. apply Rle_trans with (INR (length z) * (Z + 1) * / INR (length b)); [apply Rmult_le_compat_r; lra|]. rewrite <- Lbz. right. field. lra. }
  assert (HRx : Forall (fun r : list F64 => length r = length w) (m_rows A)) by (eapply Forall_impl; [|exact HR]; intros r Hr; exact (eq_trans Hr (eq_sym Lx))).
  rewrite Ez in Ezc. pose proof (margins_sum_c w c Z Fw Fc (m_rows A) b Lb HRx FR Bb ltac:(rewrite <- Ezc; exact Fz) ltac:(rewrite <- Ezc; exact Bz)) as MS. cbv zeta in MS. rewrite <- Ezc in MS.
  unfold mean_loss_c. rewrite map_length. set (S := Rsum (map (fun p => log_term (fst p) (dot (snd p) (map fv w) + fv c)) (combine (map fv b) (map (map fv) (m_rows A))))) in *.
  unfold log_val_err. cbv zeta. rewrite two53, <- eta_pow.
  change (@length (vec F64) (m_rows A)) with (@length (list F64) (m_rows A)) in *. assert (LbL : length b = @length (list F64) (m_rows A)) by exact Lb. rewrite <- LbL in MS |- *.
  set (X := dot (map fv w) (map fv w)) in *. set (Cx := csr_err (length w) X) in *. rewrite two53 in E0, RR. set (E := (3 * d + (6 * INR (length b) + 14) * uro) * (Z + 1)) in *.
  assert (MD : Rabs (M - S / INR (length b)) <= margins_err w (m_rows A) / INR (length b) + 2 * uro * Z).
  { unfold M. replace (_ / _ - _ / _) with ((Rsum (map2 log_term (map fv b) (map fv z)) - S) * / INR (length b)) by (field; lra). rewrite Rabs_mult, (Rabs_pos_eq (/ _)) by lra.
    apply Rle_trans with ((margins_err w (m_rows A) + INR (length b) * (2 * uro * Z)) * / INR (length b)); [apply Rmult_le_compat_r; lra|]. right. field. lra. }
  assert (UM : 4 * uro * (Rabs M + E + Rabs (fv alpha) / 2 * (X + Cx)) <= 4 * uro * (Z + 1 + E + Rabs (fv alpha) / 2 * (X + Cx))) by (pose proof uro_pos; apply Rmult_le_compat_l; lra).
  match goal with |- Rabs (?r - (?s + ?p)) <= _ => replace (r - (s + p)) with ((r - (M + p)) + (M - s)) by ring end.
  eapply Rle_trans; [apply Rabs_triang|]. lra.
Qed.
Lemma run_C118_inter : let ax := [nofZ F64 3; nofZ F64 (-6)] in let z := [nofZ F64 4; nofZ F64 (-5)] in
  z = map (fun t => nadd F64 t n1) ax /\ fin (n1 (n:=F64)) /\ Forall fin z /\ Forall (fun v => Rabs (fv v) <= 6) z.
Proof.
  cbv zeta. split; [reflexivity|]. split; [apply fin_1|]. split; [repeat constructor|].
  apply Forall_cons; [unfold fv, SF2R, F2R; simpl; apply Rabs_le; lra|apply Forall_cons; [unfold fv, SF2R, F2R; simpl; apply Rabs_le; lra|apply Forall_nil]].
Qed.
