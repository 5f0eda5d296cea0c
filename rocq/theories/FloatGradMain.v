(** * Proofs for the gradient of LogLoss.f_grad over IEEE binary64 *)
From Coq Require Import Reals Lra Lia List Bool ZArith.
From Coq Require Import Floats.SpecFloat.
From Verif Require Import Num Vec Spec RVec SpecLoss LossScalar LossHess ModelTv ModelLoss LossFacts LossLink LossMain FloatBase FloatSum FloatSimplex2 FloatLogistic FloatLogistic2 FloatGrad.
From Flocq Require Import Core.Core IEEE754.BinarySingleNaN.
Import ListNotations.
Local Open Scope R_scope.
Local Notation log1pR := (fun t : R => ln (1 + t)) (only parsing).

(** the matrix of the real values of the floats *)
Definition mat_fv (A : matrix F64) : matrix RN := mkMat (K:=RN) (map (map fv) (m_rows A)) (m_cols A).
Lemma exact_sum (x : list F64) j : forall (rows : list (list F64)) (b : list F64), length b = length rows ->
  Rsum (map (fun pq : R * R => fst pq * snd pq)
    (combine (map2 (expit_b (K:=RN) exp) (map (fun r => nadd RN (vdot (K:=RN) r (map fv x)) n0) (map (map fv) rows)) (map fv b)) (col (K:=RN) j (map (map fv) rows))))
  = Rsum (map (fun r => r) (map2 Rmult (wacc x rows b) (map fv (col (K:=F64) j rows)))).
Proof.
  unfold wacc, col. induction rows as [|r rows IH]; intros [|c b] Lb; cbn in Lb; try discriminate; [reflexivity|].
  cbn [map map2 combine Rsum fst snd]. rewrite (IH b (eq_add_S _ _ Lb)). f_equal. f_equal.
  - rewrite (proj1 (main_C20_expit _ _)). f_equal. f_equal. rewrite vdot_R. rn. lra.
  - change (@n0 RN) with 0. rewrite <- fv_nth. reflexivity.
Qed.
Lemma real_side (A : matrix F64) (b : list F64) (alpha : F64) (x : list F64) :
  Forall (fun r => length r = m_cols A) (m_rows A) -> length x = m_cols A -> length b = length (m_rows A) -> b <> [] ->
  exists G, is_gradient (m_cols A) (ridge (fv alpha) (mean_loss log_term (map (map fv) (m_rows A)) (map fv b))) (map fv x) G /\
    forall j, (j < m_cols A)%nat -> nth j G 0 = Rsum (map (fun r => r) (map2 Rmult (wacc x (m_rows A) b) (map fv (col (K:=F64) j (m_rows A))))) / INR (length b) + fv alpha * fv (nth j x n0).
Proof.
  intros HR Lx Lb Nb. set (AR := mat_fv A). set (bR := map fv b). set (xR := map fv x).
  assert (HR' : Forall (fun r : vec RN => length r = m_cols AR) (m_rows AR)) by (cbn; apply Forall_map; eapply Forall_impl; [|exact HR]; intros r Hr; cbn; rewrite map_length; exact Hr).
  assert (LxR : length xR = m_cols AR) by (unfold xR; rewrite map_length; exact Lx).
  assert (LbR : length bR = length (m_rows AR)) by (unfold bR; cbn; rewrite !map_length; exact Lb).
  assert (Hn : (0 < length (m_rows AR))%nat) by (rewrite <- LbR; unfold bR; rewrite map_length; destruct b; [congruence|cbn; lia]).
  assert (HA : rect (m_cols AR) (m_rows AR)) by (first [exact HR'|apply Forall_forall; exact HR'|intros r Hr; rewrite Forall_forall in HR'; exact (HR' r Hr)]).
  destruct (log_grad_nth (K:=RN) exp log1pR AR bR (fv alpha) xR HR' LxR LbR) as (L & g & E1 & E2 & E3).
  exists g. split.
  - pose proof (log_f_grad_core AR bR (fv alpha) HA LbR false xR xR 0 true eq_refl LxR) as E.
    pose proof (eq_trans (eq_sym E1) E) as EE. injection EE as _ Eg. rewrite Eg, (log_grad_eq AR bR (fv alpha)).
    apply (rloss_gradient log_term dlog (/ 4)); auto; [apply log_gap|lra].
  - intros j Hj. etransitivity; [exact (E3 j Hj)|]. rewrite facc_R. unfold marg, AR, xR, bR, n_samples, mat_fv. cbn [m_rows]. rewrite (exact_sum x j (m_rows A) b Lb).
    rewrite fv_nth. rn. change (@n0 RN) with 0. rewrite nofnat_R, map_length. unfold Rdiv. rewrite <- Lb. ring.
Qed.
Lemma csr_err_mono m a c : a <= c -> csr_err m a <= csr_err m c.
Proof.
  intros H. unfold csr_err. apply Rplus_le_compat_r. apply Rmult_le_compat_l; [|exact H].
  assert (0 < / 2 ^ 53) by (apply Rinv_0_lt_compat, pow_lt; lra). pose proof (pow_R1_Rle (1 + / 2 ^ 53) (S m) ltac:(lra)). lra.
Qed.
(** the error committed on the margin and on the sigmoid of one sample *)
Definition grad_err (d : R) (x : list F64) (rows : list (list F64)) (j : nat) : R :=
  (csr_err (length rows) (2 * Rsum (map (fun r => Rabs (fv (nth j r n0))) rows))
   + Rsum (map (fun r => (2 * d + 6 * / 2 ^ 53 + / 4 * csr_err (length x) (dot (fabs r) (fabs x))) * Rabs (fv (nth j r n0))) rows)) / INR (length rows).
Lemma combine_err (r q S s n C E3 ay K2 : R) : 1 <= n -> Rabs (s - S) <= K2 -> Rabs S <= C -> Rabs (r - (s / n + q)) <= E3 * (Rabs (s / n) + Rabs q) + ay -> 0 <= E3 ->
  Rabs (r - (S / n + q)) <= K2 / n + E3 * (C / n + K2 / n + Rabs q) + ay.
Proof.
  intros Hn H1 H2 H3 P. assert (I : 0 < / n) by (apply Rinv_0_lt_compat; lra).
  assert (A1 : Rabs (s / n - S / n) <= K2 / n).
  { replace (s / n - S / n) with ((s - S) * / n) by (unfold Rdiv; ring). rewrite Rabs_mult, (Rabs_right (/ n)) by lra. apply Rmult_le_compat_r; lra. }
  assert (A2 : Rabs (S / n) <= C / n).
  { unfold Rdiv. rewrite Rabs_mult, (Rabs_right (/ n)) by lra. apply Rmult_le_compat_r; lra. }
  assert (A3 : Rabs (s / n) <= C / n + K2 / n).
  { replace (s / n) with (S / n + (s / n - S / n)) by ring. eapply Rle_trans; [apply Rabs_triang|]. lra. }
  assert (A4 : E3 * (Rabs (s / n) + Rabs q) <= E3 * (C / n + K2 / n + Rabs q)) by (apply Rmult_le_compat_l; lra).
  replace (r - (S / n + q)) with ((r - (s / n + q)) + (s / n - S / n)) by ring. eapply Rle_trans; [apply Rabs_triang|]. lra.
Qed.
Lemma main_C125_gradient : forall (d : R) (np_exp np_log1p : F64 -> F64) (A : matrix F64) (b : list F64) (alpha : F64) (x z : list F64),
  0 <= d <= 1 / 1000 -> exp_accurate d np_exp ->
  Forall (fun r => length r = m_cols A) (m_rows A) -> length b = length (m_rows A) -> b <> [] -> (Z.of_nat (length b) < 2 ^ 53)%Z ->
  Forall (Forall fin) (m_rows A) -> Forall fin b -> Forall (fun c => 0 <= fv c <= 1) b -> Forall fin x -> fin alpha ->
  mat_dot A x = Ok z -> Forall fin z ->
  exists (L : F64) (g : list F64) (G : list R), log_f_grad np_exp np_log1p A b alpha false x true = Ok (RPair L g) /\ length g = m_cols A /\
    is_gradient (m_cols A) (ridge (fv alpha) (mean_loss log_term (map (map fv) (m_rows A)) (map fv b))) (map fv x) G /\
    forall j, (j < m_cols A)%nat -> fin (nth j g n0) ->
      Rabs (fv (nth j g n0) - nth j G 0)
      <= grad_err d x (m_rows A) j
         + 3 * / 2 ^ 53 * (Rsum (map (fun r => Rabs (fv (nth j r n0))) (m_rows A)) / INR (length b) + grad_err d x (m_rows A) j + Rabs (fv alpha * fv (nth j x n0)))
         + 4 * powerRZ 2 (-1075).
Proof.
  intros d np_exp np_log1p A b alpha x z Hd He HR Lb Nb Hbig FR Fb Bb Fx Fa Hz Fz.
  unfold mat_dot in Hz. destruct (Nat.eqb_spec (length x) (m_cols A)) as [Lx|]; [|discriminate Hz]. injection Hz as <-.
  assert (Fz' : Forall (fun r => fin (vdot (K:=F64) r x)) (m_rows A)) by (rewrite Forall_map in Fz; exact Fz).
  assert (HRx : Forall (fun r : list F64 => length r = length x) (m_rows A)) by (eapply Forall_impl; [|exact HR]; intros r Hr; exact (eq_trans Hr (eq_sym Lx))).
  destruct (log_grad_nth np_exp np_log1p A b alpha x HR Lx Lb) as (L & g & E1 & E2 & E3).
  destruct (real_side A b alpha x HR Lx Lb Nb) as (G & G1 & G2).
  exists L, g, G. split; [exact E1|]. split; [exact E2|]. split; [exact G1|]. intros j Hj Fg. rewrite (G2 j Hj). rewrite (E3 j Hj) in *.
  destruct (samples_ok d np_exp Hd He x Fx j (m_rows A) b Lb HRx FR Fb Bb Fz') as (I1 & I2 & I3 & I4 & I5).
  unfold eacc in *. fold (marg A x) in *. set (l := combine _ _) in *.
  destruct (nofnat_fin (length b) Hbig) as [Fn Vn]. unfold n_samples in *. rewrite <- Lb in Fg |- *. fold (@nofnat F64 (length b)) in *.
  assert (N1 : 1 <= INR (length b)) by (destruct b; [congruence|]; cbn [length]; rewrite S_INR; pose proof (pos_INR (length b)); lra).
  assert (Dl : datum (facc l n0)).
  { clear -I1. unfold facc. assert (D0 : datum (@n0 F64)) by (apply fin_datum, fin_0). revert D0. generalize (@n0 F64). induction I1 as [|[p q] l [Dp Dq] _ IH]; intros a Da; cbn [fold_left fst snd]; [exact Da|]. apply IH, add_datum; [exact Da|apply mul_datum; assumption]. }
  destruct (last_err _ _ _ _ (INR (length b)) Dl Fn Vn N1 (fin_datum _ Fa) (datum_nth _ _ (fin_data _ Fx)) Fg) as [Fs Er].
  pose proof (facc_err0 l I1 Fs) as Es. rewrite <- csr_err_eq, I2 in Es. pose proof (csr_err_mono (length (m_rows A)) _ _ I3) as Em.
  unfold grad_err. rewrite uro_pow, eta_pow in Er.
  assert (Lb2 : INR (@length (list F64) (m_rows A)) = INR (length b)) by (f_equal; symmetry; exact Lb). rewrite Lb2.
  apply combine_err with (s := fv (facc l n0)); try assumption.
  - set (S0 := Rsum (map (fun r => r) _)) in *. set (T := Rsum (map (fun pq : F64 * F64 => fv (fst pq) * fv (snd pq)) l)) in *.
    replace (fv (facc l n0) - S0) with ((fv (facc l n0) - T) + (T - S0)) by ring. eapply Rle_trans; [apply Rabs_triang|].
    unfold sample_err in I5. exact (Rplus_le_compat _ _ _ _ (Rle_trans _ _ _ Es Em) I5).
  - apply Rmult_le_pos; [lra|]. left. apply Rinv_0_lt_compat, pow_lt. lra.
Qed.
(** ** no overflow *)
Lemma pow_lin m : 2 * INR m * uro <= 1 -> (1 + uro) ^ m <= 1 + 2 * INR m * uro.
Proof.
  pose proof uro_pos as U. induction m as [|m IH]; intros H; [cbn; lra|]. rewrite S_INR in *. cbn [pow].
  assert (M : 2 * INR m * uro <= 1) by lra. specialize (IH M). pose proof (pos_INR m).
  apply Rle_trans with ((1 + uro) * (1 + 2 * INR m * uro)); [apply Rmult_le_compat_l; lra|].
  assert (uro * (2 * INR m * uro) <= uro * 1) by (apply Rmult_le_compat_l; lra). lra.
Qed.
Lemma small_err m : INR m <= 2 ^ 50 -> gam m <= 1 /\ und m <= 1.
Proof.
  intros H. pose proof (pos_INR m) as P. assert (U : uro * 2 ^ 50 = / 8) by (rewrite uro_pow; cbn; field). pose proof uro_pos as U0. pose proof uro_small as U1.
  assert (B : INR m * uro <= / 8) by (rewrite <- U, (Rmult_comm uro); apply Rmult_le_compat_r; lra).
  assert (B' : uro <= / 8) by (rewrite uro_pow; apply Rinv_le_contravar; [lra|cbn; lra]).
  pose proof (pow_lin (S m)) as Q1. rewrite S_INR in Q1. pose proof (pow_lin m) as Q2. unfold gam, und. split; [lra|].
  assert (E : 0 <= eta <= uro). { split; [left; unfold eta; apply bpow_gt_0|]. rewrite uro_val. apply Rle_trans with (bpow radix2 (-53)); [apply bpow_le; lia|cbn; lra]. }
  assert (INR m * (1 + uro) ^ m <= INR m * 2) by (apply Rmult_le_compat_l; lra).
  assert (0 <= INR m * (1 + uro) ^ m) by (apply Rmult_le_pos; [lra|apply pow_le; lra]).
  apply Rle_trans with (INR m * 2 * uro); [apply Rmult_le_compat; lra|lra].
Qed.
Lemma facc_fin (l : list (F64 * F64)) : Forall (fun pq : F64 * F64 => fin (fst pq) /\ fin (snd pq)) l -> INR (length l) <= 2 ^ 50 ->
  Rsum (map (fun pq : F64 * F64 => Rabs (fv (fst pq) * fv (snd pq))) l) <= bpow radix2 1010 ->
  fin (facc l n0) /\ Rabs (fv (facc l n0)) <= 2 * Rsum (map (fun pq : F64 * F64 => Rabs (fv (fst pq) * fv (snd pq))) l) + 1.
Proof.
  assert (B13 : 1 <= bpow radix2 1010) by (change 1 with (bpow radix2 0); apply bpow_le; lia).
  assert (B14 : bpow radix2 1023 = 8192 * bpow radix2 1010) by (change 1023%Z with (13 + 1010)%Z; rewrite bpow_plus; reflexivity).
  induction l as [|[p q] l IH] using rev_ind; intros Hl Hn Hs.
  - change (facc (K:=F64) [] n0) with (@n0 F64). rewrite fv_0, Rabs_R0. cbn [map Rsum]. split; [apply fin_0|lra].
  - apply Forall_app in Hl. destruct Hl as [Hl Hpq]. destruct (Forall_inv Hpq) as [Fp Fq]. cbn [fst snd] in Fp, Fq.
    assert (Hs' := Hs). rewrite map_app, Rsum_app in Hs'. cbn [map Rsum fst snd] in Hs'. pose proof (Rabs_pos (fv p * fv q)) as P.
    assert (Hn' := Hn). rewrite app_length in Hn'. cbn [length] in Hn'. rewrite Nat.add_1_r, S_INR in Hn'.
    assert (Psum : 0 <= Rsum (map (fun pq : F64 * F64 => Rabs (fv (fst pq) * fv (snd pq))) l)) by (clear; induction l as [|a l IH]; cbn [map Rsum]; [lra|]; pose proof (Rabs_pos (fv (fst a) * fv (snd a))); lra).
    destruct (IH Hl ltac:(lra) ltac:(lra)) as [F1 B1].
    assert (E : facc (l ++ [(p, q)]) n0 = nadd F64 (facc l n0) (nmul F64 p q)) by (unfold facc; rewrite fold_left_app; reflexivity).
    destruct (mul_fin p q Fp Fq) as [F2 V2]; [apply rnd_fits; lra|].
    assert (B2 : Rabs (fv (nmul F64 p q)) <= 2 * Rabs (fv p * fv q) + 1).
    { rewrite V2. pose proof (rnd_err (fv p * fv q)) as R1. pose proof uro_small as U1. pose proof uro_pos as U0.
      assert (E1 : eta <= 1) by (unfold eta; change 1 with (bpow radix2 0); apply bpow_le; lia).
      assert (uro * Rabs (fv p * fv q) <= 1 * Rabs (fv p * fv q)) by (apply Rmult_le_compat_r; lra).
      replace (rnd (fv p * fv q)) with ((rnd (fv p * fv q) - fv p * fv q) + fv p * fv q) by ring. eapply Rle_trans; [apply Rabs_triang|]. lra. }
    assert (F3 : fin (facc (l ++ [(p, q)]) n0)).
    { rewrite E. apply add_fin; auto. apply rnd_fits. eapply Rle_trans; [apply Rabs_triang|]. lra. }
    split; [exact F3|]. assert (HD : Forall (fun pq : F64 * F64 => datum (fst pq) /\ datum (snd pq)) (l ++ [(p, q)])).
    { apply Forall_app. split; [eapply Forall_impl; [|exact Hl]; intros a [A1 A2]; split; apply fin_datum; assumption|]. constructor; [split; apply fin_datum; assumption|constructor]. }
    pose proof (facc_err0 _ HD F3) as Er. destruct (small_err _ Hn) as [G1 G2].
    set (T := Rsum (map (fun pq : F64 * F64 => Rabs (fv (fst pq) * fv (snd pq))) (l ++ [(p, q)]))) in *.
    set (W := Rsum (map (fun pq : F64 * F64 => fv (fst pq) * fv (snd pq)) (l ++ [(p, q)]))) in *.
    assert (Hw : Rabs W <= T). { unfold W, T. clear. induction (l ++ [(p, q)]) as [|a m IH]; cbn [map Rsum]; [rewrite Rabs_R0; lra|]. eapply Rle_trans; [apply Rabs_triang|]. lra. }
    assert (PT : 0 <= T) by (pose proof (Rabs_pos W); lra).
    assert (gam (length (l ++ [(p, q)])) * T <= 1 * T) by (apply Rmult_le_compat_r; lra).
    replace (fv (facc (l ++ [(p, q)]) n0)) with ((fv (facc (l ++ [(p, q)]) n0) - W) + W) by ring. eapply Rle_trans; [apply Rabs_triang|]. lra.
Qed.
Lemma samples_fin (d : R) (np_exp : F64 -> F64) (x : list F64) j : 0 <= d <= 1 / 1000 -> exp_accurate d np_exp -> Forall fin x ->
  forall (rows : list (list F64)) (b : list F64), length b = length rows ->
  Forall (fun r => length r = length x) rows -> Forall (Forall fin) rows -> Forall fin b -> Forall (fun c => 0 <= fv c <= 1) b -> Forall (fun r => fin (vdot r x)) rows ->
  Forall (fun pq : F64 * F64 => fin (fst pq) /\ fin (snd pq)) (combine (eacc np_exp x rows b) (col j rows)).
Proof.
  intros Hd He Fx. induction rows as [|r rows IH]; intros [|c b] Lb HR FR Fb Bb Fz; cbn in Lb; try discriminate; [constructor|].
  unfold eacc, col in *. cbn [map map2 combine]. constructor.
  - cbn [fst snd]. split; [exact (proj1 (sample_ok d np_exp Hd He x Fx r c (Forall_inv HR) (Forall_inv FR) (Forall_inv Fb) (Forall_inv Bb) (Forall_inv Fz)))|].
    destruct (nth_in_or_default j r (@n0 F64)) as [I|I]; [|rewrite I; apply fin_0]. pose proof (Forall_inv FR) as F. cbn in F. rewrite Forall_forall in F. exact (F _ I).
  - exact (IH b (eq_add_S _ _ Lb) (Forall_inv_tail HR) (Forall_inv_tail FR) (Forall_inv_tail Fb) (Forall_inv_tail Bb) (Forall_inv_tail Fz)).
Qed.
Lemma main_C125_finite : forall (d : R) (np_exp np_log1p : F64 -> F64) (A : matrix F64) (b : list F64) (alpha : F64) (x z : list F64),
  0 <= d <= 1 / 1000 -> exp_accurate d np_exp ->
  Forall (fun r => length r = m_cols A) (m_rows A) -> length b = length (m_rows A) -> b <> [] -> INR (length b) <= 2 ^ 50 ->
  Forall (Forall fin) (m_rows A) -> Forall fin b -> Forall (fun c => 0 <= fv c <= 1) b -> Forall fin x -> fin alpha ->
  mat_dot A x = Ok z -> Forall fin z ->
  exists (L : F64) (g : list F64), log_f_grad np_exp np_log1p A b alpha false x true = Ok (RPair L g) /\ length g = m_cols A /\
    forall j, (j < m_cols A)%nat -> Rsum (map (fun r => Rabs (fv (nth j r n0))) (m_rows A)) <= powerRZ 2 1000 -> Rabs (fv alpha * fv (nth j x n0)) <= powerRZ 2 1000 ->
      fin (nth j g n0).
Proof.
  intros d np_exp np_log1p A b alpha x z Hd He HR Lb Nb Hbig FR Fb Bb Fx Fa Hz Fz.
  unfold mat_dot in Hz. destruct (Nat.eqb_spec (length x) (m_cols A)) as [Lx|]; [|discriminate Hz]. injection Hz as <-.
  assert (Fz' : Forall (fun r => fin (vdot (K:=F64) r x)) (m_rows A)) by (rewrite Forall_map in Fz; exact Fz).
  assert (HRx : Forall (fun r : list F64 => length r = length x) (m_rows A)) by (eapply Forall_impl; [|exact HR]; intros r Hr; exact (eq_trans Hr (eq_sym Lx))).
  destruct (log_grad_nth np_exp np_log1p A b alpha x HR Lx Lb) as (L & g & E1 & E2 & E3).
  exists L, g. split; [exact E1|]. split; [exact E2|]. intros j Hj. 
  change (powerRZ 2 1000) with (powerRZ (IZR (Zaux.radix_val Zaux.radix2)) 1000). rewrite <- Raux.bpow_powerRZ. intros HC Hx. rewrite (E3 j Hj).
  destruct (samples_ok d np_exp Hd He x Fx j (m_rows A) b Lb HRx FR Fb Bb Fz') as (_ & I2 & I3 & _ & _).
  pose proof (samples_fin d np_exp x j Hd He Fx (m_rows A) b Lb HRx FR Fb Bb Fz') as I1.
  unfold eacc in *. fold (marg A x) in *. set (l := combine _ _) in *.
  assert (B1 : 1 <= bpow radix2 1000) by (change 1 with (bpow radix2 0); apply bpow_le; lia).
  assert (B2 : bpow radix2 1010 = 1024 * bpow radix2 1000) by (change 1010%Z with (10 + 1000)%Z; rewrite bpow_plus; reflexivity).
  assert (B3 : bpow radix2 1023 = 8192 * bpow radix2 1010) by (change 1023%Z with (13 + 1010)%Z; rewrite bpow_plus; reflexivity).
  assert (Hl : INR (length l) <= 2 ^ 50) by (rewrite I2; eapply Rle_trans; [|exact Hbig]; right; f_equal; symmetry; exact Lb).
  destruct (facc_fin l I1 Hl) as [Fs Bs]; [clearbody l; cbv beta in *; lra|].
  assert (Hz53 : (Z.of_nat (length b) < 2 ^ 53)%Z).
  { apply lt_IZR. rewrite <- INR_IZR_INZ. change (IZR (2 ^ 53)) with 9007199254740992. cbn [pow] in Hbig. lra. }
  destruct (nofnat_fin (length b) Hz53) as [Fn Vn]. unfold n_samples. rewrite <- Lb.
  assert (N1 : 1 <= INR (length b)) by (destruct b; [congruence|]; cbn [length]; rewrite S_INR; pose proof (pos_INR (length b)); lra).
  assert (Fxj : fin (nth j x n0)) by (rewrite Forall_forall in Fx; apply Fx, nth_In; exact (eq_ind_r (fun k => (j < k)%nat) Hj Lx)).
  destruct (quot_fin (facc l n0) _ Fs Fn ltac:(rewrite Vn; exact N1) ltac:(lra)) as [Fq Vq].
  destruct (mul_fin alpha (nth j x n0) Fa Fxj) as [Fp Vp]; [apply rnd_fits; lra|].
  apply add_fin; auto. apply rnd_fits. eapply Rle_trans; [apply Rabs_triang|].
  assert (Q : forall t, Rabs t <= bpow radix2 1020 -> Rabs (rnd t) <= bpow radix2 1020).
  { intros t Ht. rewrite <- rnd_abs. replace (bpow radix2 1020) with (rnd (bpow radix2 1020)); [apply rnd_le, Ht|]. apply round_generic; [typeclasses eauto|]. apply generic_format_bpow. cbn. lia. }
  assert (B4 : bpow radix2 1023 = 8 * bpow radix2 1020) by (change 1023%Z with (3 + 1020)%Z; rewrite bpow_plus; reflexivity).
  rewrite Vq, Vp. assert (Rabs (rnd (fv (facc l n0) / fv (nofnat (length b)))) <= bpow radix2 1020).
  { apply Q. unfold Rdiv. rewrite Rabs_mult, Vn, (Rabs_pos_eq (/ INR (length b))) by (left; apply Rinv_0_lt_compat; lra).
    assert (I : / INR (length b) <= 1) by (rewrite <- Rinv_1; apply Rinv_le_contravar; lra).
    apply Rle_trans with (Rabs (fv (facc l n0)) * 1); [apply Rmult_le_compat_l; [apply Rabs_pos|exact I]|]. lra. }
  pose proof (Q (fv alpha * fv (nth j x n0)) ltac:(lra)). lra.
Qed.
Lemma run_C125 : let A := mkMat [[n1 (n:=F64)]; [nofZ F64 (-2)]] 1 in let x := [nofZ F64 3] in let z := [nofZ F64 3; nofZ F64 (-6)] in let b := [n1 (n:=F64); n0] in
  0 <= / 2 ^ 53 <= 1 / 1000 /\ exp_accurate (/ 2 ^ 53) cr_exp /\ Forall (fun r => length r = m_cols A) (m_rows A) /\ length b = length (m_rows A) /\
  (Z.of_nat (length b) < 2 ^ 53)%Z /\ INR (length b) <= 2 ^ 50 /\
  Forall (Forall fin) (m_rows A) /\ Forall fin b /\ Forall (fun c => 0 <= fv c <= 1) b /\ Forall fin x /\ fin (n1 (n:=F64)) /\
  mat_dot A x = Ok z /\ Forall fin z /\ Rsum (map (fun r => Rabs (fv (nth 0 r n0))) (m_rows A)) <= powerRZ 2 1000 /\ Rabs (fv (n1 (n:=F64)) * fv (nth 0 x n0)) <= powerRZ 2 1000.
Proof.
  cbv zeta. destruct run_C118 as (H1 & H2 & _ & H3 & _ & H4 & H5 & H6 & _).
  split; [exact H1|]. split; [exact H2|]. split; [repeat constructor|]. split; [reflexivity|]. split; [reflexivity|]. split; [cbn; lra|].
  split; [repeat constructor|]. split; [exact H4|]. split; [exact H5|]. split; [repeat constructor|]. split; [apply fin_1|]. split; [exact H3|]. split; [exact H6|].
  change (powerRZ 2 1000) with (powerRZ (IZR (Zaux.radix_val Zaux.radix2)) 1000). rewrite <- Raux.bpow_powerRZ.
  assert (8 <= bpow radix2 1000) by (change 8 with (bpow radix2 3); apply bpow_le; lia). set (B := bpow radix2 1000) in *. clearbody B.
  split; cbn [m_rows map nth Rsum]; unfold fv, SF2R, F2R; simpl; [|apply Rabs_le; lra].
  assert (forall t, -2 <= t <= 2 -> Rabs t <= 2) as Q by (intros t Ht; apply Rabs_le; lra).
  match goal with |- Rabs ?a + (Rabs ?c + 0) <= _ => pose proof (Q a ltac:(lra)); pose proof (Q c ltac:(lra)) end. lra.
Qed.
