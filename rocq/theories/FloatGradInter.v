(** * C125: the gradient of LogLoss.f_grad with an intercept over IEEE binary64 *)
From Coq Require Import Reals Lra Lia List Bool ZArith.
From Coq Require Import Floats.SpecFloat.
From Verif Require Import Num Vec Spec RVec SpecLoss LossScalar LossHess ModelTv ModelLoss LossFacts LossLink LossMain FloatBase FloatSum FloatSimplex2 FloatSimplex3 FloatSimplex4 FloatLogistic FloatLogistic2 FloatPair FloatGrad FloatGradMain FloatLoss.
From Flocq Require Import Core.Core IEEE754.BinarySingleNaN.
Import ListNotations.
Local Open Scope R_scope.
Local Notation log1pR := (fun t : R => ln (1 + t)) (only parsing).

Section K.
Context {K : Num}.
Definition margc (A : matrix K) (w : vec K) (c : K) : vec K := map (fun r => nadd K (vdot r w) c) (m_rows A).
Lemma log_gradc_nth (np_exp np_log1p : K -> K) (A : matrix K) (b : vec K) (alpha : K) (w : vec K) (c : K) :
  Forall (fun r => length r = m_cols A) (m_rows A) -> length w = m_cols A -> length b = length (m_rows A) ->
  exists g, log_f_grad np_exp np_log1p A b alpha true (w ++ [c]) true = Ok (RGrad g) /\ length g = S (m_cols A) /\
    (forall j, (j < m_cols A)%nat -> nth j g n0 = nadd K (ndiv K (facc (combine (map2 (expit_b np_exp) (margc A w c) b) (col j (m_rows A))) n0) (nofnat (n_samples A))) (nmul K alpha (nth j w n0))) /\
    nth (m_cols A) g n0 = vmean (map2 (expit_b np_exp) (margc A w c) b).
Proof.
  intros HR Lx Lb. unfold log_f_grad, split_intercept, mat_dot, tmat_dot. rewrite rev_app_distr. cbn [rev app bind]. rewrite removelast_last. rewrite Lx, Nat.eqb_refl. cbn [bind negb]. rewrite map_map. fold (margc A w c).
  assert (Lu : length (map2 (expit_b np_exp) (margc A w c) b) = length (m_rows A)).
  { rewrite map2_length. unfold margc. rewrite map_length. lia. }
  unfold n_samples at 1. rewrite Lu, Nat.eqb_refl. cbn [bind].
  destruct (rows_sum_nth (m_cols A) (m_rows A) _ HR Lu) as (R1 & R2).
  assert (L1 : length (vdivs (rows_sum (m_cols A) (m_rows A) (map2 (expit_b np_exp) (margc A w c) b)) (nofnat (n_samples A))) = m_cols A) by (unfold vdivs; rewrite map_length; exact R1).
  assert (L2 : length (vscale alpha w) = m_cols A) by (unfold vscale; rewrite map_length; exact Lx).
  eexists. split; [reflexivity|].
  assert (L3 : length (vadd (vdivs (rows_sum (m_cols A) (m_rows A) (map2 (expit_b np_exp) (margc A w c) b)) (nofnat (n_samples A))) (vscale alpha w)) = m_cols A) by (rewrite vadd_len; congruence).
  split; [rewrite app_length, L3; cbn; lia|]. split.
  - intros j Hj. rewrite app_nth1 by lia. rewrite nth_vadd by congruence. rewrite nth_vdivs, nth_vscale by congruence. rewrite R2 by exact Hj. reflexivity.
  - rewrite app_nth2 by lia. rewrite L3, Nat.sub_diag. reflexivity.
Qed.
End K.
Lemma dot_abs_le (r : list F64) : forall w : list F64, Rabs (dot (map fv r) (map fv w)) <= dot (fabs r) (fabs w).
Proof.
  induction r as [|a r IH]; intros [|v w]; cbn; rewrite ?Rabs_R0; try lra. eapply Rle_trans; [apply Rabs_triang|]. rewrite Rabs_mult. specialize (IH w). cbn in IH. apply Rplus_le_compat_l. exact IH.
Qed.

Section Bound.
Variables (d : R) (np_exp : F64 -> F64).
Hypothesis Hd : 0 <= d <= 1 / 1000.
Hypothesis He : exp_accurate d np_exp.
Variables (x : list F64) (c0 : F64).
Hypothesis Fx : Forall fin x.
Hypothesis Fc0 : fin c0.
(** error of the margin: of the product, then of the addition of the intercept *)
Definition marg_err (r : list F64) : R :=
  csr_err (length x) (dot (fabs r) (fabs x)) + / 2 ^ 53 * (dot (fabs r) (fabs x) + csr_err (length x) (dot (fabs r) (fabs x)) + Rabs (fv c0)).
Definition sampc_err (r : list F64) : R := 2 * d + 6 * / 2 ^ 53 + / 4 * marg_err r.
Lemma samplec_ok (r : list F64) (c : F64) : length r = length x -> Forall fin r -> fin c -> 0 <= fv c <= 1 -> fin (nadd F64 (vdot (K:=F64) r x) c0) ->
  let e := expit_b np_exp (nadd F64 (vdot (K:=F64) r x) c0) c in
  fin e /\ Rabs (fv e) <= 2 /\ Rabs (fv e - (sigma (dot (map fv r) (map fv x) + fv c0) - fv c)) <= sampc_err r.
Proof.
  intros L Fr Fc Bc Fz e. assert (Dr : datum (vdot (K:=F64) r x)) by (apply vdot_datum; apply fin_data; assumption).
  destruct (add_val _ _ Dr (fin_datum _ Fc0) Fz) as (Fv & _ & V).
  destruct (main_C117_expit d np_exp _ c Hd He Fz Fc Bc) as (F1 & E1 & _). fold e in F1, E1. set (zz := fv (nadd F64 (vdot (K:=F64) r x) c0)) in *.
  pose proof (margin_err r x L (fin_data _ Fr) (fin_data _ Fx) Fv) as M. pose proof (sigma_lip zz (dot (map fv r) (map fv x) + fv c0)) as S1.
  pose proof (sigma_pos zz) as P. split; [exact F1|].
  assert (U : / 2 ^ 53 <= / 1000) by (apply Rinv_le_contravar; [lra|]; cbn; lra). assert (U0 : 0 < / 2 ^ 53) by (apply Rinv_0_lt_compat; apply pow_lt; lra).
  split.
  - replace (fv e) with ((fv e - (sigma zz - fv c)) + (sigma zz - fv c)) by ring. eapply Rle_trans; [apply Rabs_triang|].
    assert (Rabs (sigma zz - fv c) <= 1) by (apply Rabs_le; lra). lra.
  - pose proof (rnd_add_err (fv (vdot (K:=F64) r x)) (fv c0) (fin_repr _ Fv) (fin_repr _ Fc0)) as R1. rewrite <- V in R1. pose proof (dot_abs_le r x) as DA.
    set (s := fv (vdot (K:=F64) r x)) in *. set (mm := dot (map fv r) (map fv x)) in *. set (D := dot (fabs r) (fabs x)) in *.
    assert (BS : Rabs (s + fv c0) <= D + csr_err (length x) D + Rabs (fv c0)).
    { replace (s + fv c0) with (mm + ((s - mm) + fv c0)) by ring. eapply Rle_trans; [apply Rabs_triang|]. pose proof (Rabs_triang (s - mm) (fv c0)). lra. }
    assert (US : uro * Rabs (s + fv c0) <= / 2 ^ 53 * (D + csr_err (length x) D + Rabs (fv c0))) by (rewrite <- uro_pow; apply Rmult_le_compat_l; [pose proof uro_pos; lra|exact BS]).
    assert (ZE : Rabs (zz - (mm + fv c0)) <= marg_err r).
    { unfold marg_err. fold D. replace (zz - (mm + fv c0)) with ((zz - (s + fv c0)) + (s - mm)) by ring. eapply Rle_trans; [apply Rabs_triang|]. lra. }
    unfold sampc_err. replace (fv e - (sigma (mm + fv c0) - fv c)) with ((fv e - (sigma zz - fv c)) + (sigma zz - sigma (mm + fv c0))) by ring.
    eapply Rle_trans; [apply Rabs_triang|]. lra.
Qed.
Definition eaccc (rows : list (list F64)) (b : list F64) : list F64 := map2 (expit_b np_exp) (map (fun r => nadd F64 (vdot (K:=F64) r x) c0) rows) b.
Definition waccc (rows : list (list F64)) (b : list F64) : list R := map2 (fun r c => sigma (dot (map fv r) (map fv x) + fv c0) - fv c) rows b.
Lemma samplesc_ok j : forall (rows : list (list F64)) (b : list F64), length b = length rows ->
  Forall (fun r => length r = length x) rows -> Forall (Forall fin) rows -> Forall fin b -> Forall (fun c => 0 <= fv c <= 1) b -> Forall (fun r => fin (nadd F64 (vdot (K:=F64) r x) c0)) rows ->
  let l := combine (eaccc rows b) (col (K:=F64) j rows) in
  Forall (fun pq : F64 * F64 => datum (fst pq) /\ datum (snd pq)) l /\ length l = length rows /\
  Rsum (map (fun pq : F64 * F64 => Rabs (fv (fst pq) * fv (snd pq))) l) <= 2 * Rsum (map (fun r => Rabs (fv (nth j r n0))) rows) /\
  Rabs (Rsum (map (fun r => r) (map2 Rmult (waccc rows b) (map fv (col (K:=F64) j rows))))) <= Rsum (map (fun r => Rabs (fv (nth j r n0))) rows) /\
  Rabs (Rsum (map (fun pq : F64 * F64 => fv (fst pq) * fv (snd pq)) l) - Rsum (map (fun r => r) (map2 Rmult (waccc rows b) (map fv (col (K:=F64) j rows)))))
    <= Rsum (map (fun r => sampc_err r * Rabs (fv (nth j r n0))) rows).
Proof.
  induction rows as [|r rows IH]; intros [|c b] Lb HR FR Fb Bb Fz; cbn in Lb; try discriminate.
  - cbn. rewrite Rminus_0_r, Rabs_R0. repeat split; try constructor; lra.
  - destruct (IH b (eq_add_S _ _ Lb) (Forall_inv_tail HR) (Forall_inv_tail FR) (Forall_inv_tail Fb) (Forall_inv_tail Bb) (Forall_inv_tail Fz)) as (I1 & I2 & I3 & I4 & I5).
    destruct (samplec_ok r c (Forall_inv HR) (Forall_inv FR) (Forall_inv Fb) (Forall_inv Bb) (Forall_inv Fz)) as (S1 & S2 & S3).
    unfold eaccc, waccc, col in *. cbn [map map2 combine Rsum fst snd length]. set (e := expit_b np_exp _ c) in *. set (w := sigma _ - fv c) in *.
    assert (Fj : datum (nth j r (@n0 F64))) by (apply datum_nth, fin_data, (Forall_inv FR)).
    set (a := fv (nth j r (@n0 F64))) in *. pose proof (Rabs_pos a) as Pa.
    assert (Hw : Rabs w <= 1) by (unfold w; pose proof (sigma_pos (dot (map fv r) (map fv x) + fv c0)); pose proof (Forall_inv Bb) as Bc; cbn in Bc; apply Rabs_le; lra).
    split; [constructor; [split; [apply fin_datum, S1|exact Fj]|exact I1]|]. split; [cbn; f_equal; exact I2|]. split; [|split].
    + rewrite Rabs_mult. assert (Rabs (fv e) * Rabs a <= 2 * Rabs a) by (apply Rmult_le_compat_r; lra). lra.
    + eapply Rle_trans; [apply Rabs_triang|]. rewrite Rabs_mult. assert (Rabs w * Rabs a <= 1 * Rabs a) by (apply Rmult_le_compat_r; lra). lra.
    + match goal with |- Rabs (?p + ?q - (?u + ?v)) <= _ => replace (p + q - (u + v)) with ((fv e - w) * a + (q - v)) by ring end.
      eapply Rle_trans; [apply Rabs_triang|]. rewrite Rabs_mult. assert (Rabs (fv e - w) * Rabs a <= sampc_err r * Rabs a) by (apply Rmult_le_compat_r; lra). lra.
Qed.
(** the derivative with respect to the intercept *)
Lemma samplesc_mean : forall (rows : list (list F64)) (b : list F64), length b = length rows ->
  Forall (fun r => length r = length x) rows -> Forall (Forall fin) rows -> Forall fin b -> Forall (fun c => 0 <= fv c <= 1) b -> Forall (fun r => fin (nadd F64 (vdot (K:=F64) r x) c0)) rows ->
  Forall fin (eaccc rows b) /\ length (eaccc rows b) = length rows /\ Rsum (fabs (eaccc rows b)) <= 2 * INR (length rows) /\
  Rabs (Rsum (map fv (eaccc rows b)) - Rsum (waccc rows b)) <= Rsum (map sampc_err rows).
Proof.
  unfold eaccc, waccc. induction rows as [|r rows IH]; intros [|c b] Lb HR FR Fb Bb Fz; cbn in Lb; try discriminate.
  - cbn. rewrite Rminus_0_r, Rabs_R0. repeat split; try constructor; lra.
  - destruct (IH b (eq_add_S _ _ Lb) (Forall_inv_tail HR) (Forall_inv_tail FR) (Forall_inv_tail Fb) (Forall_inv_tail Bb) (Forall_inv_tail Fz)) as (I1 & I2 & I3 & I4).
    destruct (samplec_ok r c (Forall_inv HR) (Forall_inv FR) (Forall_inv Fb) (Forall_inv Bb) (Forall_inv Fz)) as (S1 & S2 & S3).
    unfold fabs in *. cbn [map map2 Rsum length]. rewrite S_INR. split; [constructor; assumption|]. split; [cbn; f_equal; exact I2|]. split; [lra|].
    match goal with |- Rabs (?p + ?q - (?u + ?v)) <= _ => replace (p + q - (u + v)) with ((p - u) + (q - v)) by ring end.
    eapply Rle_trans; [apply Rabs_triang|]. lra.
Qed.
End Bound.
Definition gradc_err (d : R) (x : list F64) (c : F64) (rows : list (list F64)) (j : nat) : R :=
  (csr_err (length rows) (2 * Rsum (map (fun r => Rabs (fv (nth j r n0))) rows)) + Rsum (map (fun r => sampc_err d x c r * Rabs (fv (nth j r n0))) rows)) / INR (length rows).

Lemma exactc_weights (x : list F64) (c : F64) : forall (rows : list (list F64)) (b : list F64), length b = length rows ->
  map2 (expit_b (K:=RN) exp) (map (fun r => nadd RN (vdot (K:=RN) r (map fv x)) (fv c)) (map (map fv) rows)) (map fv b) = waccc x c rows b.
Proof.
  unfold waccc. induction rows as [|r rows IH]; intros [|v b] Lb; cbn in Lb; try discriminate; [reflexivity|].
  cbn [map map2]. rewrite (IH b (eq_add_S _ _ Lb)). f_equal. rewrite (proj1 (main_C20_expit _ _)). f_equal. f_equal. rewrite vdot_R. reflexivity.
Qed.
Lemma col_fv j (rows : list (list F64)) : col (K:=RN) j (map (map fv) rows) = map fv (col (K:=F64) j rows).
Proof. unfold col. rewrite !map_map. apply map_ext. intros r. change (@n0 RN) with 0. rewrite <- fv_nth. reflexivity. Qed.
Lemma comb_mult (u v : list R) : Rsum (map (fun pq : R * R => fst pq * snd pq) (combine u v)) = Rsum (map (fun r => r) (map2 Rmult u v)).
Proof. revert v. induction u as [|a u IH]; intros [|c v]; cbn; try reflexivity. rewrite IH. reflexivity. Qed.
Lemma realc_side (A : matrix F64) (b : list F64) (alpha : F64) (w : list F64) (c : F64) :
  Forall (fun r => length r = m_cols A) (m_rows A) -> length w = m_cols A -> length b = length (m_rows A) -> b <> [] -> Forall (fun v => 0 <= fv v <= 1) b ->
  exists G, is_gradient (S (m_cols A)) (fun y => mean_loss_c log_term (map (map fv) (m_rows A)) (map fv b) (removelast y) (last y 0) + fv alpha / 2 * dot (removelast y) (removelast y)) (map fv (w ++ [c])) G /\
    (forall j, (j < m_cols A)%nat -> nth j G 0 = Rsum (map (fun r => r) (map2 Rmult (waccc w c (m_rows A) b) (map fv (col (K:=F64) j (m_rows A))))) / INR (length b) + fv alpha * fv (nth j w n0)) /\
    nth (m_cols A) G 0 = Rsum (waccc w c (m_rows A) b) / INR (length b).
Proof.
  intros HR Lx Lb Nb Bb. set (AR := mat_fv A). set (bR := map fv b). set (xR := map fv w).
  assert (HR' : Forall (fun r : vec RN => length r = m_cols AR) (m_rows AR)) by (cbn; apply Forall_map; eapply Forall_impl; [|exact HR]; intros r Hr; cbn; rewrite map_length; exact Hr).
  assert (LxR : length xR = m_cols AR) by (unfold xR; rewrite map_length; exact Lx).
  assert (LbR : length bR = length (m_rows AR)) by (unfold bR; cbn; rewrite !map_length; exact Lb).
  assert (HA : rect (m_cols AR) (m_rows AR)) by (first [exact HR'|apply Forall_forall; exact HR'|intros r Hr; rewrite Forall_forall in HR'; exact (HR' r Hr)]).
  assert (Hi : log_init (K:=RN) (Some AR) bR = Ok AR).
  { apply (proj1 (log_init_R (Some AR) bR)). split; [unfold bR; destruct b; [congruence|discriminate]|]. split; [unfold bR; apply Forall_map; exact Bb|symmetry; exact LbR]. }
  destruct (main_C20_intercept (Some AR) AR bR (fv alpha) xR (fv c) Hi HA LxR) as (g & E & G).
  destruct (log_gradc_nth (K:=RN) exp log1pR AR bR (fv alpha) xR (fv c) HR' LxR LbR) as (g' & E1 & E2 & E3 & E4).
  pose proof (eq_trans (eq_sym E1) E) as EE. injection EE as Eg. subst g'.
  assert (EW : map2 (expit_b (K:=RN) exp) (margc AR xR (fv c)) bR = waccc w c (m_rows A) b) by (apply (exactc_weights w c (m_rows A) b Lb)).
  assert (LW : length (waccc w c (m_rows A) b) = length b) by (unfold waccc; rewrite map2_length; change (@length (vec F64) (m_rows A)) with (@length (list F64) (m_rows A)) in *; lia).
  exists g. split; [rewrite map_app; exact G|]. split.
  - intros j Hj. etransitivity; [exact (E3 j Hj)|]. rewrite facc_R. rewrite EW. unfold AR, xR, n_samples, mat_fv. cbn [m_rows]. rewrite col_fv, comb_mult.
    rewrite fv_nth. rn. change (@n0 RN) with 0. rewrite nofnat_R, map_length. unfold Rdiv. rewrite <- Lb. ring.
  - etransitivity; [exact E4|]. rewrite EW. etransitivity; [apply vmean_R|]. rewrite LW. reflexivity.
Qed.
Lemma main_C125_intercept : forall (d : R) (np_exp np_log1p : F64 -> F64) (A : matrix F64) (b : list F64) (alpha : F64) (w : list F64) (c : F64) (ax z : list F64),
  0 <= d <= 1 / 1000 -> exp_accurate d np_exp ->
  Forall (fun r => length r = m_cols A) (m_rows A) -> length b = length (m_rows A) -> b <> [] -> INR (length b) <= 2 ^ 50 ->
  Forall (Forall fin) (m_rows A) -> Forall fin b -> Forall (fun v => 0 <= fv v <= 1) b -> Forall fin w -> fin c -> fin alpha ->
  mat_dot A w = Ok ax -> z = map (fun t => nadd F64 t c) ax -> Forall fin z ->
  exists (g : list F64) (G : list R), log_f_grad np_exp np_log1p A b alpha true (w ++ [c]) true = Ok (RGrad g) /\ length g = S (m_cols A) /\
    is_gradient (S (m_cols A)) (fun y => mean_loss_c log_term (map (map fv) (m_rows A)) (map fv b) (removelast y) (last y 0) + fv alpha / 2 * dot (removelast y) (removelast y)) (map fv (w ++ [c])) G /\
    (forall j, (j < m_cols A)%nat -> fin (nth j g n0) ->
      Rabs (fv (nth j g n0) - nth j G 0)
      <= gradc_err d w c (m_rows A) j
         + 3 * / 2 ^ 53 * (Rsum (map (fun r => Rabs (fv (nth j r n0))) (m_rows A)) / INR (length b) + gradc_err d w c (m_rows A) j + Rabs (fv alpha * fv (nth j w n0)))
         + 4 * powerRZ 2 (-1075)) /\
    fin (nth (m_cols A) g n0) /\
    Rabs (fv (nth (m_cols A) g n0) - nth (m_cols A) G 0) <= Rsum (map (sampc_err d w c) (m_rows A)) / INR (length b) + (4 * INR (length b) + 4) * / 2 ^ 53.
Proof.
  intros d np_exp np_log1p A b alpha x c ax z Hd He HR Lb Nb Hn FR Fb Bb Fx Fc Fa Hz Ez Fz.
  unfold mat_dot in Hz. destruct (Nat.eqb_spec (length x) (m_cols A)) as [Lx|]; [|discriminate Hz]. injection Hz as <-. subst z.
  assert (Fz' : Forall (fun r => fin (nadd F64 (vdot (K:=F64) r x) c)) (m_rows A)) by (rewrite map_map, Forall_map in Fz; exact Fz).
  assert (HRx : Forall (fun r : list F64 => length r = length x) (m_rows A)) by (eapply Forall_impl; [|exact HR]; intros r Hr; exact (eq_trans Hr (eq_sym Lx))).
  destruct (log_gradc_nth np_exp np_log1p A b alpha x c HR Lx Lb) as (g & E1 & E2 & E3 & E4).
  destruct (realc_side A b alpha x c HR Lx Lb Nb Bb) as (G & G1 & G2 & G3).
  assert (Hbig : (Z.of_nat (length b) < 2 ^ 53)%Z) by (apply lt_IZR; rewrite <- INR_IZR_INZ; apply Rle_lt_trans with (1 := Hn); simpl; lra).
  destruct (nofnat_fin (length b) Hbig) as [Fn Vn].
  assert (N1 : 1 <= INR (length b)) by (destruct b; [congruence|]; cbn [length]; rewrite S_INR; pose proof (pos_INR (length b)); lra).
  assert (Lb2 : INR (@length (list F64) (m_rows A)) = INR (length b)) by (f_equal; symmetry; exact Lb).
  exists g, G. split; [exact E1|]. split; [exact E2|]. split; [exact G1|]. split.
  - intros j Hj Fg. rewrite (G2 j Hj). rewrite (E3 j Hj) in *.
    destruct (samplesc_ok d np_exp Hd He x c Fx Fc j (m_rows A) b Lb HRx FR Fb Bb Fz') as (I1 & I2 & I3 & I4 & I5).
    unfold eaccc in *. fold (margc A x c) in *. set (l := combine _ _) in *.
    unfold n_samples in *. rewrite <- Lb in Fg |- *. fold (@nofnat F64 (length b)) in *.
    assert (Dl : datum (facc l n0)).
    { clear -I1. unfold facc. assert (D0 : datum (@n0 F64)) by (apply fin_datum, fin_0). revert D0. generalize (@n0 F64). induction I1 as [|[p q] l [Dp Dq] _ IH]; intros a Da; cbn [fold_left fst snd]; [exact Da|]. apply IH, add_datum; [exact Da|apply mul_datum; assumption]. }
    destruct (last_err _ _ _ _ (INR (length b)) Dl Fn Vn N1 (fin_datum _ Fa) (datum_nth _ _ (fin_data _ Fx)) Fg) as [Fs Er].
    pose proof (facc_err0 l I1 Fs) as Es. rewrite <- csr_err_eq, I2 in Es. pose proof (csr_err_mono (length (m_rows A)) _ _ I3) as Em.
    unfold gradc_err. rewrite uro_pow, eta_pow in Er. rewrite Lb2.
    apply combine_err with (s := fv (facc l n0)); try assumption.
    + set (S0 := Rsum (map (fun r => r) _)) in *. set (T := Rsum (map (fun pq : F64 * F64 => fv (fst pq) * fv (snd pq)) l)) in *.
      replace (fv (facc l n0) - S0) with ((fv (facc l n0) - T) + (T - S0)) by ring. eapply Rle_trans; [apply Rabs_triang|].
      exact (Rplus_le_compat _ _ _ _ (Rle_trans _ _ _ Es Em) I5).
    + apply Rmult_le_pos; [lra|]. left. apply Rinv_0_lt_compat, pow_lt. lra.
  - rewrite G3, E4. destruct (samplesc_mean d np_exp Hd He x c Fx Fc (m_rows A) b Lb HRx FR Fb Bb Fz') as (I1 & I2 & I3 & I4).
    unfold eaccc in *. fold (margc A x c) in *. set (es := map2 (expit_b np_exp) (margc A x c) b) in *. rewrite Lb2 in I3.
    assert (Le : length es = length b) by (rewrite I2; symmetry; exact Lb).
    pose proof uro_pos as Up. pose proof uro_small as Us. set (n := INR (length b)) in *.
    assert (Nu : n * uro <= / 8) by (apply Rle_trans with (2 ^ 50 * uro); [apply Rmult_le_compat_r; lra|]; rewrite uro_val; simpl; lra).
    assert (B60 : 2 * 2 ^ 50 <= bpow radix2 1020) by (apply Rle_trans with (bpow radix2 60); [cbn; lra|apply bpow_le; lia]).
    assert (B1023 : bpow radix2 1020 <= bpow radix2 1023) by (apply bpow_le; lia).
    destruct (fsum_err es I1 ltac:(rewrite Le; fold n; exact Nu) ltac:(lra)) as [FS ES]. rewrite Le in ES. fold n in ES.
    set (S1 := Rsum (map fv es)) in *.
    assert (M1 : 2 * n * uro * Rsum (fabs es) <= 2 * n * uro * (2 * n)) by (apply Rmult_le_compat_l; [apply Rmult_le_pos; lra|exact I3]).
    assert (M2 : n * uro * (4 * n) <= / 8 * (4 * n)) by (apply Rmult_le_compat_r; lra).
    assert (A1 : Rabs S1 <= 2 * n) by (apply Rle_trans with (2 := I3); unfold S1; rewrite fabs_map; apply Rsum_abs).
    assert (AF : Rabs (fv (vsum es)) <= 5 / 2 * n).
    { replace (fv (vsum es)) with ((fv (vsum es) - S1) + S1) by ring. eapply Rle_trans; [apply Rabs_triang|]. lra. }
    assert (B4 : 5 / 2 * 2 ^ 50 <= bpow radix2 1023) by (apply Rle_trans with (bpow radix2 60); [cbn; lra|apply bpow_le; lia]).
    destruct (quot_fin (vsum es) (nofnat (length es)) FS ltac:(rewrite Le; exact Fn) ltac:(rewrite Le, Vn; exact N1) ltac:(fold n in Hn; lra)) as [FM VM]. rewrite Le, Vn in VM.
    change (ndiv F64 (vsum es) (nofnat (length es))) with (vmean es) in FM. rewrite <- Le in VM at 1. change (ndiv F64 (vsum es) (nofnat (length es))) with (vmean es) in VM.
    split; [exact FM|]. rewrite VM. set (s := fv (vsum es)) in *. pose proof (rnd_err (s / n)) as RE. rewrite <- uro_pow.
    assert (I : 0 < / n) by (apply Rinv_0_lt_compat; lra).
    assert (AQ : Rabs (s / n) <= 5 / 2).
    { unfold Rdiv at 1. rewrite Rabs_mult, (Rabs_pos_eq (/ n)) by lra. apply Rle_trans with (5 / 2 * n * / n); [apply Rmult_le_compat_r; lra|]. right. field. lra. }
    assert (UQ : uro * Rabs (s / n) <= uro * (5 / 2)) by (apply Rmult_le_compat_l; lra).
    assert (EU : eta <= uro) by (rewrite uro_val; apply Rle_trans with (bpow radix2 (-53)); [unfold eta; apply bpow_le; lia|cbn; lra]).
    set (W := Rsum (waccc x c (m_rows A) b)) in *. set (SE := Rsum (map (sampc_err d x c) (m_rows A))) in *.
    assert (D1 : Rabs (s / n - W / n) <= SE / n + 4 * n * uro).
    { replace (s / n - W / n) with (((s - S1) + (S1 - W)) * / n) by (field; lra). rewrite Rabs_mult, (Rabs_pos_eq (/ n)) by lra.
      apply Rle_trans with ((2 * n * uro * (2 * n) + SE) * / n).
      - apply Rmult_le_compat_r; [lra|]. eapply Rle_trans; [apply Rabs_triang|]. lra.
      - right. field. lra. }
    replace (rnd (s / n) - W / n) with ((rnd (s / n) - s / n) + (s / n - W / n)) by ring. eapply Rle_trans; [apply Rabs_triang|]. lra.
Qed.
