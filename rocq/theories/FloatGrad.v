(** * The gradient of LogLoss.f_grad over IEEE binary64: products and sums *)
From Coq Require Import Reals Lra Lia List Bool ZArith.
From Coq Require Import Floats.SpecFloat.
From Verif Require Import Num Vec Spec RVec SpecLoss LossScalar ModelTv ModelLoss LossFacts LossMain FloatBase FloatSum FloatSimplex2 FloatLogistic FloatLogistic2.
From Flocq Require Import Core.Core.
Import ListNotations.
Local Open Scope R_scope.

(** ** component j of the products, for every arithmetic *)
Section K.
Context {K : Num}.
Definition col (j : nat) (rows : list (vec K)) : vec K := map (fun r => nth j r n0) rows.
Lemma vdot_facc (u v : vec K) : vdot u v = facc (combine u v) n0.
Proof.
  unfold vdot, vsum, vmul, facc. generalize (@n0 K). revert v. induction u as [|a u IH]; intros [|c v] z; cbn [map2 combine fold_left fst snd]; try reflexivity. apply IH.
Qed.
Lemma nth_vadd (u v : vec K) j : length u = length v -> (j < length u)%nat -> nth j (vadd u v) n0 = nadd K (nth j u n0) (nth j v n0).
Proof.
  unfold vadd. revert v j. induction u as [|a u IH]; intros [|c v] [|j] L H; cbn in *; try lia; try discriminate; [reflexivity|]. apply IH; lia.
Qed.
Lemma nth_vscale c (v : vec K) j : (j < length v)%nat -> nth j (vscale c v) n0 = nmul K c (nth j v n0).
Proof. unfold vscale. revert j. induction v as [|a v IH]; intros [|j] H; cbn in *; try lia; [reflexivity|]. apply IH. lia. Qed.
Lemma nth_vdivs c (v : vec K) j : (j < length v)%nat -> nth j (vdivs v c) n0 = ndiv K (nth j v n0) c.
Proof. unfold vdivs. revert j. induction v as [|a v IH]; intros [|j] H; cbn in *; try lia; [reflexivity|]. apply IH. lia. Qed.
Lemma vadd_len (u v : vec K) : length u = length v -> length (vadd u v) = length u.
Proof. unfold vadd. revert v. induction u as [|a u IH]; intros [|c v] L; cbn in *; try discriminate; [reflexivity|]. f_equal. apply IH. lia. Qed.
Lemma rows_fold d : forall (rows : list (vec K)) (u acc : vec K), Forall (fun r => length r = d) rows -> length u = length rows -> length acc = d ->
  length (fold_left vadd (map2 vscale u rows) acc) = d /\
  forall j, (j < d)%nat -> nth j (fold_left vadd (map2 vscale u rows) acc) n0 = facc (combine u (col j rows)) (nth j acc n0).
Proof.
  induction rows as [|r rows IH]; intros [|a u] acc HR L La; cbn in L; try discriminate; [split; [exact La|reflexivity]|].
  cbn [map2 fold_left]. pose proof (Forall_inv HR) as Hr. cbn in Hr. assert (Lv : length (vscale a r) = d) by (unfold vscale; rewrite map_length; exact Hr).
  assert (L1 : length (vadd acc (vscale a r)) = d) by (rewrite vadd_len; congruence).
  destruct (IH u (vadd acc (vscale a r)) (Forall_inv_tail HR) ltac:(lia) L1) as (I1 & I2). split; [exact I1|]. intros j Hj. rewrite I2 by exact Hj.
  rewrite nth_vadd by (rewrite ?La; auto; lia). rewrite nth_vscale by lia. reflexivity.
Qed.
Lemma rows_sum_nth d (rows : list (vec K)) (u : vec K) : Forall (fun r => length r = d) rows -> length u = length rows ->
  length (rows_sum d rows u) = d /\ forall j, (j < d)%nat -> nth j (rows_sum d rows u) n0 = facc (combine u (col j rows)) n0.
Proof.
  intros HR L. unfold rows_sum. destruct (rows_fold d rows u (vzeros d) HR L ltac:(apply repeat_length)) as (I1 & I2). split; [exact I1|]. intros j Hj. rewrite I2 by exact Hj. f_equal.
  unfold vzeros. clear -Hj. revert j Hj. induction d as [|d IH]; intros [|j] H; cbn; try lia; try reflexivity. apply IH. lia.
Qed.
(** the gradient returned without intercept *)
Definition marg (A : matrix K) (x : vec K) : vec K := map (fun r => nadd K (vdot r x) n0) (m_rows A).
Lemma log_grad_nth (np_exp np_log1p : K -> K) (A : matrix K) (b : vec K) (alpha : K) (x : vec K) :
  Forall (fun r => length r = m_cols A) (m_rows A) -> length x = m_cols A -> length b = length (m_rows A) ->
  exists L g, log_f_grad np_exp np_log1p A b alpha false x true = Ok (RPair L g) /\ length g = m_cols A /\
    forall j, (j < m_cols A)%nat -> nth j g n0 = nadd K (ndiv K (facc (combine (map2 (expit_b np_exp) (marg A x) b) (col j (m_rows A))) n0) (nofnat (n_samples A))) (nmul K alpha (nth j x n0)).
Proof.
  intros HR Lx Lb. unfold log_f_grad, split_intercept, mat_dot, tmat_dot. cbn [bind]. rewrite Lx, Nat.eqb_refl. cbn [bind negb]. rewrite map_map. fold (marg A x).
  assert (Lu : length (map2 (expit_b np_exp) (marg A x) b) = length (m_rows A)).
  { rewrite map2_length. unfold marg. rewrite map_length. lia. }
  unfold n_samples at 1. rewrite Lu, Nat.eqb_refl. cbn [bind].
  destruct (rows_sum_nth (m_cols A) (m_rows A) _ HR Lu) as (R1 & R2).
  assert (L1 : length (vdivs (rows_sum (m_cols A) (m_rows A) (map2 (expit_b np_exp) (marg A x) b)) (nofnat (n_samples A))) = m_cols A) by (unfold vdivs; rewrite map_length; exact R1).
  assert (L2 : length (vscale alpha x) = m_cols A) by (unfold vscale; rewrite map_length; exact Lx).
  eexists. eexists. split; [reflexivity|]. split; [rewrite vadd_len; congruence|].
  intros j Hj. rewrite nth_vadd by congruence. rewrite nth_vdivs, nth_vscale by congruence. rewrite R2 by exact Hj. reflexivity.
Qed.
End K.
Lemma facc_R (l : list (R * R)) (a : R) : facc (K:=RN) l a = a + Rsum (map (fun pq => fst pq * snd pq) l).
Proof. revert a. unfold facc. induction l as [|[p q] l IH]; intros a; cbn [fold_left map Rsum fst snd]; [lra|]. rewrite IH. rn. lra. Qed.

(** ** errors *)
Lemma div_val (x y : F64) : datum x -> fin y -> fv y <> 0 -> fin (ndiv F64 x y) -> fin x /\ fv (ndiv F64 x y) = rnd (fv x / fv y).
Proof.
  intros Hx Hy H0 Hf. destruct (datum_B _ Hx) as (a & ->), (fin_B _ Hy) as (b & -> & Hb).
  cbn [ndiv F64] in *. change f64_prec with 53%Z in *; change f64_emax with 1024%Z in *.
  rewrite div_B in *. rewrite !fin_B2SF_iff in *. rewrite !fv_B in *.
  generalize (BinarySingleNaN.Bdiv_correct 53 1024 Hprec Hmax BinarySingleNaN.mode_NE a b H0).
  case Rlt_bool_spec; intros Hc.
  - intros (H1 & H2 & _). rewrite Hf in H2. split; [symmetry; exact H2|exact H1].
  - intros H1. exfalso. destruct (BinarySingleNaN.Bdiv BinarySingleNaN.mode_NE a b); discriminate.
Qed.
(** quotient plus product, both rounded *)
Lemma last_err (s m a y : F64) (n : R) : datum s -> fin m -> fv m = n -> 1 <= n -> datum a -> datum y ->
  fin (nadd F64 (ndiv F64 s m) (nmul F64 a y)) ->
  fin s /\ Rabs (fv (nadd F64 (ndiv F64 s m) (nmul F64 a y)) - (fv s / n + fv a * fv y)) <= 3 * uro * (Rabs (fv s / n) + Rabs (fv a * fv y)) + 4 * eta.
Proof.
  intros Ds Fm Vm Hn Da Dy Hf. destruct (add_val _ _ (div_datum _ _ Ds (fin_datum _ Fm)) (mul_datum _ _ Da Dy) Hf) as (Fq & Fp & V).
  destruct (div_val s m Ds Fm ltac:(lra) Fq) as (Fs & Vq). destruct (mul_val _ _ Da Dy Fp) as (_ & _ & Vp). rewrite Vm in Vq.
  split; [exact Fs|]. pose proof (rnd_add_err _ _ (fin_repr _ Fq) (fin_repr _ Fp)) as E1. rewrite <- V in E1.
  pose proof (rnd_err (fv s / n)) as E2. rewrite <- Vq in E2. pose proof (rnd_err (fv a * fv y)) as E3. rewrite <- Vp in E3.
  set (q := fv (ndiv F64 s m)) in *. set (p := fv (nmul F64 a y)) in *. set (r := fv (nadd F64 _ _)) in *. set (q0 := fv s / n) in *. set (p0 := fv a * fv y) in *. clearbody q p r q0 p0. clear -E1 E2 E3.
  pose proof uro_pos as U0. pose proof uro_small as U1. pose proof eta_pos as H0.
  assert (B : Rabs (q + p) <= Rabs q0 + Rabs p0 + (uro * (Rabs q0 + Rabs p0) + 2 * eta)).
  { replace (q + p) with (q0 + p0 + ((q - q0) + (p - p0))) by ring. eapply Rle_trans; [apply Rabs_triang|]. pose proof (Rabs_triang q0 p0). pose proof (Rabs_triang (q - q0) (p - p0)). lra. }
  replace (r - (q0 + p0)) with ((r - (q + p)) + ((q - q0) + (p - p0))) by ring. eapply Rle_trans; [apply Rabs_triang|].
  pose proof (Rabs_triang (q - q0) (p - p0)). assert (M : uro * Rabs (q + p) <= uro * (Rabs q0 + Rabs p0 + (uro * (Rabs q0 + Rabs p0) + 2 * eta))) by (apply Rmult_le_compat_l; lra).
  set (T := Rabs q0 + Rabs p0) in *. assert (T0 : 0 <= T) by (unfold T; pose proof (Rabs_pos q0); pose proof (Rabs_pos p0); lra).
  assert (M1 : uro * (uro * T) <= uro * T). { apply Rmult_le_compat_l; [lra|]. rewrite <- (Rmult_1_l T) at 2. apply Rmult_le_compat_r; lra. }
  assert (M2 : uro * (2 * eta) <= 1 * (2 * eta)) by (apply Rmult_le_compat_r; lra). unfold T in *. lra.
Qed.
(** a margin *)
Lemma margin_err (r x : list F64) : length r = length x -> Forall datum r -> Forall datum x -> fin (vdot r x) ->
  Rabs (fv (vdot r x) - dot (map fv r) (map fv x)) <= csr_err (length x) (dot (fabs r) (fabs x)).
Proof.
  intros L Hr Hx Hf. rewrite vdot_facc in *. rewrite csr_err_eq.
  assert (HD : Forall (fun pq : F64 * F64 => datum (fst pq) /\ datum (snd pq)) (combine r x)).
  { clear -Hr Hx. revert x Hx. induction Hr as [|a r Ha Hr IH]; intros [|c x] Hx; cbn [combine]; try constructor; [split; [exact Ha|exact (Forall_inv Hx)]|]. apply IH. exact (Forall_inv_tail Hx). }
  pose proof (facc_err0 (combine r x) HD Hf) as E. rewrite combine_length, L, Nat.min_id in E.
  assert (S1 : Rsum (map (fun pq : F64 * F64 => fv (fst pq) * fv (snd pq)) (combine r x)) = dot (map fv r) (map fv x)).
  { clear. revert x. induction r as [|a r IH]; intros [|c x]; cbn [combine map Rsum fst snd]; try reflexivity. rewrite IH. reflexivity. }
  assert (S2 : Rsum (map (fun pq : F64 * F64 => Rabs (fv (fst pq) * fv (snd pq))) (combine r x)) = dot (fabs r) (fabs x)).
  { clear. revert x. induction r as [|a r IH]; intros [|c x]; cbn [combine map Rsum fst snd fabs]; try reflexivity. rewrite IH, Rabs_mult. reflexivity. }
  rewrite S1, S2 in E. exact E.
Qed.

Section Bound.
Variables (d : R) (np_exp : F64 -> F64).
Hypothesis Hd : 0 <= d <= 1 / 1000.
Hypothesis He : exp_accurate d np_exp.
Variable x : list F64.
Hypothesis Fx : Forall fin x.
Definition sample_err (r : list F64) : R := 2 * d + 6 * / 2 ^ 53 + / 4 * csr_err (length x) (dot (fabs r) (fabs x)).
Lemma fin_data (l : list F64) : Forall fin l -> Forall datum l.
Proof. apply Forall_impl. intros a. apply fin_datum. Qed.
Lemma sample_ok (r : list F64) (c : F64) : length r = length x -> Forall fin r -> fin c -> 0 <= fv c <= 1 -> fin (vdot r x) ->
  let e := expit_b np_exp (nadd F64 (vdot r x) n0) c in
  fin e /\ Rabs (fv e) <= 2 /\ Rabs (fv e - (sigma (dot (map fv r) (map fv x)) - fv c)) <= sample_err r.
Proof.
  intros L Fr Fc Bc Fz e. destruct (add_zero_r (vdot r x) false Fz) as [F V]. change (S754_zero false : F64) with (@n0 F64) in F, V.
  destruct (main_C117_expit d np_exp _ c Hd He F Fc Bc) as (F1 & E1 & _). fold e in F1, E1. rewrite V in E1.
  pose proof (margin_err r x L (fin_data _ Fr) (fin_data _ Fx) Fz) as M. pose proof (sigma_lip (fv (vdot r x)) (dot (map fv r) (map fv x))) as S1.
  pose proof (sigma_pos (fv (vdot r x))) as P. split; [exact F1|].
  assert (U : / 2 ^ 53 <= / 1000) by (apply Rinv_le_contravar; [lra|]; cbn; lra). assert (U0 : 0 < / 2 ^ 53) by (apply Rinv_0_lt_compat; apply pow_lt; lra).
  split.
  - replace (fv e) with ((fv e - (sigma (fv (vdot r x)) - fv c)) + (sigma (fv (vdot r x)) - fv c)) by ring. eapply Rle_trans; [apply Rabs_triang|].
    assert (Rabs (sigma (fv (vdot r x)) - fv c) <= 1) by (apply Rabs_le; lra). lra.
  - unfold sample_err. replace (fv e - (sigma (dot (map fv r) (map fv x)) - fv c)) with ((fv e - (sigma (fv (vdot r x)) - fv c)) + (sigma (fv (vdot r x)) - sigma (dot (map fv r) (map fv x)))) by ring.
    eapply Rle_trans; [apply Rabs_triang|]. lra.
Qed.
Definition eacc (rows : list (list F64)) (b : list F64) : list F64 := map2 (expit_b np_exp) (map (fun r => nadd F64 (vdot r x) n0) rows) b.
Definition wacc (rows : list (list F64)) (b : list F64) : list R := map2 (fun r c => sigma (dot (map fv r) (map fv x)) - fv c) rows b.
Lemma samples_ok j : forall (rows : list (list F64)) (b : list F64), length b = length rows ->
  Forall (fun r => length r = length x) rows -> Forall (Forall fin) rows -> Forall fin b -> Forall (fun c => 0 <= fv c <= 1) b -> Forall (fun r => fin (vdot r x)) rows ->
  let l := combine (eacc rows b) (col j rows) in
  Forall (fun pq : F64 * F64 => datum (fst pq) /\ datum (snd pq)) l /\ length l = length rows /\
  Rsum (map (fun pq : F64 * F64 => Rabs (fv (fst pq) * fv (snd pq))) l) <= 2 * Rsum (map (fun r => Rabs (fv (nth j r n0))) rows) /\
  Rabs (Rsum (map (fun r => r) (map2 Rmult (wacc rows b) (map fv (col j rows))))) <= Rsum (map (fun r => Rabs (fv (nth j r n0))) rows) /\
  Rabs (Rsum (map (fun pq : F64 * F64 => fv (fst pq) * fv (snd pq)) l) - Rsum (map (fun r => r) (map2 Rmult (wacc rows b) (map fv (col j rows)))))
    <= Rsum (map (fun r => sample_err r * Rabs (fv (nth j r n0))) rows).
Proof.
  induction rows as [|r rows IH]; intros [|c b] Lb HR FR Fb Bb Fz; cbn in Lb; try discriminate.
  - cbn. rewrite Rminus_0_r, Rabs_R0. repeat split; try constructor; lra.
  - destruct (IH b (eq_add_S _ _ Lb) (Forall_inv_tail HR) (Forall_inv_tail FR) (Forall_inv_tail Fb) (Forall_inv_tail Bb) (Forall_inv_tail Fz)) as (I1 & I2 & I3 & I4 & I5).
    destruct (sample_ok r c (Forall_inv HR) (Forall_inv FR) (Forall_inv Fb) (Forall_inv Bb) (Forall_inv Fz)) as (S1 & S2 & S3).
    unfold eacc, wacc, col in *. cbn [map map2 combine Rsum fst snd length]. set (e := expit_b np_exp _ c) in *. set (w := sigma _ - fv c) in *.
    assert (Fj : datum (nth j r (@n0 F64))) by (apply datum_nth, fin_data, (Forall_inv FR)).
    set (a := fv (nth j r (@n0 F64))) in *. pose proof (Rabs_pos a) as Pa.
    assert (Hw : Rabs w <= 1) by (unfold w; pose proof (sigma_pos (dot (map fv r) (map fv x))); pose proof (Forall_inv Bb) as Bc; cbn in Bc; apply Rabs_le; lra).
    split; [constructor; [split; [apply fin_datum, S1|exact Fj]|exact I1]|]. split; [cbn; f_equal; exact I2|]. split; [|split].
    + rewrite Rabs_mult. assert (Rabs (fv e) * Rabs a <= 2 * Rabs a) by (apply Rmult_le_compat_r; lra). lra.
    + eapply Rle_trans; [apply Rabs_triang|]. rewrite Rabs_mult. assert (Rabs w * Rabs a <= 1 * Rabs a) by (apply Rmult_le_compat_r; lra). lra.
    + match goal with |- Rabs (?p + ?q - (?u + ?v)) <= _ => replace (p + q - (u + v)) with ((fv e - w) * a + (q - v)) by ring end.
      eapply Rle_trans; [apply Rabs_triang|]. rewrite Rabs_mult. assert (Rabs (fv e - w) * Rabs a <= sample_err r * Rabs a) by (apply Rmult_le_compat_r; lra). lra.
Qed.
End Bound.
