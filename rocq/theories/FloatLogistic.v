(** * LogLoss.logsig and LogLoss.expit_b in binary64 *)
From Coq Require Import ZArith Reals List Bool Lra Lia Psatz.
From Coq Require Import Floats.SpecFloat.
From Flocq Require Import Core.Core IEEE754.BinarySingleNaN.
From Verif Require Import Num Vec Spec RVec SpecLoss LossScalar ModelPenalty ModelTv ModelLoss FloatBase.
Import ListNotations.
Local Open Scope R_scope.

(** ** what is assumed of np.exp and np.log1p: relative error [d], plus the smallest float for underflow *)
Definition exp_accurate (d : R) (np_exp : F64 -> F64) : Prop :=
  forall x, fin x -> fv x <= 18 ->
    fin (np_exp x) /\ 0 <= fv (np_exp x) /\ Rabs (fv (np_exp x) - exp (fv x)) <= d * exp (fv x) + powerRZ 2 (-1074).
Definition log1p_accurate (d : R) (np_log1p : F64 -> F64) : Prop :=
  forall y, fin y -> 0 <= fv y ->
    fin (np_log1p y) /\ Rabs (fv (np_log1p y) - ln (1 + fv y)) <= d * ln (1 + fv y) + powerRZ 2 (-1074).

Definition tiny : R := powerRZ 2 (-1074).
Lemma tiny_bpow : tiny = bpow radix2 (-1074).
Proof. unfold tiny. symmetry. apply (bpow_powerRZ radix2). Qed.
Lemma tiny_pos : 0 < tiny.
Proof. rewrite tiny_bpow. apply bpow_gt_0. Qed.
Lemma tiny_eta : tiny = 2 * eta.
Proof. rewrite tiny_bpow. unfold eta. change (-1074)%Z with (1 + -1075)%Z. rewrite bpow_plus. reflexivity. Qed.
Lemma bpow_m60 : bpow radix2 (-60) = / 1152921504606846976.
Proof. unfold bpow. simpl Z.pow_pos. reflexivity. Qed.
Lemma tiny_small : tiny <= uro * bpow radix2 (-60).
Proof. rewrite tiny_bpow. unfold uro. rewrite <- bpow_plus. apply bpow_le. lia. Qed.
Lemma uro_small : uro <= 1 / 1000000000000000.
Proof. rewrite uro_val. lra. Qed.

(** ** numerical values of the exponential *)
Lemma exp_nat (n : nat) x : exp (INR n * x) = exp x ^ n.
Proof.
  induction n as [|n IH]; [cbn; rewrite Rmult_0_l; apply exp_0|].
  rewrite S_INR. replace ((INR n + 1) * x) with (x + INR n * x) by ring. rewrite exp_plus, IH. reflexivity.
Qed.
Lemma exp1_lower : 269 / 100 <= exp 1.
Proof.
  assert (Sq : forall a b t, 0 <= a -> b <= a * a -> a <= exp t -> b <= exp (t + t)).
  { intros a b t Ha Hb H. rewrite exp_plus. apply Rle_trans with (a * a); [exact Hb|]. apply Rmult_le_compat; auto. }
  assert (H0 : 1015625 / 1000000 <= exp (1 / 64)) by (pose proof (exp_ineq1 (1 / 64)); lra).
  pose proof (Sq (1015625 / 1000000) (103149 / 100000) _ ltac:(lra) ltac:(lra) H0) as H1.
  pose proof (Sq (103149 / 100000) (106397 / 100000) _ ltac:(lra) ltac:(lra) H1) as H2.
  pose proof (Sq (106397 / 100000) (113203 / 100000) _ ltac:(lra) ltac:(lra) H2) as H3.
  pose proof (Sq (113203 / 100000) (128149 / 100000) _ ltac:(lra) ltac:(lra) H3) as H4.
  pose proof (Sq (128149 / 100000) (164221 / 100000) _ ltac:(lra) ltac:(lra) H4) as H5.
  pose proof (Sq (164221 / 100000) (269 / 100) _ ltac:(lra) ltac:(lra) H5) as H6.
  replace 1 with (1 / 64 + 1 / 64 + (1 / 64 + 1 / 64) + (1 / 64 + 1 / 64 + (1 / 64 + 1 / 64)) +
    (1 / 64 + 1 / 64 + (1 / 64 + 1 / 64) + (1 / 64 + 1 / 64 + (1 / 64 + 1 / 64))) +
    (1 / 64 + 1 / 64 + (1 / 64 + 1 / 64) + (1 / 64 + 1 / 64 + (1 / 64 + 1 / 64)) +
    (1 / 64 + 1 / 64 + (1 / 64 + 1 / 64) + (1 / 64 + 1 / 64 + (1 / 64 + 1 / 64)))) +
    (1 / 64 + 1 / 64 + (1 / 64 + 1 / 64) + (1 / 64 + 1 / 64 + (1 / 64 + 1 / 64)) +
    (1 / 64 + 1 / 64 + (1 / 64 + 1 / 64) + (1 / 64 + 1 / 64 + (1 / 64 + 1 / 64))) +
    (1 / 64 + 1 / 64 + (1 / 64 + 1 / 64) + (1 / 64 + 1 / 64 + (1 / 64 + 1 / 64)) +
    (1 / 64 + 1 / 64 + (1 / 64 + 1 / 64) + (1 / 64 + 1 / 64 + (1 / 64 + 1 / 64)))))) by lra.
  exact H6.
Qed.
Lemma exp_neg_upper (n : nat) c : 0 < c -> c <= (269 / 100) ^ n -> exp (- INR n) <= / c.
Proof.
  intros Hc H. rewrite exp_Ropp. apply Rinv_le_contravar; [exact Hc|].
  replace (INR n) with (INR n * 1) by ring. rewrite exp_nat. apply Rle_trans with (1 := H).
  apply pow_incr. pose proof exp1_lower. lra.
Qed.
Lemma exp_m33 : exp (-33) <= 66 * uro.
Proof.
  rewrite uro_val. replace (-33) with (- INR 33) by (rewrite INR_IZR_INZ; simpl Z.of_nat; lra).
  apply Rle_trans with (/ 140000000000000); [apply exp_neg_upper; [lra|simpl; lra]|lra].
Qed.
Lemma exp_m36 : exp (-36) <= 4 * uro.
Proof.
  rewrite uro_val. replace (-36) with (- INR 36) by (rewrite INR_IZR_INZ; simpl Z.of_nat; lra).
  apply Rle_trans with (/ 2800000000000000); [apply exp_neg_upper; [lra|simpl; lra]|lra].
Qed.
Lemma exp_m37 : exp (-37) <= 2 * uro.
Proof.
  rewrite uro_val. replace (-37) with (- INR 37) by (rewrite INR_IZR_INZ; simpl Z.of_nat; lra).
  apply Rle_trans with (/ 7000000000000000); [apply exp_neg_upper; [lra|simpl; lra]|lra].
Qed.
Lemma exp_m37_lower : bpow radix2 (-60) <= exp (-37).
Proof.
  rewrite bpow_m60. replace (-37) with (- INR 37) by (rewrite INR_IZR_INZ; simpl Z.of_nat; lra).
  rewrite exp_Ropp. apply Rinv_le_contravar; [apply exp_pos|].
  replace (INR 37) with (INR 37 * 1) by ring. rewrite exp_nat.
  apply Rle_trans with (3 ^ 37); [|simpl; lra]. apply pow_incr. split; [left; apply exp_pos|apply exp_le_3].
Qed.

(** ** log1p is well conditioned on the nonnegative reals *)
Lemma ln1p_pos y : 0 <= y -> 0 <= ln (1 + y).
Proof. intros H. destruct H as [H|<-]; [|rewrite Rplus_0_r, ln_1; lra]. rewrite <- ln_1. left. apply ln_increasing; lra. Qed.
Lemma ln_upper t : -1 < t -> ln (1 + t) <= t.
Proof.
  intros H. destruct (Req_dec t 0) as [->|N]; [rewrite Rplus_0_r, ln_1; lra|].
  rewrite <- (ln_exp t) at 2. left. apply ln_increasing; [lra|]. pose proof (exp_ineq1 t N). lra.
Qed.
Lemma ln_lower t : -1 < t -> t / (1 + t) <= ln (1 + t).
Proof.
  intros H. pose proof (ln_upper (/ (1 + t) - 1)) as U.
  assert (P : 0 < / (1 + t)) by (apply Rinv_0_lt_compat; lra).
  replace (1 + (/ (1 + t) - 1)) with (/ (1 + t)) in U by ring.
  rewrite ln_Rinv in U by lra. specialize (U ltac:(lra)).
  replace (t / (1 + t)) with (1 - / (1 + t)) by (field; lra). lra.
Qed.
Lemma ln1p_cond y y' c : 0 <= y -> 0 <= c <= / 2 -> Rabs (y' - y) <= c * y ->
  Rabs (ln (1 + y') - ln (1 + y)) <= c / (1 - c) * ln (1 + y).
Proof.
  intros Hy Hc H.
  assert (H' : - (c * y) <= y' - y <= c * y) by (apply Rabs_le_inv; exact H).
  assert (Hcy : 0 <= c * y <= y / 2) by (split; [apply Rmult_le_pos; lra|nra]).
  pose proof (ln1p_pos y Hy) as LP.
  (* 1 + y' = (1 + y) (1 + t) *)
  set (t := (y' - y) / (1 + y)).
  assert (E : 1 + y' = (1 + y) * (1 + t)) by (unfold t; field; lra).
  assert (B : Rabs t <= c * ln (1 + y)).
  { unfold t, Rdiv. rewrite Rabs_mult, (Rabs_pos_eq (/ (1 + y))) by (left; apply Rinv_0_lt_compat; lra).
    apply Rle_trans with (c * y * / (1 + y)); [apply Rmult_le_compat_r; [left; apply Rinv_0_lt_compat; lra|exact H]|].
    rewrite Rmult_assoc. apply Rmult_le_compat_l; [lra|]. pose proof (ln_lower y). unfold Rdiv in H0. lra. }
  assert (Ht : - c <= t <= c).
  { apply Rabs_le_inv. unfold t, Rdiv. rewrite Rabs_mult, (Rabs_pos_eq (/ (1 + y))) by (left; apply Rinv_0_lt_compat; lra).
    apply Rle_trans with (c * y * / (1 + y)); [apply Rmult_le_compat_r; [left; apply Rinv_0_lt_compat; lra|exact H]|].
    rewrite Rmult_assoc. rewrite <- (Rmult_1_r c) at 2. apply Rmult_le_compat_l; [lra|].
    apply Rmult_le_reg_r with (1 + y); [lra|]. rewrite Rmult_assoc, Rinv_l by lra. lra. }
  rewrite E, ln_mult by lra. replace (ln (1 + y) + ln (1 + t) - ln (1 + y)) with (ln (1 + t)) by ring.
  pose proof (ln_upper t ltac:(lra)) as U. pose proof (ln_lower t ltac:(lra)) as Lo.
  apply Rabs_le_inv in B.
  assert (Pc : c * ln (1 + y) <= c / (1 - c) * ln (1 + y)).
  { apply Rmult_le_compat_r; [exact LP|]. apply Rmult_le_reg_r with (1 - c); [lra|]. unfold Rdiv. rewrite Rmult_assoc, Rinv_l by lra. nra. }
  apply Rabs_le. split; [|lra].
  assert (T : - (c / (1 - c) * ln (1 + y)) <= t / (1 + t)).
  { destruct (Rle_lt_dec 0 t) as [T0|T0].
    - assert (0 <= t / (1 + t)) by (apply Rmult_le_pos; [exact T0|left; apply Rinv_0_lt_compat; lra]).
      assert (0 <= c * ln (1 + y)) by (apply Rmult_le_pos; lra). lra.
    - apply Rle_trans with (t / (1 - c)).
      + unfold Rdiv. replace (- (c * / (1 - c) * ln (1 + y))) with (- (c * ln (1 + y)) * / (1 - c)) by ring.
        apply Rmult_le_compat_r; [left; apply Rinv_0_lt_compat; lra|lra].
      + unfold Rdiv. assert (/ (1 + t) <= / (1 - c)) by (apply Rinv_le_contravar; lra). nra. }
  lra.
Qed.

(** ** the thresholds of logsig *)
Lemma fin_m33 : fin (nofZ F64 (-33)) /\ fv (nofZ F64 (-33)) = -33.
Proof. split; [split; reflexivity|]. unfold fv, SF2R, F2R. simpl. lra. Qed.
Lemma fin_m18 : fin (nofZ F64 (-18)) /\ fv (nofZ F64 (-18)) = -18.
Proof. split; [split; reflexivity|]. unfold fv, SF2R, F2R. simpl. lra. Qed.
Lemma fin_37 : fin (nofZ F64 37) /\ fv (nofZ F64 37) = 37.
Proof. split; [split; reflexivity|]. unfold fv, SF2R, F2R. simpl. lra. Qed.

Lemma fits_small r : Rabs r <= 1000 -> Rabs (rnd r) < fbig.
Proof.
  intros H. apply rnd_fits. apply Rle_trans with (1 := H). apply Rle_trans with (bpow radix2 10); [simpl; lra|]. apply bpow_le. lia.
Qed.

Lemma main_C117_logsig : forall (d : R) (np_exp np_log1p : F64 -> F64) (x : F64),
  0 <= d <= 1 / 1000 -> exp_accurate d np_exp -> log1p_accurate d np_log1p -> fin x ->
  fin (logsig np_exp np_log1p x) /\
  Rabs (fv (logsig np_exp np_log1p x) - ln (sigma (fv x))) <= (3 * d + 4 * / 2 ^ 53) * Rabs (ln (sigma (fv x))) + powerRZ 2 (-1074).
Proof.
  intros d np_exp np_log1p x Hd He Hl Hx. fold tiny.
  replace (/ 2 ^ 53) with uro by (rewrite uro_val; f_equal; simpl; lra).
  pose proof uro_pos as Up. pose proof uro_small as Us. pose proof tiny_pos as Tp. pose proof tiny_small as Ts.
  rewrite bpow_m60 in Ts.
  assert (Ts2 : tiny <= uro * / 1152921504606846976) by exact Ts. clear Ts.
  destruct fin_m33 as [F33 V33]. destruct fin_m18 as [F18 V18]. destruct fin_37 as [F37 V37].
  unfold logsig. rewrite !ltb_fin, !leb_fin by assumption. rewrite V33, V18, V37.
  set (t := fv x) in *.
  assert (Neg : ln (sigma t) <= 0).
  { rewrite ln_sigma. pose proof (exp_pos (- t)). pose proof (ln1p_pos (exp (- t)) ltac:(lra)). lra. }
  rewrite (Rabs_left1 (ln (sigma t))) by exact Neg.
  destruct (Rltb_spec t (-33)) as [L|L].
  { split; [exact Hx|]. fold t. rewrite ln_sigma_neg.
    replace (t - (t - ln (1 + exp t))) with (ln (1 + exp t)) by ring.
    pose proof (exp_pos t). pose proof (ln_1p_upper (exp t) ltac:(lra)). pose proof (exp_le t (-33) ltac:(lra)).
    pose proof (ln1p_pos (exp t) ltac:(lra)). pose proof exp_m33.
    rewrite Rabs_pos_eq by lra.
    assert (33 * uro <= - (t - ln (1 + exp t)) * uro) by (apply Rmult_le_compat_r; lra).
    assert (0 <= d * - (t - ln (1 + exp t))) by (apply Rmult_le_pos; lra). lra. }
  destruct (Rleb_spec (-33) t) as [L1|L1]; [|lra]. cbn [andb].
  destruct (Rltb_spec t (-18)) as [L2|L2].
  { destruct (He x Hx ltac:(fold t; lra)) as (FE & PE & AE). fold t tiny in AE.
    pose proof (exp_pos t) as Pt. pose proof (exp_le t (-18) ltac:(lra)) as Bt.
    pose proof exp_m36 as E36. replace (-36) with (-18 + -18) in E36 by lra. rewrite exp_plus in E36.
    assert (Bt2 : exp t * exp t <= 4 * uro) by (apply Rle_trans with (2 := E36); apply Rmult_le_compat; lra).
    assert (Bt1 : exp t <= 1 / 1000).
    { destruct (Rle_lt_dec (exp t) (1 / 1000)) as [|Hlt]; auto. exfalso. nra. }
    apply Rabs_le_inv in AE.
    assert (Fit : Rabs (fv x - fv (np_exp x)) <= 1000) by (fold t; apply Rabs_le; nra).
    destruct (sub_fin x (np_exp x) Hx FE (fits_small _ Fit)) as [FS VS]. fold t in VS.
    split; [exact FS|]. rewrite VS.
    pose proof (rnd_sub_err t (fv (np_exp x)) (fin_repr _ Hx) (fin_repr _ FE)) as RE. apply Rabs_le_inv in RE.
    rewrite ln_sigma_neg.
    pose proof (ln_1p_upper (exp t) ltac:(lra)). pose proof (ln_1p_lower (exp t) ltac:(lra)). pose proof (ln1p_pos (exp t) ltac:(lra)).
    rewrite (Rabs_left1 (t - fv (np_exp x))) in RE by lra.
    set (E := fv (np_exp x)) in *. set (l := ln (1 + exp t)) in *.
    assert (Dm : d * exp t <= d * (- (t - l)) ) by (apply Rmult_le_compat_l; lra).
    assert (Um : uro * (- (t - E)) <= 2 * (uro * (- (t - l)))).
    { replace (2 * (uro * - (t - l))) with (uro * (2 * (- (t - l)))) by ring. apply Rmult_le_compat_l; [lra|]. nra. }
    assert (U18 : 18 * uro <= uro * (- (t - l))) by (rewrite (Rmult_comm 18); apply Rmult_le_compat_l; lra).
    apply Rabs_le. assert (0 <= d * (- (t - l))) by (apply Rmult_le_pos; lra). lra. }
  destruct (Rleb_spec (-18) t) as [L3|L3]; [|lra]. cbn [andb].
  destruct (opp_fin x Hx) as [FO VO]. fold t in VO.
  destruct (Rltb_spec t 37) as [L4|L4].
  { destruct (He (nopp F64 x) FO) as (FE & PE & AE); [rewrite VO; lra|]. fold tiny in AE. rewrite VO in AE.
    set (y := exp (- t)) in *. set (E := fv (np_exp (nopp F64 x))) in *.
    assert (Py : / 1152921504606846976 <= y).
    { rewrite <- bpow_m60. apply Rle_trans with (1 := exp_m37_lower). apply exp_le. lra. }
    assert (Py0 : 0 < y) by apply exp_pos.
    assert (AE' : Rabs (E - y) <= (d + uro) * y).
    { apply Rle_trans with (1 := AE). assert (tiny <= uro * y) by (apply Rle_trans with (1 := Ts2); apply Rmult_le_compat_l; lra). lra. }
    pose proof (ln1p_cond y E (d + uro) ltac:(lra) ltac:(lra) AE') as C.
    destruct (Hl _ FE PE) as [FL AL]. fold E tiny in AL.
    destruct (opp_fin _ FL) as [FN VN]. split; [exact FN|]. rewrite VN.
    set (l' := fv (np_log1p (np_exp (nopp F64 x)))) in *. rewrite ln_sigma. fold y.
    pose proof (ln1p_pos y ltac:(lra)) as P1. pose proof (ln1p_pos E PE) as P2.
    set (l1 := ln (1 + y)) in *. set (l2 := ln (1 + E)) in *.
    assert (C' : (d + uro) / (1 - (d + uro)) <= 101 / 100 * (d + uro)).
    { apply Rmult_le_reg_r with (1 - (d + uro)); [lra|]. unfold Rdiv at 1. rewrite Rmult_assoc, Rinv_l by lra. nra. }
    assert (C2 : Rabs (l2 - l1) <= 101 / 100 * (d + uro) * l1) by (apply Rle_trans with (1 := C); apply Rmult_le_compat_r; lra).
    apply Rabs_le_inv in C2. apply Rabs_le_inv in AL.
    assert (Q : 101 / 100 * (d + uro) * l1 <= 2 / 100 * l1) by (apply Rmult_le_compat_r; lra).
    assert (Q2 : d * l2 <= d * (102 / 100 * l1)) by (apply Rmult_le_compat_l; lra).
    assert (0 <= d * l1) by (apply Rmult_le_pos; lra). assert (0 <= uro * l1) by (apply Rmult_le_pos; lra).
    apply Rabs_le. lra. }
  destruct (Rleb_spec 37 t) as [L5|L5]; [|lra].
  destruct (He (nopp F64 x) FO) as (FE & PE & AE); [rewrite VO; lra|]. fold tiny in AE. rewrite VO in AE.
  destruct (opp_fin _ FE) as [FN VN]. split; [exact FN|]. rewrite VN.
  set (y := exp (- t)) in *. set (E := fv (np_exp (nopp F64 x))) in *. rewrite ln_sigma. fold y.
  assert (Py0 : 0 < y) by apply exp_pos.
  assert (By : y <= 2 * uro) by (apply Rle_trans with (2 := exp_m37); apply exp_le; lra).
  pose proof (ln_1p_upper y ltac:(lra)). pose proof (ln_1p_lower y ltac:(lra)).
  set (l := ln (1 + y)) in *. apply Rabs_le_inv in AE.
  assert (y * y <= 2 * uro * y) by (apply Rmult_le_compat_r; lra).
  assert (Y : y <= 101 / 100 * l) by nra.
  assert (d * y <= d * (101 / 100 * l)) by (apply Rmult_le_compat_l; lra).
  assert (uro * y <= uro * (101 / 100 * l)) by (apply Rmult_le_compat_l; lra).
  assert (0 <= d * l) by (apply Rmult_le_pos; lra). assert (0 <= uro * l) by (apply Rmult_le_pos; lra).
  apply Rabs_le. lra.
Qed.

(** ** expit_b *)
Lemma quot_close N N' D D' a c : 1 <= D -> 1 <= D' -> 0 <= c <= 1 / 200 -> Rabs (D' - D) <= c * D -> Rabs (N' - N) <= a ->
  Rabs (N' / D' - N / D) <= 101 / 100 * (a / D) + 101 / 100 * c * (Rabs N / D).
Proof.
  intros HD HD' Hc HDD HN.
  assert (Q : D / D' <= 101 / 100).
  { apply Rabs_le_inv in HDD. apply Rmult_le_reg_r with D'; [lra|]. unfold Rdiv at 1. rewrite Rmult_assoc, Rinv_l by lra. nra. }
  assert (Q0 : 0 <= D / D') by (apply Rmult_le_pos; [lra|left; apply Rinv_0_lt_compat; lra]).
  replace (N' / D' - N / D) with ((N' - N) / D * (D / D') + N / D * ((D - D') / D) * (D / D')) by (field; lra).
  eapply Rle_trans; [apply Rabs_triang|].
  assert (ID : 0 < / D) by (apply Rinv_0_lt_compat; lra).
  assert (A1 : Rabs ((N' - N) / D) <= a / D).
  { unfold Rdiv. rewrite Rabs_mult, (Rabs_pos_eq (/ D)) by lra. apply Rmult_le_compat_r; lra. }
  assert (A2 : Rabs ((D - D') / D) <= c).
  { unfold Rdiv. rewrite Rabs_mult, (Rabs_pos_eq (/ D)) by lra. rewrite Rabs_minus_sym.
    apply Rle_trans with (c * D * / D); [apply Rmult_le_compat_r; lra|]. rewrite Rmult_assoc, Rinv_r by lra. lra. }
  assert (A3 : Rabs (N / D) = Rabs N / D) by (unfold Rdiv; rewrite Rabs_mult, (Rabs_pos_eq (/ D)) by lra; reflexivity).
  apply Rplus_le_compat.
  - rewrite Rabs_mult, (Rabs_pos_eq (D / D')) by exact Q0. rewrite (Rmult_comm (101 / 100)). apply Rmult_le_compat; auto using Rabs_pos.
  - rewrite !Rabs_mult, (Rabs_pos_eq (D / D')) by exact Q0. rewrite A3.
    assert (P : 0 <= Rabs N / D) by (rewrite <- A3; apply Rabs_pos).
    replace (101 / 100 * c * (Rabs N / D)) with (Rabs N / D * c * (101 / 100)) by ring.
    apply Rmult_le_compat; auto; [apply Rmult_le_pos; [exact P|apply Rabs_pos]|apply Rmult_le_compat_l; auto].
Qed.

(** the last two operations, for the exact numerator [N] and the exponential [e] of a nonpositive number *)
Lemma expit_tail d (num E : F64) N e a : 0 <= d <= 1 / 1000 -> fin num -> fin E -> 0 <= fv E -> 0 < e <= 1 ->
  Rabs (fv E - e) <= d * e + tiny -> Rabs (fv num - N) <= a -> Rabs N <= 1 -> 0 <= a <= 1 / 100 ->
  let w := ndiv F64 num (nadd F64 n1 E) in
  fin w /\ Rabs (fv w - N / (1 + e)) <= 102 / 100 * a / (1 + e) + (6 / 10 * d + 5 / 2 * uro) * (Rabs N / (1 + e)) + eta.
Proof.
  intros Hd FN FE PE He AE AN BN Ha w.
  pose proof uro_pos as Up. pose proof uro_small as Us. pose proof tiny_pos as Tp. pose proof eta_pos as Ep.
  assert (Ts : tiny <= uro * / 1152921504606846976) by (pose proof tiny_small as T; rewrite bpow_m60 in T; exact T).
  assert (Tu : tiny <= uro / 100) by lra.
  apply Rabs_le_inv in AE.
  assert (De : d * e <= d * 1) by (apply Rmult_le_compat_l; lra).
  assert (Fit1 : Rabs (fv n1 + fv E) <= 1000) by (rewrite fv_1; apply Rabs_le; lra).
  destruct (add_fin n1 E fin_1 FE (fits_small _ Fit1)) as [FD VD]. rewrite fv_1 in VD.
  pose proof (rnd_add_err 1 (fv E)) as RD. rewrite <- fv_1 in RD at 1. specialize (RD (fin_repr _ fin_1) (fin_repr _ FE)).
  rewrite (Rabs_pos_eq (1 + fv E)) in RD by lra.
  assert (D1 : 1 <= rnd (1 + fv E)).
  { apply rnd_ge_repr; [rewrite <- fv_1; apply fin_repr, fin_1|lra]. }
  set (D' := rnd (1 + fv E)) in *.
  assert (UE : uro * (1 + fv E) <= 101 / 100 * uro * (1 + e)) by nra.
  assert (HDD : Rabs (D' - (1 + e)) <= (d / 2 + 11 / 10 * uro) * (1 + e)).
  { apply Rabs_le_inv in RD. assert (d * e <= d / 2 * (1 + e)) by nra. assert (uro <= uro * (1 + e)) by nra. apply Rabs_le. lra. }
  pose proof (quot_close N (fv num) (1 + e) D' a (d / 2 + 11 / 10 * uro) ltac:(lra) D1 ltac:(lra) HDD AN) as Q.
  assert (ID : 0 < / (1 + e) <= 1).
  { split; [apply Rinv_0_lt_compat; lra|]. rewrite <- Rinv_1. apply Rinv_le_contravar; lra. }
  assert (Pq : 0 <= Rabs N / (1 + e)) by (apply Rmult_le_pos; [apply Rabs_pos|lra]).
  assert (Bq : Rabs N / (1 + e) <= 1).
  { apply Rle_trans with (1 * 1); [|lra]. apply Rmult_le_compat; try lra. apply Rabs_pos. }
  assert (Pa : 0 <= a / (1 + e)) by (apply Rmult_le_pos; lra).
  assert (Ba : a / (1 + e) <= a) by (rewrite <- (Rmult_1_r a) at 2; apply Rmult_le_compat_l; lra).
  set (q := Rabs N / (1 + e)) in *. set (aa := a / (1 + e)) in *.
  assert (Eq : Rabs (N / (1 + e)) = q) by (unfold q, Rdiv; rewrite Rabs_mult, (Rabs_pos_eq (/ (1 + e))) by lra; reflexivity).
  assert (Qa : Rabs (fv num / D') <= 101 / 100 * aa + 2 * q).
  { replace (fv num / D') with ((fv num / D' - N / (1 + e)) + N / (1 + e)) by ring.
    eapply Rle_trans; [apply Rabs_triang|]. rewrite Eq. nra. }
  assert (Fit2 : Rabs (fv num / fv (nadd F64 n1 E)) <= 1000) by (rewrite VD; lra).
  destruct (div_fin num (nadd F64 n1 E) FN FD) as [FW VW]; [rewrite VD; lra|exact (fits_small _ Fit2)|].
  fold w in FW, VW. split; [exact FW|]. rewrite VW, VD.
  pose proof (rnd_err (fv num / D')) as R1.
  assert (Qa2 : Rabs (fv num / D') <= 102 / 100 * aa + 11 / 10 * q).
  { replace (fv num / D') with ((fv num / D' - N / (1 + e)) + N / (1 + e)) by ring.
    eapply Rle_trans; [apply Rabs_triang|]. rewrite Eq. nra. }
  assert (U1 : uro * Rabs (fv num / D') <= uro * (102 / 100 * aa + 11 / 10 * q)) by (apply Rmult_le_compat_l; lra).
  replace (rnd (fv num / D') - N / (1 + e)) with ((rnd (fv num / D') - fv num / D') + (fv num / D' - N / (1 + e))) by ring.
  eapply Rle_trans; [apply Rabs_triang|].
  replace (102 / 100 * a / (1 + e)) with (102 / 100 * aa) by (unfold aa; field; lra).
  assert (0 <= d * q) by (apply Rmult_le_pos; lra). assert (0 <= uro * q) by (apply Rmult_le_pos; lra).
  assert (uro * aa <= 1 / 1000 * aa) by (apply Rmult_le_compat_r; lra). lra.
Qed.

Lemma prod_bound a b c : 0 <= a <= 1 -> - c <= b <= c -> 0 <= c -> - (a * c) <= a * b <= a * c.
Proof. intros. split; nra. Qed.
Lemma prod_bound2 a b c : 0 <= a <= 1 -> - c <= b <= c -> 0 <= c -> - c <= a * b <= c.
Proof. intros. split; nra. Qed.
Lemma prod_01 a b : 0 <= a <= 1 -> 0 < b <= 1 -> 0 <= a * b <= 1.
Proof. intros. split; nra. Qed.

(** the two numerators, for an exponential [E] of a nonpositive number *)
Lemma num_neg d (b E : F64) e : 0 <= d <= 1 / 1000 -> fin b -> 0 <= fv b <= 1 -> fin E -> 0 <= fv E -> 0 < e <= 1 ->
  Rabs (fv E - e) <= d * e + tiny ->
  let num := nsub F64 (nmul F64 (nsub F64 n1 b) E) b in
  let N := (1 - fv b) * e - fv b in
  fin num /\ Rabs N <= 1 /\ Rabs (fv num - N) <= d * ((1 - fv b) * e) + 31 / 10 * uro /\
  (fv b = 0 -> Rabs (fv num - N) <= d * e + tiny) /\ (fv b = 1 -> Rabs (fv num - N) <= 0).
Proof.
  intros Hd FB HB FE PE He AE num N.
  pose proof uro_pos as Up. pose proof uro_small as Us. pose proof tiny_pos as Tp. pose proof eta_pos as Ep. pose proof tiny_eta as Te.
  assert (Ts : tiny <= uro * / 1152921504606846976) by (pose proof tiny_small as T; rewrite bpow_m60 in T; exact T).
  assert (Tu : tiny <= uro / 100) by lra.
  apply Rabs_le_inv in AE. set (v := fv b) in *. set (w := fv E) in *.
  assert (De0 : 0 <= d * e) by (apply Rmult_le_pos; lra).
  assert (De : d * e <= d * 1) by (apply Rmult_le_compat_l; lra).
  assert (R1 : repr 1) by (rewrite <- fv_1; apply fin_repr, fin_1).
  assert (B1 : Rabs (fv n1 - fv b) <= 1000) by (rewrite fv_1; fold v; apply Rabs_le; lra).
  destruct (sub_fin n1 b fin_1 FB (fits_small _ B1)) as [F1 V1]. rewrite fv_1 in V1. fold v in V1.
  pose proof (rnd_sub_err 1 v R1 (fin_repr _ FB)) as E1. rewrite (Rabs_pos_eq (1 - v)) in E1 by lra.
  assert (A1 : 0 <= rnd (1 - v) <= 1) by (split; [apply rnd_ge_repr; [apply repr_0|lra]|apply rnd_le_repr; [exact R1|lra]]).
  set (a1 := rnd (1 - v)) in *. apply Rabs_le_inv in E1.
  assert (P0 : 0 <= a1 * w) by (apply Rmult_le_pos; lra).
  assert (P1 : a1 * w <= 1 * w) by (apply Rmult_le_compat_r; lra).
  assert (B2 : Rabs (fv (nsub F64 n1 b) * fv E) <= 1000) by (rewrite V1; fold w; apply Rabs_le; lra).
  destruct (mul_fin _ E F1 FE (fits_small _ B2)) as [F2 V2]. rewrite V1 in V2. fold w in V2.
  pose proof (rnd_err (a1 * w)) as E2. rewrite (Rabs_pos_eq (a1 * w)) in E2 by lra. apply Rabs_le_inv in E2.
  assert (C2 : 0 <= rnd (a1 * w)) by (apply rnd_ge_repr; [apply repr_0|lra]).
  assert (UW : uro * (a1 * w) <= uro * (102 / 100)) by (apply Rmult_le_compat_l; lra).
  assert (B3 : Rabs (fv (nmul F64 (nsub F64 n1 b) E) - fv b) <= 1000) by (rewrite V2; fold v; apply Rabs_le; lra).
  destruct (sub_fin _ b F2 FB (fits_small _ B3)) as [F3 V3]. rewrite V2 in V3. fold v in V3. fold num in F3, V3.
  assert (BN : Rabs N <= 1) by (unfold N; pose proof (prod_01 (1 - v) e ltac:(lra) He); apply Rabs_le; lra).
  split; [exact F3|]. split; [exact BN|].
  split; [|split].
  - pose proof (rnd_sub_err (rnd (a1 * w)) v (repr_rnd _) (fin_repr _ FB)) as E3.
    assert (C3 : Rabs (rnd (a1 * w) - v) <= 102 / 100) by (apply Rabs_le; lra).
    assert (UE3 : uro * Rabs (rnd (a1 * w) - v) <= uro * (102 / 100)) by (apply Rmult_le_compat_l; lra).
    rewrite V3. apply Rabs_le_inv in E3. unfold N.
    assert (T1 : - (d * ((1 - v) * e) + tiny) <= (1 - v) * (w - e) <= d * ((1 - v) * e) + tiny).
    { pose proof (prod_bound (1 - v) (w - e) (d * e + tiny) ltac:(lra) ltac:(lra) ltac:(lra)) as PB.
      pose proof (prod_bound2 (1 - v) tiny tiny ltac:(lra) ltac:(lra) ltac:(lra)) as PT.
      replace (d * ((1 - v) * e)) with ((1 - v) * (d * e + tiny) - (1 - v) * tiny) by ring. lra. }
    assert (T2 : - (uro * (101 / 100)) <= (a1 - (1 - v)) * w <= uro * (101 / 100)).
    { assert (UV : uro * (1 - v) <= uro * 1) by (apply Rmult_le_compat_l; lra).
      pose proof (prod_bound2 (w / (101 / 100)) (a1 - (1 - v)) uro ltac:(lra) ltac:(lra) ltac:(lra)) as PB.
      replace ((a1 - (1 - v)) * w) with (w / (101 / 100) * (a1 - (1 - v)) * (101 / 100)) by field. lra. }
    assert (X : a1 * w - (1 - v) * e = (a1 - (1 - v)) * w + (1 - v) * (w - e)) by ring.
    apply Rabs_le. split; lra.
  - intros Z. rewrite V3. unfold N. unfold a1. rewrite Z in *. replace (1 - 0) with 1 by ring. rewrite (rnd_repr 1 R1), !Rmult_1_l, !Rminus_0_r.
    unfold w. rewrite !(rnd_fin _ FE). fold w. apply Rabs_le. lra.
  - intros Z. rewrite V3. unfold N. unfold a1. rewrite Z in *. replace (1 - 1) with 0 by ring. rewrite rnd_0, Rmult_0_l, rnd_0.
    replace (0 - 1) with (- (1)) by ring. rewrite rnd_opp, (rnd_repr 1 R1). rewrite Rmult_0_l. replace (- (1) - (0 - 1)) with 0 by ring. rewrite Rabs_R0. lra.
Qed.
Lemma num_pos d (b E : F64) e : 0 <= d <= 1 / 1000 -> fin b -> 0 <= fv b <= 1 -> fin E -> 0 <= fv E -> 0 < e <= 1 ->
  Rabs (fv E - e) <= d * e + tiny ->
  let num := nsub F64 (nsub F64 n1 b) (nmul F64 b E) in
  let N := (1 - fv b) - fv b * e in
  fin num /\ Rabs N <= 1 /\ Rabs (fv num - N) <= d * (fv b * e) + 31 / 10 * uro /\
  (fv b = 0 -> Rabs (fv num - N) <= 0) /\ (fv b = 1 -> Rabs (fv num - N) <= d * e + tiny).
Proof.
  intros Hd FB HB FE PE He AE num N.
  pose proof uro_pos as Up. pose proof uro_small as Us. pose proof tiny_pos as Tp. pose proof eta_pos as Ep. pose proof tiny_eta as Te.
  assert (Ts : tiny <= uro * / 1152921504606846976) by (pose proof tiny_small as T; rewrite bpow_m60 in T; exact T).
  assert (Tu : tiny <= uro / 100) by lra.
  apply Rabs_le_inv in AE. set (v := fv b) in *. set (w := fv E) in *.
  assert (De0 : 0 <= d * e) by (apply Rmult_le_pos; lra).
  assert (De : d * e <= d * 1) by (apply Rmult_le_compat_l; lra).
  assert (R1 : repr 1) by (rewrite <- fv_1; apply fin_repr, fin_1).
  assert (B1 : Rabs (fv n1 - fv b) <= 1000) by (rewrite fv_1; fold v; apply Rabs_le; lra).
  destruct (sub_fin n1 b fin_1 FB (fits_small _ B1)) as [F1 V1]. rewrite fv_1 in V1. fold v in V1.
  pose proof (rnd_sub_err 1 v R1 (fin_repr _ FB)) as E1. rewrite (Rabs_pos_eq (1 - v)) in E1 by lra.
  assert (A1 : 0 <= rnd (1 - v) <= 1) by (split; [apply rnd_ge_repr; [apply repr_0|lra]|apply rnd_le_repr; [exact R1|lra]]).
  set (a1 := rnd (1 - v)) in *. apply Rabs_le_inv in E1.
  assert (P0 : 0 <= v * w) by (apply Rmult_le_pos; lra).
  assert (P1 : v * w <= 1 * w) by (apply Rmult_le_compat_r; lra).
  assert (B2 : Rabs (fv b * fv E) <= 1000) by (fold v w; apply Rabs_le; lra).
  destruct (mul_fin b E FB FE (fits_small _ B2)) as [F2 V2]. fold v w in V2.
  pose proof (rnd_err (v * w)) as E2. rewrite (Rabs_pos_eq (v * w)) in E2 by lra. apply Rabs_le_inv in E2.
  assert (C2 : 0 <= rnd (v * w)) by (apply rnd_ge_repr; [apply repr_0|lra]).
  assert (UW : uro * (v * w) <= uro * (102 / 100)) by (apply Rmult_le_compat_l; lra).
  assert (B3 : Rabs (fv (nsub F64 n1 b) - fv (nmul F64 b E)) <= 1000) by (rewrite V1, V2; apply Rabs_le; lra).
  destruct (sub_fin _ _ F1 F2 (fits_small _ B3)) as [F3 V3]. rewrite V1, V2 in V3. fold num in F3, V3.
  assert (BN : Rabs N <= 1) by (unfold N; pose proof (prod_01 v e ltac:(lra) He); apply Rabs_le; lra).
  split; [exact F3|]. split; [exact BN|].
  split; [|split].
  - pose proof (rnd_sub_err a1 (rnd (v * w)) (repr_rnd _) (repr_rnd _)) as E3.
    assert (C3 : Rabs (a1 - rnd (v * w)) <= 102 / 100) by (apply Rabs_le; lra).
    assert (UE3 : uro * Rabs (a1 - rnd (v * w)) <= uro * (102 / 100)) by (apply Rmult_le_compat_l; lra).
    rewrite V3. apply Rabs_le_inv in E3. unfold N.
    assert (T1 : - (d * (v * e) + tiny) <= v * (w - e) <= d * (v * e) + tiny).
    { pose proof (prod_bound v (w - e) (d * e + tiny) ltac:(lra) ltac:(lra) ltac:(lra)) as PB.
      pose proof (prod_bound2 v tiny tiny ltac:(lra) ltac:(lra) ltac:(lra)) as PT.
      replace (d * (v * e)) with (v * (d * e + tiny) - v * tiny) by ring. lra. }
    assert (T2 : uro * (1 - v) <= uro * 1) by (apply Rmult_le_compat_l; lra).
    assert (X : v * w - v * e = v * (w - e)) by ring.
    apply Rabs_le. split; lra.
  - intros Z. rewrite V3. unfold N. unfold a1. rewrite Z in *. rewrite !Rmult_0_l, rnd_0, !Rminus_0_r, !(rnd_repr 1 R1).
    replace (1 - 1) with 0 by ring. rewrite Rabs_R0. lra.
  - intros Z. rewrite V3. unfold N. unfold a1. rewrite Z in *. replace (1 - 1) with 0 by ring. rewrite rnd_0, !Rmult_1_l.
    unfold w. rewrite (rnd_fin _ FE). replace (0 - fv E) with (- fv E) by ring. rewrite rnd_opp, (rnd_fin _ FE). fold w. apply Rabs_le. lra.
Qed.

Lemma sigma_quot t b : sigma t - b = ((1 - b) * exp t - b) / (1 + exp t) /\ sigma t - b = ((1 - b) - b * exp (- t)) / (1 + exp (- t)).
Proof.
  unfold sigma. pose proof (exp_pos (- t)) as P. pose proof (exp_pos t) as Q.
  assert (X : exp t * exp (- t) = 1) by (rewrite <- exp_plus; replace (t + - t) with 0 by ring; apply exp_0).
  split; [|field; lra].
  assert (Y : exp (- t) = / exp t) by (apply Rmult_eq_reg_l with (exp t); [rewrite X; field; lra|lra]).
  rewrite Y. field. lra.
Qed.
Lemma exp_nonpos t : t <= 0 -> 0 < exp t <= 1.
Proof. intros H. split; [apply exp_pos|]. rewrite <- exp_0. destruct H as [H| ->]; [left; apply exp_increasing, H|lra]. Qed.

Lemma expit_core d np_exp (x b : F64) : 0 <= d <= 1 / 1000 -> exp_accurate d np_exp -> fin x -> fin b -> 0 <= fv b <= 1 ->
  exists (num E : F64) (N e s : R), expit_b np_exp x b = ndiv F64 num (nadd F64 n1 E) /\ sigma (fv x) - fv b = N / (1 + e) /\
    fin num /\ fin E /\ 0 <= fv E /\ 0 < e <= 1 /\ Rabs (fv E - e) <= d * e + tiny /\ Rabs N <= 1 /\ 0 <= s <= 1 /\
    Rabs (fv num - N) <= d * (s * e) + 31 / 10 * uro /\
    (fv b = 0 \/ fv b = 1 -> Rabs (fv num - N) <= d * Rabs N + tiny).
Proof.
  intros Hd He Hx HB Hb. unfold expit_b. rewrite (ltb_fin x n0 Hx fin_0), fv_0. pose proof tiny_pos as Tp.
  destruct (sigma_quot (fv x) (fv b)) as [S1 S2].
  unfold Rltb. destruct (Rlt_dec (fv x) 0) as [L|L].
  - destruct (He x Hx ltac:(lra)) as (FE & PE & AE). fold tiny in AE. pose proof (exp_nonpos (fv x) ltac:(lra)) as Pe.
    destruct (num_neg d b (np_exp x) _ Hd HB Hb FE PE Pe AE) as (FN & BN & AN & Z0 & Z1).
    exists (nsub F64 (nmul F64 (nsub F64 n1 b) (np_exp x)) b), (np_exp x), ((1 - fv b) * exp (fv x) - fv b), (exp (fv x)), (1 - fv b).
    split; [reflexivity|]. split; [exact S1|]. do 6 (split; [assumption|]). split; [lra|]. split; [exact AN|].
    intros [Z|Z].
    + specialize (Z0 Z). eapply Rle_trans; [exact Z0|]. rewrite Z. replace ((1 - 0) * exp (fv x) - 0) with (exp (fv x)) by ring.
      rewrite (Rabs_pos_eq (exp (fv x))) by lra. lra.
    + specialize (Z1 Z). eapply Rle_trans; [exact Z1|]. apply Rplus_le_le_0_compat; [apply Rmult_le_pos; [lra|apply Rabs_pos]|lra].
  - destruct (opp_fin x Hx) as [Fo Vo]. destruct (He (nopp F64 x) Fo ltac:(rewrite Vo; lra)) as (FE & PE & AE). fold tiny in AE. rewrite Vo in AE.
    pose proof (exp_nonpos (- fv x) ltac:(lra)) as Pe.
    destruct (num_pos d b (np_exp (nopp F64 x)) _ Hd HB Hb FE PE Pe AE) as (FN & BN & AN & Z0 & Z1).
    exists (nsub F64 (nsub F64 n1 b) (nmul F64 b (np_exp (nopp F64 x)))), (np_exp (nopp F64 x)), ((1 - fv b) - fv b * exp (- fv x)), (exp (- fv x)), (fv b).
    split; [reflexivity|]. split; [exact S2|]. do 6 (split; [assumption|]). split; [lra|]. split; [exact AN|].
    intros [Z|Z].
    + specialize (Z0 Z). eapply Rle_trans; [exact Z0|]. apply Rplus_le_le_0_compat; [apply Rmult_le_pos; [lra|apply Rabs_pos]|lra].
    + specialize (Z1 Z). eapply Rle_trans; [exact Z1|]. rewrite Z. replace (1 - 1 - 1 * exp (- fv x)) with (- exp (- fv x)) by ring.
      rewrite Rabs_Ropp, (Rabs_pos_eq (exp (- fv x))) by lra. lra.
Qed.

Lemma main_C117_expit : forall (d : R) (np_exp : F64 -> F64) (x b : F64),
  0 <= d <= 1 / 1000 -> exp_accurate d np_exp -> fin x -> fin b -> 0 <= fv b <= 1 ->
  fin (expit_b np_exp x b) /\
  Rabs (fv (expit_b np_exp x b) - (sigma (fv x) - fv b)) <= 2 * d + 6 * / 2 ^ 53 /\
  (fv b = 0 \/ fv b = 1 ->
    Rabs (fv (expit_b np_exp x b) - (sigma (fv x) - fv b)) <= (2 * d + 4 * / 2 ^ 53) * Rabs (sigma (fv x) - fv b) + powerRZ 2 (-1073)).
Proof.
  intros d np_exp x b Hd He Hx HB Hb.
  replace (/ 2 ^ 53) with uro by (rewrite uro_val; f_equal; simpl; lra).
  replace (powerRZ 2 (-1073)) with (2 * tiny).
  2: { rewrite tiny_bpow. change (powerRZ 2 (-1073)) with (powerRZ (IZR radix2) (-1073)). rewrite <- bpow_powerRZ. change (-1073)%Z with (1 + -1074)%Z. rewrite bpow_plus. reflexivity. }
  destruct (expit_core d np_exp x b Hd He Hx HB Hb) as (num & E & N & e & s & EQ & SQ & FN & FE & PE & Pe & AE & BN & Hs & AN & AL).
  rewrite EQ, SQ.
  pose proof uro_pos as Up. pose proof uro_small as Us. pose proof tiny_pos as Tp. pose proof eta_pos as Ep. pose proof tiny_eta as Te.
  assert (Ts : tiny <= uro * / 1152921504606846976) by (pose proof tiny_small as T; rewrite bpow_m60 in T; exact T).
  assert (Tu : tiny <= uro / 100) by lra.
  assert (ID : 0 < / (1 + e) <= 1).
  { split; [apply Rinv_0_lt_compat; lra|]. rewrite <- Rinv_1. apply Rinv_le_contravar; lra. }
  assert (Hse : 0 <= s * e <= e) by (pose proof (prod_bound2 s e e Hs ltac:(lra) ltac:(lra)); split; [apply Rmult_le_pos; lra|lra]).
  assert (Pd0 : 0 <= d * e) by (apply Rmult_le_pos; lra).
  assert (Dse : 0 <= d * (s * e) <= d * e) by (split; [apply Rmult_le_pos; lra|apply Rmult_le_compat_l; lra]).
  assert (De : d * e <= d * 1) by (apply Rmult_le_compat_l; lra).
  assert (Pq : 0 <= Rabs N / (1 + e)) by (apply Rmult_le_pos; [apply Rabs_pos|lra]).
  assert (Bq : Rabs N / (1 + e) <= 1).
  { apply Rle_trans with (1 * 1); [|lra]. apply Rmult_le_compat; try lra. apply Rabs_pos. }
  assert (Qd : d * (Rabs N / (1 + e)) <= d * 1) by (apply Rmult_le_compat_l; lra).
  assert (Qd0 : 0 <= d * (Rabs N / (1 + e))) by (apply Rmult_le_pos; lra).
  assert (Qu : uro * (Rabs N / (1 + e)) <= uro * 1) by (apply Rmult_le_compat_l; lra).
  assert (Qu0 : 0 <= uro * (Rabs N / (1 + e))) by (apply Rmult_le_pos; lra).
  destruct (expit_tail d num E N e (d * (s * e) + 31 / 10 * uro) Hd FN FE PE Pe AE AN BN ltac:(lra)) as [FW AW].
  split; [exact FW|]. split.
  - eapply Rle_trans; [exact AW|].
    assert (M1 : 102 / 100 * (d * (s * e) + 31 / 10 * uro) / (1 + e) <= 102 / 100 * (d * e + 31 / 10 * uro) * / (1 + e)) by (apply Rmult_le_compat_r; lra).
    assert (M2 : e * / (1 + e) <= 1 / 2).
    { apply Rmult_le_reg_r with (1 + e); [lra|]. rewrite Rmult_assoc, Rinv_l by lra. lra. }
    assert (M3 : 31 / 10 * uro * / (1 + e) <= 31 / 10 * uro * 1) by (apply Rmult_le_compat_l; lra).
    assert (M4 : d * (e * / (1 + e)) <= d * (1 / 2)) by (apply Rmult_le_compat_l; lra).
    lra.
  - intros Z. specialize (AL Z).
    assert (NB : d * Rabs N <= d * 1) by (apply Rmult_le_compat_l; lra).
    assert (NB0 : 0 <= d * Rabs N) by (apply Rmult_le_pos; [lra|apply Rabs_pos]).
    destruct (expit_tail d num E N e (d * Rabs N + tiny) Hd FN FE PE Pe AE AL BN ltac:(lra)) as [_ AW2].
    eapply Rle_trans; [exact AW2|].
    assert (Eq : Rabs (N / (1 + e)) = Rabs N / (1 + e)) by (unfold Rdiv; rewrite Rabs_mult, (Rabs_pos_eq (/ (1 + e))) by lra; reflexivity).
    rewrite Eq.
    replace (102 / 100 * (d * Rabs N + tiny) / (1 + e)) with (102 / 100 * (d * (Rabs N / (1 + e))) + 102 / 100 * (tiny * / (1 + e))) by (field; lra).
    assert (M3 : tiny * / (1 + e) <= tiny * 1) by (apply Rmult_le_compat_l; lra).
    lra.
Qed.
