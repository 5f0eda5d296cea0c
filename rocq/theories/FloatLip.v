(** * C137: max_lipschitz of LogLoss and SquareLoss, and get_max_lipschitz, over IEEE binary64 *)
From Coq Require Import Reals Lra Lia List Bool ZArith.
From Coq Require Import Floats.SpecFloat.
From Verif Require Import Num Vec Spec RVec SpecLoss ModelTv ModelLoss ModelMaxLip FloatBase FloatRuns FloatSum FloatSimplex2 FloatSimplex4 FloatNorm FloatGrad FloatGradMain FloatLoss FloatLossMain FloatLossFin FloatValue FloatValueMain FloatValueFin.
From Flocq Require Import Core.Core IEEE754.BinarySingleNaN.
Import ListNotations.
Local Open Scope R_scope.

Lemma npmax_fin (v : list F64) m : Forall fin v -> npmax v = Ok m -> In m v /\ fin m /\ Forall (fun t => fv t <= fv m) v.
Proof.
  destruct v as [|x v]; [discriminate|]. intros Fv H. apply Ok_inj in H. subst m. pose proof (Forall_inv Fv) as Fx. apply Forall_inv_tail in Fv.
  revert x Fx. induction Fv as [|y v Fy Fv IH]; intros x Fx; cbn [fold_left].
  - split; [left; reflexivity|]. split; [exact Fx|]. constructor; [lra|constructor].
  - rewrite (fin_nisnan x Fx), (fin_nisnan y Fy). change ((x <? y)%num) with (nltb F64 x y). rewrite (ltb_fin x y Fx Fy). unfold Rltb. destruct (Rlt_dec (fv x) (fv y)) as [H|H].
    + destruct (IH y Fy) as (I1 & I2 & I3). split; [right; exact I1|]. split; [exact I2|]. pose proof (Forall_inv I3) as Q. cbn beta in Q. constructor; [lra|exact I3].
    + destruct (IH x Fx) as (I1 & I2 & I3). pose proof (Forall_inv I3) as Q. cbn beta in Q. split; [destruct I1 as [I1|I1]; [left; exact I1|right; right; exact I1]|]. split; [exact I2|]. constructor; [exact Q|]. constructor; [lra|exact (Forall_inv_tail I3)].
Qed.
(** q is 1/4 for LogLoss and get_max_lipschitz, 1 for SquareLoss *)
Definition lip_err (q : R) (alpha : F64) (r : list F64) : R :=
  let X := dot (map fv r) (map fv r) in let C := csr_err (length r) X in
  q * C + 3 * / 2 ^ 53 * (q * (X + C) + Rabs (fv alpha)) + 2 * powerRZ 2 (-1075).
Lemma lip_round (q m al X C p : R) : 0 < q <= 1 -> 0 <= X -> Rabs (m - X) <= C -> repr p -> repr al -> Rabs (p - q * m) <= uro * (q * Rabs m) + eta ->
  Rabs (rnd (p + al) - (q * X + al)) <= q * C + 3 * uro * (q * (X + C) + Rabs al) + 2 * eta.
Proof.
  intros Hq PX Hm Rp Ra Hp. pose proof uro_pos as U. pose proof eta_pos as H0. assert (U1 : uro <= / 1000) by (rewrite uro_val; lra). pose proof (Rabs_pos al) as Pa.
  assert (Bm : Rabs m <= X + C) by (replace m with (X + (m - X)) by ring; eapply Rle_trans; [apply Rabs_triang|]; rewrite (Rabs_pos_eq X PX); lra).
  set (Y := q * (X + C)) in *. assert (BY : q * Rabs m <= Y) by (apply Rmult_le_compat_l; lra). assert (PY : 0 <= q * Rabs m) by (apply Rmult_le_pos; [lra|apply Rabs_pos]).
  assert (M1 : uro * (q * Rabs m) <= uro * Y) by (apply Rmult_le_compat_l; lra). assert (M2 : uro * Y <= / 1000 * Y) by (apply Rmult_le_compat_r; lra).
  assert (Bp : Rabs p <= Y + (/ 1000 * Y + eta)).
  { replace p with (q * m + (p - q * m)) by ring. eapply Rle_trans; [apply Rabs_triang|]. rewrite Rabs_mult, (Rabs_pos_eq q) by lra. lra. }
  pose proof (rnd_add_err p al Rp Ra) as R1.
  assert (M3 : uro * Rabs (p + al) <= uro * (Y + Rabs al) + uro * (/ 1000 * Y) + uro * eta).
  { rewrite <- !Rmult_plus_distr_l. apply Rmult_le_compat_l; [lra|]. eapply Rle_trans; [apply Rabs_triang|]. lra. }
  assert (M4 : uro * eta <= / 1000 * eta) by (apply Rmult_le_compat_r; lra). assert (M5 : 0 <= uro * Rabs al) by (apply Rmult_le_pos; lra). assert (M6 : 0 <= uro * Y) by (apply Rmult_le_pos; lra).
  assert (B4 : Rabs (q * (m - X)) <= q * C) by (rewrite Rabs_mult, (Rabs_pos_eq q) by lra; apply Rmult_le_compat_l; lra).
  replace (rnd (p + al) - (q * X + al)) with ((rnd (p + al) - (p + al)) + ((p - q * m) + q * (m - X))) by ring.
  eapply Rle_trans; [apply Rabs_triang|]. eapply Rle_trans; [apply Rplus_le_compat_l, Rabs_triang|].
  replace (3 * uro * (Y + Rabs al)) with (3 * (uro * Y) + 3 * (uro * Rabs al)) by ring. rewrite Rmult_plus_distr_l in M3. lra.
Qed.
(** the value computed from one squared norm *)
Lemma lip_row (q : R) (f : R -> R) (alpha : F64) (r : list F64) : 0 < q <= 1 -> (forall m, repr m -> repr (f m) /\ Rabs (f m - q * m) <= uro * (q * Rabs m) + eta) ->
  Forall fin r -> fin (vdot (K:=F64) r r) -> fin alpha ->
  Rabs (rnd (f (fv (vdot (K:=F64) r r)) + fv alpha) - (q * dot (map fv r) (map fv r) + fv alpha)) <= lip_err q alpha r.
Proof.
  intros Hq Hf Fr Fd Fa. pose proof (dot_err r (length r) (sqs r) Fr (le_n _) (Rle_refl _) Fd) as E. rewrite sqs_dot in E.
  assert (PX : 0 <= dot (map fv r) (map fv r)) by (rewrite <- sqs_dot; apply sqs_pos). destruct (Hf _ (fin_repr _ Fd)) as [R1 R2].
  unfold lip_err. cbv zeta. rewrite <- uro_pow, <- eta_pow. exact (lip_round q _ _ _ _ _ Hq PX E R1 (fin_repr _ Fa) R2).
Qed.
Lemma lip_all (q : R) (f : R -> R) (alpha : F64) (rows : list (list F64)) (m : F64) : 0 < q <= 1 -> (forall m, repr m -> repr (f m) /\ Rabs (f m - q * m) <= uro * (q * Rabs m) + eta) -> (forall a b, a <= b -> f a <= f b) ->
  Forall (Forall fin) rows -> Forall (fun r => fin (vdot (K:=F64) r r)) rows -> fin alpha -> npmax (map (fun r => vdot (K:=F64) r r) rows) = Ok m ->
  let v := rnd (f (fv m) + fv alpha) in
  (forall r, In r rows -> q * dot (map fv r) (map fv r) + fv alpha <= v + lip_err q alpha r) /\
  exists r, In r rows /\ Rabs (v - (q * dot (map fv r) (map fv r) + fv alpha)) <= lip_err q alpha r.
Proof.
  intros Hq Hf Mf FR FD Fa Hm v. assert (FD' : Forall fin (map (fun r => vdot (K:=F64) r r) rows)) by (apply Forall_map; exact FD).
  destruct (npmax_fin _ _ FD' Hm) as (I1 & I2 & I3). rewrite Forall_forall in FR, FD, I3. split.
  - intros r Hr. pose proof (lip_row q f alpha r Hq Hf (FR r Hr) (FD r Hr) Fa) as E.
    assert (Q : fv (vdot (K:=F64) r r) <= fv m) by (apply I3, in_map_iff; exists r; split; [reflexivity|exact Hr]).
    assert (V : rnd (f (fv (vdot (K:=F64) r r)) + fv alpha) <= v) by (apply rnd_le; pose proof (Mf _ _ Q); lra). apply Rabs_le_inv in E. lra.
  - apply in_map_iff in I1. destruct I1 as (r & <- & Hr). exists r. split; [exact Hr|]. exact (lip_row q f alpha r Hq Hf (FR r Hr) (FD r Hr) Fa).
Qed.
Lemma quarter_fin : fin (nlit (K:=F64) 1 4) /\ fv (nlit (K:=F64) 1 4) = / 4.
Proof. split; [apply fin_c; vm_compute; reflexivity|]. unfold fv. change (nlit (K:=F64) 1 4) with (S754_finite false 4503599627370496 (-54)). unfold SF2R, F2R. simpl. lra. Qed.

Lemma main_C137_log_partial : forall (A : matrix F64) (alpha L : F64), Forall (Forall fin) (m_rows A) -> Forall (fun r => fin (vdot (K:=F64) r r)) (m_rows A) -> fin alpha ->
  log_max_lipschitz A alpha = Ok L -> get_max_lipschitz A NLogloss alpha = Ok L /\
  (fin L -> (forall r, In r (m_rows A) -> / 4 * dot (map fv r) (map fv r) + fv alpha <= fv L + lip_err (/ 4) alpha r) /\
    exists r, In r (m_rows A) /\ Rabs (fv L - (/ 4 * dot (map fv r) (map fv r) + fv alpha)) <= lip_err (/ 4) alpha r).
Proof.
  intros A alpha L FR FD Fa H. split; [exact H|]. unfold log_max_lipschitz in H. destruct (npmax _) as [m|] eqn:Hm in H; [|discriminate]. cbn [bind] in H. apply Ok_inj in H. subst L.
  intros FL. destruct quarter_fin as [Fq Vq]. assert (FD' : Forall fin (map (fun r => vdot (K:=F64) r r) (m_rows A))) by (apply Forall_map; exact FD).
  destruct (npmax_fin _ _ FD' Hm) as (_ & Fm & _). assert (Dq := mul_datum _ _ (fin_datum _ Fq) (fin_datum _ Fm)).
  destruct (add_val _ _ Dq (fin_datum _ Fa) FL) as (F1 & _ & ->). destruct (mul_val _ _ (fin_datum _ Fq) (fin_datum _ Fm) F1) as (_ & _ & ->). rewrite Vq.
  apply (lip_all (/ 4) (fun t => rnd (/ 4 * t)) alpha (m_rows A) m); try assumption; [lra| |].
  - intros t _. split; [apply repr_rnd|]. pose proof (rnd_err (/ 4 * t)) as E. rewrite Rabs_mult, (Rabs_pos_eq (/ 4)) in E by lra. exact E.
  - intros a b Hab. apply rnd_le. lra.
Qed.
Lemma main_C137_square_partial : forall (A : matrix F64) (alpha L : F64), Forall (Forall fin) (m_rows A) -> Forall (fun r => fin (vdot (K:=F64) r r)) (m_rows A) -> fin alpha ->
  sq_max_lipschitz A alpha = Ok L ->
  fin L -> (forall r, In r (m_rows A) -> dot (map fv r) (map fv r) + fv alpha <= fv L + lip_err 1 alpha r) /\
    exists r, In r (m_rows A) /\ Rabs (fv L - (dot (map fv r) (map fv r) + fv alpha)) <= lip_err 1 alpha r.
Proof.
  intros A alpha L FR FD Fa H. unfold sq_max_lipschitz in H. destruct (npmax _) as [m|] eqn:Hm in H; [|discriminate]. cbn [bind] in H. apply Ok_inj in H. subst L.
  intros FL. assert (FD' : Forall fin (map (fun r => vdot (K:=F64) r r) (m_rows A))) by (apply Forall_map; exact FD).
  destruct (npmax_fin _ _ FD' Hm) as (_ & Fm & _).
  destruct (add_val _ _ (fin_datum _ Fm) (fin_datum _ Fa) FL) as (_ & _ & ->).
  destruct (lip_all 1 (fun t => t) alpha (m_rows A) m ltac:(lra)) as [P1 (r & Hr & P2)]; try assumption.
  - intros t Rt. split; [exact Rt|]. replace (t - 1 * t) with 0 by ring. rewrite Rabs_R0. pose proof uro_pos. pose proof eta_pos. pose proof (Rabs_pos t). assert (0 <= uro * (1 * Rabs t)) by (apply Rmult_le_pos; lra). lra.
  - intros a b Hab. exact Hab.
  - split; [intros s Hs; pose proof (P1 s Hs); lra|]. exists r. split; [exact Hr|]. rewrite Rmult_1_l in P2. exact P2.
Qed.
(** the computed constants can be below the exact ones: by rounding (a row (1 + 2^-52)), and 0 by underflow (a row (2^-600)) *)
Definition one_up : F64 := S754_finite false 4503599627370497 (-52).
Definition minus600 : F64 := S754_finite false 4503599627370496 (-652).
Lemma one_up_v : fin one_up /\ fv one_up = 1 + / 4503599627370496.
Proof. split; [repeat constructor|]. unfold fv, one_up, SF2R, F2R. simpl. lra. Qed.
Lemma minus600_v : fin minus600 /\ 0 < fv minus600.
Proof. split; [repeat constructor|]. unfold fv, minus600, SF2R. apply F2R_gt_0. reflexivity. Qed.
Lemma main_C137_refuted : exists (A B : matrix F64) (alpha L L' L0 L0' : F64) (r s : list F64), In r (m_rows A) /\ In s (m_rows B) /\ Forall (Forall fin) (m_rows A) /\ Forall (Forall fin) (m_rows B) /\ fin alpha /\ 0 <= fv alpha /\
  log_max_lipschitz A alpha = Ok L /\ get_max_lipschitz A NLogloss alpha = Ok L /\ fin L /\ fv L < / 4 * dot (map fv r) (map fv r) + fv alpha /\
  sq_max_lipschitz A alpha = Ok L' /\ fin L' /\ fv L' < dot (map fv r) (map fv r) + fv alpha /\
  log_max_lipschitz B alpha = Ok L0 /\ sq_max_lipschitz B alpha = Ok L0' /\ fv L0 = 0 /\ fv L0' = 0 /\ 0 < dot (map fv s) (map fv s).
Proof.
  destruct one_up_v as [F1 V1]. destruct minus600_v as [F2 V2].
  exists (mkMat [[one_up]] 1), (mkMat [[minus600]] 1), n0, (S754_finite false 4503599627370498 (-54)), (S754_finite false 4503599627370498 (-52)), (S754_zero false), (S754_zero false), [one_up], [minus600].
  split; [left; reflexivity|]. split; [left; reflexivity|]. split; [repeat constructor|]. split; [repeat constructor|]. split; [apply fin_0|]. rewrite fv_0. split; [lra|].
  split; [vm_compute; reflexivity|]. split; [vm_compute; reflexivity|]. split; [repeat constructor|]. cbn [map dot]. rewrite V1.
  split; [unfold fv, SF2R, F2R; simpl; lra|]. split; [vm_compute; reflexivity|]. split; [repeat constructor|]. split; [unfold fv, SF2R, F2R; simpl; lra|].
  split; [vm_compute; reflexivity|]. split; [vm_compute; reflexivity|]. split; [reflexivity|]. split; [reflexivity|].
  assert (0 < fv minus600 * fv minus600) by (apply Rmult_lt_0_compat; exact V2). change (0 < fv minus600 * fv minus600 + 0). lra.
Qed.
Lemma run_C137 : let A := mkMat [[n1 (n:=F64); n0]; [n1; nofZ F64 (-2)]] 2 in
  Forall (Forall fin) (m_rows A) /\ Forall (fun r => fin (vdot (K:=F64) r r)) (m_rows A) /\ fin (n1 (n:=F64)) /\
  log_max_lipschitz A n1 = Ok (nlit 9 4) /\ sq_max_lipschitz A n1 = Ok (nofZ F64 6) /\ fin (nlit (K:=F64) 9 4) /\ fin (nofZ F64 6).
Proof.
  cbv zeta. split; [repeat constructor|]. split; [repeat constructor|]. split; [apply fin_1|]. split; [vm_compute; reflexivity|]. split; [vm_compute; reflexivity|]. split; repeat constructor.
Qed.
