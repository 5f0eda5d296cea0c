(** * Proofs for C136: the value of HuberLoss over IEEE binary64 *)
From Coq Require Import Reals Lra Lia List Bool ZArith.
From Coq Require Import Floats.SpecFloat.
From Verif Require Import Num Vec Spec RVec SpecLoss LossScalar ModelTv ModelLoss LossFacts FloatBase FloatRuns FloatSum FloatSimplex2 FloatSimplex4 FloatLogistic FloatLogistic2 FloatNorm FloatGrad FloatGradMain FloatLoss FloatLossMain FloatValue FloatValueMain.
From Flocq Require Import Core.Core IEEE754.BinarySingleNaN.
Import ListNotations.
Local Open Scope R_scope.

Lemma prod_facc {K : Num} (c : K) (h : K -> K) : forall (l : list K) (a : K), fold_left (nadd K) (map (fun t => nmul K c (h t)) l) a = facc (map (fun t => (c, h t)) l) a.
Proof. induction l as [|t l IH]; intros a; [reflexivity|]. cbn [map fold_left facc]. apply IH. Qed.
Definition lin_part (delta : R) (z : list F64) : R := Rsum (map (fun t => delta * (Rabs (fv t) - / 2 * delta)) z).
(** the two masked sums together are the sum of the sample losses at the computed residuals *)
Lemma hub_split (delta : F64) : fin delta -> 0 < fv delta -> forall z : list F64, Forall fin z ->
  / 2 * sqs (mask (hidx delta z) z) + lin_part (fv delta) (mask (map negb (hidx delta z)) z) = Rsum (map (fun t => huber (fv delta) (fv t)) z) /\
  Forall (fun t => fv delta <= Rabs (fv t)) (mask (map negb (hidx delta z)) z).
Proof.
  intros Fd Pd. unfold hidx, lin_part. induction z as [|t z IH]; intros Fz; [cbn; split; [unfold sqs; cbn; lra|constructor]|].
  destruct (IH (Forall_inv_tail Fz)) as [I1 I2]. clear IH. pose proof (Forall_inv Fz) as Ft. cbn [map mask].
  destruct (abs_fin t Ft) as [Fa Va]. rewrite (ltb_fin _ _ Fa Fd), Va. destruct (Rltb_spec (Rabs (fv t)) (fv delta)) as [H|H]; cbn [negb map Rsum].
  - split; [|exact I2]. rewrite <- I1. unfold sqs at 1. cbn [map Rsum]. fold (sqs (mask (map (fun t0 : F64 => nltb F64 (nabs F64 t0) delta) z) z)).
    unfold huber. destruct (Rle_dec _ _) as [Q|Q]; [|exfalso; apply Q; lra]. lra.
  - split; [|constructor; [lra|exact I2]]. rewrite <- I1. unfold huber. destruct (Rle_dec _ _) as [Q|Q]; [|lra].
    assert (E : Rabs (fv t) = fv delta) by lra. rewrite E. assert (E2 : fv t * fv t = fv delta * fv delta) by (rewrite <- E; unfold Rabs; destruct (Rcase_abs _); ring). rewrite E2. field_simplify. lra.
Qed.
Lemma lin_part_pos (delta : R) (z : list F64) : 0 < delta -> Forall (fun t => delta <= Rabs (fv t)) z -> 0 <= lin_part delta z.
Proof.
  intros Pd H. unfold lin_part. induction H as [|t z Ht _ IH]; cbn [map Rsum]; [lra|]. assert (0 <= delta * (Rabs (fv t) - / 2 * delta)) by (apply Rmult_le_pos; lra). lra.
Qed.
(** one linear term: |t| - 0.5 delta, rounded twice *)
Definition lin (delta t : F64) : F64 := nsub F64 (nabs F64 t) (nmul F64 (nlit 1 2) delta).
Lemma half_delta (delta : F64) : fin delta -> 0 < fv delta -> fin (nmul F64 (nlit 1 2) delta) /\ Rabs (fv (nmul F64 (nlit 1 2) delta) - / 2 * fv delta) <= uro * (/ 2 * fv delta) + eta /\ 0 <= fv (nmul F64 (nlit 1 2) delta) <= fv delta.
Proof.
  intros Fd Pd. destruct half_fin as [Fh Vh].
  assert (R1 : 0 <= rnd (/ 2 * fv delta) <= fv delta) by (split; [rewrite <- rnd_0; apply rnd_le; lra|apply rnd_le_repr; [apply fin_repr, Fd|lra]]).
  destruct (mul_fin _ _ Fh Fd) as [F V]; [rewrite Vh, (Rabs_pos_eq (rnd _)) by apply R1; eapply Rle_lt_trans; [apply R1|]; apply Rle_lt_trans with (Rabs (fv delta)); [apply Rle_abs|apply fin_small, Fd]|].
  rewrite Vh in V. split; [exact F|]. rewrite V. split; [|exact R1]. pose proof (rnd_err (/ 2 * fv delta)) as E. rewrite (Rabs_pos_eq (/ 2 * fv delta)) in E by lra. exact E.
Qed.
Lemma lin_ok (delta t : F64) : fin delta -> 0 < fv delta -> fin t -> fv delta <= Rabs (fv t) ->
  fin (lin delta t) /\ 0 <= fv (lin delta t) /\ Rabs (fv (lin delta t) - (Rabs (fv t) - / 2 * fv delta)) <= 4 * uro * (Rabs (fv t) - / 2 * fv delta) + 2 * eta.
Proof.
  intros Fd Pd Ft Ht. destruct (half_delta delta Fd Pd) as (Fh & Eh & Bh). destruct (abs_fin t Ft) as [Fa Va]. unfold lin. set (hd := nmul F64 (nlit 1 2) delta) in *.
  assert (R1 : 0 <= rnd (fv (nabs F64 t) - fv hd) <= Rabs (fv t)) by (rewrite Va; split; [rewrite <- rnd_0; apply rnd_le; lra|apply rnd_le_repr; [rewrite <- Va; apply fin_repr, Fa|lra]]).
  destruct (sub_fin _ _ Fa Fh) as [F V]; [rewrite (Rabs_pos_eq (rnd _)) by apply R1; eapply Rle_lt_trans; [apply R1|]; apply fin_small, Ft|].
  split; [exact F|]. rewrite V. split; [apply R1|]. pose proof (rnd_sub_err _ _ (fin_repr _ Fa) (fin_repr _ Fh)) as E. rewrite Va in *. rewrite (Rabs_pos_eq (Rabs (fv t) - fv hd)) in E by lra.
  pose proof uro_pos as U. pose proof eta_pos as H0. assert (U1 : uro <= / 1000) by (rewrite uro_val; lra).
  set (g := Rabs (fv t) - / 2 * fv delta) in *. assert (G : / 2 * fv delta <= g) by (unfold g; lra). set (w := Rabs (fv t) - fv hd) in *.
  assert (M0 : uro * (/ 2 * fv delta) <= uro * g) by (apply Rmult_le_compat_l; lra).
  assert (Ew : Rabs (w - g) <= uro * g + eta) by (replace (w - g) with (- (fv hd - / 2 * fv delta)) by (unfold w, g; ring); rewrite Rabs_Ropp; lra).
  assert (G0 : 0 <= g) by lra. assert (Q : 0 <= uro * g) by (apply Rmult_le_pos; lra).
  assert (Bw : w <= g + uro * g + eta) by (apply Rabs_le_inv in Ew; lra).
  assert (M1 : uro * w <= uro * g + uro * (uro * g) + uro * eta) by (rewrite <- !Rmult_plus_distr_l; apply Rmult_le_compat_l; lra).
  assert (M2 : uro * (uro * g) <= / 1000 * (uro * g)) by (apply Rmult_le_compat_r; lra). assert (M3 : uro * eta <= / 1000 * eta) by (apply Rmult_le_compat_r; lra).
  replace (rnd w - g) with ((rnd w - w) + (w - g)) by ring. eapply Rle_trans; [apply Rabs_triang|]. lra.
Qed.
(** all the linear terms *)
Lemma lin_sum (delta : F64) : fin delta -> 0 < fv delta -> forall z : list F64, Forall fin z -> Forall (fun t => fv delta <= Rabs (fv t)) z ->
  let l := map (fun t => (delta, lin delta t)) z in
  Forall (fun pq : F64 * F64 => fin (fst pq) /\ fin (snd pq)) l /\ length l = length z /\
  Rsum (map (fun pq : F64 * F64 => Rabs (fv (fst pq) * fv (snd pq))) l) = Rsum (map (fun pq : F64 * F64 => fv (fst pq) * fv (snd pq)) l) /\
  Rabs (Rsum (map (fun pq : F64 * F64 => fv (fst pq) * fv (snd pq)) l) - lin_part (fv delta) z) <= 4 * uro * lin_part (fv delta) z + 2 * INR (length z) * fv delta * eta.
Proof.
  intros Fd Pd. unfold lin_part. cbv zeta. induction z as [|t z IH]; intros Fz Hz.
  - cbn. rewrite Rminus_0_r, Rabs_R0. repeat split; try constructor; lra.
  - destruct (IH (Forall_inv_tail Fz) (Forall_inv_tail Hz)) as (I1 & I2 & I3 & I4). clear IH. destruct (lin_ok delta t Fd Pd (Forall_inv Fz) (Forall_inv Hz)) as (F & P & E).
    cbn [map Rsum fst snd length]. rewrite I3, I2. split; [constructor; [split; [exact Fd|exact F]|exact I1]|]. split; [reflexivity|].
    split; [f_equal; apply Rabs_pos_eq, Rmult_le_pos; lra|]. rewrite S_INR. set (g := Rabs (fv t) - / 2 * fv delta) in *. set (v := fv (lin delta t)) in *.
    match goal with |- Rabs (?p + ?q - (?u + ?w)) <= _ => replace (p + q - (u + w)) with (fv delta * (v - g) + (q - w)) by ring end.
    eapply Rle_trans; [apply Rabs_triang|]. rewrite Rabs_mult, (Rabs_right (fv delta)) by lra.
    assert (fv delta * Rabs (v - g) <= fv delta * (4 * uro * g + 2 * eta)) by (apply Rmult_le_compat_l; lra). lra.
Qed.
Lemma main_C136_huber : forall (A : matrix F64) (b : list F64) (alpha delta : F64) (x ax z : list F64),
  Forall (fun r => length r = m_cols A) (m_rows A) -> length b = length (m_rows A) -> b <> [] -> (Z.of_nat (length b) < 2 ^ 53)%Z ->
  Forall (Forall fin) (m_rows A) -> Forall fin b -> Forall fin x -> fin alpha -> fin delta -> 0 < fv delta ->
  mat_dot A x = Ok ax -> np_sub ax b = Ok z -> Forall fin z ->
  exists (L : F64) (g : list F64), hub_call A b alpha delta x = Ok (RLoss L) /\ hub_f_grad A b alpha delta x true = Ok (RPair L g) /\
    (fin L -> Rabs (fv L - ridge (fv alpha) (mean_loss (hub_term (fv delta)) (map (map fv) (m_rows A)) (map fv b)) (map fv x)) <= hub_val_err alpha delta x (m_rows A) b).
Proof.
  intros A b alpha delta x ax z HR Lb Nb Hbig FR Fb Fx Fa Fd Pd Hz Hs Fz.
  assert (Lz0 : length z = n_samples A).
  { destruct (resid_of A b x ax z Lb Hz Hs) as [_ ->]. rewrite map2_length, map_length. unfold n_samples. change (@length (vec F64) (m_rows A)) with (length (m_rows A)) in *. lia. }
  unfold hub_call, hub_f_grad. rewrite Hz. cbn [bind]. rewrite Hs. cbn [bind negb]. rewrite <- Lz0, Nat.eqb_refl. cbn [negb].
  eexists. eexists. split; [reflexivity|]. split; [reflexivity|]. clear Lz0.
  destruct (resid_of A b x ax z Lb Hz Hs) as [Lx Ez].
  assert (HRx : Forall (fun r : list F64 => length r = length x) (m_rows A)) by (eapply Forall_impl; [|exact HR]; intros r Hr; exact (eq_trans Hr (eq_sym Lx))).
  assert (Hm : forall r e y : R, Rabs (y - r) <= e -> Rabs (huber (fv delta) y - huber (fv delta) r) <= fv delta * e).
  { intros r e y Hy. eapply Rle_trans; [apply huber_lip, Pd|]. apply Rmult_le_compat_l; lra. }
  pose proof (val_samples (huber (fv delta)) (fun _ e => fv delta * e) x Hm Fx (m_rows A) b Lb HRx FR Fb ltac:(rewrite <- Ez; exact Fz)) as VS. rewrite <- Ez in VS.
  assert (Lz : length z = length b) by (rewrite Ez, map2_length, map_length; change (@length (vec F64) (m_rows A)) with (length (m_rows A)) in *; lia).
  destruct (hub_split delta Fd Pd z Fz) as [HS HB]. fold (hidx delta z). set (z1 := mask (hidx delta z) z) in *. set (z2 := mask (map negb (hidx delta z)) z) in *.
  assert (Fz1 : Forall fin z1) by (apply mask_Forall, Fz). assert (Fz2 : Forall fin z2) by (apply mask_Forall, Fz).
  assert (L1 : (length z1 <= length b)%nat) by (rewrite <- Lz; apply mask_le). assert (L2 : (length z2 <= length b)%nat) by (rewrite <- Lz; apply mask_le).
  change (vsum (vmul z1 z1)) with (vdot z1 z1). assert (SF : vsum (map (fun t : F64 => nmul F64 delta (nsub F64 (nabs F64 t) (nmul F64 (nlit 1 2) delta))) z2) = facc (map (fun t => (delta, lin delta t)) z2) n0) by apply (prod_facc delta (lin delta)). rewrite SF, Lz. clear SF.
  destruct (lin_sum delta Fd Pd z2 Fz2 HB) as (K1 & K2 & K3 & K4). set (l := map (fun t => (delta, lin delta t)) z2) in *.
  destruct (nofnat_fin (length b) Hbig) as [Fn Vn]. destruct half_fin as [Fh Vh].
  assert (N1 : 1 <= INR (length b)) by (destruct b; [congruence|]; cbn [length]; rewrite S_INR; pose proof (pos_INR (length b)); lra).
  assert (D1 : datum (vdot z1 z1)) by (apply vdot_datum; apply fin_data, Fz1). assert (D2 : datum (facc l n0)) by (apply facc_datum, K1). assert (Dx : datum (vdot x x)) by (apply vdot_datum; apply fin_data, Fx).
  assert (Dh := fin_datum _ Fh). assert (Da := fin_datum _ Fa). assert (D3 := mul_datum _ _ Dh D1). assert (D4 := add_datum _ _ D3 D2). assert (D5 := div_datum _ _ D4 (fin_datum _ Fn)). assert (D6 := mul_datum _ _ Dh Da). assert (D7 := mul_datum _ _ D6 Dx).
  intros FL. destruct (add_val _ _ D5 D7 FL) as (F1 & F2 & V). rewrite V. clear V FL.
  destruct (div_val _ _ D4 Fn ltac:(rewrite Vn; lra) F1) as (F3 & ->). destruct (add_val _ _ D3 D2 F3) as (F4 & F5 & ->). destruct (mul_val _ _ Dh D1 F4) as (_ & F6 & ->).
  destruct (mul_val _ _ D6 Dx F2) as (F7 & F8 & ->). destruct (mul_val _ _ Dh Da F7) as (_ & _ & ->). rewrite Vh, Vn.
  pose proof (hub_round (fv (vdot z1 z1)) (fv (facc l n0)) (fv alpha) (fv (vdot x x)) (INR (length b)) N1) as RR.
  unfold ridge. rewrite (exact_loss (huber (fv delta)) x (m_rows A) b Lb : mean_loss (hub_term (fv delta)) _ _ _ = _). unfold hub_val_err, loss_val_err. 
  set (N := sum_bound _ _ x (m_rows A) b) in *. rewrite <- (sqs_dot x) in *. try rewrite <- (Lb : length b = @length (list F64) (m_rows A)) in *. try rewrite <- (Lb : length b = @length (vec F64) (m_rows A)) in *. rewrite <- uro_pow, <- eta_pow.
  pose proof (sqs_pos z1) as P1. pose proof (lin_part_pos _ z2 Pd HB) as P2. pose proof uro_pos as U. pose proof eta_pos as H0.
  assert (TN : / 2 * sqs z1 + lin_part (fv delta) z2 <= N) by (rewrite HS; unfold N, sum_bound; apply Rabs_le_inv in VS; lra).
  set (t := 2 * INR (length b) * fv delta * eta). assert (T0 : 0 <= t) by (unfold t; repeat apply Rmult_le_pos; lra).
  pose proof (dot_err x (length x) (sqs x) Fx (le_n _) (Rle_refl _) F8) as E2.
  pose proof (dot_err z1 (length b) (2 * N + t) Fz1 L1 ltac:(lra) F6) as E1. set (C := csr_err (length b) (2 * N + t)) in *.
  assert (K4' : Rabs (Rsum (map (fun pq : F64 * F64 => fv (fst pq) * fv (snd pq)) l) - lin_part (fv delta) z2) <= 4 * uro * N + t).
  { eapply Rle_trans; [exact K4|]. apply Rplus_le_compat; [apply Rmult_le_compat_l; lra|]. unfold t. apply Rmult_le_compat_r; [lra|]. apply Rmult_le_compat_r; [lra|]. apply le_INR in L2. lra. }
  set (W := Rsum (map (fun pq : F64 * F64 => fv (fst pq) * fv (snd pq)) l)) in *.
  assert (U1 : 4 * uro <= / 8) by (rewrite uro_val; lra). assert (UN : 4 * uro * N <= / 8 * N) by (apply Rmult_le_compat_r; lra).
  assert (W0 : 0 <= W) by (rewrite <- K3; apply sum_abs_ge0).
  assert (WN : W <= 2 * N + t) by (apply Rabs_le_inv in K4'; lra).
  pose proof (facc_err0 l (fin_pairs_datum _ K1) F5) as E3. rewrite K3 in E3. fold W in E3.
  assert (E3' : Rabs (fv (facc l n0) - W) <= C) by (eapply Rle_trans; [exact E3|]; apply csr_mono; [lia|lra]).
  assert (C0 : 0 <= C) by (pose proof (Rabs_pos (fv (facc l n0) - W)); lra).
  set (s1 := fv (vdot z1 z1)) in *. set (s2 := fv (facc l n0)) in *. set (Q1 := sqs z1) in *. set (Q2 := lin_part (fv delta) z2) in *.
  apply (val_comb _ (/ 2 * s1 + s2) (/ 2 * Rabs s1 + Rabs s2) (/ 2 * Q1 + Q2) _ (fv (vdot x x))); try assumption; try lra.
  - replace (/ 2 * s1 + s2 - (/ 2 * Q1 + Q2)) with (/ 2 * (s1 - Q1) + ((s2 - W) + (W - Q2))) by ring. eapply Rle_trans; [apply Rabs_triang|]. eapply Rle_trans; [apply Rplus_le_compat_l, Rabs_triang|].
    rewrite Rabs_mult, (Rabs_right (/ 2)) by lra. lra.
  - rewrite HS. exact VS.
  - assert (Rabs s1 <= Q1 + C) by (replace s1 with (Q1 + (s1 - Q1)) by ring; eapply Rle_trans; [apply Rabs_triang|]; rewrite (Rabs_pos_eq Q1) by exact P1; lra).
    assert (Rabs s2 <= Q2 + (4 * uro * N + t) + C) by (replace s2 with (Q2 + (W - Q2) + (s2 - W)) by ring; eapply Rle_trans; [apply Rabs_triang|]; pose proof (Rabs_triang Q2 (W - Q2)); rewrite (Rabs_pos_eq Q2) in * by exact P2; lra). lra.
  - apply sqs_pos.
Qed.
