(** * C134: the computed gradients of SquareLoss and HuberLoss are finite; runs *)
From Coq Require Import Reals Lra Lia List Bool ZArith.
From Coq Require Import Floats.SpecFloat.
From Verif Require Import Num Vec Spec RVec SpecLoss LossScalar ModelTv ModelLoss LossFacts LossMain ConstraintFacts FloatBase FloatSum FloatSimplex2 FloatSimplex4 FloatLogistic FloatLogistic2 FloatGrad FloatGradMain FloatLoss FloatLossMain.
From Flocq Require Import Core.Core IEEE754.BinarySingleNaN.
Import ListNotations.
Local Open Scope R_scope.

Lemma rnd_pow_le t : Rabs t <= bpow radix2 1020 -> Rabs (rnd t) <= bpow radix2 1020.
Proof.
  intros Ht. rewrite <- rnd_abs. replace (bpow radix2 1020) with (rnd (bpow radix2 1020)); [apply rnd_le, Ht|]. apply round_generic; [typeclasses eauto|]. apply generic_format_bpow. cbn. lia.
Qed.
Lemma quot_ok (s m : F64) : fin s -> fin m -> 1 <= fv m -> Rabs (fv s) <= bpow radix2 1020 -> fin (ndiv F64 s m) /\ Rabs (fv (ndiv F64 s m)) <= bpow radix2 1020.
Proof.
  intros Fs Fm Hm Hs. assert (B : bpow radix2 1020 <= bpow radix2 1023) by (apply bpow_le; lia).
  destruct (quot_fin s m Fs Fm Hm ltac:(lra)) as [F V]. split; [exact F|]. rewrite V. apply rnd_pow_le.
  assert (I : / fv m <= 1) by (rewrite <- Rinv_1; apply Rinv_le_contravar; lra). assert (I0 : 0 < / fv m) by (apply Rinv_0_lt_compat; lra).
  unfold Rdiv. rewrite Rabs_mult, (Rabs_pos_eq (/ fv m)) by lra. apply Rle_trans with (Rabs (fv s) * 1); [apply Rmult_le_compat_l; [apply Rabs_pos|exact I]|]. lra.
Qed.
Definition weighted (z : list F64) (rows : list (list F64)) (j : nat) : R := Rsum (map2 (fun t r => Rabs (fv t) * Rabs (fv (nth j r n0))) z rows).
Lemma weighted_le (phi : F64 -> F64) j : forall (z : list F64) (rows : list (list F64)), (forall t, fin t -> Rabs (fv (phi t)) <= Rabs (fv t)) -> Forall fin z ->
  Rsum (map (fun pq : F64 * F64 => Rabs (fv (fst pq) * fv (snd pq))) (combine (map phi z) (col (K:=F64) j rows))) <= weighted z rows j.
Proof.
  unfold weighted, col. induction z as [|t z IH]; intros [|r rows] Hp Fz; cbn [map map2 combine Rsum fst snd]; try lra.
  specialize (IH rows Hp (Forall_inv_tail Fz)). rewrite Rabs_mult. pose proof (Hp t (Forall_inv Fz)). pose proof (Rabs_pos (fv (nth j r (@n0 F64)))).
  assert (Rabs (fv (phi t)) * Rabs (fv (nth j r (@n0 F64))) <= Rabs (fv t) * Rabs (fv (nth j r (@n0 F64)))) by (apply Rmult_le_compat_r; assumption). lra.
Qed.
Section Fin.
Variables (b x : list F64) (alpha : F64) (j : nat).
Hypothesis Hbig : INR (length b) <= 2 ^ 50.
Hypothesis N1 : 1 <= INR (length b).
Hypothesis Fa : fin alpha.
Hypothesis Fxj : fin (nth j x n0).
Hypothesis Hx : Rabs (fv alpha * fv (nth j x n0)) <= bpow radix2 1000.
Let B1 : 1 <= bpow radix2 1000.
Proof. change 1 with (bpow radix2 0). apply bpow_le. lia. Qed.
Let B2 : bpow radix2 1010 = 1024 * bpow radix2 1000.
Proof. change 1010%Z with (10 + 1000)%Z. rewrite bpow_plus. reflexivity. Qed.
Let B3 : bpow radix2 1020 = 1024 * bpow radix2 1010.
Proof. change 1020%Z with (10 + 1010)%Z. rewrite bpow_plus. reflexivity. Qed.
Let B4 : bpow radix2 1023 = 8 * bpow radix2 1020.
Proof. change 1023%Z with (3 + 1020)%Z. rewrite bpow_plus. reflexivity. Qed.
Lemma n_ok : fin (nofnat (K:=F64) (length b)) /\ fv (nofnat (K:=F64) (length b)) = INR (length b).
Proof.
  apply nofnat_fin. apply lt_IZR. rewrite <- INR_IZR_INZ. change (IZR (2 ^ 53)) with 9007199254740992. clear -Hbig. cbn [pow] in Hbig. lra.
Qed.
Lemma part_fin (l : list (F64 * F64)) : Forall (fun pq : F64 * F64 => fin (fst pq) /\ fin (snd pq)) l -> (length l <= length b)%nat ->
  Rsum (map (fun pq : F64 * F64 => Rabs (fv (fst pq) * fv (snd pq))) l) <= bpow radix2 1000 ->
  fin (ndiv F64 (facc l n0) (nofnat (length b))) /\ Rabs (fv (ndiv F64 (facc l n0) (nofnat (length b)))) <= bpow radix2 1020.
Proof.
  intros Fl Hl Hs. assert (Hl' : INR (length l) <= 2 ^ 50) by (eapply Rle_trans; [apply le_INR, Hl|exact Hbig]).
  destruct (facc_fin l Fl Hl') as [Fs Bs]; [lra|]. destruct n_ok as [Fn Vn]. apply quot_ok; auto; [rewrite Vn; exact N1|]. lra.
Qed.
Lemma ridge_fin : fin (nmul F64 alpha (nth j x n0)) /\ Rabs (fv (nmul F64 alpha (nth j x n0))) <= bpow radix2 1020.
Proof. destruct (mul_fin alpha (nth j x n0) Fa Fxj) as [Fp Vp]; [apply rnd_fits; lra|]. split; [exact Fp|]. rewrite Vp. apply rnd_pow_le. lra. Qed.
Lemma two_fin (p q : F64) : fin p -> fin q -> Rabs (fv p) <= bpow radix2 1020 -> Rabs (fv q) <= bpow radix2 1020 ->
  fin (nadd F64 p q) /\ Rabs (fv (nadd F64 p q)) <= 4 * bpow radix2 1020.
Proof.
  intros Fp Fq Hp Hq. assert (S1 : Rabs (fv p + fv q) <= 2 * bpow radix2 1020) by (eapply Rle_trans; [apply Rabs_triang|]; lra).
  destruct (add_fin p q Fp Fq) as [F V]; [apply rnd_fits; lra|]. split; [exact F|]. rewrite V.
  pose proof (rnd_add_err _ _ (fin_repr _ Fp) (fin_repr _ Fq)) as E. pose proof uro_small as U1. pose proof uro_pos as U0.
  assert (uro * Rabs (fv p + fv q) <= 1 * Rabs (fv p + fv q)) by (apply Rmult_le_compat_r; [apply Rabs_pos|lra]).
  replace (rnd (fv p + fv q)) with ((rnd (fv p + fv q) - (fv p + fv q)) + (fv p + fv q)) by ring. eapply Rle_trans; [apply Rabs_triang|]. lra.
Qed.
Lemma three_fin (p q s : F64) : fin p -> fin q -> fin s -> Rabs (fv p) <= bpow radix2 1020 -> Rabs (fv q) <= bpow radix2 1020 -> Rabs (fv s) <= bpow radix2 1020 ->
  fin (nadd F64 (nadd F64 p q) s).
Proof.
  intros Fp Fq Fs Hp Hq Hs. destruct (two_fin p q Fp Fq Hp Hq) as [F1 H1]. apply add_fin; auto. apply rnd_fits. eapply Rle_trans; [apply Rabs_triang|]. lra.
Qed.
End Fin.
Lemma main_C134_finite : forall (A : matrix F64) (b : list F64) (alpha delta : F64) (x ax z : list F64),
  Forall (fun r => length r = m_cols A) (m_rows A) -> length b = length (m_rows A) -> b <> [] -> INR (length b) <= 2 ^ 50 ->
  Forall (Forall fin) (m_rows A) -> Forall fin b -> Forall fin x -> fin alpha -> fin delta -> 0 < fv delta ->
  mat_dot A x = Ok ax -> np_sub ax b = Ok z -> Forall fin z ->
  exists (L L' : F64) (g g' : list F64), sq_f_grad A b alpha x true = Ok (RPair L g) /\ hub_f_grad A b alpha delta x true = Ok (RPair L' g') /\
    forall j, (j < m_cols A)%nat -> weighted z (m_rows A) j <= powerRZ 2 1000 -> Rabs (fv alpha * fv (nth j x n0)) <= powerRZ 2 1000 ->
      fin (nth j g n0) /\ fin (nth j g' n0).
Proof.
  intros A b alpha delta x ax z HR Lb Nb Hbig FR Fb Fx Fa Fd Pd Hz Hs Fz. destruct (resid_of A b x ax z Lb Hz Hs) as [Lx Ez].
  destruct (sq_grad_nth A b alpha x HR Lx Lb) as (L & g & E1 & E2 & E3). destruct (hub_grad_nth A b alpha delta x HR Lx Lb) as (L' & g' & H1 & H2 & H3).
  exists L, L', g, g'. split; [exact E1|]. split; [exact H1|]. intros j Hj.
  change (powerRZ 2 1000) with (powerRZ (IZR (Zaux.radix_val Zaux.radix2)) 1000). rewrite <- Raux.bpow_powerRZ. intros HC Hx. rewrite (E3 j Hj), (H3 j Hj). unfold resid. rewrite <- Ez.
  assert (Lz : length z = length (m_rows A)) by (rewrite Ez, map2_length, map_length; lia). clear Ez E1 E2 E3 H1 H2 H3 Hz Hs.
  assert (N1 : 1 <= INR (length b)) by (destruct b; [congruence|]; cbn [length]; rewrite S_INR; pose proof (pos_INR (length b)); lra).
  assert (Fxj : fin (nth j x n0)) by (rewrite Forall_forall in Fx; apply Fx, nth_In; exact (eq_ind_r (fun k => (j < k)%nat) Hj Lx)).
  unfold n_samples. rewrite <- Lb. destruct (ridge_fin x alpha j Fa Fxj Hx) as [Fp Bp].
  destruct (hl_fin delta z j (m_rows A) Fd Pd Fz FR) as [F1 F2]. destruct (hl_le delta z j (m_rows A) Lz) as [L1 L2].
  pose proof (hsplit (fun pq : F64 * F64 => Rabs (fv (fst pq) * fv (snd pq))) delta j z (m_rows A) Lz) as S1.
  pose proof (weighted_le (hphi (K:=F64) delta) j z (m_rows A) ltac:(intros t Ft; rewrite (proj2 (hphi_fin delta t Fd Pd Ft)); unfold clip, Rmax, Rmin, Rabs; repeat destruct (Rle_dec _ _); repeat destruct (Rcase_abs _); lra) Fz) as W1.
  pose proof (weighted_le (fun t => t) j z (m_rows A) ltac:(intros; lra) Fz) as W2. rewrite map_id in W2. rewrite <- S1 in W1. clear S1.
  pose proof (sum_abs_ge0 (hl1 delta z j (m_rows A))) as P1. pose proof (sum_abs_ge0 (hl2 delta z j (m_rows A))) as P2.
  split.
  - destruct (part_fin b Hbig N1 (combine z (col (K:=F64) j (m_rows A)))) as [Fq Bq].
    + apply combine_fin; [exact Fz|apply col_datum, FR].
    + rewrite combine_length. eapply Nat.le_trans; [apply Nat.le_min_l|]. rewrite Lz, Lb. apply Nat.le_refl.
    + lra.
    + exact (proj1 (two_fin _ _ Fq Fp Bq Bp)).
  - destruct (part_fin b Hbig N1 _ F1 ltac:(rewrite Lb; exact L1) ltac:(lra)) as [Fq1 Bq1]. destruct (part_fin b Hbig N1 _ F2 ltac:(rewrite Lb; exact L2) ltac:(lra)) as [Fq2 Bq2].
    exact (three_fin _ _ _ Fq1 Fp Fq2 Bq1 Bp Bq2).
Qed.
Lemma run_C134 : let A := mkMat [[n1 (n:=F64)]; [nofZ F64 (-2)]] 1 in let x := [nofZ F64 3] in let b := [n1 (n:=F64); n0] in
  let ax := [nofZ F64 3; nofZ F64 (-6)] in let z := [nofZ F64 2; nofZ F64 (-6)] in
  Forall (fun r => length r = m_cols A) (m_rows A) /\ length b = length (m_rows A) /\ b <> [] /\ (Z.of_nat (length b) < 2 ^ 53)%Z /\ INR (length b) <= 2 ^ 50 /\
  Forall (Forall fin) (m_rows A) /\ Forall fin b /\ Forall fin x /\ fin (n1 (n:=F64)) /\ fin (nofZ F64 4) /\ 0 < fv (nofZ F64 4) /\
  mat_dot A x = Ok ax /\ np_sub ax b = Ok z /\ Forall fin z /\ weighted z (m_rows A) 0 <= powerRZ 2 1000 /\ Rabs (fv (n1 (n:=F64)) * fv (nth 0 x n0)) <= powerRZ 2 1000.
Proof.
  cbv zeta. split; [repeat constructor|]. split; [reflexivity|]. split; [discriminate|]. split; [reflexivity|]. split; [cbn; lra|].
  split; [repeat constructor|]. split; [repeat constructor|]. split; [repeat constructor|]. split; [apply fin_1|]. split; [repeat constructor|].
  split; [unfold fv, SF2R, F2R; simpl; lra|]. split; [vm_compute; reflexivity|]. split; [vm_compute; reflexivity|]. split; [repeat constructor|].
  change (powerRZ 2 1000) with (powerRZ (IZR (Zaux.radix_val Zaux.radix2)) 1000). rewrite <- Raux.bpow_powerRZ.
  assert (16 <= bpow radix2 1000) by (change 16 with (bpow radix2 4); apply bpow_le; lia). set (B := bpow radix2 1000) in *. clearbody B.
  unfold weighted. cbn [m_rows map map2 nth Rsum]. unfold fv, SF2R, F2R. simpl. unfold Rabs. repeat destruct (Rcase_abs _); split; lra.
Qed.
