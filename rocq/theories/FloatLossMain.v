(** * Proofs for C134: the gradients of SquareLoss and HuberLoss over IEEE binary64 *)
From Coq Require Import Reals Lra Lia List Bool ZArith.
From Coq Require Import Floats.SpecFloat.
From Verif Require Import Num Vec Spec RVec SpecLoss LossScalar ModelTv ModelLoss LossFacts LossMain ConstraintFacts FloatBase FloatSum FloatSimplex2 FloatSimplex4 FloatLogistic FloatLogistic2 FloatGrad FloatGradMain FloatLoss.
From Flocq Require Import Core.Core IEEE754.BinarySingleNaN.
Import ListNotations.
Local Open Scope R_scope.

Definition terms (f : list F64 -> F64 -> R) (rows : list (list F64)) (b : list F64) : R := Rsum (map2 f rows b).
Definition abs_terms (psi : R -> R) (x : list F64) (rows : list (list F64)) (b : list F64) (j : nat) : R :=
  terms (fun r c => (Rabs (psi (rsd x r c)) + rsd_err x r c) * Rabs (fv (nth j r n0))) rows b.
Definition err_terms (x : list F64) (rows : list (list F64)) (b : list F64) (j : nat) : R :=
  terms (fun r c => rsd_err x r c * Rabs (fv (nth j r n0))) rows b.
(** the bound of the theorem *)
Definition loss_grad_err (psi : R -> R) (alpha : F64) (x : list F64) (rows : list (list F64)) (b : list F64) (j : nat) : R :=
  let s := 2 * csr_err (length rows) (abs_terms psi x rows b j) in
  (err_terms x rows b j + s) / INR (length rows)
  + 5 * / 2 ^ 53 * ((abs_terms psi x rows b j + s) / INR (length rows) + Rabs (fv alpha * fv (nth j x n0))) + 6 * powerRZ 2 (-1075).

Section Samples.
Variables (phi : F64 -> F64) (psi : R -> R) (x : list F64) (j : nat).
Hypothesis Hphi : forall t, fin t -> fin (phi t) /\ fv (phi t) = psi (fv t).
Hypothesis Hpsi : forall a c, Rabs (psi a - psi c) <= Rabs (a - c).
Hypothesis Fx : Forall fin x.
Lemma samples2 : forall (rows : list (list F64)) (b : list F64), length b = length rows ->
  Forall (fun r => length r = length x) rows -> Forall (Forall fin) rows -> Forall fin b ->
  let z := map2 (nsub F64) (map (fun r => vdot (K:=F64) r x) rows) b in Forall fin z ->
  let l := combine (map phi z) (col (K:=F64) j rows) in
  Forall (fun pq : F64 * F64 => fin (fst pq) /\ fin (snd pq)) l /\ length l = length rows /\
  Rsum (map (fun pq : F64 * F64 => Rabs (fv (fst pq) * fv (snd pq))) l) <= abs_terms psi x rows b j /\
  Rabs (Rsum (map (fun pq : F64 * F64 => fv (fst pq) * fv (snd pq)) l) - terms (fun r c => psi (rsd x r c) * fv (nth j r n0)) rows b) <= err_terms x rows b j.
Proof.
  unfold abs_terms, err_terms, terms. cbv zeta. induction rows as [|r rows IH]; intros [|c b] Lb HR FR Fb Fz; cbn in Lb; try discriminate.
  - cbn. rewrite Rminus_0_r, Rabs_R0. repeat split; try constructor; lra.
  - destruct (IH b (eq_add_S _ _ Lb) (Forall_inv_tail HR) (Forall_inv_tail FR) (Forall_inv_tail Fb) (Forall_inv_tail Fz)) as (I1 & I2 & I3 & I4). clear IH.
    cbn [map map2] in Fz. pose proof (Forall_inv Fz) as F0. cbn beta in F0. destruct (Hphi _ F0) as [F1 V1].
    pose proof (rsd_ok x r c (Forall_inv HR) (Forall_inv FR) Fx (Forall_inv Fb) F0) as E. pose proof (Hpsi (fv (nsub F64 (vdot r x) c)) (rsd x r c)) as P. rewrite <- V1 in P.
    assert (Fj : fin (nth j r (@n0 F64))) by (exact (Forall_inv (col_datum j [r] (Forall_cons _ (Forall_inv FR) (Forall_nil _))))).
    unfold col in *. cbn [map map2 combine Rsum fst snd length]. set (e := phi _) in *. set (w := psi (rsd x r c)) in *. set (a := fv (nth j r (@n0 F64))) in *. pose proof (Rabs_pos a) as Pa.
    assert (Ew : Rabs (fv e - w) <= rsd_err x r c) by lra.
    assert (Be : Rabs (fv e) <= Rabs w + rsd_err x r c) by (replace (fv e) with (w + (fv e - w)) by ring; eapply Rle_trans; [apply Rabs_triang|]; lra).
    split; [constructor; [split; [exact F1|exact Fj]|exact I1]|]. split; [cbn; f_equal; exact I2|]. split.
    + rewrite Rabs_mult. assert (Rabs (fv e) * Rabs a <= (Rabs w + rsd_err x r c) * Rabs a) by (apply Rmult_le_compat_r; lra). lra.
    + match goal with |- Rabs (?p + ?q - (?u + ?v)) <= _ => replace (p + q - (u + v)) with ((fv e - w) * a + (q - v)) by ring end.
      eapply Rle_trans; [apply Rabs_triang|]. rewrite Rabs_mult. assert (Rabs (fv e - w) * Rabs a <= rsd_err x r c * Rabs a) by (apply Rmult_le_compat_r; lra). lra.
Qed.
Lemma exact_terms : forall (rows : list (list F64)) (b : list F64), length b = length rows ->
  Rsum (map (fun pq : R * R => fst pq * snd pq)
    (combine (map psi (map2 (nsub RN) (map (fun r => vdot (K:=RN) r (map fv x)) (map (map fv) rows)) (map fv b))) (col (K:=RN) j (map (map fv) rows))))
  = terms (fun r c => psi (rsd x r c) * fv (nth j r n0)) rows b.
Proof.
  unfold terms, col. induction rows as [|r rows IH]; intros [|c b] Lb; cbn in Lb; try discriminate; [reflexivity|].
  cbn [map map2 combine Rsum fst snd]. rewrite (IH b (eq_add_S _ _ Lb)). f_equal. f_equal.
  - f_equal. rewrite vdot_R. reflexivity.
  - change (@n0 RN) with 0. rewrite <- fv_nth. reflexivity.
Qed.
End Samples.
Lemma facc_datum (l : list (F64 * F64)) : Forall (fun pq : F64 * F64 => fin (fst pq) /\ fin (snd pq)) l -> datum (facc l n0).
Proof.
  intros I1. unfold facc. assert (D0 : datum (@n0 F64)) by (apply fin_datum, fin_0). revert D0. generalize (@n0 F64).
  induction I1 as [|[p q] l [Dp Dq] _ IH]; intros a Da; cbn [fold_left fst snd]; [exact Da|]. apply IH, add_datum; [exact Da|apply mul_datum; apply fin_datum; assumption].
Qed.
Lemma pow_mono m k : (m <= k)%nat -> (1 + uro) ^ m <= (1 + uro) ^ k.
Proof. intros H. apply Rle_pow; [pose proof uro_pos; lra|exact H]. Qed.
Lemma csr_mono m k a c : (m <= k)%nat -> 0 <= a <= c -> gam m * a + und m <= csr_err k c.
Proof.
  intros H [P1 P2]. rewrite csr_err_eq. apply Rplus_le_compat.
  - apply Rmult_le_compat; [apply gam_pos|exact P1| |exact P2]. unfold gam. pose proof (pow_mono (S m) (S k) ltac:(lia)). lra.
  - unfold und. apply Rmult_le_compat_r; [left; apply eta_pos|]. apply Rmult_le_compat; [apply pos_INR|apply pow_le; pose proof uro_pos; lra|apply le_INR; exact H|apply pow_mono, H].
Qed.
Lemma sum_abs_ge0 (l : list (F64 * F64)) : 0 <= Rsum (map (fun pq : F64 * F64 => Rabs (fv (fst pq) * fv (snd pq))) l).
Proof. induction l as [|a l IH]; cbn [map Rsum]; [lra|]. pose proof (Rabs_pos (fv (fst a) * fv (snd a))). lra. Qed.
Lemma sum_abs_le (l : list (F64 * F64)) : Rabs (Rsum (map (fun pq : F64 * F64 => fv (fst pq) * fv (snd pq)) l)) <= Rsum (map (fun pq : F64 * F64 => Rabs (fv (fst pq) * fv (snd pq))) l).
Proof. induction l as [|a l IH]; cbn [map Rsum]; [rewrite Rabs_R0; lra|]. eapply Rle_trans; [apply Rabs_triang|]. lra. Qed.
(** quotient plus product plus quotient *)
Lemma last_err3 (s1 s2 m a y : F64) (n : R) : datum s1 -> datum s2 -> fin m -> fv m = n -> 1 <= n -> datum a -> datum y ->
  fin (nadd F64 (nadd F64 (ndiv F64 s1 m) (nmul F64 a y)) (ndiv F64 s2 m)) ->
  fin s1 /\ fin s2 /\ Rabs (fv (nadd F64 (nadd F64 (ndiv F64 s1 m) (nmul F64 a y)) (ndiv F64 s2 m)) - (fv s1 / n + fv a * fv y + fv s2 / n))
    <= 5 * uro * (Rabs (fv s1 / n) + Rabs (fv s2 / n) + Rabs (fv a * fv y)) + 6 * eta.
Proof.
  intros D1 D2 Fm Vm Hn Da Dy Hf.
  destruct (add_val _ _ (add_datum _ _ (div_datum _ _ D1 (fin_datum _ Fm)) (mul_datum _ _ Da Dy)) (div_datum _ _ D2 (fin_datum _ Fm)) Hf) as (Ft & Fq & V).
  destruct (last_err s1 m a y n D1 Fm Vm Hn Da Dy Ft) as [F1 E1]. destruct (div_val s2 m D2 Fm ltac:(lra) Fq) as (F2 & Vq). rewrite Vm in Vq.
  split; [exact F1|]. split; [exact F2|]. pose proof (rnd_add_err _ _ (fin_repr _ Ft) (fin_repr _ Fq)) as E2. rewrite <- V in E2. pose proof (rnd_err (fv s2 / n)) as E3. rewrite <- Vq in E3.
  set (r := fv (nadd F64 (nadd F64 _ _) _)) in *. set (t := fv (nadd F64 (ndiv F64 s1 m) _)) in *. set (q := fv (ndiv F64 s2 m)) in *. set (q1 := fv s1 / n) in *. set (q2 := fv s2 / n) in *. set (p := fv a * fv y) in *.
  clearbody r t q q1 q2 p. clear -E1 E2 E3. pose proof uro_pos as U0. pose proof eta_pos as H0.
  assert (U1 : uro <= / 8) by (rewrite uro_pow; apply Rinv_le_contravar; [lra|cbn; lra]).
  set (T1 := Rabs q1 + Rabs p) in *. assert (P1 : 0 <= T1) by (unfold T1; pose proof (Rabs_pos q1); pose proof (Rabs_pos p); lra). set (T2 := Rabs q2) in *. assert (P2 : 0 <= T2) by apply Rabs_pos.
  assert (B1 : Rabs (t + q) <= T1 + T2 + (3 * uro * T1 + 4 * eta) + (uro * T2 + eta)).
  { replace (t + q) with ((q1 + p) + q2 + ((t - (q1 + p)) + (q - q2))) by ring. eapply Rle_trans; [apply Rabs_triang|]. pose proof (Rabs_triang (q1 + p) q2). pose proof (Rabs_triang q1 p). pose proof (Rabs_triang (t - (q1 + p)) (q - q2)). unfold T1, T2 in *. lra. }
  assert (M1 : uro * T1 <= / 8 * T1) by (apply Rmult_le_compat_r; lra). assert (M2 : uro * T2 <= / 8 * T2) by (apply Rmult_le_compat_r; lra).
  assert (M : uro * Rabs (t + q) <= uro * (2 * (T1 + T2) + 5 * eta)) by (apply Rmult_le_compat_l; lra).
  assert (M3 : uro * (5 * eta) <= / 8 * (5 * eta)) by (apply Rmult_le_compat_r; lra).
  assert (Q1 : 0 <= uro * T1) by (apply Rmult_le_pos; lra). assert (Q2 : 0 <= uro * T2) by (apply Rmult_le_pos; lra).
  replace (r - (q1 + p + q2)) with ((r - (t + q)) + ((t - (q1 + p)) + (q - q2))) by ring. eapply Rle_trans; [apply Rabs_triang|].
  pose proof (Rabs_triang (t - (q1 + p)) (q - q2)). replace (Rabs q1 + T2 + Rabs p) with (T1 + T2) by (unfold T1; ring). lra.
Qed.
Lemma fin_comb (r s1 s2 T S q n B C E U e : R) : 1 <= n -> Rabs (s1 + s2 - T) <= C -> Rabs (T - S) <= E -> Rabs s1 + Rabs s2 <= B + C ->
  Rabs (r - (s1 / n + q + s2 / n)) <= U * (Rabs (s1 / n) + Rabs (s2 / n) + Rabs q) + e -> 0 <= U ->
  Rabs (r - (S / n + q)) <= (E + C) / n + U * ((B + C) / n + Rabs q) + e.
Proof.
  intros Hn H1 H2 H3 H4 HU. assert (I : 0 < / n) by (apply Rinv_0_lt_compat; lra).
  assert (D : forall t, Rabs (t / n) = Rabs t / n) by (intros t; unfold Rdiv; rewrite Rabs_mult, (Rabs_right (/ n)) by lra; reflexivity).
  rewrite !D in H4. assert (A1 : Rabs s1 / n + Rabs s2 / n <= (B + C) / n) by (unfold Rdiv; rewrite <- Rmult_plus_distr_r; apply Rmult_le_compat_r; lra).
  assert (A2 : U * (Rabs s1 / n + Rabs s2 / n + Rabs q) <= U * ((B + C) / n + Rabs q)) by (apply Rmult_le_compat_l; lra).
  assert (A3 : Rabs ((s1 + s2 - S) / n) <= (E + C) / n).
  { rewrite D. unfold Rdiv. apply Rmult_le_compat_r; [lra|]. replace (s1 + s2 - S) with ((s1 + s2 - T) + (T - S)) by ring. eapply Rle_trans; [apply Rabs_triang|]. lra. }
  replace (r - (S / n + q)) with ((r - (s1 / n + q + s2 / n)) + (s1 + s2 - S) / n) by (unfold Rdiv; ring). eapply Rle_trans; [apply Rabs_triang|]. lra.
Qed.
Lemma rect_fv (A : matrix F64) : Forall (fun r => length r = m_cols A) (m_rows A) -> Forall (fun r : vec RN => length r = m_cols (mat_fv A)) (m_rows (mat_fv A)).
Proof. intros HR. cbn. apply Forall_map. eapply Forall_impl; [|exact HR]. intros r Hr. cbn. rewrite map_length. exact Hr. Qed.
Lemma rect_all d (rows : list (list R)) : Forall (fun r => length r = d) rows -> rect d rows.
Proof. intros H. first [exact H|intros r Hr; rewrite Forall_forall in H; exact (H r Hr)]. Qed.
Lemma clip_hphi (delta t : R) : 0 < delta -> @eq R (hphi (K:=RN) delta t) (clip delta t).
Proof.
  intros Hd. unfold hphi, hsg. rewrite nsign_R. rn. unfold clip, Rmax, Rmin, Rabs. repeat destruct (Rcase_abs _); repeat destruct (Rle_dec _ _); repeat (rcase; try lra); lra.
Qed.
Lemma resid_of (A : matrix F64) (b x ax z : list F64) : length b = length (m_rows A) -> mat_dot A x = Ok ax -> np_sub ax b = Ok z ->
  length x = m_cols A /\ z = map2 (nsub F64) (map (fun r => vdot (K:=F64) r x) (m_rows A)) b.
Proof.
  intros Lb Hz Hs. unfold mat_dot in Hz. destruct (Nat.eqb_spec (length x) (m_cols A)) as [Lx|]; [|discriminate Hz]. injection Hz as <-.
  unfold np_sub in Hs. rewrite map_length in Hs. revert Hs. case Nat.eqb_spec; intros E Hs; [|exfalso; apply E; symmetry; exact Lb]. injection Hs as <-. split; [exact Lx|reflexivity].
Qed.
Lemma main_C134_square : forall (A : matrix F64) (b : list F64) (alpha : F64) (x ax z : list F64),
  Forall (fun r => length r = m_cols A) (m_rows A) -> length b = length (m_rows A) -> b <> [] -> (Z.of_nat (length b) < 2 ^ 53)%Z ->
  Forall (Forall fin) (m_rows A) -> Forall fin b -> Forall fin x -> fin alpha ->
  mat_dot A x = Ok ax -> np_sub ax b = Ok z -> Forall fin z ->
  exists (L : F64) (g : list F64) (G : list R), sq_f_grad A b alpha x true = Ok (RPair L g) /\ length g = m_cols A /\
    is_gradient (m_cols A) (fun y => / (2 * INR (length b)) * dist2 (matvec (map (map fv) (m_rows A)) y) (map fv b) + fv alpha / 2 * dot y y) (map fv x) G /\
    forall j, (j < m_cols A)%nat -> fin (nth j g n0) ->
      Rabs (fv (nth j g n0) - nth j G 0) <= loss_grad_err (fun t => t) alpha x (m_rows A) b j.
Proof.
  intros A b alpha x ax z HR Lb Nb Hbig FR Fb Fx Fa Hz Hs Fz. destruct (resid_of A b x ax z Lb Hz Hs) as [Lx ->].
  assert (HRx : Forall (fun r : list F64 => length r = length x) (m_rows A)) by (eapply Forall_impl; [|exact HR]; intros r Hr; exact (eq_trans Hr (eq_sym Lx))).
  destruct (sq_grad_nth A b alpha x HR Lx Lb) as (L & g & E1 & E2 & E3).
  pose proof (rect_fv A HR) as HR'. assert (LxR : length (map fv x) = m_cols (mat_fv A)) by (rewrite map_length; exact Lx).
  assert (LbR : length (map fv b) = length (m_rows (mat_fv A))) by (cbn; rewrite !map_length; exact Lb).
  destruct (sq_grad_nth (K:=RN) (mat_fv A) (map fv b) (fv alpha) (map fv x) HR' LxR LbR) as (LR & G & R1 & R2 & R3).
  assert (Hn : (0 < length (m_rows (mat_fv A)))%nat) by (rewrite <- LbR, map_length; destruct b; [congruence|cbn; lia]).
  destruct (main_C21_square (mat_fv A) (map fv b) (fv alpha) (map fv x) (rect_all _ _ HR') LbR Hn LxR) as (_ & _ & G' & R4 & R5).
  pose proof (eq_trans (eq_sym R1) R4) as EE. injection EE as _ <-.
  assert (N1 : 1 <= INR (length b)) by (destruct b; [congruence|]; cbn [length]; rewrite S_INR; pose proof (pos_INR (length b)); lra).
  exists L, g, G. split; [exact E1|]. split; [exact E2|]. split.
  { assert (LL : length (m_rows (mat_fv A)) = length b) by (rewrite <- LbR; apply map_length). rewrite LL in R5. exact R5. }
  intros j Hj Fg. rewrite (E3 j Hj) in *. eapply Rle_trans; [right; exact (f_equal (fun t : R => Rabs (_ - t)) (R3 j Hj))|]. clear R3.
  destruct (samples2 (fun t => t) (fun t => t) x j ltac:(intros t Ht; split; [exact Ht|reflexivity]) ltac:(intros; lra) Fx (m_rows A) b Lb HRx FR Fb Fz) as (I1 & I2 & I3 & I4).
  rewrite map_id in I1, I2, I3, I4. unfold resid in *. set (l := combine _ (col (K:=F64) j _)) in *.
  rewrite facc_R. pose proof (exact_terms (fun t => t) x j (m_rows A) b Lb) as ET. rewrite map_id in ET. unfold mat_fv in *. cbn [m_rows m_cols] in *. match goal with |- context [Rsum ?s] => match s with context [col (K:=RN)] => let H := fresh in assert (H : Rsum s = terms (fun r c => rsd x r c * fv (nth j r n0)) (m_rows A) b) by exact ET; rewrite H; clear H end end. clear ET.
  destruct (nofnat_fin (length b) Hbig) as [Fn Vn]. unfold n_samples in *. cbn [m_rows]. rewrite map_length. rewrite <- Lb in Fg |- *.
  change (@length (list F64) (m_rows A)) with (length (m_rows A)) in *.
  destruct (last_err (facc l n0) (nofnat (length b)) alpha (nth j x n0) (INR (length b)) (facc_datum l I1) Fn Vn N1 (fin_datum _ Fa) (datum_nth _ _ (fin_data _ Fx)) Fg) as [Fs Er].
  pose proof (facc_err0 l (fin_pairs_datum _ I1) Fs) as Es. pose proof (sum_abs_ge0 l) as P0. pose proof (sum_abs_le l) as P1.
  pose proof (csr_mono (length l) (length (m_rows A)) _ _ ltac:(rewrite I2; lia) (conj P0 I3)) as Em.
  unfold loss_grad_err. rn. rewrite nofnat_R. change (@n0 RN) with 0. rewrite <- fv_nth. rewrite uro_pow, eta_pow in Er.
  rewrite <- Lb in Em |- *. rewrite Rplus_0_l.
  set (C := csr_err _ _) in *. set (W := terms _ _ _) in *. set (T := Rsum (map (fun pq : F64 * F64 => fv (fst pq) * fv (snd pq)) l)) in *. set (B := abs_terms _ _ _ _ _) in *. set (E := err_terms _ _ _ _) in *.
  assert (C0 : 0 <= C) by (pose proof (Rabs_pos (fv (facc l n0) - T)); lra).
  assert (Bs : Rabs (fv (facc l n0)) <= B + 2 * C) by (replace (fv (facc l n0)) with (T + (fv (facc l n0) - T)) by ring; eapply Rle_trans; [apply Rabs_triang|]; lra).
  assert (U0 : 0 < / 2 ^ 53) by (apply Rinv_0_lt_compat, pow_lt; lra). pose proof eta_pos as H0. rewrite eta_pow in H0.
  apply (fin_comb _ (fv (facc l n0)) 0 T W _ _ B (2 * C) E); try assumption.
  - rewrite Rplus_0_r. lra.
  - rewrite Rabs_R0. lra.
  - replace (0 / INR (length b)) with 0 by (unfold Rdiv; ring). rewrite Rabs_R0, !Rplus_0_r. eapply Rle_trans; [exact Er|].
    set (u := / 2 ^ 53) in *. set (k := Rabs (fv (facc l n0) / INR (length b)) + Rabs (fv alpha * fv (nth j x n0))). assert (0 <= k) by (unfold k; apply Rplus_le_le_0_compat; apply Rabs_pos).
    assert (3 * u * k <= 5 * u * k) by (apply Rmult_le_compat_r; lra). lra.
  - lra.
Qed.
Lemma hl_fin (delta : F64) (z : list F64) j (rows : list (list F64)) : fin delta -> 0 < fv delta -> Forall fin z -> Forall (Forall fin) rows ->
  Forall (fun pq : F64 * F64 => fin (fst pq) /\ fin (snd pq)) (hl1 delta z j rows) /\ Forall (fun pq : F64 * F64 => fin (fst pq) /\ fin (snd pq)) (hl2 delta z j rows).
Proof.
  intros Fd Pd Fz FR. unfold hl1, hl2. split; apply combine_fin.
  - apply mask_Forall, Fz.
  - apply col_datum, mask_Forall, FR.
  - apply Forall_map. apply mask_Forall. eapply Forall_impl; [|exact Fz]. intros t Ft. exact (proj1 (sign_mul delta t Fd Ft)).
  - apply col_datum, mask_Forall, FR.
Qed.
Lemma main_C134_huber : forall (A : matrix F64) (b : list F64) (alpha delta : F64) (x ax z : list F64),
  Forall (fun r => length r = m_cols A) (m_rows A) -> length b = length (m_rows A) -> b <> [] -> (Z.of_nat (length b) < 2 ^ 53)%Z ->
  Forall (Forall fin) (m_rows A) -> Forall fin b -> Forall fin x -> fin alpha -> fin delta -> 0 < fv delta ->
  mat_dot A x = Ok ax -> np_sub ax b = Ok z -> Forall fin z ->
  exists (L : F64) (g : list F64) (G : list R), hub_f_grad A b alpha delta x true = Ok (RPair L g) /\ length g = m_cols A /\
    is_gradient (m_cols A) (ridge (fv alpha) (mean_loss (hub_term (fv delta)) (map (map fv) (m_rows A)) (map fv b))) (map fv x) G /\
    forall j, (j < m_cols A)%nat -> fin (nth j g n0) ->
      Rabs (fv (nth j g n0) - nth j G 0) <= loss_grad_err (clip (fv delta)) alpha x (m_rows A) b j.
Proof.
  intros A b alpha delta x ax z HR Lb Nb Hbig FR Fb Fx Fa Fd Pd Hz Hs Fz. destruct (resid_of A b x ax z Lb Hz Hs) as [Lx ->].
  assert (HRx : Forall (fun r : list F64 => length r = length x) (m_rows A)) by (eapply Forall_impl; [|exact HR]; intros r Hr; exact (eq_trans Hr (eq_sym Lx))).
  destruct (hub_grad_nth A b alpha delta x HR Lx Lb) as (L & g & E1 & E2 & E3).
  pose proof (rect_fv A HR) as HR'. assert (LxR : length (map fv x) = m_cols (mat_fv A)) by (rewrite map_length; exact Lx).
  assert (LbR : length (map fv b) = length (m_rows (mat_fv A))) by (cbn; rewrite !map_length; exact Lb).
  destruct (hub_grad_nth (K:=RN) (mat_fv A) (map fv b) (fv alpha) (fv delta) (map fv x) HR' LxR LbR) as (LR & G & R1 & R2 & R3).
  assert (Hn : (0 < length (m_rows (mat_fv A)))%nat) by (rewrite <- LbR, map_length; destruct b; [congruence|cbn; lia]).
  destruct (main_C22_huber (mat_fv A) (map fv b) (fv alpha) (fv delta) (map fv x) (rect_all _ _ HR') LbR Hn Pd LxR) as (_ & G' & R4 & R5).
  pose proof (eq_trans (eq_sym R1) R4) as EE. injection EE as _ <-.
  assert (N1 : 1 <= INR (length b)) by (destruct b; [congruence|]; cbn [length]; rewrite S_INR; pose proof (pos_INR (length b)); lra).
  exists L, g, G. split; [exact E1|]. split; [exact E2|]. split; [exact R5|].
  intros j Hj Fg. rewrite (E3 j Hj) in *. eapply Rle_trans; [right; exact (f_equal (fun t : R => Rabs (_ - t)) (R3 j Hj))|]. clear R3.
  destruct (samples2 (hphi (K:=F64) delta) (clip (fv delta)) x j ltac:(intros t Ht; apply hphi_fin; assumption) (clip_lip _) Fx (m_rows A) b Lb HRx FR Fb Fz) as (I1 & I2 & I3 & I4).
  unfold resid in *. set (zf := map2 (nsub F64) _ b) in *.
  assert (Lz : length zf = length (m_rows A)) by (unfold zf; rewrite map2_length, map_length; lia).
  pose proof (hsplit (fun pq : F64 * F64 => Rabs (fv (fst pq) * fv (snd pq))) delta j zf (m_rows A) Lz) as S1.
  pose proof (hsplit (fun pq : F64 * F64 => fv (fst pq) * fv (snd pq)) delta j zf (m_rows A) Lz) as S2.
  rewrite <- S1 in I3. rewrite <- S2 in I4. destruct (hl_fin delta zf j (m_rows A) Fd Pd Fz FR) as [F1 F2]. destruct (hl_le delta zf j (m_rows A) Lz) as [L1 L2].
  set (l1 := hl1 delta zf j (m_rows A)) in *. set (l2 := hl2 delta zf j (m_rows A)) in *. clearbody l1 l2. clear I1 I2 S1 S2.
  assert (ER : forall zr : list R, length zr = length (map (map fv) (m_rows A)) ->
    Rsum (map (fun pq : R * R => fst pq * snd pq) (hl1 (K:=RN) (fv delta) zr j (map (map fv) (m_rows A)))) + Rsum (map (fun pq : R * R => fst pq * snd pq) (hl2 (K:=RN) (fv delta) zr j (map (map fv) (m_rows A))))
    = Rsum (map (fun pq : R * R => fst pq * snd pq) (combine (map (clip (fv delta)) zr) (col (K:=RN) j (map (map fv) (m_rows A)))))).
  { intros zr Lr. etransitivity; [exact (hsplit (K:=RN) (fun pq : R * R => fst pq * snd pq) (fv delta) j zr (map (map fv) (m_rows A)) Lr)|].
    assert (HM : map (hphi (K:=RN) (fv delta)) zr = map (clip (fv delta)) zr) by (apply map_ext; intros t; apply clip_hphi, Pd).
    exact (f_equal (fun q => Rsum (map (fun pq : R * R => fst pq * snd pq) (combine q (col (K:=RN) j (map (map fv) (m_rows A)))))) HM). }
  rewrite !facc_R. unfold mat_fv. cbn [m_rows m_cols].
  pose proof (exact_terms (clip (fv delta)) x j (m_rows A) b Lb) as ET. set (zr := map2 (nsub RN) _ (map fv b)) in *.
  assert (Lr : length zr = length (map (map fv) (m_rows A))) by exact (resid_len (K:=RN) (mat_fv A) (map fv b) (map fv x) LbR).
  specialize (ER zr Lr). assert (ER' := eq_trans ER ET). clear ET ER. rename ER' into ER.
  destruct (nofnat_fin (length b) Hbig) as [Fn Vn]. unfold n_samples in *. cbn [m_rows]. rewrite map_length. rewrite <- Lb in Fg |- *.
  destruct (last_err3 (facc l1 n0) (facc l2 n0) (nofnat (length b)) alpha (nth j x n0) (INR (length b)) (facc_datum l1 F1) (facc_datum l2 F2) Fn Vn N1 (fin_datum _ Fa) (datum_nth _ _ (fin_data _ Fx)) Fg) as (Fs1 & Fs2 & Er).
  pose proof (facc_err0 l1 (fin_pairs_datum _ F1) Fs1) as Es1. pose proof (facc_err0 l2 (fin_pairs_datum _ F2) Fs2) as Es2.
  pose proof (sum_abs_ge0 l1) as P1. pose proof (sum_abs_le l1) as Q1. pose proof (sum_abs_ge0 l2) as P2. pose proof (sum_abs_le l2) as Q2.
  set (B := abs_terms _ _ _ _ _) in *.
  set (a1 := Rsum (map (fun pq : F64 * F64 => Rabs (fv (fst pq) * fv (snd pq))) l1)) in *. set (a2 := Rsum (map (fun pq : F64 * F64 => Rabs (fv (fst pq) * fv (snd pq))) l2)) in *.
  assert (K1 : 0 <= a1 <= B) by lra. assert (K2 : 0 <= a2 <= B) by lra.
  pose proof (csr_mono (length l1) (length (m_rows A)) _ B L1 K1) as Em1. pose proof (csr_mono (length l2) (length (m_rows A)) _ B L2 K2) as Em2.
  unfold loss_grad_err. fold B. rn. rewrite nofnat_R. change (@n0 RN) with 0. rewrite <- fv_nth. rewrite uro_pow, eta_pow in Er.
  rewrite <- Lb in Em1, Em2 |- *. rewrite !Rplus_0_l.
  set (C := csr_err _ _) in *. set (W := terms _ _ _) in *. set (E := err_terms _ _ _ _) in *.
  set (T1 := Rsum (map (fun pq : F64 * F64 => fv (fst pq) * fv (snd pq)) l1)) in *. set (T2 := Rsum (map (fun pq : F64 * F64 => fv (fst pq) * fv (snd pq)) l2)) in *.
  set (s1 := fv (facc l1 n0)) in *. set (s2 := fv (facc l2 n0)) in *.
  assert (C0 : 0 <= C) by (pose proof (Rabs_pos (s1 - T1)); lra).
  assert (B1 : Rabs s1 <= Rabs T1 + C) by (replace s1 with (T1 + (s1 - T1)) by ring; eapply Rle_trans; [apply Rabs_triang|]; lra).
  assert (B2 : Rabs s2 <= Rabs T2 + C) by (replace s2 with (T2 + (s2 - T2)) by ring; eapply Rle_trans; [apply Rabs_triang|]; lra).
  assert (U0 : 0 < / 2 ^ 53) by (apply Rinv_0_lt_compat, pow_lt; lra).
  match goal with |- Rabs (?a - (?p1 / ?n + ?q + ?p2 / ?n)) <= _ => replace (p1 / n + q + p2 / n) with (W / n + q) by (rewrite <- ER; unfold Rdiv; ring) end.
  apply (fin_comb _ s1 s2 (T1 + T2) W _ _ B (2 * C) E); try assumption; try lra.
  replace (s1 + s2 - (T1 + T2)) with ((s1 - T1) + (s2 - T2)) by ring. eapply Rle_trans; [apply Rabs_triang|]. lra.
Qed.
