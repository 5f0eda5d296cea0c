(** * C136: the computed losses are finite and nonnegative; runs *)
From Coq Require Import Reals Lra Lia List Bool ZArith.
From Coq Require Import Floats.SpecFloat.
From Verif Require Import Num Vec Spec RVec SpecLoss LossScalar ModelTv ModelLoss LossFacts FloatBase FloatRuns FloatSum FloatSimplex2 FloatSimplex4 FloatLogistic FloatLogistic2 FloatNorm FloatGrad FloatGradMain FloatLoss FloatLossMain FloatLossFin FloatValue FloatValueMain FloatValueHub.
From Flocq Require Import Core.Core IEEE754.BinarySingleNaN.
Import ListNotations.
Local Open Scope R_scope.

Lemma rnd_pos t : 0 <= t -> 0 <= rnd t.
Proof. intros H. rewrite <- rnd_0. apply rnd_le, H. Qed.
Lemma facc_pos : forall (l : list (F64 * F64)) (a : F64), datum a -> Forall (fun pq : F64 * F64 => datum (fst pq) /\ datum (snd pq)) l ->
  Forall (fun pq : F64 * F64 => 0 <= fv (fst pq) * fv (snd pq)) l -> (fin a -> 0 <= fv a) -> fin (facc l a) -> 0 <= fv (facc l a).
Proof.
  induction l as [|[p q] l IH]; intros a Da Dl Hl Ha F; [apply Ha, F|].
  pose proof (Forall_inv Dl) as [Dp Dq]. pose proof (Forall_inv Hl) as Hpq. cbn [fst snd] in *.
  change (facc ((p, q) :: l) a) with (facc l (nadd F64 a (nmul F64 p q))) in *. pose proof (mul_datum _ _ Dp Dq) as Dm.
  apply IH; [apply add_datum; assumption|exact (Forall_inv_tail Dl)|exact (Forall_inv_tail Hl)| |exact F].
  intros Fs. destruct (add_val _ _ Da Dm Fs) as (Fa & Fm & ->). destruct (mul_val _ _ Dp Dq Fm) as (_ & _ & ->). apply rnd_pos. apply Rplus_le_le_0_compat; [apply Ha, Fa|apply rnd_pos, Hpq].
Qed.
Lemma dot_pos (z : list F64) : Forall fin z -> fin (vdot (K:=F64) z z) -> 0 <= fv (vdot (K:=F64) z z).
Proof.
  intros Fz F. rewrite vdot_facc in *. apply facc_pos; [apply fin_datum, fin_0|apply fin_pairs_datum, combine_fin; exact Fz| |rewrite fv_0; lra|exact F].
  clear. induction z as [|t z IH]; cbn [combine]; constructor; [cbn [fst snd]; apply Rle_0_sqr|exact IH].
Qed.
Lemma Ok_inj {T} (a c : T) : Ok a = Ok c -> a = c.
Proof. now intros [= ->]. Qed.
Lemma loss_inj {K : Num} (a c : K) : RLoss a = RLoss c -> a = c.
Proof. now intros [= ->]. Qed.
Lemma main_C136_nonneg : forall (A : matrix F64) (b : list F64) (alpha delta : F64) (x ax z : list F64) (L L' : F64),
  length b = length (m_rows A) -> b <> [] -> (Z.of_nat (length b) < 2 ^ 53)%Z ->
  Forall fin x -> fin alpha -> 0 <= fv alpha -> fin delta -> 0 < fv delta ->
  mat_dot A x = Ok ax -> np_sub ax b = Ok z -> Forall fin z ->
  sq_call A b alpha x = Ok L -> hub_call A b alpha delta x = Ok (RLoss L') ->
  (fin L -> 0 <= fv L) /\ (fin L' -> 0 <= fv L').
Proof.
  intros A b alpha delta x ax z L L' Lb Nb Hbig Fx Fa Pa Fd Pd Hz Hs Fz HL HL'.
  destruct (resid_of A b x ax z Lb Hz Hs) as [Lx Ez].
  assert (Lz : length z = length b) by (rewrite Ez, map2_length, map_length; change (@length (vec F64) (m_rows A)) with (length (m_rows A)) in *; lia). clear Ez.
  unfold sq_call in HL. rewrite Hz in HL. cbn [bind] in HL. rewrite Hs in HL. cbn [bind] in HL. apply Ok_inj in HL. subst L.
  unfold hub_call, hub_f_grad in HL'. rewrite Hz in HL'. cbn [bind] in HL'. rewrite Hs in HL'. cbn [bind negb] in HL'. apply Ok_inj, loss_inj in HL'. subst L'.
  destruct (nofnat_fin (length b) Hbig) as [Fn Vn]. destruct half_fin as [Fh Vh].
  assert (N1 : 1 <= INR (length b)) by (destruct b; [congruence|]; cbn [length]; rewrite S_INR; pose proof (pos_INR (length b)); lra).
  assert (I : 0 < / INR (length b)) by (apply Rinv_0_lt_compat; lra).
  assert (Dx : datum (vdot x x)) by (apply vdot_datum; apply fin_data, Fx). assert (Dh := fin_datum _ Fh). assert (Da := fin_datum _ Fa). split.
  - unfold vmean. change (vsum (vmul z z)) with (vdot z z). replace (length (vmul z z)) with (length b) by (unfold vmul; rewrite map2_length; lia).
    assert (Dz : datum (vdot z z)) by (apply vdot_datum; apply fin_data, Fz). assert (Dm : datum (ndiv F64 (vdot z z) (nofnat (length b)))) by (apply div_datum; [exact Dz|apply fin_datum, Fn]).
    assert (Dp := mul_datum _ _ Da Dx). intros FL. destruct (add_val _ _ (mul_datum _ _ Dh Dm) (mul_datum _ _ Dh Dp) FL) as (F1 & F2 & ->).
    destruct (mul_val _ _ Dh Dm F1) as (_ & F3 & ->). destruct (mul_val _ _ Dh Dp F2) as (_ & F4 & ->).
    destruct (div_val _ _ Dz Fn ltac:(rewrite Vn; lra) F3) as (F5 & ->). destruct (mul_val _ _ Da Dx F4) as (_ & F6 & ->). rewrite Vh, Vn.
    pose proof (dot_pos z Fz F5). pose proof (dot_pos x Fx F6). apply rnd_pos, Rplus_le_le_0_compat; apply rnd_pos; (apply Rmult_le_pos; [lra|]); apply rnd_pos; apply Rmult_le_pos; lra.
  - destruct (hub_split delta Fd Pd z Fz) as [_ HB]. fold (hidx delta z). set (z1 := mask (hidx delta z) z) in *. set (z2 := mask (map negb (hidx delta z)) z) in *.
    assert (Fz1 : Forall fin z1) by (apply mask_Forall, Fz). assert (Fz2 : Forall fin z2) by (apply mask_Forall, Fz).
    change (vsum (vmul z1 z1)) with (vdot z1 z1).
    assert (SF : vsum (map (fun t : F64 => nmul F64 delta (nsub F64 (nabs F64 t) (nmul F64 (nlit 1 2) delta))) z2) = facc (map (fun t => (delta, lin delta t)) z2) n0) by apply (prod_facc delta (lin delta)). rewrite SF, Lz. clear SF.
    destruct (lin_sum delta Fd Pd z2 Fz2 HB) as (K1 & _).
    assert (KP : Forall (fun pq : F64 * F64 => 0 <= fv (fst pq) * fv (snd pq)) (map (fun t => (delta, lin delta t)) z2)).
    { rewrite Forall_map. rewrite Forall_forall in *. intros t Ht. cbn [fst snd]. destruct (lin_ok delta t Fd Pd (Fz2 t Ht) (HB t Ht)) as (_ & P & _). apply Rmult_le_pos; lra. }
    set (l := map (fun t => (delta, lin delta t)) z2) in *.
    assert (D1 : datum (vdot z1 z1)) by (apply vdot_datum; apply fin_data, Fz1). assert (D2 : datum (facc l n0)) by (apply facc_datum, K1).
    assert (D3 := mul_datum _ _ Dh D1). assert (D4 := add_datum _ _ D3 D2). assert (D5 := div_datum _ _ D4 (fin_datum _ Fn)). assert (D6 := mul_datum _ _ Dh Da). assert (D7 := mul_datum _ _ D6 Dx).
    intros FL. destruct (add_val _ _ D5 D7 FL) as (F1 & F2 & ->).
    destruct (div_val _ _ D4 Fn ltac:(rewrite Vn; lra) F1) as (F3 & ->). destruct (add_val _ _ D3 D2 F3) as (F4 & F5 & ->). destruct (mul_val _ _ Dh D1 F4) as (_ & F6 & ->).
    destruct (mul_val _ _ D6 Dx F2) as (F7 & F8 & ->). destruct (mul_val _ _ Dh Da F7) as (_ & _ & ->). rewrite Vh, Vn.
    pose proof (dot_pos z1 Fz1 F6). pose proof (dot_pos x Fx F8). pose proof (facc_pos l n0 (fin_datum _ fin_0) (fin_pairs_datum _ K1) KP ltac:(rewrite fv_0; lra) F5).
    apply rnd_pos, Rplus_le_le_0_compat; apply rnd_pos; apply Rmult_le_pos; try lra; apply rnd_pos; [|lra]. apply Rplus_le_le_0_compat; [apply rnd_pos|]; lra.
Qed.
(** ** finite results *)
Lemma half_ok (a : F64) : fin a -> Rabs (fv a) <= bpow radix2 1020 -> fin (nmul F64 (nlit 1 2) a) /\ Rabs (fv (nmul F64 (nlit 1 2) a)) <= bpow radix2 1020 /\ Rabs (fv (nmul F64 (nlit 1 2) a)) <= Rabs (fv a).
Proof.
  intros Fa Ha. destruct half_fin as [Fh Vh]. assert (B : bpow radix2 1020 <= bpow radix2 1023) by (apply bpow_le; lia).
  assert (E : Rabs (/ 2 * fv a) <= Rabs (fv a)) by (rewrite Rabs_mult, (Rabs_right (/ 2)) by lra; pose proof (Rabs_pos (fv a)); lra).
  destruct (mul_fin _ _ Fh Fa) as [F V]; [rewrite Vh; apply rnd_fits; lra|]. rewrite Vh in V. split; [exact F|]. rewrite V.
  assert (Q : Rabs (rnd (/ 2 * fv a)) <= Rabs (fv a)) by (rewrite <- rnd_abs; apply rnd_le_repr; [destruct (abs_fin a Fa) as [G <-]; apply fin_repr, G|exact E]). split; [lra|exact Q].
Qed.
Lemma dot_fin (z : list F64) : Forall fin z -> INR (length z) <= 2 ^ 50 -> sqs z <= bpow radix2 1010 -> fin (vdot (K:=F64) z z) /\ Rabs (fv (vdot (K:=F64) z z)) <= 2 * sqs z + 1.
Proof.
  intros Fz Hn Hs. rewrite vdot_facc. destruct (comb_sq z) as [_ E]. destruct (facc_fin (combine z z) (combine_fin z z Fz Fz)) as [F B].
  - rewrite combine_length, Nat.min_id. exact Hn.
  - rewrite E. exact Hs.
  - rewrite E in B. split; assumption.
Qed.
Lemma lin_le (delta : F64) : fin delta -> 0 < fv delta -> forall z : list F64, Forall fin z -> Forall (fun t => fv delta <= Rabs (fv t)) z ->
  Rsum (map (fun pq : F64 * F64 => Rabs (fv (fst pq) * fv (snd pq))) (map (fun t => (delta, lin delta t)) z)) <= sqs z.
Proof.
  intros Fd Pd z Fz Hz. unfold sqs. induction z as [|t z IH]; cbn [map Rsum fst snd]; [lra|].
  specialize (IH (Forall_inv_tail Fz) (Forall_inv_tail Hz)). pose proof (Forall_inv Hz) as Ht. cbn beta in Ht.
  destruct (half_delta delta Fd Pd) as (Fh & _ & Bh). destruct (abs_fin t (Forall_inv Fz)) as [Fa Va]. destruct (lin_ok delta t Fd Pd (Forall_inv Fz) Ht) as (F & P & _).
  assert (Q : fv (lin delta t) <= Rabs (fv t)).
  { unfold lin in *. destruct (sub_val _ _ (fin_datum _ Fa) (fin_datum _ Fh) F) as (_ & _ & V). rewrite V, Va. apply rnd_le_repr; [rewrite <- Va; apply fin_repr, Fa|lra]. }
  assert (E : fv t * fv t = Rabs (fv t) * Rabs (fv t)) by (unfold Rabs; destruct (Rcase_abs _); ring).
  rewrite E, Rabs_pos_eq by (apply Rmult_le_pos; lra). assert (fv delta * fv (lin delta t) <= Rabs (fv t) * Rabs (fv t)) by (apply Rmult_le_compat; lra). lra.
Qed.
Lemma sqs_mask (idx : list bool) : forall z : list F64, sqs (mask idx z) <= sqs z.
Proof.
  unfold sqs. induction idx as [|i idx IH]; intros [|t z]; cbn [mask map Rsum]; try lra; [pose proof (sqs_pos (t :: z)) as H; exact H|].
  specialize (IH z). pose proof (Rle_0_sqr (fv t)) as Q. unfold Rsqr in Q. destruct i; cbn [map Rsum]; lra.
Qed.
Lemma main_C136_finite : forall (A : matrix F64) (b : list F64) (alpha delta : F64) (x ax z : list F64) (L L' : F64),
  length b = length (m_rows A) -> b <> [] -> INR (length b) <= 2 ^ 50 -> INR (length x) <= 2 ^ 50 ->
  Forall fin x -> fin alpha -> fin delta -> 0 < fv delta ->
  mat_dot A x = Ok ax -> np_sub ax b = Ok z -> Forall fin z ->
  dot (map fv z) (map fv z) <= powerRZ 2 1000 -> dot (map fv x) (map fv x) <= powerRZ 2 1000 -> Rabs (fv alpha) <= powerRZ 2 1000 -> Rabs (fv alpha) * dot (map fv x) (map fv x) <= powerRZ 2 1000 ->
  sq_call A b alpha x = Ok L -> hub_call A b alpha delta x = Ok (RLoss L') -> fin L /\ fin L'.
Proof.
  intros A b alpha delta x ax z L L' Lb Nb Hbig Hd Fx Fa Fd Pd Hz Hs Fz. rewrite <- !sqs_dot.
  change (powerRZ 2 1000) with (powerRZ (IZR (Zaux.radix_val Zaux.radix2)) 1000). rewrite <- Raux.bpow_powerRZ. intros Bz Bx Ba Bax HL HL'.
  destruct (resid_of A b x ax z Lb Hz Hs) as [Lx Ez].
  assert (Lz : length z = length b) by (rewrite Ez, map2_length, map_length; change (@length (vec F64) (m_rows A)) with (length (m_rows A)) in *; lia). clear Ez.
  unfold sq_call in HL. rewrite Hz in HL. cbn [bind] in HL. rewrite Hs in HL. cbn [bind] in HL. apply Ok_inj in HL. subst L.
  unfold hub_call, hub_f_grad in HL'. rewrite Hz in HL'. cbn [bind] in HL'. rewrite Hs in HL'. cbn [bind negb] in HL'. apply Ok_inj, loss_inj in HL'. subst L'.
  destruct (n_ok b Hbig) as [Fn Vn]. destruct half_fin as [Fh Vh].
  assert (N1 : 1 <= INR (length b)) by (destruct b; [congruence|]; cbn [length]; rewrite S_INR; pose proof (pos_INR (length b)); lra).
  assert (B1 : 1 <= bpow radix2 1000) by (change 1 with (bpow radix2 0); apply bpow_le; lia).
  assert (B2 : bpow radix2 1010 = 1024 * bpow radix2 1000) by (change 1010%Z with (10 + 1000)%Z; rewrite bpow_plus; reflexivity).
  assert (B3 : bpow radix2 1020 = 1024 * bpow radix2 1010) by (change 1020%Z with (10 + 1010)%Z; rewrite bpow_plus; reflexivity).
  assert (B4 : bpow radix2 1023 = 8 * bpow radix2 1020) by (change 1023%Z with (3 + 1020)%Z; rewrite bpow_plus; reflexivity).
  destruct (dot_fin x Fx Hd ltac:(lra)) as [Fdx Bdx]. pose proof (Rabs_pos (fv alpha)) as Pa. pose proof (sqs_pos x) as Px.
  assert (BD : Rabs (fv alpha) * Rabs (fv (vdot x x)) <= bpow radix2 1020).
  { apply Rle_trans with (Rabs (fv alpha) * (2 * sqs x + 1)); [apply Rmult_le_compat_l; lra|]. rewrite Rmult_plus_distr_l, <- Rmult_assoc, (Rmult_comm _ 2), Rmult_assoc. lra. }
  split.
  - unfold vmean. change (vsum (vmul z z)) with (vdot z z). replace (length (vmul z z)) with (length b) by (unfold vmul; rewrite map2_length; lia).
    destruct (dot_fin z Fz ltac:(rewrite Lz; exact Hbig) ltac:(lra)) as [F1 H1]. destruct (quot_ok _ _ F1 Fn ltac:(rewrite Vn; exact N1) ltac:(lra)) as [F2 H2]. destruct (half_ok _ F2 H2) as (F3 & H3 & _).
    assert (BE : Rabs (fv alpha * fv (vdot x x)) <= bpow radix2 1020) by (rewrite Rabs_mult; exact BD).
    destruct (mul_fin _ _ Fa Fdx) as [F4 V4]; [apply rnd_fits; lra|]. pose proof (rnd_pow_le _ BE) as H4. rewrite <- V4 in H4. destruct (half_ok _ F4 H4) as (F5 & H5 & _).
    exact (proj1 (two_fin _ _ F3 F5 H3 H5)).
  - destruct (hub_split delta Fd Pd z Fz) as [_ HB]. fold (hidx delta z). pose proof (sqs_mask (hidx delta z) z) as Q1. pose proof (sqs_mask (map negb (hidx delta z)) z) as Q2.
    assert (L1 : (length (mask (hidx delta z) z) <= length b)%nat) by (rewrite <- Lz; apply mask_le). assert (L2 : (length (mask (map negb (hidx delta z)) z) <= length b)%nat) by (rewrite <- Lz; apply mask_le).
    set (z1 := mask (hidx delta z) z) in *. set (z2 := mask (map negb (hidx delta z)) z) in *.
    assert (Fz1 : Forall fin z1) by (apply mask_Forall, Fz). assert (Fz2 : Forall fin z2) by (apply mask_Forall, Fz).
    change (vsum (vmul z1 z1)) with (vdot z1 z1).
    assert (SF : vsum (map (fun t : F64 => nmul F64 delta (nsub F64 (nabs F64 t) (nmul F64 (nlit 1 2) delta))) z2) = facc (map (fun t => (delta, lin delta t)) z2) n0) by apply (prod_facc delta (lin delta)). rewrite SF, Lz. clear SF.
    destruct (lin_sum delta Fd Pd z2 Fz2 HB) as (K1 & K2 & _). pose proof (lin_le delta Fd Pd z2 Fz2 HB) as K3. set (l := map (fun t => (delta, lin delta t)) z2) in *.
    destruct (dot_fin z1 Fz1 ltac:(eapply Rle_trans; [apply le_INR, L1|exact Hbig]) ltac:(lra)) as [F1 H1]. destruct (half_ok _ F1 ltac:(lra)) as (F2 & _ & H2).
    destruct (facc_fin l K1) as [F3 H3]; [rewrite K2; eapply Rle_trans; [apply le_INR, L2|exact Hbig]|lra|].
    assert (S1 : Rabs (fv (nmul F64 (nlit 1 2) (vdot z1 z1)) + fv (facc l n0)) <= bpow radix2 1020) by (eapply Rle_trans; [apply Rabs_triang|]; lra).
    destruct (add_fin _ _ F2 F3) as [F4 V4]; [apply rnd_fits; lra|]. pose proof (rnd_pow_le _ S1) as H4. rewrite <- V4 in H4. destruct (quot_ok _ _ F4 Fn ltac:(rewrite Vn; exact N1) H4) as [F5 H5].
    destruct (half_ok _ Fa ltac:(lra)) as (F6 & _ & H6).
    assert (S2 : Rabs (fv (nmul F64 (nlit 1 2) alpha) * fv (vdot x x)) <= bpow radix2 1020) by (rewrite Rabs_mult; eapply Rle_trans; [|exact BD]; apply Rmult_le_compat_r; [apply Rabs_pos|exact H6]).
    destruct (mul_fin _ _ F6 Fdx) as [F7 V7]; [apply rnd_fits; lra|]. pose proof (rnd_pow_le _ S2) as H7. rewrite <- V7 in H7.
    exact (proj1 (two_fin _ _ F5 F7 H5 H7)).
Qed.
Lemma run_C136 : let A := mkMat [[n1 (n:=F64)]; [nofZ F64 (-2)]] 1 in let x := [nofZ F64 3] in let b := [n1 (n:=F64); n0] in
  let ax := [nofZ F64 3; nofZ F64 (-6)] in let z := [nofZ F64 2; nofZ F64 (-6)] in
  Forall (fun r => length r = m_cols A) (m_rows A) /\ length b = length (m_rows A) /\ b <> [] /\ (Z.of_nat (length b) < 2 ^ 53)%Z /\ INR (length b) <= 2 ^ 50 /\ INR (length x) <= 2 ^ 50 /\
  Forall (Forall fin) (m_rows A) /\ Forall fin b /\ Forall fin x /\ fin (n1 (n:=F64)) /\ 0 <= fv (n1 (n:=F64)) /\ fin (nofZ F64 4) /\ 0 < fv (nofZ F64 4) /\
  mat_dot A x = Ok ax /\ np_sub ax b = Ok z /\ Forall fin z /\
  dot (map fv z) (map fv z) <= powerRZ 2 1000 /\ dot (map fv x) (map fv x) <= powerRZ 2 1000 /\ Rabs (fv (n1 (n:=F64))) <= powerRZ 2 1000 /\ Rabs (fv (n1 (n:=F64))) * dot (map fv x) (map fv x) <= powerRZ 2 1000 /\
  sq_call A b n1 x = Ok (nlit 29 2) /\ hub_call A b n1 (nofZ F64 4) x = Ok (RLoss (nlit 27 2)) /\ fin (nlit (K:=F64) 29 2) /\ fin (nlit (K:=F64) 27 2).
Proof.
  cbv zeta. split; [repeat constructor|]. split; [reflexivity|]. split; [discriminate|]. split; [reflexivity|]. split; [cbn; lra|]. split; [cbn; lra|].
  split; [repeat constructor|]. split; [repeat constructor|]. split; [repeat constructor|]. split; [apply fin_1|]. split; [rewrite fv_1; lra|]. split; [repeat constructor|].
  split; [unfold fv, SF2R, F2R; simpl; lra|]. split; [vm_compute; reflexivity|]. split; [vm_compute; reflexivity|]. split; [repeat constructor|].
  assert (V3 : fv (nofZ F64 3) = 3) by (unfold fv, SF2R, F2R; simpl; lra). assert (V2 : fv (nofZ F64 2) = 2) by (unfold fv, SF2R, F2R; simpl; lra). assert (V6 : fv (nofZ F64 (-6)) = -6) by (unfold fv, SF2R, F2R; simpl; lra).
  change (powerRZ 2 1000) with (powerRZ (IZR (Zaux.radix_val Zaux.radix2)) 1000). rewrite <- Raux.bpow_powerRZ.
  assert (B : 1024 <= Raux.bpow Zaux.radix2 1000) by (change 1024 with (bpow radix2 10); apply bpow_le; lia).
  cbn [map dot]. rewrite V3, V2, V6, fv_1, Rabs_R1. split; [lra|]. split; [lra|]. split; [lra|]. split; [lra|].
  split; [vm_compute; reflexivity|]. split; [reflexivity|]. split; apply fin_c; vm_compute; reflexivity.
Qed.
