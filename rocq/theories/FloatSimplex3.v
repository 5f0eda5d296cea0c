(** * FloatSimplex3: accuracy of euclidean_proj_simplex in float64 *)
From Coq Require Import ZArith Reals Lra Lia Bool List Permutation Sorted.
From Coq Require Import Floats.SpecFloat.
From Flocq Require Import Core.Core IEEE754.BinarySingleNaN.
From Verif Require Import Num Vec Spec RVec ModelConstraint ConstraintFacts FloatBase FloatSum FloatSimplex FloatSimplex2.
Import ListNotations.
Local Open Scope R_scope.

Lemma Rsum_abs l : Rabs (Rsum l) <= Rsum (map Rabs l).
Proof. induction l as [|a l IH]; simpl; [rewrite Rabs_R0; lra|]. pose proof (Rabs_triang a (Rsum l)). lra. Qed.
Lemma abs_sum_ge0 l : 0 <= Rsum (map Rabs l).
Proof. induction l as [|a l IH]; simpl; [lra|]. pose proof (Rabs_pos a). lra. Qed.
Lemma abs_firstn k l : Rabs (Rsum (firstn k l)) <= Rsum (map Rabs l).
Proof.
  rewrite <- (firstn_skipn k l) at 2. rewrite map_app, Rsum_app.
  pose proof (Rsum_abs (firstn k l)). pose proof (abs_sum_ge0 (skipn k l)). lra.
Qed.
Lemma abs_nth k l : Rabs (nth k l 0) <= Rsum (map Rabs l).
Proof.
  revert k; induction l as [|a l IH]; intros [|k]; simpl; try (rewrite Rabs_R0; lra).
  - pose proof (abs_sum_ge0 l). lra.
  - pose proof (IH k). pose proof (Rabs_pos a). lra.
Qed.

Lemma mask_nth {K : Num} (s : K) : forall (u cs : vec K) k j, length cs = length u -> (j < length u)%nat ->
  nth j (rho_mask_from k s u cs) false = nltb K (nsub K (nth j cs n0) s) (nmul K (nth j u n0) (nofnat (S (k + j)))).
Proof.
  induction u as [|a u IH]; intros [|c cs] k [|j] Hl Hj; simpl in Hl, Hj; try lia.
  - cbn [rho_mask_from nth]. rewrite Nat.add_0_r. reflexivity.
  - cbn [rho_mask_from nth]. rewrite IH by lia. do 3 f_equal. lia.
Qed.
Lemma mask_length {K : Num} (s : K) : forall (u cs : vec K) k, length cs = length u -> length (rho_mask_from k s u cs) = length u.
Proof. induction u as [|a u IH]; intros [|c cs] k Hl; simpl in *; try lia. rewrite IH; lia. Qed.

Lemma cumsum_err (u : list F64) AT : Forall fin u ->
  (forall i, (i < length u)%nat -> Rabs (Rsum (firstn (S i) (map fv u))) <= AT) ->
  INR (length u) * uro <= / 2 -> 2 * AT <= bpow radix2 1023 ->
  length (cumsum u) = length u /\
  forall i, (i < length u)%nat ->
    fin (nth i (cumsum u) n0) /\
    Rabs (fv (nth i (cumsum u) n0) - Rsum (firstn (S i) (map fv u))) <= 2 * INR i * uro * AT.
Proof.
  intros Fu HA Hn HT. destruct u as [|x u].
  - split; [reflexivity|]. intros i Hi. simpl in Hi. lia.
  - pose proof (Forall_inv Fu) as Fx. pose proof (Forall_inv_tail Fu) as Fu'.
    destruct (cumsum_from_err u x (fv x) AT 0 Fx Fu') as [L P].
    + simpl INR. unfold Rminus. rewrite Rplus_opp_r, Rabs_R0. lra.
    + intros i Hi. apply (HA (S i)). apply (proj1 (Nat.succ_lt_mono _ _) Hi).
    + eapply Rle_trans; [|exact Hn]. apply Rmult_le_compat_r; [left; apply uro_pos|].
      cbn [length Nat.add]. apply le_INR. lia.
    + exact HT.
    + cbn [cumsum length]. split; [f_equal; exact L|]. intros [|i] Hi.
      * cbn [nth map firstn Rsum]. split; [exact Fx|]. simpl INR. rewrite Rplus_0_r.
        unfold Rminus. rewrite Rplus_opp_r, Rabs_R0. lra.
      * cbn [nth]. apply (P i (proj2 (Nat.succ_lt_mono _ _) Hi)).
Qed.

Lemma vsum_err (l : list F64) : forall a S0 AT m,
  fin a -> Forall fin l -> Rabs (fv a - S0) <= 2 * INR m * uro * AT ->
  (forall i, (i < length l)%nat -> Rabs (S0 + Rsum (firstn (S i) (map fv l))) <= AT) ->
  INR (m + length l) * uro <= / 2 -> 2 * AT <= bpow radix2 1023 ->
  fin (fold_left (nadd F64) l a) /\
  Rabs (fv (fold_left (nadd F64) l a) - (S0 + Rsum (map fv l))) <= 2 * INR (m + length l) * uro * AT.
Proof.
  induction l as [|x l IH]; intros a S0 AT m Fa Fl He HA Hm HT.
  - cbn [fold_left map Rsum length]. rewrite Rplus_0_r, Nat.add_0_r. split; assumption.
  - pose proof (Forall_inv Fl) as Fx. pose proof (Forall_inv_tail Fl) as Fl'.
    assert (Hm' : INR m * uro <= / 2).
    { eapply Rle_trans; [|exact Hm]. apply Rmult_le_compat_r; [left; apply uro_pos|]. apply le_INR. lia. }
    assert (HA0 : Rabs (S0 + fv x) <= AT).
    { pose proof (HA 0%nat ltac:(simpl; lia)) as H. cbn in H. rewrite Rplus_0_r in H. exact H. }
    destruct (sum_step a x S0 AT m Fa Fx He HA0 Hm' HT) as [F1 E1].
    cbn [fold_left map Rsum]. rewrite <- Rplus_assoc.
    replace (m + length (x :: l))%nat with (S m + length l)%nat in * by (simpl; lia).
    apply IH; try assumption.
    intros i Hi. specialize (HA (S i) (proj1 (Nat.succ_lt_mono _ _) Hi)). cbn [map firstn Rsum] in HA |- *.
    rewrite Rplus_assoc. exact HA.
Qed.

(** The accuracy: n coordinates, B = |v_1| + ... + |v_n| + s. *)
Definition simplex_err (c : R) (n : nat) (B : R) : R := c * INR n * B / 2 ^ 53 + powerRZ 2 (-1073).

Section Acc.
Variables (v : list F64) (s : F64).
Hypothesis Fv : Forall fin v.
Hypothesis Fs : fin s.
Hypothesis Hs : 0 < fv s.
Hypothesis Hne : v <> [].
Hypothesis Hn : (Z.of_nat (length v) <= 2 ^ 50)%Z.
Let n := length v.
Let A := Rsum (fabs v).
Let B := A + fv s.
Hypothesis HB : INR n * B <= bpow radix2 1020.
Let u := sort_desc v.
Let ur := map fv u.

Lemma n_pos : (1 <= n)%nat.
Proof. clear - Hne. unfold n. destruct v; [congruence|simpl; lia]. Qed.
Lemma n_ge1 : 1 <= INR n.
Proof. apply (le_INR 1), n_pos. Qed.
Lemma nu_small : INR n * uro <= / 8.
Proof.
  unfold n. rewrite INR_IZR_INZ. apply Rle_trans with (IZR (2 ^ 50) * uro).
  - apply Rmult_le_compat_r; [left; apply uro_pos|]. apply IZR_le, Hn.
  - rewrite uro_val. change (2 ^ 50)%Z with 1125899906842624%Z. lra.
Qed.
Lemma fabs_map : fabs v = map Rabs (map fv v).
Proof. unfold fabs. rewrite map_map. reflexivity. Qed.
Lemma A_pos : 0 <= A.
Proof. unfold A. rewrite fabs_map. apply abs_sum_ge0. Qed.
Lemma B_pos : 0 < B.
Proof. unfold B. pose proof A_pos. lra. Qed.
Lemma B_fit : B <= bpow radix2 1020.
Proof.
  eapply Rle_trans; [|exact HB]. rewrite <- (Rmult_1_l B) at 1. apply Rmult_le_compat_r; [left; apply B_pos|apply n_ge1].
Qed.
Lemma four_fit r : Rabs r <= 8 * bpow radix2 1020 -> Rabs (rnd r) < fbig.
Proof.
  intros H. apply rnd_fits. change 1023%Z with (3 + 1020)%Z. rewrite bpow_plus.
  change (bpow radix2 3) with 8. exact H.
Qed.
Lemma ur_sort : ur = sort_desc (K:=RN) (map fv v).
Proof. apply sort_fv, Fv. Qed.
Lemma ur_perm : Permutation ur (map fv v).
Proof. unfold ur, u. apply Permutation_map, sort_perm. Qed.
Lemma ur_sorted : StronglySorted Rge ur.
Proof. rewrite ur_sort. apply sort_desc_sorted. Qed.
Lemma u_length : length u = n.
Proof. unfold u. apply Permutation_length, sort_perm. Qed.
Lemma ur_length : length ur = n.
Proof. unfold ur. rewrite map_length. apply u_length. Qed.
Lemma ur_abs : Rsum (map Rabs ur) = A.
Proof. unfold A. rewrite fabs_map. apply Rsum_perm, Permutation_map, ur_perm. Qed.
Lemma u_fin : Forall fin u.
Proof. apply sort_fin, Fv. Qed.
Lemma u_nth k : fv (nth k u n0) = nth k ur 0.
Proof. apply fv_nth. Qed.

Lemma cs_err : length (cumsum u) = n /\ forall k, (k < n)%nat ->
  fin (nth k (cumsum u) n0) /\ Rabs (fv (nth k (cumsum u) n0) - Rsum (firstn (S k) ur)) <= 2 * INR k * uro * A.
Proof.
  rewrite <- u_length. apply cumsum_err.
  - apply u_fin.
  - intros i _. rewrite <- ur_abs. apply abs_firstn.
  - rewrite u_length. pose proof nu_small. lra.
  - pose proof B_fit. pose proof A_pos. assert (A <= B) by (unfold B; lra).
    change 1023%Z with (3 + 1020)%Z. rewrite bpow_plus. change (bpow radix2 3) with 8.
    pose proof (bpow_gt_0 radix2 1020). lra.
Qed.
Lemma kn_le k : (k < n)%nat -> 1 <= INR (S k) <= INR n.
Proof. intros H. split; [apply (le_INR 1); lia|apply le_INR; lia]. Qed.

Lemma T_err k : (k < n)%nat ->
  fin (nsub F64 (nth k (cumsum u) n0) s) /\
  Rabs (fv (nsub F64 (nth k (cumsum u) n0) s) - (Rsum (firstn (S k) ur) - fv s)) <= 2 * INR (S k) * uro * B.
Proof.
  intros Hk. destruct (proj2 cs_err k Hk) as [Fc Ec]. pose proof (kn_le k Hk) as [K1 K2].
  pose proof nu_small as Hnu. pose proof uro_pos as Hu. pose proof B_fit as Hb. pose proof B_pos as Bp.
  pose proof A_pos as Ap. pose proof (pos_INR k) as K0. rewrite S_INR in *.
  set (c := fv (nth k (cumsum u) n0)) in *. set (Sk := Rsum (firstn (S k) ur)) in *.
  assert (HA : Rabs Sk <= A) by (unfold Sk; rewrite <- ur_abs; apply abs_firstn).
  assert (AB : A <= B) by (unfold B; lra).
  assert (Hku : INR k * uro <= / 8).
  { eapply Rle_trans; [|exact Hnu]. apply Rmult_le_compat_r; lra. }
  assert (Hku0 : 0 <= INR k * uro) by (apply Rmult_le_pos; lra).
  assert (Ec' : Rabs (c - Sk) <= 2 * INR k * uro * B).
  { eapply Rle_trans; [exact Ec|]. apply Rmult_le_compat_l; lra. }
  assert (Hd : Rabs (c - fv s) <= 2 * B).
  { replace (c - fv s) with ((c - Sk) + (Sk - fv s)) by ring. eapply Rle_trans; [apply Rabs_triang|].
    assert (Rabs (Sk - fv s) <= B).
    { unfold Rminus. eapply Rle_trans; [apply Rabs_triang|]. rewrite Rabs_Ropp, (Rabs_pos_eq (fv s)) by lra. unfold B. lra. }
    assert (2 * INR k * uro * B <= B) by nra. lra. }
  destruct (sub_fin _ _ Fc Fs) as [F1 V1].
  { apply four_fit. fold c. lra. }
  split; [exact F1|]. rewrite V1. fold c.
  pose proof (rnd_sub_err _ _ (fin_repr _ Fc) (fin_repr _ Fs)) as H1. fold c in H1.
  replace (rnd (c - fv s) - (Sk - fv s)) with ((rnd (c - fv s) - (c - fv s)) + (c - Sk)) by ring.
  eapply Rle_trans; [apply Rabs_triang|].
  assert (uro * Rabs (c - fv s) <= uro * (2 * B)) by (apply Rmult_le_compat_l; lra).
  lra.
Qed.

Lemma U_err k : (k < n)%nat ->
  fin (nmul F64 (nth k u n0) (nofnat (S k))) /\
  Rabs (fv (nmul F64 (nth k u n0) (nofnat (S k))) - nth k ur 0 * INR (S k)) <= INR n * uro * B + eta.
Proof.
  intros Hk. pose proof (kn_le k Hk) as [K1 K2]. pose proof B_pos as Bp. pose proof uro_pos as Hu.
  assert (Fk : fin (nth k u n0)).
  { pose proof u_fin as H. rewrite Forall_forall in H. apply H, nth_In. rewrite u_length. exact Hk. }
  destruct (nofnat_fin (S k)) as [Fi Vi].
  { fold n in Hn. lia. }
  assert (Hx : Rabs (nth k ur 0 * INR (S k)) <= INR n * B).
  { rewrite Rabs_mult, (Rabs_pos_eq (INR (S k))) by lra. rewrite Rmult_comm.
    apply Rmult_le_compat; [lra|apply Rabs_pos|exact K2|].
    pose proof (abs_nth k ur) as H. rewrite ur_abs in H. unfold B. lra. }
  destruct (mul_fin _ _ Fk Fi) as [F1 V1].
  { rewrite Vi, u_nth. apply four_fit. pose proof (bpow_gt_0 radix2 1020). lra. }
  split; [exact F1|]. rewrite V1, Vi, u_nth.
  eapply Rle_trans; [apply rnd_err|]. rewrite (Rmult_comm (INR n) uro), Rmult_assoc.
  apply Rplus_le_compat_r. apply Rmult_le_compat_l; lra.
Qed.

Let E := 3 * INR n * uro * B + eta.
Lemma T_err_n k : (k < n)%nat ->
  Rabs (fv (nsub F64 (nth k (cumsum u) n0) s) - (Rsum (firstn (S k) ur) - fv s)) <= 2 * INR n * uro * B.
Proof.
  intros Hk. eapply Rle_trans; [apply T_err, Hk|]. pose proof (kn_le k Hk) as [K1 K2].
  pose proof uro_pos. pose proof B_pos. apply Rmult_le_compat_r; [lra|]. apply Rmult_le_compat_r; lra.
Qed.
Lemma mask_val k : (k < n)%nat -> nth k (rho_mask_from 0 s u (cumsum u)) false
  = Rltb (fv (nsub F64 (nth k (cumsum u) n0) s)) (fv (nmul F64 (nth k u n0) (nofnat (S k)))).
Proof.
  intros Hk. rewrite mask_nth; [|rewrite u_length; apply cs_err|rewrite u_length; exact Hk].
  rewrite Nat.add_0_l. apply ltb_fin; [apply T_err, Hk|apply U_err, Hk].
Qed.
Lemma mask_true k : (k < n)%nat -> nth k (rho_mask_from 0 s u (cumsum u)) false = true ->
  Rsum (firstn (S k) ur) - fv s <= nth k ur 0 * INR (S k) + E.
Proof.
  intros Hk. rewrite mask_val by exact Hk. intros H. apply Rltb_iff in H.
  pose proof (T_err_n k Hk) as H1. destruct (U_err k Hk) as [_ H2].
  apply Raux.Rabs_le_inv in H1. apply Raux.Rabs_le_inv in H2. unfold E. lra.
Qed.
Lemma mask_false k : (k < n)%nat -> nth k (rho_mask_from 0 s u (cumsum u)) false = false ->
  nth k ur 0 * INR (S k) <= Rsum (firstn (S k) ur) - fv s + E.
Proof.
  intros Hk. rewrite mask_val by exact Hk. intros H.
  destruct (Rltb_spec (fv (nsub F64 (nth k (cumsum u) n0) s)) (fv (nmul F64 (nth k u n0) (nofnat (S k))))) as [|Hc]; [discriminate|].
  pose proof (T_err_n k Hk) as H1. destruct (U_err k Hk) as [_ H2].
  apply Raux.Rabs_le_inv in H1. apply Raux.Rabs_le_inv in H2. unfold E. lra.
Qed.

(** the exact threshold *)
Variable th : R.
Hypothesis Hth : Rsum (map (soft th) (map fv v)) = fv s.
Lemma th_ur : Rsum (map (soft th) ur) = fv s.
Proof. rewrite <- Hth. apply Rsum_perm, Permutation_map, ur_perm. Qed.

Lemma theta_err rho : (rho < n)%nat -> nth rho (rho_mask_from 0 s u (cumsum u)) false = true ->
  (forall k, (rho < k)%nat -> nth k (rho_mask_from 0 s u (cumsum u)) false = false) ->
  let theta := ndiv F64 (nsub F64 (nth rho (cumsum u) n0) s) (nadd F64 (nofnat rho) n1) in
  fin theta /\ Rabs (fv theta - th) <= 7 * INR n * uro * B + 2 * eta /\ Rabs (fv theta) <= 2 * B + eta.
Proof.
  intros Hr Ht Hf theta. pose proof (kn_le rho Hr) as [K1 K2]. pose proof B_pos as Bp. pose proof uro_pos as Hu.
  pose proof nu_small as Hnu. pose proof n_ge1 as N1. pose proof eta_pos as He. pose proof A_pos as Ap.
  destruct (T_err rho Hr) as [FT ET].
  destruct (nofnat_fin rho) as [Fi Vi]; [fold n in Hn; lia|].
  assert (Ed : fin (nadd F64 (nofnat rho) n1) /\ fv (nadd F64 (nofnat rho) n1) = INR (S rho)).
  { assert (Er : rnd (fv (@nofnat F64 rho) + fv n1) = INR (S rho)).
    { rewrite Vi, fv_1, <- S_INR. apply rnd_repr. rewrite INR_IZR_INZ. apply repr_int. fold n in Hn. lia. }
    destruct (add_fin _ _ Fi fin_1) as [F V].
    - rewrite Er. rewrite Rabs_pos_eq by apply pos_INR. apply Rle_lt_trans with (INR n); [exact K2|].
      unfold n. rewrite INR_IZR_INZ. apply Rle_lt_trans with (IZR (2 ^ 50)); [apply IZR_le, Hn|].
      change (IZR (2 ^ 50)) with (bpow radix2 50). apply bpow_lt. lia.
    - split; [exact F|]. rewrite V. exact Er. }
  destruct Ed as [Fd Vd].
  set (T := fv (nsub F64 (nth rho (cumsum u) n0) s)) in *.
  set (P := Rsum (firstn (S rho) ur) - fv s) in *.
  assert (HP : Rabs P <= B).
  { unfold P, Rminus. eapply Rle_trans; [apply Rabs_triang|]. rewrite Rabs_Ropp, (Rabs_pos_eq (fv s)) by lra.
    pose proof (abs_firstn (S rho) ur) as H. rewrite ur_abs in H. unfold B. lra. }
  set (r := INR (S rho)) in *.
  assert (Hphi : Rabs (P / r) <= B).
  { unfold Rdiv. rewrite Rabs_mult, (Rabs_pos_eq (/ r)) by (left; apply Rinv_0_lt_compat; lra).
    apply Rle_trans with (B * 1); [|lra]. apply Rmult_le_compat; [apply Rabs_pos|left; apply Rinv_0_lt_compat; lra|exact HP|].
    rewrite <- Rinv_1. apply Rinv_le_contravar; lra. }
  assert (Hq : Rabs (T / r - P / r) <= 2 * uro * B).
  { replace (T / r - P / r) with ((T - P) / r) by (field; lra). unfold Rdiv.
    rewrite Rabs_mult, (Rabs_pos_eq (/ r)) by (left; apply Rinv_0_lt_compat; lra).
    apply Rmult_le_reg_r with r; [lra|]. rewrite Rmult_assoc, Rinv_l by lra. lra. }
  assert (Huro : uro <= / 8).
  { eapply Rle_trans; [|exact Hnu]. rewrite <- (Rmult_1_l uro) at 1. apply Rmult_le_compat_r; lra. }
  assert (HuB : uro * B <= B / 8).
  { assert (uro * B <= / 8 * B) by (apply Rmult_le_compat_r; lra). lra. }
  assert (HuB0 : 0 <= uro * B) by (apply Rmult_le_pos; lra).
  assert (Hqa : Rabs (T / r) <= 2 * B).
  { replace (T / r) with ((T / r - P / r) + P / r) by ring. eapply Rle_trans; [apply Rabs_triang|]. lra. }
  destruct (div_fin _ _ FT Fd) as [F V].
  { rewrite Vd. fold r. lra. }
  { rewrite Vd. fold T r. apply four_fit. pose proof B_fit. pose proof (bpow_gt_0 radix2 1020). lra. }
  fold theta in F, V. rewrite Vd in V. fold T r in V.
  pose proof (rnd_err (T / r)) as Hrd. rewrite <- V in Hrd.
  assert (Hre : uro * Rabs (T / r) <= uro * (2 * B)) by (apply Rmult_le_compat_l; lra).
  assert (Hst : P / r <= th <= P / r + E).
  { apply (thr_stable ur (fv s) E th rho).
    - apply ur_sorted.
    - rewrite ur_length. exact Hr.
    - unfold E. assert (0 <= 3 * INR n * uro * B) by (apply Rmult_le_pos; [apply Rmult_le_pos; lra|lra]). lra.
    - exact Hs.
    - apply th_ur.
    - apply mask_true; assumption.
    - intros k Hk. rewrite ur_length in Hk. apply mask_false; [lia|]. apply Hf. lia. }
  assert (HnuB : uro * B <= INR n * uro * B).
  { rewrite Rmult_assoc. rewrite <- (Rmult_1_l (uro * B)) at 1. apply Rmult_le_compat_r; lra. }
  split; [exact F|]. unfold E in Hst.
  apply Raux.Rabs_le_inv in Hq. apply Raux.Rabs_le_inv in Hrd. apply Raux.Rabs_le_inv in Hphi.
  split; apply Rabs_le; lra.
Qed.

Lemma coord_err (theta : F64) i : (i < n)%nat -> fin theta ->
  Rabs (fv theta - th) <= 7 * INR n * uro * B + 2 * eta -> Rabs (fv theta) <= 2 * B + eta ->
  let y := nsub F64 (nth i v n0) theta in
  let w := if nltb F64 y n0 then n0 else y in
  fin w /\ 0 <= fv w /\ Rabs (fv w - soft th (fv (nth i v n0))) <= 10 * INR n * uro * B + 3 * eta.
Proof.
  intros Hi Fth H1 H2 y w. pose proof B_pos as Bp. pose proof uro_pos as Hu. pose proof eta_pos as He.
  pose proof nu_small as Hnu. pose proof n_ge1 as N1.
  assert (Fi : fin (nth i v n0)).
  { rewrite Forall_forall in Fv. apply Fv, nth_In, Hi. }
  set (x := fv (nth i v n0)) in *.
  assert (Hx : Rabs x <= B).
  { unfold x. rewrite fv_nth. pose proof (abs_nth i (map fv v)) as H. rewrite <- fabs_map in H. fold A in H. unfold B. lra. }
  assert (Hd : Rabs (x - fv theta) <= 3 * B + eta).
  { unfold Rminus. eapply Rle_trans; [apply Rabs_triang|]. rewrite Rabs_Ropp. lra. }
  assert (He1 : eta <= bpow radix2 1020) by (apply bpow_le; lia).
  destruct (sub_fin _ _ Fi Fth) as [F V].
  { fold x. apply four_fit. pose proof B_fit. pose proof (bpow_gt_0 radix2 1020). lra. }
  fold y in F, V. fold x in V.
  pose proof (rnd_sub_err _ _ (fin_repr _ Fi) (fin_repr _ Fth)) as H3. fold x in H3. rewrite <- V in H3.
  assert (Huro : uro <= / 8).
  { eapply Rle_trans; [|exact Hnu]. rewrite <- (Rmult_1_l uro) at 1. apply Rmult_le_compat_r; lra. }
  assert (H4 : uro * Rabs (x - fv theta) <= uro * (3 * B + eta)) by (apply Rmult_le_compat_l; lra).
  assert (H5 : uro * eta <= eta) by nra.
  assert (HnuB : uro * B <= INR n * uro * B).
  { rewrite Rmult_assoc. rewrite <- (Rmult_1_l (uro * B)) at 1. apply Rmult_le_compat_r; [apply Rmult_le_pos; lra|lra]. }
  assert (H6 : Rabs (fv y - (x - th)) <= 10 * INR n * uro * B + 3 * eta).
  { replace (fv y - (x - th)) with ((fv y - (x - fv theta)) + - (fv theta - th)) by ring.
    eapply Rle_trans; [apply Rabs_triang|]. rewrite Rabs_Ropp. lra. }
  subst w. rewrite ltb_fin by (assumption || apply fin_0). rewrite fv_0.
  apply Raux.Rabs_le_inv in H6.
  destruct (Rltb_spec (fv y) 0) as [Hy|Hy].
  - split; [apply fin_0|]. rewrite fv_0. split; [lra|]. unfold soft, Rmax. apply Rabs_le. destruct Rle_dec; lra.
  - split; [exact F|]. split; [exact Hy|]. unfold soft, Rmax. apply Rabs_le. destruct Rle_dec; lra.
Qed.
End Acc.
