(** * FloatSimplex: euclidean_proj_simplex in float64, the threshold *)
From Coq Require Import ZArith Reals Lra Lia Bool List Permutation Sorted.
From Coq Require Import Floats.SpecFloat.
From Flocq Require Import Core.Core IEEE754.BinarySingleNaN.
From Verif Require Import Num Vec Spec RVec ModelConstraint ConstraintFacts FloatBase FloatSum.
Import ListNotations.
Local Open Scope R_scope.

(** ** Stability of the threshold over the reals *)
Lemma soft_ge0 th l : 0 <= Rsum (map (soft th) l).
Proof. induction l as [|a l IH]; simpl; [lra|]. unfold soft at 1. pose proof (Rmax_r (a - th) 0). lra. Qed.
Lemma soft_lower th l : Rsum l - INR (length l) * th <= Rsum (map (soft th) l).
Proof.
  induction l as [|a l IH]; [simpl; lra|]. cbn [map Rsum length]. rewrite S_INR.
  unfold soft at 1. pose proof (Rmax_l (a - th) 0). lra.
Qed.
Lemma thr_above (u : list R) s th k : (k < length u)%nat -> Rsum (map (soft th) u) = s ->
  Rsum (firstn (S k) u) - s <= th * INR (S k).
Proof.
  intros Hk Hs. rewrite <- (firstn_skipn (S k) u), map_app, Rsum_app in Hs.
  pose proof (soft_ge0 th (skipn (S k) u)). pose proof (soft_lower th (firstn (S k) u)) as H1.
  rewrite firstn_length_le in H1 by lia. lra.
Qed.
Lemma sorted_cut (u : list R) th : StronglySorted Rge u ->
  Forall (fun t => t <= th) u \/
  exists k, (k < length u)%nat /\ Forall (fun t => th <= t) (firstn (S k) u) /\ Forall (fun t => t <= th) (skipn (S k) u).
Proof.
  induction u as [|a u IH]; intros Hs; [left; constructor|].
  inversion Hs as [|? ? Hs' Hf]; subst. destruct (Rle_or_lt a th) as [Ha|Ha].
  - left. constructor; [exact Ha|]. eapply Forall_impl; [|exact Hf]. simpl; intros; lra.
  - right. destruct (IH Hs') as [H|(k & Hk & H1 & H2)].
    + exists 0%nat. split; [simpl; lia|]. split; [simpl; constructor; [lra|constructor]|exact H].
    + exists (S k). split; [simpl; lia|]. split; [|exact H2]. cbn [firstn]. constructor; [lra|exact H1].
Qed.
Lemma thr_attained (u : list R) s th : StronglySorted Rge u -> 0 < s -> Rsum (map (soft th) u) = s ->
  exists k, (k < length u)%nat /\ Rsum (firstn (S k) u) - s = th * INR (S k).
Proof.
  intros Hs Hp He. destruct (sorted_cut u th Hs) as [H|(k & Hk & H1 & H2)].
  - rewrite soft_sum_zero in He by exact H. lra.
  - exists k. split; [exact Hk|]. rewrite <- (firstn_skipn (S k) u) in He. rewrite map_app, Rsum_app in He.
    rewrite soft_sum_all in He by exact H1. rewrite soft_sum_zero in He by exact H2.
    rewrite firstn_length_le in He by lia. lra.
Qed.
Lemma firstn_S_sum (u : list R) k : (k < length u)%nat -> Rsum (firstn (S k) u) = Rsum (firstn k u) + nth k u 0.
Proof.
  revert k; induction u as [|a u IH]; intros k Hk; simpl in Hk; [lia|].
  destruct k as [|k]; [simpl; lra|]. cbn [firstn Rsum nth]. specialize (IH k ltac:(lia)). cbn [firstn Rsum] in IH. lra.
Qed.
Lemma sorted_nth (u : list R) j k : StronglySorted Rge u -> (j <= k < length u)%nat -> nth k u 0 <= nth j u 0.
Proof.
  intros Hs Hj. destruct (ss_split u k Hs ltac:(lia)) as [H _]. rewrite Forall_forall in H. apply H.
  rewrite <- (firstn_skipn (S k) u) at 1. rewrite app_nth1 by (rewrite firstn_length_le; lia).
  apply nth_In. rewrite firstn_length_le; lia.
Qed.

Section Stable.
Variables (u : list R) (s E th : R) (rho : nat).
Hypothesis Hs : StronglySorted Rge u.
Hypothesis Hr : (rho < length u)%nat.
Hypothesis HE : 0 <= E.
Hypothesis Hp : 0 < s.
Hypothesis Hsum : Rsum (map (soft th) u) = s.
Hypothesis H1 : Rsum (firstn (S rho) u) - s <= nth rho u 0 * INR (S rho) + E.
Hypothesis H2 : forall k, (rho < k < length u)%nat -> nth k u 0 * INR (S k) <= Rsum (firstn (S k) u) - s + E.
Let phi k := (Rsum (firstn (S k) u) - s) / INR (S k).

Lemma phi_mul k : phi k * INR (S k) = Rsum (firstn (S k) u) - s.
Proof. unfold phi. field. apply not_0_INR. lia. Qed.
Lemma phi_S k : (S k < length u)%nat -> phi (S k) * INR (S (S k)) = phi k * INR (S k) + nth (S k) u 0.
Proof. intros H. rewrite !phi_mul. rewrite (firstn_S_sum u (S k)) by exact H. lra. Qed.

Lemma phi_later k : (rho <= k < length u)%nat -> phi k + E / INR (S k) <= phi rho + E / INR (S rho).
Proof.
  induction k as [|k IH]; intros Hk.
  - replace rho with 0%nat by lia. lra.
  - destruct (Nat.eq_dec rho (S k)) as [->|Hne]; [lra|].
    apply Rle_trans with (2 := IH ltac:(lia)).
    pose proof (H2 (S k) ltac:(lia)) as Hc. pose proof (phi_S k ltac:(lia)) as Hf.
    rewrite <- phi_mul in Hc.
    set (a := INR (S k)) in *. assert (Ha : 0 < a) by (apply lt_0_INR; lia).
    assert (Eb : INR (S (S k)) = a + 1) by (unfold a; apply S_INR). rewrite Eb in *.
    set (p := phi k) in *. set (q := phi (S k)) in *. set (x := nth (S k) u 0) in *.
    (* x * (a+1) <= q (a+1) + E,  q (a+1) = p a + x *)
    assert (Hx : x * a <= p * a + E) by lra.
    assert (Hq : q * (a + 1) * a <= p * (a + 1) * a + E) by nra.
    apply Rmult_le_reg_r with ((a + 1) * a); [nra|].
    replace ((q + E / (a + 1)) * ((a + 1) * a)) with (q * (a + 1) * a + E * a) by (field; lra).
    replace ((p + E / a) * ((a + 1) * a)) with (p * (a + 1) * a + E * (a + 1)) by (field; lra).
    lra.
Qed.
Lemma sum_between k : (k <= rho)%nat ->
  Rsum (firstn (S k) u) + INR (rho - k) * nth rho u 0 <= Rsum (firstn (S rho) u).
Proof.
  intros Hk. remember (rho - k)%nat as d eqn:Ed. revert k Hk Ed. induction d as [|d IH]; intros k Hk Ed.
  - replace k with rho by lia. simpl INR. lra.
  - specialize (IH (S k) ltac:(lia) ltac:(lia)). rewrite (firstn_S_sum u (S k)) in IH by lia.
    rewrite S_INR. pose proof (sorted_nth u (S k) rho Hs ltac:(lia)). lra.
Qed.
Lemma phi_earlier k : (k <= rho)%nat -> phi k <= phi rho + E.
Proof.
  intros Hk. pose proof (sum_between k Hk) as Hb.
  pose proof (phi_mul k) as M1. pose proof (phi_mul rho) as M2.
  assert (Ha : 1 <= INR (S k)) by (apply (le_INR 1); lia).
  assert (Hd : INR (S rho) = INR (S k) + INR (rho - k)) by (rewrite <- plus_INR; f_equal; lia).
  assert (Hd0 : 0 <= INR (rho - k)) by apply pos_INR.
  set (a := INR (S k)) in *. set (d := INR (rho - k)) in *. set (b := INR (S rho)) in *.
  set (p := phi k) in *. set (q := phi rho) in *. set (x := nth rho u 0) in *.
  (* q b <= x b + E *)
  assert (Hx : q * b <= x * b + E) by lra.
  assert (Hb' : p * a + d * x <= q * b) by lra.
  assert (Hb0 : 0 < b) by lra.
  (* d (q - E/b) <= d x, so p a <= q b - d q + d E / b = q a + d E / b <= q a + E *)
  assert (Hdx : d * (q * b) <= d * (x * b + E)) by (apply Rmult_le_compat_l; lra).
  assert (Hm : p * a * b + d * (q * b) - d * E <= q * b * b) by nra.
  assert (Hm2 : p * a * b <= q * a * b + d * E).
  { assert (q * b * b = q * a * b + d * (q * b)) by (rewrite Hd at 2; ring). lra. }
  assert (Hm3 : d * E <= b * E) by (apply Rmult_le_compat_r; lra).
  assert (Hm4 : p * a <= q * a + E).
  { apply Rmult_le_reg_r with b; [exact Hb0|]. lra. }
  assert (E <= E * a) by nra.
  apply Rmult_le_reg_r with a; [lra|]. lra.
Qed.
Lemma thr_stable : phi rho <= th <= phi rho + E.
Proof.
  split.
  - apply Rmult_le_reg_r with (INR (S rho)); [apply lt_0_INR; lia|]. rewrite phi_mul. apply thr_above; assumption.
  - destruct (thr_attained u s th Hs Hp Hsum) as (k & Hk & Ek).
    assert (Eth : th = phi k).
    { apply Rmult_eq_reg_r with (INR (S k)); [rewrite phi_mul; lra|apply not_0_INR; lia]. }
    rewrite Eth. destruct (Nat.le_gt_cases k rho) as [Hl|Hl]; [apply phi_earlier, Hl|].
    pose proof (phi_later k ltac:(lia)) as H.
    assert (0 <= E / INR (S k)) by (apply Rmult_le_pos; [exact HE|left; apply Rinv_0_lt_compat, lt_0_INR; lia]).
    assert (E / INR (S rho) <= E).
    { apply Rmult_le_reg_r with (INR (S rho)); [apply lt_0_INR; lia|].
      unfold Rdiv. rewrite Rmult_assoc, Rinv_l by (apply not_0_INR; lia).
      assert (1 <= INR (S rho)) by (apply (le_INR 1); lia). nra. }
    lra.
Qed.
End Stable.
