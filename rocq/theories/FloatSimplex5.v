(** * FloatSimplex5: euclidean_proj_simplex raises IndexError on large finite input *)
From Coq Require Import ZArith Reals Lra Lia Bool List.
From Coq Require Import Floats.SpecFloat.
From Flocq Require Import Core.Core IEEE754.BinarySingleNaN.
From Verif Require Import Num Vec Spec RVec ModelConstraint ConstraintFacts FloatBase FloatSum FloatSimplex FloatSimplex2 FloatSimplex3 FloatSimplex4.
Import ListNotations.
Local Open Scope R_scope.

Lemma gap x y : repr x -> repr y -> 0 <= x < y -> uro * x < y - x.
Proof.
  intros Hx Hy [H0 H1].
  assert (Hs : succ radix2 f64exp x <= y).
  { apply succ_le_lt; [apply FLT_exp_valid; reflexivity|exact Hx|exact Hy|exact H1]. }
  rewrite succ_eq_pos in Hs by exact H0.
  destruct (Req_dec x 0) as [->|Hnz].
  { lra. }
  assert (Hu : Rabs x * uro < ulp radix2 f64exp x) by (apply (ulp_FLT_gt radix2 (-1074) 53); exact Hnz).
  rewrite Rabs_pos_eq in Hu by exact H0. lra.
Qed.
Lemma close_eq a d : repr a -> repr d -> Rabs (d - a) <= / 18014398509481984 * Rabs a -> d = a.
Proof.
  assert (P : forall a d, 0 <= a -> repr a -> repr d -> Rabs (d - a) <= / 18014398509481984 * a -> d = a).
  { clear a d. intros a d Ha Ra Rd H. apply Raux.Rabs_le_inv in H.
    destruct (Rtotal_order d a) as [Hl|[He|Hl]]; [|exact He|].
    - pose proof (gap d a Rd Ra) as G. rewrite uro_val in G. lra.
    - pose proof (gap a d Ra Rd) as G. rewrite uro_val in G. lra. }
  intros Ra Rd H. destruct (Rle_or_lt 0 a) as [Ha|Ha].
  - rewrite (Rabs_pos_eq a) in H by exact Ha. apply P; assumption.
  - rewrite (Rabs_left a) in H by exact Ha. enough (E : - d = - a) by lra. apply P.
    + lra.
    + apply repr_opp, Ra.
    + apply repr_opp, Rd.
    + rewrite <- Rabs_Ropp. replace (- (- d - - a)) with (d - a) by ring. exact H.
Qed.
Lemma sub_absorb a s : repr a -> 0 <= s -> 36028797018963968 * s <= Rabs a -> rnd (a - s) = a.
Proof.
  intros Ra Hs H. apply close_eq; [exact Ra|apply repr_rnd|].
  pose proof (rnd_closest (a - s) a Ra) as Hc. replace (a - (a - s)) with s in Hc by ring.
  rewrite (Rabs_pos_eq s Hs) in Hc.
  replace (rnd (a - s) - a) with ((rnd (a - s) - (a - s)) + - s) by ring.
  eapply Rle_trans; [apply Rabs_triang|]. rewrite Rabs_Ropp, (Rabs_pos_eq s Hs). lra.
Qed.

Definition spike (a : F64) (m : nat) : list F64 := a :: repeat n0 m.

Lemma add_0_val (a : F64) : fin a -> fin (nadd F64 a n0) /\ fv (nadd F64 a n0) = fv a.
Proof.
  intros Fa. destruct (add_fin a n0 Fa fin_0) as [F V].
  - rewrite fv_0, Rplus_0_r, rnd_fin by exact Fa. apply fin_small, Fa.
  - split; [exact F|]. rewrite V, fv_0, Rplus_0_r. apply rnd_fin, Fa.
Qed.
Lemma spike_sum_from m : forall a : F64, fin a ->
  fin (fold_left (nadd F64) (repeat n0 m) a) /\ fv (fold_left (nadd F64) (repeat n0 m) a) = fv a.
Proof.
  induction m as [|m IH]; intros a Fa; [split; [exact Fa|reflexivity]|].
  cbn [repeat fold_left]. destruct (add_0_val a Fa) as [F V]. rewrite <- V. apply IH, F.
Qed.
Lemma spike_sum a m : fin a -> fin (vsum (spike a m)) /\ fv (vsum (spike a m)) = fv a.
Proof.
  intros Fa. unfold vsum, spike. cbn [fold_left].
  destruct (add_fin n0 a fin_0 Fa) as [F V].
  - rewrite fv_0, Rplus_0_l, rnd_fin by exact Fa. apply fin_small, Fa.
  - rewrite fv_0, Rplus_0_l, rnd_fin in V by exact Fa. rewrite <- V. apply spike_sum_from, F.
Qed.

Lemma insert_spike a m : fin a -> 0 <= fv a -> insert_desc a (repeat n0 m) = spike a m.
Proof.
  intros Fa Ha. unfold spike. destruct m as [|m]; [reflexivity|]. cbn [repeat insert_desc].
  rewrite ltb_fin, fv_0 by (assumption || apply fin_0). rewrite Rltb_false by lra. reflexivity.
Qed.
Lemma sort_zeros m : sort_desc (repeat (n0 : F64) m) = repeat n0 m.
Proof.
  induction m as [|m IH]; [reflexivity|]. cbn [repeat]. unfold sort_desc in *. cbn [fold_right]. rewrite IH.
  rewrite insert_spike; [reflexivity|apply fin_0|rewrite fv_0; lra].
Qed.
Lemma sort_spike a m : fin a -> 0 <= fv a -> sort_desc (spike a m) = spike a m.
Proof.
  intros Fa Ha. unfold spike at 1, sort_desc. cbn [fold_right]. fold (sort_desc (repeat (n0 : F64) m)).
  rewrite sort_zeros. apply insert_spike; assumption.
Qed.
Lemma spike_cums m : forall c : F64, fin c ->
  Forall (fun y => fin y /\ fv y = fv c) (cumsum_from c (repeat n0 m)).
Proof.
  induction m as [|m IH]; intros c Fc; [constructor|]. cbn [repeat cumsum_from].
  destruct (add_0_val c Fc) as [F V]. constructor; [split; assumption|]. rewrite <- V. apply IH, F.
Qed.
Lemma mask_all_false (s : F64) (a : R) : fin s -> 0 < fv s -> 36028797018963968 * fv s <= a ->
  forall cs k, Forall (fun y => fin y /\ fv y = a) cs -> (Z.of_nat (k + length cs) < 2 ^ 53)%Z ->
  rho_mask_from k s (repeat n0 (length cs)) cs = repeat false (length cs).
Proof.
  intros Fs Hs Ha. induction cs as [|c cs IH]; intros k Hc Hk; [reflexivity|].
  cbn [length repeat rho_mask_from]. pose proof (Forall_inv Hc) as [Fc Vc].
  rewrite IH; [|apply (Forall_inv_tail Hc)|cbn [length] in Hk; lia]. f_equal.
  destruct (nofnat_fin (S k)) as [Fk Vk]; [cbn [length] in Hk; lia|].
  assert (Er : rnd (fv c - fv s) = a).
  { rewrite Vc. apply sub_absorb; [rewrite <- Vc; apply fin_repr, Fc|lra|rewrite Rabs_pos_eq; lra]. }
  destruct (sub_fin c s Fc Fs) as [F1 V1]; [rewrite Er, <- Vc; apply fin_small, Fc|].
  destruct (mul_fin n0 (nofnat (S k)) fin_0 Fk) as [F2 V2].
  { rewrite fv_0, Rmult_0_l, rnd_0, Rabs_R0. apply bpow_gt_0. }
  rewrite ltb_fin by assumption. rewrite V1, V2, Er, fv_0, Rmult_0_l, rnd_0. apply Rltb_false. lra.
Qed.
Lemma last_false m : forall i best, last_true_from i (repeat false m) best = best.
Proof. induction m as [|m IH]; intros i best; [reflexivity|]. cbn [repeat last_true_from]. apply IH. Qed.

Lemma spike_index (a s : F64) m : fin a -> fin s -> 0 < fv s -> 36028797018963968 * fv s <= fv a ->
  (Z.of_nat m < 2 ^ 53 - 1)%Z -> proj_simplex (spike a m) s = Err IndexError.
Proof.
  intros Fa Fs Hs Ha Hm. unfold proj_simplex.
  rewrite ltb_fin, fv_0 by (apply fin_0 || assumption). rewrite (Rltb_true 0 (fv s) Hs). cbn [negb].
  destruct (spike_sum a m Fa) as [F1 V1]. rewrite eqb_fin by assumption. rewrite V1.
  destruct (Reqb_spec (fv a) (fv s)) as [He|_]; [lra|]. cbn [andb].
  rewrite sort_spike by (assumption || lra). unfold spike. cbn [cumsum rho_mask_from].
  assert (Lc : length (cumsum_from a (repeat (n0 : F64) m)) = m).
  { clear. revert a. induction m as [|m IH]; intros a; [reflexivity|]. cbn [repeat cumsum_from length]. f_equal. apply IH. }
  pose proof (mask_all_false s (fv a) Fs Hs Ha (cumsum_from a (repeat n0 m)) 1 (spike_cums m a Fa)) as Hmask.
  rewrite Lc in Hmask. rewrite Hmask by lia. clear Hmask.
  assert (Er : rnd (fv a - fv s) = fv a).
  { apply sub_absorb; [apply fin_repr, Fa|lra|rewrite Rabs_pos_eq; lra]. }
  destruct (sub_fin a s Fa Fs) as [F2 V2]; [rewrite Er; apply fin_small, Fa|].
  destruct (nofnat_fin 1) as [Fk Vk]; [lia|].
  assert (Em : rnd (fv a * fv (@nofnat F64 1)) = fv a).
  { rewrite Vk. simpl INR. rewrite Rmult_1_r. apply rnd_fin, Fa. }
  destruct (mul_fin a (nofnat 1) Fa Fk) as [F3 V3]; [rewrite Em; apply fin_small, Fa|].
  rewrite ltb_fin by assumption. rewrite V2, V3, Er, Em, Rltb_false by lra.
  unfold last_true. cbn [last_true_from]. rewrite last_false. reflexivity.
Qed.

Lemma main_C115_refuted : forall (a s : F64) (m : nat),
  fin a -> fin s -> 0 < fv s -> (Z.of_nat m < 2 ^ 53 - 1)%Z ->
  36028797018963968 * fv s <= fv a ->
  simplex_prox s (a :: repeat n0 m) = Err IndexError /\
  l1ball_prox s (a :: repeat n0 m) = Err IndexError.
Proof.
  intros a s m Fa Fs Hs Hm Ha.
  assert (H1 : proj_simplex (spike a m) s = Err IndexError) by (apply spike_index; assumption).
  split; [exact H1|]. unfold l1ball_prox, proj_l1ball.
  rewrite ltb_fin, fv_0 by (apply fin_0 || assumption). rewrite (Rltb_true 0 (fv s) Hs). cbn [negb].
  destruct (abs_fin a Fa) as [F1 V1]. rewrite Rabs_pos_eq in V1 by lra.
  assert (Ev : vabs (a :: repeat n0 m) = spike (nabs F64 a) m).
  { unfold vabs, spike. cbn [map]. f_equal. clear. induction m as [|m IH]; [reflexivity|]. cbn [repeat map]. f_equal. exact IH. }
  rewrite Ev. destruct (spike_sum (nabs F64 a) m F1) as [F2 V2]. rewrite leb_fin by assumption.
  rewrite V2, V1, Rleb_false by lra. rewrite spike_index; [reflexivity|exact F1|exact Fs|exact Hs|rewrite V1; exact Ha|exact Hm].
Qed.

Lemma main_C115_in_range_partial : forall (v : list F64) (s : F64),
  v <> [] -> Forall fin v -> fin s -> 0 < fv s -> (Z.of_nat (length v) <= 2 ^ 50)%Z ->
  INR (length v) * (Rsum (fabs v) + fv s) <= powerRZ 2 1020 ->
  Forall (fun a => Rabs (fv a) <= 4503599627370496 * fv s) v ->
  (exists w, simplex_prox s v = Ok w /\ length w = length v /\ Forall (fun y => fin y /\ 0 <= fv y) w) /\
  (exists w, l1ball_prox s v = Ok w /\ length w = length v /\ Forall fin w).
Proof.
  intros v s Hne Fv Fs Hs Hn HB Hm.
  assert (Hne' : map fv v <> []) by (destruct v; [congruence|discriminate]).
  split.
  - destruct (proj_simplex_correct (map fv v) (fv s) Hne' Hs) as (p & _ & Hp).
    destruct (main_C114_simplex v s p Hne Fv Fs Hs Hn HB) as (w & Ew & Lw & Hw).
    + eapply Forall_impl; [|exact Hm]. intros a Ha. pose proof (Rle_abs (fv a)). simpl in Ha. lra.
    + destruct v as [|a v]; [congruence|]. apply Exists_cons_hd. pose proof (Forall_inv Hm) as Ha. simpl in Ha.
      apply Raux.Rabs_le_inv in Ha. lra.
    + exact Hp.
    + exists w. split; [exact Ew|]. split; [exact Lw|]. apply Forall_forall. intros y Hy.
      apply (In_nth _ _ n0) in Hy as (i & Hi & <-).
      assert (Hi' : (i < length v)%nat) by (rewrite <- Lw; exact Hi).
      destruct (Hw i Hi') as (F & P & _). split; assumption.
  - destruct (proj_l1ball_correct (map fv v) (fv s) Hs) as (p & _ & Hp & _).
    destruct (main_C114_l1ball v s p Fv Fs Hs Hn HB Hm Hp) as (w & Ew & Lw & Hw).
    exists w. split; [exact Ew|]. split; [exact Lw|]. apply Forall_forall. intros y Hy.
    apply (In_nth _ _ n0) in Hy as (i & Hi & <-).
    assert (Hi' : (i < length v)%nat) by (rewrite <- Lw; exact Hi).
    destruct (Hw i Hi') as (F & _). exact F.
Qed.
