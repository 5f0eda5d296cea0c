(** * FloatSimplex2: euclidean_proj_simplex in float64, roundings *)
From Coq Require Import ZArith Reals Lra Lia Bool List Permutation Sorted.
From Coq Require Import Floats.SpecFloat.
From Flocq Require Import Core.Core IEEE754.BinarySingleNaN.
From Verif Require Import Num Vec Spec RVec ModelConstraint ConstraintFacts FloatBase FloatSum FloatSimplex.
Import ListNotations.
Local Open Scope R_scope.

(** ** Integers *)
Lemma repr_int z : (0 <= z < 2 ^ 53)%Z -> repr (IZR z).
Proof.
  intros Hz. unfold repr. change f64exp with (FLT_exp (-1074) 53).
  apply generic_format_FLT. exists (Float radix2 z 0).
  - unfold F2R. simpl. lra.
  - simpl Fnum. rewrite Z.abs_eq by lia. apply Hz.
  - simpl. lia.
Qed.
Lemma nofnat_fin k : (Z.of_nat k < 2 ^ 53)%Z -> fin (@nofnat F64 k) /\ fv (@nofnat F64 k) = INR k.
Proof.
  intros Hk. unfold nofnat. cbn [nofZ F64].
  change f64_prec with 53%Z; change f64_emax with 1024%Z. rewrite binary_normalize_eq, fin_B2SF_iff, fv_B.
  generalize (binary_normalize_correct 53 1024 Hprec Hmax mode_NE (Z.of_nat k) 0 false).
  assert (Ef : F2R (Float radix2 (Z.of_nat k) 0) = INR k).
  { unfold F2R. simpl bpow. rewrite Rmult_1_r. symmetry. apply INR_IZR_INZ. }
  rewrite Ef. cbv zeta. change (round radix2 f64exp (round_mode mode_NE) (INR k)) with (rnd (INR k)).
  assert (Er : rnd (INR k) = INR k).
  { apply rnd_repr. rewrite INR_IZR_INZ. apply repr_int. lia. }
  rewrite Er. rewrite Rlt_bool_true.
  - intros (A & B & _). split; [exact B|exact A].
  - rewrite Rabs_pos_eq by apply pos_INR. rewrite INR_IZR_INZ.
    apply Rlt_trans with (IZR (2 ^ 53)); [apply IZR_lt, Hk|].
    change (IZR (2 ^ 53)) with (bpow radix2 53). apply bpow_lt. lia.
Qed.

(** ** Sorting commutes with taking values *)
Lemma insert_perm {K : Num} (x : K) l : Permutation (insert_desc x l) (x :: l).
Proof.
  induction l as [|y l IH]; cbn [insert_desc]; [reflexivity|].
  destruct (nltb K x y); [|reflexivity]. rewrite IH. apply perm_swap.
Qed.
Lemma sort_perm {K : Num} (v : vec K) : Permutation (sort_desc v) v.
Proof. induction v as [|x v IH]; cbn [sort_desc fold_right]; [reflexivity|]. rewrite insert_perm. constructor. exact IH. Qed.
Lemma insert_fv (x : F64) l : fin x -> Forall fin l -> map fv (insert_desc x l) = insert_desc (K:=RN) (fv x) (map fv l).
Proof.
  intros Hx Hl. induction Hl as [|y l Hy Hl IH]; [reflexivity|]. cbn [insert_desc map].
  rewrite ltb_fin by assumption. cbn [nltb RN]. destruct (Rltb (fv x) (fv y)); cbn [map]; [rewrite IH|]; reflexivity.
Qed.
Lemma sort_fv (v : list F64) : Forall fin v -> map fv (sort_desc v) = sort_desc (K:=RN) (map fv v).
Proof.
  induction 1 as [|x v Hx Hv IH]; [reflexivity|]. cbn [sort_desc fold_right map].
  rewrite insert_fv; [f_equal; exact IH|exact Hx|].
  eapply Permutation_Forall; [apply Permutation_sym, sort_perm|exact Hv].
Qed.
Lemma sort_fin (v : list F64) : Forall fin v -> Forall fin (sort_desc v).
Proof. intros H. eapply Permutation_Forall; [apply Permutation_sym, sort_perm|exact H]. Qed.

(** ** Sums *)
Lemma sum_step (a x : F64) S0 AT m : fin a -> fin x ->
  Rabs (fv a - S0) <= 2 * INR m * uro * AT -> Rabs (S0 + fv x) <= AT -> INR m * uro <= / 2 ->
  2 * AT <= bpow radix2 1023 ->
  fin (nadd F64 a x) /\ Rabs (fv (nadd F64 a x) - (S0 + fv x)) <= 2 * INR (S m) * uro * AT.
Proof.
  intros Fa Fx He HA Hm HT. pose proof uro_pos as Hu. pose proof (pos_INR m) as Hm0.
  assert (HAT : 0 <= AT) by (eapply Rle_trans; [apply Rabs_pos|exact HA]).
  assert (Hax : Rabs (fv a + fv x) <= (1 + 2 * INR m * uro) * AT).
  { replace (fv a + fv x) with ((fv a - S0) + (S0 + fv x)) by ring.
    eapply Rle_trans; [apply Rabs_triang|]. lra. }
  assert (Hmu : 0 <= INR m * uro) by (apply Rmult_le_pos; lra).
  destruct (add_fin a x Fa Fx) as [F1 V1].
  { apply rnd_fits. nra. }
  split; [exact F1|]. rewrite V1.
  pose proof (rnd_add_err _ _ (fin_repr _ Fa) (fin_repr _ Fx)) as H1.
  replace (rnd (fv a + fv x) - (S0 + fv x)) with ((rnd (fv a + fv x) - (fv a + fv x)) + (fv a - S0)) by ring.
  eapply Rle_trans; [apply Rabs_triang|]. rewrite S_INR.
  assert (uro * Rabs (fv a + fv x) <= uro * ((1 + 2 * INR m * uro) * AT)) by (apply Rmult_le_compat_l; lra).
  assert (uro * (2 * INR m * uro) * AT <= uro * 1 * AT).
  { apply Rmult_le_compat_r; [exact HAT|]. apply Rmult_le_compat_l; lra. }
  lra.
Qed.

Lemma cumsum_from_err (l : list F64) : forall a S0 AT m,
  fin a -> Forall fin l -> Rabs (fv a - S0) <= 2 * INR m * uro * AT ->
  (forall i, (i < length l)%nat -> Rabs (S0 + Rsum (firstn (S i) (map fv l))) <= AT) ->
  INR (m + length l) * uro <= / 2 -> 2 * AT <= bpow radix2 1023 ->
  length (cumsum_from a l) = length l /\
  forall i, (i < length l)%nat ->
    fin (nth i (cumsum_from a l) n0) /\
    Rabs (fv (nth i (cumsum_from a l) n0) - (S0 + Rsum (firstn (S i) (map fv l)))) <= 2 * INR (m + S i) * uro * AT.
Proof.
  induction l as [|x l IH]; intros a S0 AT m Fa Fl He HA Hm HT.
  - split; [reflexivity|]. intros i Hi. simpl in Hi. lia.
  - pose proof (Forall_inv Fl) as Fx. pose proof (Forall_inv_tail Fl) as Fl'.
    assert (Hm' : INR m * uro <= / 2).
    { eapply Rle_trans; [|exact Hm]. apply Rmult_le_compat_r; [left; apply uro_pos|]. apply le_INR. lia. }
    assert (HA0 : Rabs (S0 + fv x) <= AT).
    { pose proof (HA 0%nat ltac:(simpl; lia)) as H. cbn in H. rewrite Rplus_0_r in H. exact H. }
    destruct (sum_step a x S0 AT m Fa Fx He HA0 Hm' HT) as [F1 E1].
    destruct (IH (nadd F64 a x) (S0 + fv x) AT (S m) F1 Fl' E1) as [L1 P1].
    + intros i Hi. specialize (HA (S i) (proj1 (Nat.succ_lt_mono _ _) Hi)). cbn [map firstn Rsum] in HA |- *.
      rewrite Rplus_assoc. exact HA.
    + replace (S m + length l)%nat with (m + length (x :: l))%nat by (simpl; lia). exact Hm.
    + exact HT.
    + cbn [cumsum_from length]. split; [f_equal; exact L1|].
      intros [|i] Hi.
      * cbn [nth map firstn Rsum]. rewrite Rplus_0_r, Nat.add_1_r. split; assumption.
      * cbn [nth]. destruct (P1 i (proj2 (Nat.succ_lt_mono _ _) Hi)) as [F2 E2]. split; [exact F2|].
        replace (m + S (S i))%nat with (S m + S i)%nat by lia. cbn [map firstn Rsum] in E2 |- *.
        rewrite <- Rplus_assoc. exact E2.
Qed.
