(** * FloatSimplex4: euclidean_proj_simplex and euclidean_proj_l1ball in float64 *)
From Coq Require Import ZArith Reals Lra Lia Bool List Permutation Sorted.
From Coq Require Import Floats.SpecFloat.
From Flocq Require Import Core.Core IEEE754.BinarySingleNaN.
From Verif Require Import Num Vec Spec RVec ModelConstraint ConstraintFacts FloatBase FloatSum FloatSimplex FloatSimplex2 FloatSimplex3.
Import ListNotations.
Local Open Scope R_scope.

Lemma two53 : / 2 ^ 53 = uro.
Proof. rewrite uro_val. f_equal. rewrite (pow_IZR 2 53). reflexivity. Qed.
Lemma eta4 : powerRZ 2 (-1073) = 4 * eta.
Proof.
  change 2 with (IZR radix2) at 1. rewrite <- Raux.bpow_powerRZ. change (-1073)%Z with (2 + -1075)%Z.
  rewrite bpow_plus. change (bpow radix2 2) with 4. reflexivity.
Qed.
Lemma two1020 : powerRZ 2 1020 = bpow radix2 1020.
Proof. change 2 with (IZR radix2). symmetry. apply Raux.bpow_powerRZ. Qed.
Lemma simplex_err_ge c n B : 10 * INR n * uro * B + 3 * eta <= simplex_err 10 n B /\
  (0 <= c -> simplex_err c n B = c * INR n * uro * B + 4 * eta).
Proof.
  unfold simplex_err, Rdiv. rewrite two53, eta4. pose proof eta_pos. split; [lra|intros _; ring].
Qed.

(** |sum v - s| small: the threshold is small *)
Lemma thr_close (v : list R) s th : v <> [] -> 0 < s -> Forall (fun t => 0 <= t) v ->
  Rsum (map (soft th) v) = s -> Rabs th <= Rabs (Rsum v - s).
Proof.
  intros Hne Hs Hp Ht.
  assert (exists u : list R, Permutation u v /\ StronglySorted Rge u) as (u & Pu & Su).
  { exists (@sort_desc RN v). split; [apply sort_desc_perm|apply sort_desc_sorted]. }
  assert (Hu : Rsum (map (soft th) u) = s) by (rewrite <- Ht; apply Rsum_perm, Permutation_map, Pu).
  assert (Eu : Rsum u = Rsum v) by (apply Rsum_perm, Pu).
  assert (Lu : (0 < length u)%nat).
  { rewrite (Permutation_length Pu). destruct v; [congruence|simpl; lia]. }
  assert (Fu : Forall (fun t => 0 <= t) u) by (eapply Permutation_Forall; [symmetry; exact Pu|exact Hp]).
  rewrite <- Eu. clear - Su Hu Lu Fu Hs.
  pose proof (thr_above u s th (length u - 1) ltac:(lia) Hu) as H1.
  replace (S (length u - 1)) with (length u) in H1 by lia. rewrite firstn_all in H1.
  destruct (thr_attained u s th Su Hs Hu) as (k & Hk & Ek).
  assert (H2 : Rsum (firstn (S k) u) <= Rsum u).
  { rewrite <- (firstn_skipn (S k) u) at 2. rewrite Rsum_app.
    assert (0 <= Rsum (skipn (S k) u)); [|lra].
    assert (Ff : Forall (fun t => 0 <= t) (skipn (S k) u)).
    { rewrite <- (firstn_skipn (S k) u) in Fu. apply Forall_app in Fu. tauto. }
    clear - Ff. induction Ff; simpl; lra. }
  assert (N1 : 1 <= INR (length u)) by (apply (le_INR 1); lia).
  assert (N2 : 1 <= INR (S k)) by (apply (le_INR 1); lia).
  set (d := Rsum u - s) in *.
  assert (H3 : th * INR (S k) <= d) by (unfold d; lra).
  destruct (Rle_or_lt 0 th) as [Hth|Hth].
  - rewrite (Rabs_pos_eq th) by exact Hth. apply Rle_trans with d; [nra|apply Rle_abs].
  - rewrite (Rabs_left th) by exact Hth. rewrite <- Rabs_Ropp. apply Rle_trans with (- d); [nra|apply Rle_abs].
Qed.
Lemma soft_near th t : 0 <= t -> Rabs (t - soft th t) <= Rabs th.
Proof.
  intros H. unfold soft, Rmax. destruct Rle_dec; [|replace (t - (t - th)) with th by ring; lra].
  rewrite Rminus_0_r, (Rabs_pos_eq t) by exact H. pose proof (Rle_abs th). lra.
Qed.

Lemma fsum_err (v : list F64) : Forall fin v -> INR (length v) * uro <= / 8 -> Rsum (fabs v) <= bpow radix2 1020 ->
  fin (vsum v) /\ Rabs (fv (vsum v) - Rsum (map fv v)) <= 2 * INR (length v) * uro * Rsum (fabs v).
Proof.
  intros Fv Hn HA. unfold vsum.
  destruct (vsum_err v n0 0 (Rsum (fabs v)) 0 fin_0 Fv) as [F E].
  - rewrite fv_0, Rminus_0_r, Rabs_R0. simpl INR. lra.
  - intros i _. rewrite Rplus_0_l, fabs_map. apply abs_firstn.
  - simpl Nat.add. eapply Rle_trans; [exact Hn|lra].
  - change 1023%Z with (3 + 1020)%Z. rewrite bpow_plus. change (bpow radix2 3) with 8.
    pose proof (bpow_gt_0 radix2 1020). lra.
  - rewrite Rplus_0_l in E. split; assumption.
Qed.

Lemma simplex_core (v : list F64) (s : F64) (th : R) :
  Forall fin v -> fin s -> 0 < fv s -> v <> [] -> (Z.of_nat (length v) <= 2 ^ 50)%Z ->
  INR (length v) * (Rsum (fabs v) + fv s) <= bpow radix2 1020 ->
  Forall (fun a => fv a <= 4503599627370496 * fv s) v ->
  Exists (fun a => - (4503599627370496 * fv s) <= fv a) v ->
  Rsum (map (soft th) (map fv v)) = fv s ->
  exists w, proj_simplex v s = Ok w /\ length w = length v /\
  forall i, (i < length v)%nat -> fin (nth i w n0) /\ 0 <= fv (nth i w n0) /\
    Rabs (fv (nth i w n0) - soft th (fv (nth i v n0)))
      <= 10 * INR (length v) * uro * (Rsum (fabs v) + fv s) + 3 * eta.
Proof.
  intros Fv Fs Hs Hne Hn HB Hmax Hex Hth.
  pose proof (nu_small v Hn) as Hnu. pose proof (A_pos v) as Ap. pose proof uro_pos as Hu. pose proof eta_pos as He.
  pose proof (n_ge1 v Hne) as N1. pose proof (B_fit v s Hs Hne HB) as Bf.
  destruct (fsum_err v Fv Hnu ltac:(lra)) as [Fsum Esum].
  unfold proj_simplex. rewrite ltb_fin, fv_0 by (apply fin_0 || assumption).
  rewrite (Rltb_true 0 (fv s) Hs). cbn [negb].
  set (B := Rsum (fabs v) + fv s) in *.
  assert (HuB : 0 <= INR (length v) * uro * B).
  { apply Rmult_le_pos; [apply Rmult_le_pos; lra|unfold B; lra]. }
  destruct (neqb F64 (vsum v) s && forallb (fun t => nleb F64 n0 t) v) eqn:Eb.
  - apply andb_true_iff in Eb as [E1 E2]. rewrite eqb_fin in E1 by assumption. apply Reqb_iff in E1.
    assert (Hp : forall i, (i < length v)%nat -> 0 <= fv (nth i v n0)).
    { intros i Hi. rewrite forallb_forall in E2. specialize (E2 _ (nth_In v n0 Hi)).
      rewrite leb_fin in E2; [|apply fin_0|rewrite Forall_forall in Fv; apply Fv, nth_In, Hi].
      rewrite fv_0 in E2. apply Rleb_iff in E2. exact E2. }
    exists v. split; [reflexivity|]. split; [reflexivity|]. intros i Hi.
    split; [rewrite Forall_forall in Fv; apply Fv, nth_In, Hi|]. split; [apply Hp, Hi|].
    eapply Rle_trans; [apply soft_near, Hp, Hi|].
    eapply Rle_trans; [apply (thr_close (map fv v) (fv s))|].
    + destruct v; [congruence|discriminate].
    + exact Hs.
    + apply Forall_forall. intros t Ht. apply (In_nth _ _ 0) in Ht as (j & Hj & <-). rewrite map_length in Hj.
      rewrite <- fv_nth. apply Hp, Hj.
    + exact Hth.
    + rewrite E1, Rabs_minus_sym in Esum.
      assert (2 * INR (length v) * uro * Rsum (fabs v) <= 2 * INR (length v) * uro * B).
      { apply Rmult_le_compat_l; [apply Rmult_le_pos; lra|unfold B; lra]. }
      lra.
  - clear Eb. set (u := sort_desc v).
    set (mask := rho_mask_from 0 s u (cumsum u)).
    assert (Lu : length u = length v) by (apply u_length).
    destruct (cs_err v s Fv Hs Hne Hn HB) as [Lc _]. fold u in Lc.
    assert (Lm : length mask = length v).
    { unfold mask. rewrite mask_length; [exact Lu|]. rewrite Lu. exact Lc. }
    assert (P0 : (0 < length v)%nat) by (pose proof (n_pos v Hne); lia).
    assert (M0 : nth 0 mask false = true).
    { unfold mask, u. rewrite (mask_val v s Fv Fs Hs Hne Hn HB 0 P0). fold u.
      assert (Fu0 : fin (nth 0 u n0)).
      { pose proof (u_fin v Fv) as H. rewrite Forall_forall in H. apply H, nth_In. fold u. lia. }
      assert (C0 : nth 0 (cumsum u) n0 = nth 0 u n0) by (destruct u; reflexivity).
      rewrite C0.
      assert (B1 : - (4503599627370496 * fv s) <= fv (nth 0 u n0) <= 4503599627370496 * fv s).
      { pose proof (ur_perm v) as Pu. fold u in Pu. pose proof (ur_sorted v Fv) as Su. fold u in Su.
        rewrite (fv_nth u 0). assert (I0 : In (nth 0 (map fv u) 0) (map fv v)).
        { eapply Permutation_in; [exact Pu|]. apply nth_In. rewrite map_length. lia. }
        split.
        - apply Exists_exists in Hex as (a & Ia & Ha). apply Rle_trans with (fv a); [exact Ha|].
          assert (Ia' : In (fv a) (map fv u)).
          { eapply Permutation_in; [symmetry; exact Pu|]. apply in_map, Ia. }
          destruct (map fv u) as [|b l]; [destruct Ia'|]. cbn [nth].
          destruct Ia' as [<-|Ia']; [lra|]. apply StronglySorted_inv in Su as [_ Su].
          rewrite Forall_forall in Su. apply Rge_le, Su, Ia'.
        - apply in_map_iff in I0 as (a & <- & Ia). rewrite Forall_forall in Hmax. apply Hmax, Ia. }



      assert (R0 : Rabs (fv (nth 0 u n0)) <= Rsum (fabs v)).
      { rewrite fv_nth. pose proof (abs_nth 0 (map fv u)) as H. pose proof (ur_abs v) as H'. fold u in H'. lra. }
      destruct (nofnat_fin 1) as [F1 V1]; [lia|].
      assert (VU : fv (nmul F64 (nth 0 u n0) (nofnat 1)) = fv (nth 0 u n0)).
      { destruct (mul_fin _ _ Fu0 F1) as [_ V].
        - rewrite V1. simpl INR. rewrite Rmult_1_r, rnd_fin by exact Fu0. apply fin_small, Fu0.
        - rewrite V, V1. simpl INR. rewrite Rmult_1_r. apply rnd_fin, Fu0. }
      rewrite VU.
      assert (VT : fv (nsub F64 (nth 0 u n0) s) = rnd (fv (nth 0 u n0) - fv s)).
      { apply sub_fin; [exact Fu0|exact Fs|]. apply four_fit.
        unfold Rminus. eapply Rle_trans; [apply Rabs_triang|]. rewrite Rabs_Ropp, (Rabs_pos_eq (fv s)) by lra.
        unfold B in Bf. pose proof (bpow_gt_0 radix2 1020). lra. }
      rewrite VT. pose proof (rnd_sub_err _ _ (fin_repr _ Fu0) (fin_repr _ Fs)) as He0.
      apply Rltb_true. set (x := fv (nth 0 u n0)) in *.
      assert (Hxs : Rabs (x - fv s) <= 4503599627370497 * fv s) by (apply Rabs_le; lra).
      assert (uro * Rabs (x - fv s) <= uro * (4503599627370497 * fv s)) by (apply Rmult_le_compat_l; lra).
      rewrite uro_val in *. apply Raux.Rabs_le_inv in He0. lra. }
    unfold last_true. pose proof (last_true_from_spec mask 0 None) as Hspec.
    destruct (last_true_from 0 mask None) as [rho|].
    2:{ destruct Hspec as [_ Hf]. rewrite Hf in M0. discriminate. }
    destruct Hspec as [[Hb _]|(Hr & Ht & Hf)]; [discriminate|].
    rewrite Nat.sub_0_r in *. rewrite Lm, Nat.add_0_l in Hr. cbn [bind].
    rewrite (get_ok _ _ n0) by lia. cbn [bind].
    destruct (theta_err v s Fv Fs Hs Hne Hn HB th Hth rho ltac:(lia) Ht Hf) as (Fth & E1 & E2).
    fold u in Fth, E1, E2. set (theta := ndiv F64 (nsub F64 (nth rho (cumsum u) n0) s) (nadd F64 (nofnat rho) n1)) in *.
    eexists. split; [reflexivity|]. split; [apply map_length|]. intros i Hi.
    set (f := fun t : F64 => let y := nsub F64 t theta in if nltb F64 y n0 then n0 else y).
    rewrite (nth_indep _ n0 (f n0)) by (rewrite map_length; exact Hi). rewrite (map_nth f).
    exact (coord_err v s Fv Hs Hne Hn HB th theta i Hi Fth E1 E2).
Qed.

Lemma projection_unique C x p q : is_projection C x p -> is_projection C x q -> p = q.
Proof. intros (L1 & C1 & M1 & _) (L2 & C2 & _ & U2). apply U2; [exact L1|exact C1|]. apply M1; assumption. Qed.

Lemma main_C114_simplex : forall (v : list F64) (s : F64) (p : list R),
  v <> [] -> Forall fin v -> fin s -> 0 < fv s -> (Z.of_nat (length v) <= 2 ^ 50)%Z ->
  let n := length v in
  let B := Rsum (fabs v) + fv s in
  INR n * B <= powerRZ 2 1020 ->
  Forall (fun a => fv a <= 4503599627370496 * fv s) v ->
  Exists (fun a => - (4503599627370496 * fv s) <= fv a) v ->
  is_projection (simplex (fv s)) (map fv v) p ->
  exists w, simplex_prox s v = Ok w /\ length w = n /\
  forall i, (i < n)%nat -> fin (nth i w n0) /\ 0 <= fv (nth i w n0) /\
    Rabs (fv (nth i w n0) - nth i p 0) <= simplex_err 10 n B.
Proof.
  intros v s p Hne Fv Fs Hs Hn n B HB Hmax Hex Hp. rewrite two1020 in HB.
  assert (Hne' : map fv v <> []) by (destruct v; [congruence|discriminate]).
  destruct (proj_simplex_char (map fv v) (fv s) Hne' Hs) as (th & Eq & Hth).
  destruct (proj_simplex_correct (map fv v) (fv s) Hne' Hs) as (q & Eq' & Hq).
  rewrite Eq in Eq'. injection Eq' as Eq'. subst q.
  rewrite (projection_unique _ _ _ _ Hp Hq).
  destruct (simplex_core v s th Fv Fs Hs Hne Hn HB Hmax Hex Hth) as (w & Ew & Lw & Hw).
  exists w. split; [exact Ew|]. split; [exact Lw|]. intros i Hi. destruct (Hw i Hi) as (F & P & E).
  split; [exact F|]. split; [exact P|].
  rewrite (nth_indep _ 0 (soft th 0)) by (rewrite !map_length; exact Hi). rewrite map_nth.
  change (map fv v) with (map fv v : list R) in *. rewrite (fv_nth v i) in E.
  eapply Rle_trans; [exact E|]. apply (simplex_err_ge 10).
Qed.

(** ** the l1 ball *)
Lemma l1ball_char (v : list R) s : 0 < s -> s < l1 v -> exists th,
  @proj_l1ball RN v s = Ok (map (fun t => soft th (Rabs t) * @nsign RN t) v) /\
  Rsum (map (soft th) (map Rabs v)) = s.
Proof.
  intros Hs Hl. unfold proj_l1ball. rn. rewrite (Rltb_true 0 s) by lra. cbn [negb].
  rewrite vsum_R, vabs_R, <- l1_Rsum. rewrite (Rleb_false (l1 v) s) by lra.
  assert (Hne : map Rabs v <> []) by (destruct v; simpl in *; [lra|discriminate]).
  destruct (proj_simplex_char (map Rabs v) s Hne Hs) as (th & He & Hsum).
  rewrite He. cbn [bind]. exists th. split; [|exact Hsum]. f_equal.
  clear. induction v as [|t v IH]; [reflexivity|]. cbn [map map2]. f_equal. exact IH.
Qed.

Lemma sign_mul (w x : F64) : fin w -> fin x ->
  fin (nmul F64 w (nsign x)) /\ fv (nmul F64 w (nsign x)) = fv w * @nsign RN (fv x).
Proof.
  intros Fw Fx.
  assert (Hsg : fin (nsign x) /\ fv (nsign x) = @nsign RN (fv x)).
  { rewrite nsign_R. unfold nsign. rewrite !ltb_fin by (apply fin_0 || exact Fx).
    rewrite eqb_fin by (apply fin_0 || exact Fx). rewrite fv_0.
    destruct (Rltb_spec 0 (fv x)); [split; [apply fin_1|apply fv_1]|].
    destruct (Rltb_spec (fv x) 0).
    - destruct (opp_fin _ fin_1) as [F V]. split; [exact F|]. rewrite V, fv_1. reflexivity.
    - destruct (Reqb_spec (fv x) 0); [split; [apply fin_0|apply fv_0]|lra]. }
  destruct Hsg as [Fg Vg].
  assert (Hr : repr (fv w * @nsign RN (fv x)) /\ Rabs (fv w * @nsign RN (fv x)) < fbig).
  { rewrite nsign_R. destruct (Rltb 0 (fv x)).
    - rewrite Rmult_1_r. split; [apply fin_repr, Fw|apply fin_small, Fw].
    - destruct (Rltb (fv x) 0).
      + replace (fv w * -1) with (- fv w) by ring. rewrite Rabs_Ropp.
        split; [apply repr_opp, fin_repr, Fw|apply fin_small, Fw].
      + rewrite Rmult_0_r, Rabs_R0. split; [apply repr_0|apply bpow_gt_0]. }
  destruct Hr as [Hr Hb]. rewrite <- Vg in Hr, Hb |- *.
  destruct (mul_fin w (nsign x) Fw Fg) as [F V]; [rewrite rnd_repr by exact Hr; exact Hb|].
  split; [exact F|]. rewrite V. apply rnd_repr, Hr.
Qed.

Lemma vabs_fin (v : list F64) : Forall fin v -> Forall fin (vabs v).
Proof.
  intros H. unfold vabs. apply Forall_forall. intros y Hy. apply in_map_iff in Hy as (x & <- & Hx).
  rewrite Forall_forall in H. apply abs_fin, H, Hx.
Qed.
Lemma vabs_fv (v : list F64) : Forall fin v -> map fv (vabs v) = map Rabs (map fv v).
Proof.
  intros H. unfold vabs. induction H as [|x v Hx Hv IH]; [reflexivity|]. cbn [map]. rewrite IH.
  f_equal. apply abs_fin, Hx.
Qed.
Lemma sgn_abs t : Rabs t * @nsign RN t = t.
Proof. rewrite nsign_R. unfold Rabs. repeat (rcase || destruct (Rcase_abs _)); lra. Qed.
Lemma sgn_le1 t : Rabs (@nsign RN t) <= 1.
Proof. rewrite nsign_R. unfold Rabs. repeat (rcase || destruct (Rcase_abs _)); lra. Qed.
Lemma sgn_diff a b t : Rabs (a * @nsign RN t - b * @nsign RN t) <= Rabs (a - b).
Proof.
  replace (a * @nsign RN t - b * @nsign RN t) with ((a - b) * @nsign RN t) by ring.
  rewrite Rabs_mult. rewrite <- (Rmult_1_r (Rabs (a - b))) at 2.
  apply Rmult_le_compat_l; [apply Rabs_pos|apply sgn_le1].
Qed.

Lemma main_C114_l1ball : forall (v : list F64) (s : F64) (p : list R),
  Forall fin v -> fin s -> 0 < fv s -> (Z.of_nat (length v) <= 2 ^ 50)%Z ->
  let n := length v in
  let B := Rsum (fabs v) + fv s in
  INR n * B <= powerRZ 2 1020 ->
  Forall (fun a => Rabs (fv a) <= 4503599627370496 * fv s) v ->
  is_projection (l1_ball (fv s)) (map fv v) p ->
  exists w, l1ball_prox s v = Ok w /\ length w = n /\
  forall i, (i < n)%nat -> fin (nth i w n0) /\
    Rabs (fv (nth i w n0) - nth i p 0) <= simplex_err 12 n B.
Proof.
  intros v s p Fv Fs Hs Hn n B HB Hmax Hp. rewrite two1020 in HB.
  rewrite (proj2 (simplex_err_ge 12 n B)) by lra.
  pose proof uro_pos as Hu. pose proof eta_pos as He. pose proof (A_pos v) as Ap. pose proof (pos_INR n) as N0.
  assert (HuB : 0 <= INR n * uro * B).
  { apply Rmult_le_pos; [apply Rmult_le_pos; lra|unfold B; lra]. }
  destruct (proj_l1ball_correct (map fv v) (fv s) Hs) as (q & Eq & Hq & Hin).
  rewrite (projection_unique _ _ _ _ Hp Hq). clear p Hp.
  assert (Fa : Forall fin (vabs v)) by (apply vabs_fin, Fv).
  assert (Va : map fv (vabs v) = map Rabs (map fv v)) by (apply vabs_fv, Fv).
  assert (Ea : Rsum (fabs (vabs v)) = Rsum (fabs v)).
  { rewrite !fabs_map, Va, !map_map. f_equal. apply map_ext. intros a. apply Rabs_Rabsolu. }
  assert (La : length (vabs v) = n) by apply map_length.
  assert (Hfit : n <> 0%nat -> Rsum (fabs v) <= bpow radix2 1020).
  { intros H. assert (1 <= INR n) by (apply (le_INR 1); lia). assert (0 < B) by (unfold B; lra).
    assert (B <= INR n * B) by nra. unfold B in *. lra. }
  assert (Hfit' : Rsum (fabs v) <= bpow radix2 1020).
  { destruct (Nat.eq_dec n 0) as [H|H]; [|apply Hfit, H]. unfold n in H. destruct v; [|discriminate H].
    change (Rsum (fabs [])) with 0. apply bpow_ge_0. }
  destruct (fsum_err (vabs v) Fa) as [Fsum Esum].
  { rewrite La. apply (nu_small v Hn). }
  { rewrite Ea. exact Hfit'. }
  rewrite La, Ea, Va, <- l1_Rsum in Esum. set (L := l1 (map fv v)) in *.
  assert (Esum' : Rabs (fv (vsum (vabs v)) - L) <= 2 * INR n * uro * B).
  { eapply Rle_trans; [exact Esum|]. apply Rmult_le_compat_l; [apply Rmult_le_pos; lra|unfold B; lra]. }
  clear Esum.
  assert (Hnv : forall i, (i < n)%nat -> nth i (map fv v) 0 = fv (nth i v n0)) by (intros i _; symmetry; apply fv_nth).
  assert (Fi : forall i, (i < n)%nat -> fin (nth i v n0)).
  { intros i Hi. rewrite Forall_forall in Fv. apply Fv, nth_In, Hi. }
  (* the exact projection when the point is outside *)
  assert (Hq2 : fv s < L -> exists th, (forall i, (i < n)%nat -> nth i q 0 = soft th (Rabs (fv (nth i v n0))) * @nsign RN (fv (nth i v n0)))
     /\ Rsum (map (soft th) (map Rabs (map fv v))) = fv s).
  { intros Ho. destruct (l1ball_char (map fv v) (fv s) Hs Ho) as (th & E1 & E2).
    rewrite Eq in E1. injection E1 as ->. exists th. split; [|exact E2]. intros i Hi.
    set (g := fun t => soft th (Rabs t) * @nsign RN t).
    assert (Hg : g 0 = 0).
    { unfold g. rewrite nsign_R. rewrite (Rltb_false 0 0) by lra. ring. }
    rewrite <- Hg at 1. rewrite (map_nth g). rewrite Hnv by exact Hi. reflexivity. }
  assert (Hclose : forall th, v <> [] -> Rsum (map (soft th) (map Rabs (map fv v))) = fv s -> Rabs th <= Rabs (L - fv s)).
  { intros th Hne Hth. unfold L. rewrite l1_Rsum. apply thr_close; [destruct v; [congruence|discriminate]|exact Hs| |exact Hth].
    apply Forall_forall. intros t Ht. apply in_map_iff in Ht as (y & <- & _). apply Rabs_pos. }
  unfold l1ball_prox, proj_l1ball. rewrite ltb_fin, fv_0 by (apply fin_0 || assumption).
  rewrite (Rltb_true 0 (fv s) Hs). cbn [negb]. rewrite leb_fin by assumption.
  destruct (Rleb_spec (fv (vsum (vabs v))) (fv s)) as [Hb|Hb].
  - exists v. split; [reflexivity|]. split; [reflexivity|]. intros i Hi. split; [apply Fi, Hi|].
    destruct (Rle_or_lt L (fv s)) as [Hl|Hl].
    + rewrite Hin by exact Hl. rewrite Hnv by exact Hi. unfold Rminus. rewrite Rplus_opp_r, Rabs_R0. lra.
    + destruct (Hq2 Hl) as (th & E1 & E2). rewrite E1 by exact Hi.
      rewrite <- (sgn_abs (fv (nth i v n0))) at 1. eapply Rle_trans; [apply sgn_diff|].
      eapply Rle_trans; [apply soft_near, Rabs_pos|].
      eapply Rle_trans; [apply Hclose; [|exact E2]|].
      { clear - Hi. unfold n in Hi. intros E. rewrite E in Hi. inversion Hi. }
      rewrite Rabs_pos_eq by lra. apply Raux.Rabs_le_inv in Esum'. lra.
  - assert (Hne : v <> []).
    { intros ->. unfold vabs, vsum in Hb. cbn [map fold_left] in Hb. rewrite fv_0 in Hb. lra. }
    assert (Hne' : map Rabs (map fv v) <> []) by (destruct v; [congruence|discriminate]).
    assert (exists th, Rsum (map (soft th) (map Rabs (map fv v))) = fv s /\
      (fv s < L -> forall i, (i < n)%nat -> nth i q 0 = soft th (Rabs (fv (nth i v n0))) * @nsign RN (fv (nth i v n0)))) as (th & Hth & Hqi).
    { destruct (Rle_or_lt L (fv s)) as [Hl|Hl].
      - destruct (proj_simplex_char (map Rabs (map fv v)) (fv s) Hne' Hs) as (th & _ & Hth).
        exists th. split; [exact Hth|intros; lra].
      - destruct (Hq2 Hl) as (th & E1 & E2). exists th. split; [exact E2|intros _; exact E1]. }
    destruct (simplex_core (vabs v) s th Fa Fs Hs) as (w & Ew & Lw & Hw).
    + destruct v; [congruence|discriminate].
    + rewrite La. exact Hn.
    + rewrite La, Ea. exact HB.
    + apply Forall_forall. intros y Hy. apply in_map_iff in Hy as (x & <- & Hx).
      rewrite Forall_forall in Fv, Hmax. destruct (abs_fin x (Fv _ Hx)) as [_ ->]. apply Hmax, Hx.
    + apply Exists_exists. destruct v as [|x v']; [congruence|]. exists (nabs F64 x).
      split; [left; reflexivity|]. destruct (abs_fin x (Forall_inv Fv)) as [_ ->]. pose proof (Rabs_pos (fv x)). lra.
    + rewrite Va. exact Hth.
    + rewrite La, Ea in Hw. rewrite La in Lw. fold B in Hw. rewrite Ew. cbn [bind]. eexists. split; [reflexivity|].
      split; [rewrite map2_length, map_length; unfold n in *; rewrite Lw; apply Nat.min_id|]. intros i Hi.
      rewrite (nth_map2 _ _ _ i n0 n0 n0) by (rewrite ?map_length; lia).
      rewrite (nth_indep (map nsign v) n0 (nsign n0)) by (rewrite map_length; exact Hi). rewrite map_nth.
      destruct (Hw i Hi) as (F1 & P1 & E1).
      assert (Hai : fv (nth i (vabs v) n0) = Rabs (fv (nth i v n0))).
      { rewrite fv_nth, Va. rewrite (nth_indep _ 0 (Rabs 0)) by (rewrite !map_length; exact Hi). rewrite map_nth, Hnv by exact Hi. reflexivity. }
      rewrite Hai in E1.
      destruct (sign_mul (nth i w n0) (nth i v n0) F1 (Fi i Hi)) as [F2 V2].
      split; [exact F2|]. rewrite V2. set (x := fv (nth i v n0)) in *.
      destruct (Rle_or_lt L (fv s)) as [Hl|Hl].
      * rewrite Hin by exact Hl. rewrite Hnv by exact Hi. fold x. rewrite <- (sgn_abs x) at 2.
        eapply Rle_trans; [apply sgn_diff|].
        replace (fv (nth i w n0) - Rabs x) with ((fv (nth i w n0) - soft th (Rabs x)) + - (Rabs x - soft th (Rabs x))) by ring.
        eapply Rle_trans; [apply Rabs_triang|]. rewrite Rabs_Ropp.
        pose proof (soft_near th (Rabs x) (Rabs_pos x)) as H1. pose proof (Hclose th Hne Hth) as H2.
        rewrite (Rabs_left1 (L - fv s)) in H2 by lra. apply Raux.Rabs_le_inv in Esum'. lra.
      * rewrite (Hqi Hl) by exact Hi. fold x. eapply Rle_trans; [apply sgn_diff|]. lra.
Qed.
