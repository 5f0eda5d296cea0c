(** * Epochs of an incremental method: drift of the iterates, and the finite sum as a smooth function *)
From Coq Require Import Bool List Lia Permutation Reals Lra.
From Verif Require Import Num Vec Spec SpecSparse RVec ConvexFacts PenaltyFacts UtilsMain ModelRandomized SpecFiniteSum SpecEpochs SpecLoss LossFacts LossScalar RandomizedSaga RandomizedProx RandomizedFix SvdExists.
Import ListNotations.
Local Open Scope R_scope.

(** ** sums of vectors *)
Section Acc.
Variable d : nat.
Fixpoint acc (v : nat -> list R) (k : nat) : list R := match k with O => zeros d | S k' => vplus (acc v k') (v k') end.
Lemma acc_length v k : (forall l, (l < k)%nat -> length (v l) = d) -> length (acc v k) = d.
Proof.
  induction k as [|k IH]; intros H; cbn [acc]; [apply zeros_length|]. specialize (IH ltac:(intros; apply H; lia)). specialize (H k ltac:(lia)).
  unfold vplus. rewrite lin_length, IH, H. apply Nat.min_id.
Qed.
Lemma nth_acc v k j : (forall l, (l < k)%nat -> length (v l) = d) -> nth j (acc v k) 0 = Rsum (map (fun l => nth j (v l) 0) (seq 0 k)).
Proof.
  induction k as [|k IH]; intros H; [cbn [acc seq map Rsum]; apply nth_zeros|]. cbn [acc].
  rewrite nth_vplus by (rewrite acc_length by (intros; apply H; lia); symmetry; apply H; lia).
  rewrite seq_S, map_app, Rsum_app, IH by (intros; apply H; lia). cbn [Nat.add map Rsum]. lra.
Qed.
Lemma norm_vplus u v : length u = length v -> norm2 (vplus u v) <= norm2 u + norm2 v.
Proof. intros H. unfold vplus. pose proof (norm2_triangle 1 u 1 v H) as T. rewrite !Rabs_R1, !Rmult_1_l in T. exact T. Qed.
Lemma norm_zeros m : norm2 (zeros m) = 0.
Proof. unfold norm2. rewrite dot_zeros_l. apply sqrt_0. Qed.
Lemma norm_mono c u v : length u = length v -> 0 <= c -> (forall j, (j < length v)%nat -> Rabs (nth j u 0) <= c * Rabs (nth j v 0)) -> norm2 u <= c * norm2 v.
Proof.
  intros Lu Hc H. apply norm2_le_sq; [apply Rmult_le_pos; [exact Hc|apply norm2_nonneg]|].
  replace (c * norm2 v * (c * norm2 v)) with (c * c * (norm2 v * norm2 v)) by ring. rewrite norm2_sq.
  rewrite (dot_seq u u (length v)), (dot_seq v v (length v)) by congruence. rewrite <- Rsum_map_mult. apply Rsum_le_map. intros j Hj. apply in_seq in Hj.
  specialize (H j ltac:(lia)). pose proof (Rabs_pos (nth j u 0)) as A. pose proof (Rmult_le_compat _ _ _ _ A A H H) as Q. rewrite <- Rabs_mult in Q.
  rewrite (Rabs_pos_eq (nth j u 0 * nth j u 0)) in Q by apply Rle_0_sqr.
  replace (c * c * (nth j v 0 * nth j v 0)) with (c * Rabs (nth j v 0) * (c * Rabs (nth j v 0))); [exact Q|].
  replace (c * Rabs (nth j v 0) * (c * Rabs (nth j v 0))) with (c * c * (Rabs (nth j v 0) * Rabs (nth j v 0))) by ring. f_equal.
  rewrite <- Rabs_mult. apply Rabs_pos_eq, Rle_0_sqr.
Qed.

(** drift: x_{l+1} = x_l - step (u_l + p_l), the partial sums of p bounded by Q, the perturbations u bounded by
    c as long as the iterates stay within M of the starting point *)
Variables (N : nat) (x : list R) (step c M Q : R) (xs us ps : nat -> list R).
Hypothesis Lx : length x = d.
Hypothesis Lxs : forall l, (l <= N)%nat -> length (xs l) = d.
Hypothesis Lus : forall l, (l < N)%nat -> length (us l) = d.
Hypothesis Lps : forall l, (l < N)%nat -> length (ps l) = d.
Hypothesis Hs : 0 <= step.
Hypothesis Hc : 0 <= c.
Hypothesis HM : step * (Q + INR N * c) <= M.
Hypothesis H0 : xs 0%nat = x.
Hypothesis HS : forall l, (l < N)%nat -> xs (S l) = lin 1 (xs l) (- step) (vplus (us l) (ps l)).
Hypothesis HQ : forall k, (k <= N)%nat -> norm2 (acc ps k) <= Q.
Hypothesis HU : forall l, (l < N)%nat -> (forall l', (l' <= l)%nat -> norm2 (vminus (xs l') x) <= M) -> norm2 (us l) <= c.
Lemma drift k : (k <= N)%nat ->
  vminus (xs k) x = smul (- step) (vplus (acc us k) (acc ps k)) /\ norm2 (acc us k) <= INR k * c /\ forall l, (l <= k)%nat -> norm2 (vminus (xs l) x) <= M.
Proof.
  assert (B : forall k, (k <= N)%nat -> vminus (xs k) x = smul (- step) (vplus (acc us k) (acc ps k)) -> norm2 (acc us k) <= INR k * c -> norm2 (vminus (xs k) x) <= M).
  { intros m Hm E1 E2. rewrite E1, norm2_smul, Rabs_Ropp, Rabs_pos_eq by exact Hs. eapply Rle_trans; [|exact HM]. apply Rmult_le_compat_l; [exact Hs|].
    eapply Rle_trans; [apply norm_vplus; rewrite !acc_length by (intros; first [apply Lus|apply Lps]; lia); reflexivity|]. specialize (HQ m Hm).
    assert (INR m * c <= INR N * c) by (apply Rmult_le_compat_r; [exact Hc|apply le_INR; exact Hm]). lra. }
  induction k as [|k IH]; intros Hk.
  - assert (E1 : vminus (xs 0%nat) x = smul (- step) (vplus (acc us 0) (acc ps 0))).
    { cbn [acc]. rewrite H0. apply (list_ext _ _ 0); [rewrite smul_length; unfold vminus, vplus; rewrite !lin_length, zeros_length; lia|]. intros j Hj.
      rewrite nth_vminus, nth_smul, nth_vplus by reflexivity. rewrite !nth_zeros. ring. }
    assert (E2 : norm2 (acc us 0) <= INR 0 * c) by (cbn [acc INR]; rewrite norm_zeros; lra).
    split; [exact E1|]. split; [exact E2|]. intros l Hl. replace l with 0%nat by lia. apply B; [lia|exact E1|exact E2].
  - destruct (IH ltac:(lia)) as (E1 & E2 & E3).
    assert (A1 : length (acc us k) = d) by (apply acc_length; intros; apply Lus; lia).
    assert (A2 : length (acc ps k) = d) by (apply acc_length; intros; apply Lps; lia).
    assert (A3 := Lus k ltac:(lia)). assert (A4 := Lps k ltac:(lia)). assert (A5 := Lxs k ltac:(lia)).
    assert (F1 : vminus (xs (S k)) x = smul (- step) (vplus (acc us (S k)) (acc ps (S k)))).
    { apply (list_ext _ _ 0); [rewrite (HS k) by lia; cbn [acc]; leng|]. intros j _. cbn [acc].
      rewrite nth_vminus by (rewrite Lxs by lia; symmetry; exact Lx). rewrite (HS k) by lia.
      rewrite nth_lin by leng. rewrite nth_smul. rewrite !nth_vplus by leng.
      assert (T := f_equal (fun v => nth j v 0) E1). cbn beta in T. rewrite nth_vminus in T by congruence. rewrite nth_smul, nth_vplus in T by congruence. lra. }
    assert (F2 : norm2 (acc us (S k)) <= INR (S k) * c).
    { cbn [acc]. rewrite S_INR. eapply Rle_trans; [apply norm_vplus; congruence|]. specialize (HU k ltac:(lia) E3). lra. }
    split; [exact F1|]. split; [exact F2|]. intros l Hl. destruct (Nat.eq_dec l (S k)) as [->|]; [apply B; assumption|apply E3; lia].
Qed.
End Acc.

(** ** scalar functions with a Lipschitz derivative *)
Lemma lip_upper (f f' : R -> R) L : (forall t, derivable_pt_lim f t (f' t)) -> (forall p q, Rabs (f' p - f' q) <= L * Rabs (p - q)) ->
  forall p q, f q - f p - f' p * (q - p) <= L / 2 * ((q - p) * (q - p)).
Proof.
  intros Hd HL p q. set (g := fun t => f t - (f' p * (t - p) + L / 2 * ((t - p) * (t - p)))).
  assert (Hg : forall t, derivable_pt_lim g t (f' t - (f' p + L * (t - p)))).
  { intros t. unfold g. apply derivable_pt_lim_minus; [apply Hd|].
    assert (D : derivable_pt_lim (fun t => t - p) t 1).
    { replace 1 with (1 - 0) by ring. apply derivable_pt_lim_minus; [apply derivable_pt_lim_id|apply derivable_pt_lim_const]. }
    apply derivable_pt_lim_plus.
    - pose proof (derivable_pt_lim_scal (fun t => t - p) (f' p) t 1 D) as D2. rewrite Rmult_1_r in D2. exact D2.
    - replace (L * (t - p)) with (L / 2 * (1 * (t - p) + (t - p) * 1)) by field.
      apply (derivable_pt_lim_scal (fun t => (t - p) * (t - p))). apply (derivable_pt_lim_mult (fun t => t - p) (fun t => t - p)); exact D. }
  destruct (mvt_any g _ p q Hg) as (xi & E & Hxi). unfold g in E.
  enough ((f' xi - (f' p + L * (xi - p))) * (q - p) <= 0) by lra.
  pose proof (HL xi p) as H. pose proof (Rle_abs (f' xi - f' p)) as A1. pose proof (Rle_abs (- (f' xi - f' p))) as A2. rewrite Rabs_Ropp in A2.
  destruct (Rle_dec p q).
  - rewrite Rmin_left, Rmax_right in Hxi by lra. rewrite (Rabs_pos_eq (xi - p)) in H by lra.
    assert (0 <= (L * (xi - p) - (f' xi - f' p)) * (q - p)) by (apply Rmult_le_pos; lra). lra.
  - rewrite Rmin_right, Rmax_left in Hxi by lra. rewrite (Rabs_left1 (xi - p)) in H by lra.
    assert (0 <= (f' xi - f' p - L * (xi - p)) * (p - q)) by (apply Rmult_le_pos; lra). lra.
Qed.
Lemma lip_quad (f f' : R -> R) L : (forall t, derivable_pt_lim f t (f' t)) -> (forall p q, Rabs (f' p - f' q) <= L * Rabs (p - q)) ->
  forall p q, Rabs (f q - f p - f' p * (q - p)) <= L / 2 * ((q - p) * (q - p)).
Proof.
  intros Hd HL p q. apply Rabs_le. split; [|apply (lip_upper f f' L Hd HL)].
  pose proof (lip_upper (fun t => - f t) (fun t => - f' t) L) as H.
  enough (- f q - - f p - - f' p * (q - p) <= L / 2 * ((q - p) * (q - p))) by lra. apply H.
  - intros t. apply (derivable_pt_lim_opp f t (f' t)), Hd.
  - intros a b. replace (- f' a - - f' b) with (f' b - f' a) by ring. rewrite Rabs_minus_sym. apply HL.
Qed.

(** ** the finite sum *)
Definition arow (P : problem RN) (i : nat) : list R := map (ent P i) (seq 0 (p_d P)).
Definition gvec (P : problem RN) (x : list R) : list R := map (fun j => grad_F P x j + p_alpha P * nth j x 0) (seq 0 (p_d P)).
Section F.
Variable P : problem RN.
Let n := p_n P.
Let d := p_d P.
Let al := p_alpha P.
Hypothesis Hn : (0 < n)%nat.
Hypothesis Ha : 0 <= al.
Lemma arow_length i : length (arow P i) = d. Proof. unfold arow. rewrite map_length, seq_length. reflexivity. Qed.
Lemma gvec_length x : length (gvec P x) = d. Proof. unfold gvec. rewrite map_length, seq_length. reflexivity. Qed.
Lemma nth_arow i j : (j < d)%nat -> nth j (arow P i) 0 = ent P i j. Proof. apply nth_mapseq. Qed.
Lemma nth_gvec x j : (j < d)%nat -> nth j (gvec P x) 0 = grad_F P x j + al * nth j x 0. Proof. intros. unfold gvec. rewrite nth_mapseq by assumption. reflexivity. Qed.
Lemma adot_arow i x : length x = d -> adot P i x = dot (arow P i) x.
Proof.
  intros Lx. rewrite (dot_seq _ _ d) by (try apply arow_length; exact Lx). unfold adot. fold d. apply Rsum_map_ext. intros j Hj. apply in_seq in Hj.
  rewrite nth_arow by lia. reflexivity.
Qed.
Lemma adot_vminus i x y : length x = d -> length y = d -> adot P i x - adot P i y = dot (arow P i) (vminus x y).
Proof. intros Lx Ly. rewrite !adot_arow by assumption. unfold vminus. rewrite dot_lin_r by (rewrite arow_length; assumption). ring. Qed.
(** the gradient is the mean of the rows weighted by the derivatives, plus alpha x *)
Lemma dot_gvec x v : length v = d -> length x = d ->
  dot (gvec P x) v = / INR n * Rsum (map (fun i => loss_deriv P x i * dot (arow P i) v) (seq 0 n)) + al * dot x v.
Proof.
  intros Lv Lx. rewrite (dot_seq (gvec P x) v d), (dot_seq x v d) by (try apply gvec_length; assumption).
  rewrite (Rsum_map_ext _ (fun j => grad_F P x j * nth j v 0 + al * (nth j x 0 * nth j v 0))) by (intros j Hj; apply in_seq in Hj; rewrite nth_gvec by lia; ring).
  rewrite Rsum_map_plus, Rsum_map_mult. f_equal.
  rewrite (Rsum_map_ext (fun i => loss_deriv P x i * dot (arow P i) v) (fun i => Rsum (map (fun j => loss_deriv P x i * ent P i j * nth j v 0) (seq 0 d)))).
  2:{ intros i _. rewrite (dot_seq _ _ d) by (try apply arow_length; assumption). rewrite <- Rsum_map_mult. apply Rsum_map_ext. intros j Hj. apply in_seq in Hj. rewrite nth_arow by lia. ring. }
  unfold grad_F, mean_row. fold n.
  rewrite (Rsum_map_ext _ (fun j => / INR n * (Rsum (map (fun i => loss_deriv P x i * ent P i j) (seq 0 n)) * nth j v 0))) by (intros; ring).
  rewrite Rsum_map_mult. f_equal. induction (seq 0 n) as [|i l IH]; cbn [map Rsum].
  - rewrite Rsum_zero; [reflexivity|]. intros; ring.
  - rewrite (Rsum_map_ext _ (fun j => loss_deriv P x i * ent P i j * nth j v 0 + Rsum (map (fun i => loss_deriv P x i * ent P i j) l) * nth j v 0)) by (intros; ring).
    rewrite Rsum_map_plus, IH. reflexivity.
Qed.
Variables (f : R -> R -> R) (lphi L : R).
Hypothesis HL : lip_losses P f lphi L.
Lemma arow_L i : (i < n)%nat -> lphi * (norm2 (arow P i) * norm2 (arow P i)) <= L.
Proof.
  intros Hi. destruct HL as (_ & _ & _ & _ & H). specialize (H i Hi). rewrite norm2_sq, (dot_seq _ _ d) by apply arow_length.
  fold d in H. rewrite (Rsum_map_ext _ (fun j => ent P i j * ent P i j)); [exact H|]. intros j Hj. apply in_seq in Hj. rewrite nth_arow by lia. reflexivity.
Qed.
(** the gradient of one sample is Lipschitz *)
Lemma sample_lip i x y : (i < n)%nat -> length x = d -> length y = d ->
  Rabs (loss_deriv P x i - loss_deriv P y i) * norm2 (arow P i) <= L * norm2 (vminus x y).
Proof.
  intros Hi Lx Ly. destruct HL as (_ & Hl & H0 & _). unfold loss_deriv. specialize (Hl (adot P i x) (adot P i y) (nth i (p_b P) 0)). rewrite adot_vminus in Hl by assumption.
  pose proof (cauchy_schwarz (arow P i) (vminus x y)) as C. pose proof (norm2_nonneg (arow P i)) as N1. pose proof (norm2_nonneg (vminus x y)) as N2.
  apply Rle_trans with (lphi * (norm2 (arow P i) * norm2 (vminus x y)) * norm2 (arow P i)).
  - apply Rmult_le_compat_r; [exact N1|]. eapply Rle_trans; [exact Hl|]. apply Rmult_le_compat_l; assumption.
  - replace (lphi * (norm2 (arow P i) * norm2 (vminus x y)) * norm2 (arow P i)) with (lphi * (norm2 (arow P i) * norm2 (arow P i)) * norm2 (vminus x y)) by ring.
    apply Rmult_le_compat_r; [exact N2|]. apply arow_L, Hi.
Qed.
Lemma mean_le (u : nat -> R) c : (forall i, (i < n)%nat -> u i <= c) -> / INR n * Rsum (map u (seq 0 n)) <= c.
Proof.
  intros H. assert (Hp : 0 < INR n) by (apply lt_0_INR; exact Hn). apply (Rmult_le_reg_l (INR n)); [exact Hp|]. rewrite <- Rmult_assoc, Rinv_r, Rmult_1_l by lra.
  assert (G : forall l, (forall i, In i l -> u i <= c) -> Rsum (map u l) <= INR (length l) * c).
  { induction l as [|i l IH]; intros K; cbn [map Rsum length]; [cbn; lra|]. rewrite S_INR. specialize (IH ltac:(intros; apply K; right; assumption)). specialize (K i ltac:(left; reflexivity)). lra. }
  specialize (G (seq 0 n)). rewrite seq_length in G. apply G. intros i Hi. apply in_seq in Hi. apply H. lia.
Qed.
Lemma finite_sum_quad x y : length x = d -> length y = d ->
  Rabs (finite_sum P f y - finite_sum P f x - dot (gvec P x) (vminus y x)) <= (L + al) / 2 * (norm2 (vminus y x) * norm2 (vminus y x)).
Proof.
  intros Lx Ly. assert (Lm : length (vminus y x) = d) by leng. rewrite dot_gvec by assumption. unfold finite_sum. fold n al.
  assert (Q : forall i, (i < n)%nat -> Rabs (f (adot P i y) (nth i (p_b P) 0) - f (adot P i x) (nth i (p_b P) 0) - loss_deriv P x i * dot (arow P i) (vminus y x)) <= L / 2 * (norm2 (vminus y x) * norm2 (vminus y x))).
  { intros i Hi. destruct HL as (Hd & Hl & H0 & _). unfold loss_deriv. set (b := nth i (p_b P) 0).
    pose proof (lip_quad (fun t => f t b) (fun t => p_fd P t b) lphi (fun t => Hd t b) (fun p q => Hl p q b) (adot P i x) (adot P i y)) as T. cbn beta in T.
    rewrite adot_vminus in T by assumption. eapply Rle_trans; [exact T|]. pose proof (cauchy_sq (arow P i) (vminus y x)) as C. rewrite <- !norm2_sq in C.
    pose proof (arow_L i Hi) as A. set (r := norm2 (arow P i) * norm2 (arow P i)) in *. set (w := norm2 (vminus y x) * norm2 (vminus y x)) in *.
    assert (W : 0 <= w) by apply Rle_0_sqr. apply (Rmult_le_compat_l (lphi / 2)) in C; [|lra]. apply (Rmult_le_compat_r w) in A; [|exact W]. lra. }
  replace (_ - _ - _) with (/ INR n * Rsum (map (fun i => f (adot P i y) (nth i (p_b P) 0) - f (adot P i x) (nth i (p_b P) 0) - loss_deriv P x i * dot (arow P i) (vminus y x)) (seq 0 n)) + al / 2 * (norm2 (vminus y x) * norm2 (vminus y x))).
  - eapply Rle_trans; [apply Rabs_triang|]. replace ((L + al) / 2 * (norm2 (vminus y x) * norm2 (vminus y x))) with (L / 2 * (norm2 (vminus y x) * norm2 (vminus y x)) + al / 2 * (norm2 (vminus y x) * norm2 (vminus y x))) by field.
    apply Rplus_le_compat.
    + apply Rabs_le. split.
      * apply Ropp_le_cancel. rewrite Ropp_involutive, Ropp_mult_distr_r, <- (Rmult_1_l (Rsum _)), Ropp_mult_distr_l, <- Rsum_map_mult. apply mean_le. intros i Hi. specialize (Q i Hi).
        pose proof (Rle_abs (- (f (adot P i y) (nth i (p_b P) 0) - f (adot P i x) (nth i (p_b P) 0) - loss_deriv P x i * dot (arow P i) (vminus y x)))) as A. rewrite Rabs_Ropp in A. lra.
      * apply mean_le. intros i Hi. specialize (Q i Hi). eapply Rle_trans; [apply Rle_abs|exact Q].
    + apply Req_le, Rabs_pos_eq. apply Rmult_le_pos; [lra|apply Rle_0_sqr].
  - rewrite (Rsum_map_ext _ (fun i => f (adot P i y) (nth i (p_b P) 0) + (-1) * f (adot P i x) (nth i (p_b P) 0) + (-1) * (loss_deriv P x i * dot (arow P i) (vminus y x)))) by (intros; ring).
    rewrite !Rsum_map_plus, !Rsum_map_mult. rewrite norm2_sq. unfold vminus. rewrite !dot_lin_l, !dot_lin_r by (try congruence; leng). rewrite (dot_comm y x). field. apply not_0_INR. lia.
Qed.
Lemma finite_sum_gradient x : length x = d -> is_gradient d (finite_sum P f) x (gvec P x).
Proof.
  intros Lx. split; [apply gvec_length|]. intros eps He. assert (HL0 : 0 <= L) by apply HL. set (C := (L + al) / 2 + 1). assert (0 < C) by (unfold C; lra).
  exists (eps / C). split; [apply Rdiv_lt_0_compat; lra|]. intros y Ly Hy. eapply Rle_trans; [apply finite_sum_quad; assumption|].
  pose proof (norm2_nonneg (vminus y x)) as N. rewrite <- Rmult_assoc. apply Rmult_le_compat_r; [exact N|].
  apply Rle_trans with (C * (eps / C)); [|right; field; lra]. apply Rmult_le_compat; [lra|exact N|unfold C; lra|exact Hy].
Qed.
Lemma gvec_lip x y : length x = d -> length y = d -> norm2 (vminus (gvec P x) (gvec P y)) <= (L + al) * norm2 (vminus x y).
Proof.
  intros Lx Ly. set (v := vminus (gvec P x) (gvec P y)). assert (Lv : length v = d) by (unfold v; pose proof (gvec_length x); pose proof (gvec_length y); leng).
  assert (E : dot v v = / INR n * Rsum (map (fun i => (loss_deriv P x i - loss_deriv P y i) * dot (arow P i) v) (seq 0 n)) + al * dot (vminus x y) v).
  { unfold v at 1. unfold vminus. rewrite dot_lin_l by (rewrite ?gvec_length; congruence). rewrite !dot_gvec by assumption. rewrite dot_lin_l by congruence.
    rewrite (Rsum_map_ext (fun i => (loss_deriv P x i - loss_deriv P y i) * dot (arow P i) v) (fun i => loss_deriv P x i * dot (arow P i) v + (-1) * (loss_deriv P y i * dot (arow P i) v))) by (intros; ring).
    rewrite Rsum_map_plus, Rsum_map_mult. ring. }
  assert (B1 : / INR n * Rsum (map (fun i => (loss_deriv P x i - loss_deriv P y i) * dot (arow P i) v) (seq 0 n)) <= L * norm2 (vminus x y) * norm2 v).
  { apply mean_le. intros i Hi. eapply Rle_trans; [apply Rle_abs|]. rewrite Rabs_mult. pose proof (sample_lip i x y Hi Lx Ly) as S. pose proof (cauchy_schwarz (arow P i) v) as C.
    apply Rle_trans with (Rabs (loss_deriv P x i - loss_deriv P y i) * (norm2 (arow P i) * norm2 v)); [apply Rmult_le_compat_l; [apply Rabs_pos|exact C]|].
    rewrite <- Rmult_assoc. apply Rmult_le_compat_r; [apply norm2_nonneg|exact S]. }
  pose proof (dot_le_norm (vminus x y) v) as B2. apply (Rmult_le_compat_l al) in B2; [|exact Ha]. rewrite <- norm2_sq in E.
  pose proof (norm2_nonneg v) as N. destruct (Rle_lt_or_eq_dec 0 (norm2 v) N) as [Np|Nz].
  - apply (Rmult_le_reg_r (norm2 v)); [exact Np|]. lra.
  - rewrite <- Nz. apply Rmult_le_pos; [|apply norm2_nonneg]. assert (0 <= L) by apply HL. lra.
Qed.
End F.
