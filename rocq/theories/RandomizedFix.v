(** * Fixed points of the randomized solvers are minimizers *)
From Coq Require Import ZArith Bool List Lia Permutation Reals Lra.
From Verif Require Import Num Vec Spec SpecSparse RVec ConvexFacts ModelPenalty PenaltyFacts PenaltyFacts2 PenaltyFacts3 UtilsMain ModelRandomized SpecFiniteSum RandomizedFacts RandomizedBlocks RandomizedSaga RandomizedSvrg RandomizedVrtos.
Import ListNotations.
Local Open Scope R_scope.

(** x on the features of [g], p elsewhere *)
Definition patch (g : list nat) (y p : list R) : list R :=
  map (fun j => if in_dec Nat.eq_dec j g then nth j y 0 else nth j p 0) (seq 0 (length p)).
Lemma patch_length g y p : length (patch g y p) = length p.
Proof. unfold patch. rewrite map_length, seq_length. reflexivity. Qed.
Lemma nth_patch g y p j : (j < length p)%nat -> nth j (patch g y p) 0 = if in_dec Nat.eq_dec j g then nth j y 0 else nth j p 0.
Proof.
  intros Hj. unfold patch.
  rewrite (nth_indep _ 0 ((fun j => if in_dec Nat.eq_dec j g then nth j y 0 else nth j p 0) 0%nat)) by (rewrite map_length, seq_length; exact Hj).
  rewrite (map_nth (fun j => if in_dec Nat.eq_dec j g then nth j y 0 else nth j p 0)), seq_nth by exact Hj. reflexivity.
Qed.
Lemma sub_patch_in g y p : (forall j, In j g -> (j < length p)%nat) -> sub (patch g y p) g = sub y g.
Proof. intros H. unfold sub. apply map_ext_in. intros j Hj. rewrite nth_patch by auto. destruct (in_dec Nat.eq_dec j g); [reflexivity|contradiction]. Qed.
Lemma sub_patch_out g g' y p : (forall j, In j g' -> (j < length p)%nat /\ ~ In j g) -> sub (patch g y p) g' = sub p g'.
Proof. intros H. unfold sub. apply map_ext_in. intros j Hj. destruct (H j Hj) as (A & B). rewrite nth_patch by auto. destruct (in_dec Nat.eq_dec j g); [contradiction|reflexivity]. Qed.
Lemma sub_lin a u b v g : length u = length v -> (forall j, In j g -> (j < length u)%nat) -> sub (lin a u b v) g = lin a (sub u g) b (sub v g).
Proof.
  intros L H. induction g as [|j g IH]; [reflexivity|]. cbn [sub map lin]. fold (sub (lin a u b v) g). rewrite IH by (intros; apply H; right; assumption).
  rewrite nth_lin by exact L. reflexivity.
Qed.
Lemma sub_length v g : length (sub v g) = length g.
Proof. apply map_length. Qed.

Section Blocks.
Variable n : nat.
Variable ptr : list nat.
Hypothesis Hptr : partitions ptr n.
Variable g : nat -> list R -> R.
Hypothesis Hg : forall h, (S h < length ptr)%nat -> convex_on (length (blk ptr h)) (fun _ => True) (g h).
Lemma blk_lt h j : (S h < length ptr)%nat -> In j (blk ptr h) -> (j < n)%nat.
Proof. intros. eapply blk_in_lt; eauto. Qed.
Lemma wsum_convex (w : nat -> R) L : (forall h, In h L -> (S h < length ptr)%nat /\ 0 <= w h) ->
  convex_on n (fun _ => True) (fun y => Rsum (map (fun h => w h * g h (sub y (blk ptr h))) L)).
Proof.
  intros HL. split; [intros u v t; auto|]. intros u v t Lu Lv _ _ Ht. induction L as [|h L IH]; cbn [map Rsum]; [lra|].
  specialize (IH (fun h' H' => HL h' (or_intror H'))). destruct (HL h (or_introl eq_refl)) as (Hh & Hw).
  rewrite sub_lin; [|congruence|intros j Hj; rewrite Lu; eapply blk_lt; eauto].
  destruct (Hg h Hh) as (_ & Hc). specialize (Hc (sub u (blk ptr h)) (sub v (blk ptr h)) t (sub_length _ _) (sub_length _ _) I I Ht).
  apply (Rmult_le_compat_l (w h)) in Hc; [|exact Hw]. cbn beta in *. lra.
Qed.
(** the proximal point of a weighted sum of block penalties, one block at a time *)
Lemma block_prox_vi (w : nat -> R) L st (x p : list R) : length x = n -> 0 < st -> NoDup L ->
  (forall h, In h L -> (S h < length ptr)%nat /\ 0 <= w h) ->
  is_prox (fun y => Rsum (map (fun h => w h * g h (sub y (blk ptr h))) L)) st x p ->
  forall h (y : list R), In h L -> length y = n ->
  st * (w h * g h (sub p (blk ptr h))) + Rsum (map (fun j => (nth j x 0 - nth j p 0) * (nth j y 0 - nth j p 0)) (blk ptr h))
    <= st * (w h * g h (sub y (blk ptr h))).
Proof.
  intros Lx Hst Hnd HL Hp h y Hh Ly. assert (Lp : length p = n) by (destruct Hp as (E & _); congruence).
  pose proof (prox_vi n _ _ st x p (wsum_convex w L HL) Lx Hp Hst (patch (blk ptr h) y p) (eq_trans (patch_length _ _ _) Lp) I) as V.
  destruct (HL h Hh) as (Hh' & _). cbv beta in V.
  rewrite (dot_seq _ _ n) in V by (unfold vminus; rewrite lin_length; rewrite ?patch_length; lia).
  rewrite (sum_support _ n (blk ptr h)) in V.
  2:{ apply range_NoDup. }
  2:{ apply Forall_forall. intros j Hj. eapply blk_lt; eauto. }
  2:{ intros k Hk Hn. rewrite !nth_vminus by (rewrite ?patch_length; congruence). rewrite nth_patch by (rewrite Lp; exact Hk). destruct (in_dec Nat.eq_dec k (blk ptr h)); [contradiction|]. ring. }
  assert (E : Rsum (map (fun i => nth i (vminus x p) 0 * nth i (vminus (patch (blk ptr h) y p) p) 0) (blk ptr h)) = Rsum (map (fun j => (nth j x 0 - nth j p 0) * (nth j y 0 - nth j p 0)) (blk ptr h))).
  { apply Rsum_map_ext. intros j Hj. assert (j < n)%nat by (eapply blk_lt; eauto). rewrite !nth_vminus by (rewrite ?patch_length; congruence). rewrite nth_patch by (rewrite Lp; assumption). destruct (in_dec Nat.eq_dec j (blk ptr h)); [reflexivity|contradiction]. }
  rewrite E in V. clear E.
  assert (D : Rsum (map (fun h0 => w h0 * g h0 (sub (patch (blk ptr h) y p) (blk ptr h0))) L) =
     Rsum (map (fun h0 => w h0 * g h0 (sub p (blk ptr h0))) L) + (w h * g h (sub y (blk ptr h)) - w h * g h (sub p (blk ptr h)))).
  { clear V Hp. induction L as [|a L IH]; [destruct Hh|]. apply NoDup_cons_iff in Hnd as (Ha & Hnd). cbn [map Rsum].
    assert (Out : forall l, (forall h0, In h0 l -> (S h0 < length ptr)%nat) -> ~ In h l -> Rsum (map (fun h0 => w h0 * g h0 (sub (patch (blk ptr h) y p) (blk ptr h0))) l) = Rsum (map (fun h0 => w h0 * g h0 (sub p (blk ptr h0))) l)).
    { intros l Hl N. apply Rsum_map_ext. intros h0 H0. rewrite sub_patch_out; [reflexivity|]. intros j Hj. rewrite Lp. split; [exact (blk_lt h0 j (Hl h0 H0) Hj)|].
      intros Hj'. apply N. assert (h0 = h) by (apply (partitions_inj ptr n h0 h j); auto). congruence. }
    destruct (Nat.eq_dec a h) as [->|N].
    - rewrite sub_patch_in by (intros j Hj; rewrite Lp; eapply blk_lt; eauto). rewrite Out; [ring|intros; apply HL; right; assumption|exact Ha].
    - destruct Hh as [->|Hh]; [congruence|]. rewrite IH; auto; [|intros; apply HL; right; assumption].
      rewrite (sub_patch_out (blk ptr h) (blk ptr a)); [ring|]. intros j Hj. rewrite Lp. assert (Ha' : (S a < length ptr)%nat) by (apply HL; left; reflexivity). split; [exact (blk_lt a j Ha' Hj)|].
      intros Hj'. apply N. apply (partitions_inj ptr n a h j); auto. }
  rewrite D in V. lra.
Qed.
(** a sum over all blocks is a sum over all features *)
Lemma blocks_flat : Permutation (flat_map (blk ptr) (seq 0 (length ptr - 1))) (seq 0 n).
Proof.
  apply NoDup_Permutation.
  - apply NoDup_flat_map; [apply seq_NoDup|intros; apply range_NoDup|].
    intros h h' j A A' N Hj Hj'. apply in_seq in A. apply in_seq in A'. apply N. apply (partitions_inj ptr n h h' j); auto; lia.
  - apply seq_NoDup.
  - intros j. rewrite in_flat_map. split.
    + intros (h & Hh & Hj). apply in_seq in Hh. apply in_seq. split; [lia|]. simpl. eapply blk_lt; [|exact Hj]. lia.
    + intros Hj. apply in_seq in Hj. destruct (partitions_cover ptr n j Hptr) as (h & Hh & Hb); [lia|]. exists h. split; [apply in_seq; lia|exact Hb].
Qed.
Lemma Rsum_blocks (f : nat -> R) : Rsum (map (fun h => Rsum (map f (blk ptr h))) (seq 0 (length ptr - 1))) = Rsum (map f (seq 0 n)).
Proof. rewrite <- Rsum_flat_map. apply Rsum_perm, Permutation_map, blocks_flat. Qed.
End Blocks.

(** the smooth part lies above its tangent *)
Lemma finite_sum_tangent (P : problem RN) f (x y : list R) : convex_loss P f -> 0 <= p_alpha P -> (0 < p_n P)%nat -> length x = p_d P -> length y = p_d P ->
  finite_sum P f x + Rsum (map (fun j => (grad_F P x j + p_alpha P * nth j x 0) * (nth j y 0 - nth j x 0)) (seq 0 (p_d P))) <= finite_sum P f y.
Proof.
  intros Hc Ha Hn Lx Ly. unfold finite_sum. set (n := p_n P) in *. set (d := p_d P) in *. assert (Hpos : 0 < INR n) by (apply lt_0_INR; exact Hn).
  assert (Q : Rsum (map (fun i => f (adot P i x) (nth i (p_b P) 0)) (seq 0 n)) + Rsum (map (fun i => loss_deriv P x i * (adot P i y - adot P i x)) (seq 0 n)) <= Rsum (map (fun i => f (adot P i y) (nth i (p_b P) 0)) (seq 0 n))).
  { induction (seq 0 n) as [|i l IH]; cbn [map Rsum]; [lra|]. pose proof (Hc (adot P i x) (adot P i y) (nth i (p_b P) 0)). unfold loss_deriv at 1. lra. }
  assert (S : Rsum (map (fun j => grad_F P x j * (nth j y 0 - nth j x 0)) (seq 0 d)) = / INR n * Rsum (map (fun i => loss_deriv P x i * (adot P i y - adot P i x)) (seq 0 n))).
  { assert (S1 : Rsum (map (fun i => loss_deriv P x i * (adot P i y - adot P i x)) (seq 0 n)) = Rsum (map (fun i => Rsum (map (fun j => loss_deriv P x i * ent P i j * (nth j y 0 - nth j x 0)) (seq 0 d))) (seq 0 n))).
    { apply Rsum_map_ext. intros i _. unfold adot. fold d.
      rewrite (Rsum_map_ext (fun j => loss_deriv P x i * ent P i j * (nth j y 0 - nth j x 0)) (fun j => loss_deriv P x i * (ent P i j * nth j y 0 + (-1) * (ent P i j * nth j x 0)))) by (intros; ring).
      rewrite Rsum_map_mult, Rsum_map_plus, Rsum_map_mult. ring. }
    rewrite S1. clear S1 Q. unfold grad_F, mean_row. fold n.
    rewrite (Rsum_map_ext _ (fun j => / INR n * (Rsum (map (fun i => loss_deriv P x i * ent P i j) (seq 0 n)) * (nth j y 0 - nth j x 0)))) by (intros; ring).
    rewrite Rsum_map_mult. f_equal. induction (seq 0 n) as [|i l IH]; cbn [map Rsum].
    - rewrite Rsum_zero; [reflexivity|]. intros; ring.
    - rewrite (Rsum_map_ext _ (fun j => loss_deriv P x i * ent P i j * (nth j y 0 - nth j x 0) + Rsum (map (fun i => loss_deriv P x i * ent P i j) l) * (nth j y 0 - nth j x 0))) by (intros; ring).
      rewrite Rsum_map_plus, IH. reflexivity. }
  rewrite (Rsum_map_ext (fun j => (grad_F P x j + p_alpha P * nth j x 0) * (nth j y 0 - nth j x 0)) (fun j => grad_F P x j * (nth j y 0 - nth j x 0) + p_alpha P * (nth j x 0 * (nth j y 0 - nth j x 0)))) by (intros; ring).
  rewrite Rsum_map_plus, S, Rsum_map_mult. rewrite !(dot_seq _ _ d) by congruence.
  assert (T : Rsum (map (fun j => nth j x 0 * nth j x 0) (seq 0 d)) + 2 * Rsum (map (fun j => nth j x 0 * (nth j y 0 - nth j x 0)) (seq 0 d)) <= Rsum (map (fun j => nth j y 0 * nth j y 0) (seq 0 d))).
  { clear S. induction (seq 0 d) as [|j l IH]; cbn [map Rsum]; [lra|]. pose proof (Rle_0_sqr (nth j y 0 - nth j x 0)). unfold Rsqr in *. lra. }
  apply (Rmult_le_compat_l (p_alpha P / 2)) in T; [|lra]. apply (Rmult_le_compat_l (/ INR n)) in Q; [|left; apply Rinv_0_lt_compat; exact Hpos]. lra.
Qed.

Section Fix.
Variable P : problem RN.
Hypothesis HP : problem_wf P.
Let n := p_n P.
Let d := p_d P.
Lemma kd_pos ptr B i h : partitions ptr d -> make_blocks P ptr = Ok B -> (i < n)%nat -> In h (pblocks P ptr i) -> 0 < nth h (k_d B) 0.
Proof.
  intros Hq EB Hi Hh. destruct (make_blocks_spec P HP ptr Hq B EB) as (_ & E2 & _ & _ & E5). rewrite E2 in E5.
  destruct (weights_spec P ptr (k_d B) E5) as (W0 & W & _). specialize (W h (W0 i h Hi Hh) (touching_pos P ptr i h Hi Hh)). rn. rewrite W. rewrite !nofnat_R.
  pose proof (touching_pos P ptr i h Hi Hh). apply Rdiv_lt_0_compat; apply lt_0_INR; fold n; lia.
Qed.
Lemma bs_row ptr B i : partitions ptr d -> make_blocks P ptr = Ok B -> (i < n)%nat -> csr_row (k_bsi B) (k_bsp B) i = pblocks P ptr i.
Proof. intros Hq EB Hi. destruct (make_blocks_spec P HP ptr Hq B EB) as (_ & _ & _ & R & _). apply R, Hi. Qed.

(** sum of block inequalities over the touched blocks *)
Lemma sum_blocks_le ptr g (G x y : list R) (T : nat -> Prop) : partitions ptr d ->
  (forall h, (S h < length ptr)%nat -> {T h} + {~ T h}) ->
  (forall h, (S h < length ptr)%nat -> T h -> g h (sub x (blk ptr h)) - Rsum (map (fun j => nth j G 0 * (nth j y 0 - nth j x 0)) (blk ptr h)) <= g h (sub y (blk ptr h))) ->
  (forall h j, (S h < length ptr)%nat -> ~ T h -> In j (blk ptr h) -> nth j y 0 = nth j x 0) ->
  block_penalty ptr g x - Rsum (map (fun j => nth j G 0 * (nth j y 0 - nth j x 0)) (seq 0 d)) <= block_penalty ptr g y.
Proof.
  intros Hq Td Ht Hn. unfold block_penalty. rewrite <- (Rsum_blocks d ptr Hq).
  assert (Hl : forall h, In h (seq 0 (length ptr - 1)) -> (S h < length ptr)%nat) by (intros h Hh; apply in_seq in Hh; lia).
  induction (seq 0 (length ptr - 1)) as [|h l IH]; cbn [map Rsum]; [lra|].
  specialize (IH (fun h' H' => Hl h' (or_intror H'))). assert (Hh : (S h < length ptr)%nat) by (apply Hl; left; reflexivity).
  destruct (Td h Hh) as [Y|N].
  - specialize (Ht h Hh Y). lra.
  - assert (E : sub y (blk ptr h) = sub x (blk ptr h)) by (unfold sub; apply map_ext_in; intros j Hj; apply (Hn h j Hh N Hj)).
    rewrite E. rewrite (Rsum_zero (fun j => nth j G 0 * (nth j y 0 - nth j x 0))); [lra|]. intros j Hj. rewrite (Hn h j Hh N Hj). ring.
Qed.
Lemma touches_dec ptr h : partitions ptr d -> (S h < length ptr)%nat ->
  {exists i, (i < n)%nat /\ In h (pblocks P ptr i)} + {~ exists i, (i < n)%nat /\ In h (pblocks P ptr i)}.
Proof.
  intros Hq Hh. destruct (Exists_dec (fun i => In h (pblocks P ptr i)) (seq 0 n) (fun i => in_dec Nat.eq_dec h (pblocks P ptr i))) as [E|E].
  - left. apply Exists_exists in E as (i & Hi & Hin). apply in_seq in Hi. exists i. split; [lia|exact Hin].
  - right. intros (i & Hi & Hin). apply E. apply Exists_exists. exists i. split; [apply in_seq; lia|exact Hin].
Qed.
Lemma touched_blk ptr h j : partitions ptr d -> (S h < length ptr)%nat -> In j (blk ptr h) ->
  touched P ptr j -> exists i, (i < n)%nat /\ In h (pblocks P ptr i).
Proof.
  intros Hq Hh Hj (i & Hi & h' & c & Hh' & Hj' & Hc & Hr). assert (h' = h) by (apply (partitions_inj ptr d h' h j); auto). subst h'.
  exists i. split; [exact Hi|]. apply (pblocks_in P HP ptr Hq i h Hi). split; [exact Hh|]. exists c. auto.
Qed.

(** ** SAGA *)
Lemma saga_fixed ptr B g prox step s f : partitions ptr d -> make_blocks P ptr = Ok B ->
  (forall h, (S h < length ptr)%nat -> convex_on (length (blk ptr h)) (fun _ => True) (g h)) ->
  sparse_prox_of P ptr B g prox -> 0 < step -> convex_loss P f -> 0 <= p_alpha P -> (0 < n)%nat ->
  saga_len P s -> saga_inv P s ->
  (forall i, (i < n)%nat -> nth i (sa_mem s) 0 = loss_deriv P (sa_x s) i) ->
  (forall i, (i < n)%nat -> exists s', saga_sample P B prox step i s = Ok s' /\ sa_x s' = sa_x s) ->
  forall y : list R, length y = d -> (forall j, (j < d)%nat -> ~ touched P ptr j -> nth j y 0 = nth j (sa_x s) 0) ->
  finite_sum P f (sa_x s) + block_penalty ptr g (sa_x s) <= finite_sum P f y + block_penalty ptr g y.
Proof.
  intros Hq EB Hcg Hpr Hst Hcl Ha Hn L (I1 & I2) Hm Hfix y Ly Hy. assert (Lx : length (sa_x s) = d) by apply L.
  pose proof (finite_sum_tangent P f (sa_x s) y Hcl Ha Hn Lx Ly) as T. fold d in T.
  set (G := map (fun j => grad_F P (sa_x s) j + p_alpha P * nth j (sa_x s) 0) (seq 0 d)).
  assert (NG : forall j, (j < d)%nat -> nth j G 0 = grad_F P (sa_x s) j + p_alpha P * nth j (sa_x s) 0).
  { intros j Hj. unfold G. rewrite (nth_indep _ 0 ((fun j => grad_F P (sa_x s) j + p_alpha P * nth j (sa_x s) 0) 0%nat)) by (rewrite map_length, seq_length; exact Hj).
    rewrite (map_nth (fun j => grad_F P (sa_x s) j + p_alpha P * nth j (sa_x s) 0)), seq_nth by exact Hj. reflexivity. }
  rewrite (Rsum_map_ext _ (fun j => nth j G 0 * (nth j y 0 - nth j (sa_x s) 0))) in T.
  2:{ intros j Hj. apply in_seq in Hj. rewrite NG by lia. reflexivity. }
  enough (Hb : block_penalty ptr g (sa_x s) - Rsum (map (fun j => nth j G 0 * (nth j y 0 - nth j (sa_x s) 0)) (seq 0 d)) <= block_penalty ptr g y) by lra.
  apply (sum_blocks_le ptr g G (sa_x s) y (fun h => exists i, (i < n)%nat /\ In h (pblocks P ptr i)) Hq).
  - intros h Hh. apply touches_dec; auto.
  - intros h Hh (i & Hi & Hin). destruct (Hfix i Hi) as (s' & Es & Ex).
    destruct (saga_sample_eq P HP ptr Hq B EB prox step i s Hi L) as (p & x1 & avg' & tmp' & Ep & Lx1 & _ & _ & X1 & X2 & _ & _ & E').
    rewrite E' in Es. apply bind_ok in Es as (x2 & Ep2 & Es). apply Ok_inj in Es. subst s'. cbn [sa_x] in Ex. subst x2.
    destruct (Hpr x1 i step Hi Lx1 ltac:(lra)) as (x' & E1 & _ & Hprox). rewrite Ep2 in E1. apply Ok_inj in E1. subst x'.
    rewrite (bs_row ptr B i Hq EB Hi) in Hprox.
    pose proof (block_prox_vi d ptr Hq g Hcg (fun h => nth h (k_d B) 0) (pblocks P ptr i) step x1 (sa_x s) Lx1 Hst (pblocks_NoDup P ptr i)) as V.
    specialize (V ltac:(intros h' Hh'; split; [apply (pblocks_in P HP ptr Hq i h' Hi), Hh'|left; eapply kd_pos; eauto]) Hprox h y Hin Ly). cbv beta in V.
    assert (Ew := kd_pos ptr B i h Hq EB Hi Hin). set (w := nth h (k_d B) 0) in *.
    assert (Es : Rsum (map (fun j => (nth j x1 0 - nth j (sa_x s) 0) * (nth j y 0 - nth j (sa_x s) 0)) (blk ptr h)) = - (step * w) * Rsum (map (fun j => nth j G 0 * (nth j y 0 - nth j (sa_x s) 0)) (blk ptr h))).
    { rewrite <- Rsum_map_mult. apply Rsum_map_ext. intros j Hj. assert (Hx : ext P ptr i j) by (exists h; auto). specialize (X1 j Hx). rn. rewrite X1.
      assert (Hjd : (j < d)%nat) by (eapply blk_in_lt; eauto). rewrite NG by exact Hjd. rewrite (rblocks_in _ _ _ _ Hq Hh Hj). fold w.
      rewrite row_dot_R in Ep by assumption. apply Ok_inj in Ep. subst p. 
      pose proof (Hm i Hi) as Hmi. unfold loss_deriv in Hmi. rn.
      assert (Tz : tmp_val P i (p_fd P (adot P i (sa_x s)) (nth i (p_b P) 0) - nth i (sa_mem s) 0) (sa_tmp s) j = 0).
      { apply tmp_val_zero; [|rewrite I2; apply nth_zeros]. apply Rminus_diag_eq. symmetry. exact Hmi. }
      rn. rewrite Tz. rewrite (I1 j Hjd). unfold grad_F, mean_row. rewrite (Rsum_map_ext (fun i0 => nth i0 (sa_mem s) 0 * ent P i0 j) (fun i0 => loss_deriv P (sa_x s) i0 * ent P i0 j)).
      - ring.
      - intros k Hk. apply in_seq in Hk. rewrite Hm by (fold n in Hk; lia). reflexivity. }
    eqR. rewrite Es in V. apply (Rmult_le_reg_l (step * w)); [apply Rmult_lt_0_compat; assumption|]. lra.
  - intros h j Hh Nt Hj. apply Hy; [eapply blk_in_lt; eauto|]. intros Ht. apply Nt. eapply touched_blk; eauto.
Qed.

(** ** VRTOS *)
Lemma half_sum (g a1 a2 t : R) : a1 + a2 = 0 -> (g / 2 - a1) * t + (g / 2 - a2) * t = g * t.
Proof. intros H. replace a2 with (- a1) by lra. field. Qed.
Lemma touched_dec ptr j : partitions ptr d -> (j < d)%nat -> {touched P ptr j} + {~ touched P ptr j}.
Proof.
  intros Hq Hj. pose proof (rblocks_spec _ _ _ Hq Hj) as (Hh & Hb). set (h := nth j (rblocks ptr) 0%nat) in *.
  destruct (touches_dec ptr h Hq Hh) as [Y|N].
  - left. destruct Y as (i & Hi & Hin). exists i. split; [exact Hi|]. apply (ext_spec P HP ptr Hq i j Hi). exists h. auto.
  - right. intros Ht. apply N. eapply touched_blk; eauto.
Qed.
Lemma touched_decc ptr1 ptr2 j : partitions ptr1 d -> partitions ptr2 d -> (j < d)%nat -> {touched P ptr1 j /\ touched P ptr2 j} + {~ (touched P ptr1 j /\ touched P ptr2 j)}.
Proof. intros H1 H2 Hj. destruct (touched_dec ptr1 j H1 Hj); [|right; tauto]. destruct (touched_dec ptr2 j H2 Hj); [left|right]; tauto. Qed.
Lemma nth_mapseq (f : nat -> R) j m : (j < m)%nat -> nth j (map f (seq 0 m)) 0 = f j.
Proof. intros Hj. rewrite (nth_indep _ 0 (f 0%nat)) by (rewrite map_length, seq_length; exact Hj). rewrite (map_nth f), seq_nth by exact Hj. reflexivity. Qed.

(** block inequality of one structure at a fixed point *)
Lemma vr_block_ineq ptr B g prox step (z y : list R) (yk : list R) (G : nat -> R) i h (xa xp : list R) : partitions ptr d -> make_blocks P ptr = Ok B ->
  (forall h, (S h < length ptr)%nat -> convex_on (length (blk ptr h)) (fun _ => True) (g h)) ->
  sparse_prox_of P ptr B g prox -> 0 < step -> (i < n)%nat -> In h (pblocks P ptr i) -> (S h < length ptr)%nat ->
  length xa = d -> length y = d -> prox xa i (k_bsi B) (k_bsp B) (k_d B) step = Ok xp ->
  (forall j, In j (blk ptr h) -> nth j xp 0 = nth j z 0) ->
  (forall j, In j (blk ptr h) -> nth j xa 0 = 2 * nth j z 0 - nth j yk 0 - step * (1 / 2) * (nth (nth j (rblocks ptr) 0%nat) (k_d B) 0 * G j)) ->
  g h (sub z (blk ptr h)) - Rsum (map (fun j => (G j / 2 - (nth j z 0 - nth j yk 0) / (step * nth (nth j (rblocks ptr) 0%nat) (k_d B) 0)) * (nth j y 0 - nth j z 0)) (blk ptr h))
    <= g h (sub y (blk ptr h)).
Proof.
  intros Hq EB Hcg Hpr Hst Hi Hin Hh La Ly Ep2 Hz Hxa.
  destruct (Hpr xa i step Hi La ltac:(lra)) as (x' & E1 & _ & Hprox). rewrite Ep2 in E1. apply Ok_inj in E1. subst x'.
  rewrite (bs_row ptr B i Hq EB Hi) in Hprox.
  pose proof (block_prox_vi d ptr Hq g Hcg (fun h => nth h (k_d B) 0) (pblocks P ptr i) step xa xp La Hst (pblocks_NoDup P ptr i)) as V.
  specialize (V ltac:(intros h' Hh'; split; [apply (pblocks_in P HP ptr Hq i h' Hi), Hh'|left; eapply kd_pos; eauto]) Hprox h y Hin Ly). cbv beta in V.
  assert (Ew := kd_pos ptr B i h Hq EB Hi Hin). assert (Eb : forall j, In j (blk ptr h) -> nth j (rblocks ptr) 0%nat = h) by (intros j Hj; eapply rblocks_in; eauto).
  assert (Es : sub xp (blk ptr h) = sub z (blk ptr h)) by (unfold sub; apply map_ext_in; exact Hz). rewrite Es in V.
  rewrite (Rsum_map_ext (fun j => (nth j xa 0 - nth j xp 0) * (nth j y 0 - nth j xp 0))
    (fun j => (- (step * nth h (k_d B) 0)) * ((G j / 2 - (nth j z 0 - nth j yk 0) / (step * nth (nth j (rblocks ptr) 0%nat) (k_d B) 0)) * (nth j y 0 - nth j z 0)))) in V.
  2:{ intros j Hj. rewrite Hxa, Hz by exact Hj. rewrite Eb by exact Hj. eqR. field. split; lra. }
  rewrite Rsum_map_mult in V. set (w := nth h (k_d B) 0) in *. eqR.
  apply (Rmult_le_reg_l (step * w)); [apply Rmult_lt_0_compat; assumption|]. lra.
Qed.
Lemma vr_fixed ptr1 ptr2 B1 B2 g1 g2 prox1 prox2 step s f : partitions ptr1 d -> partitions ptr2 d -> make_blocks P ptr1 = Ok B1 -> make_blocks P ptr2 = Ok B2 ->
  (forall h, (S h < length ptr1)%nat -> convex_on (length (blk ptr1 h)) (fun _ => True) (g1 h)) ->
  (forall h, (S h < length ptr2)%nat -> convex_on (length (blk ptr2 h)) (fun _ => True) (g2 h)) ->
  sparse_prox_of P ptr1 B1 g1 prox1 -> sparse_prox_of P ptr2 B2 g2 prox2 -> prox_len B1 prox1 -> prox_len B2 prox2 ->
  0 < step -> convex_loss P f -> 0 <= p_alpha P -> (0 < n)%nat ->
  vr_len P s -> vr_inv P s ->
  (forall i, (i < n)%nat -> nth i (vr_mem s) 0 = loss_deriv P (vr_z s) i) ->
  (forall i, (i < n)%nat -> exists s', vr_sample P B1 B2 prox1 prox2 step i s = Ok s' /\ vr_z s' = vr_z s /\ vr_y0 s' = vr_y0 s /\ vr_y1 s' = vr_y1 s) ->
  forall y : list R, length y = d -> (forall j, (j < d)%nat -> ~ (touched P ptr1 j /\ touched P ptr2 j) -> nth j y 0 = nth j (vr_z s) 0) ->
  finite_sum P f (vr_z s) + block_penalty ptr1 g1 (vr_z s) + block_penalty ptr2 g2 (vr_z s) <= finite_sum P f y + block_penalty ptr1 g1 y + block_penalty ptr2 g2 y.
Proof.
  intros Hq1 Hq2 EB1 EB2 Hc1 Hc2 Hp1 Hp2 Hl1 Hl2 Hst Hcl Ha Hn L (I1 & I2) Hm Hfix y Ly Hy. assert (Lz : length (vr_z s) = d) by apply L.
  pose proof (finite_sum_tangent P f (vr_z s) y Hcl Ha Hn Lz Ly) as T. fold d in T.
  set (G := fun j => grad_F P (vr_z s) j + p_alpha P * nth j (vr_z s) 0).
  set (w1 := fun j => nth (nth j (rblocks ptr1) 0%nat) (k_d B1) 0 : R). set (w2 := fun j => nth (nth j (rblocks ptr2) 0%nat) (k_d B2) 0 : R).
  set (z := vr_z s : list R) in *.
  set (G1 := fun j => G j / 2 - (nth j z 0 - nth j (vr_y0 s) 0) / (step * w1 j)). set (G2 := fun j => G j / 2 - (nth j z 0 - nth j (vr_y1 s) 0) / (step * w2 j)).
  assert (Samp : forall i, (i < n)%nat -> exists x1a x2a x1p x2p : list R, length x1a = d /\ length x2a = d /\
     prox1 x1a i (k_bsi B1) (k_bsp B1) (k_d B1) step = Ok x1p /\ prox2 x2a i (k_bsi B2) (k_bsp B2) (k_d B2) step = Ok x2p /\
     (forall j, ext P ptr1 i j -> nth j x1p 0 = nth j z 0 /\ nth j x1a 0 = 2 * nth j z 0 - nth j (vr_y0 s) 0 - step * (1 / 2) * (nth (nth j (rblocks ptr1) 0%nat) (k_d B1) 0 * G j)) /\
     (forall j, ext P ptr2 i j -> nth j x2p 0 = nth j z 0 /\ nth j x2a 0 = 2 * nth j z 0 - nth j (vr_y1 s) 0 - step * (1 / 2) * (nth (nth j (rblocks ptr2) 0%nat) (k_d B2) 0 * G j)) /\
     (forall j, ext P ptr1 i j \/ ext P ptr2 i j -> nth j z 0 = wavg (K:=RN) ptr1 ptr2 B1 B2 (vr_y0 s) (vr_y1 s) j)).
  { intros i Hi. destruct (Hfix i Hi) as (s' & Es & Fz & F0 & F1).
    apply (vr_sample_inv P HP ptr1 ptr2 Hq1 Hq2 B1 B2 EB1 EB2 prox1 prox2 step i) in Es
      as (L' & p & x1a & x2a & Ep & La1 & La2 & X1 & _ & P1 & Y0 & _ & X2 & _ & P2 & Y1 & _ & Z & _ & _); auto.
    rewrite row_dot_R in Ep by assumption. apply Ok_inj in Ep. subst p.
    assert (Hx : forall ptr B (yk : vec RN) j, partitions ptr d -> ext P ptr i j -> xval P ptr B step (nsub RN (p_fd P (adot P i (vr_z s)) (nth i (p_b P) n0)) (nth i (vr_mem s) n0)) i s yk j
       = 2 * nth j z 0 - nth j yk 0 - step * (1 / 2) * (nth (nth j (rblocks ptr) 0%nat) (k_d B) 0 * G j)).
    { intros ptr B yk j Hq Hj. assert (Hjd : (j < d)%nat) by exact (ext_lt P HP ptr Hq i j Hi Hj).
      pose proof (Hm i Hi) as Hmi. unfold loss_deriv in Hmi.
      assert (Tz : tmp_val P i (nsub RN (p_fd P (adot P i (vr_z s)) (nth i (p_b P) n0)) (nth i (vr_mem s) n0)) (vr_tmp s) j = 0).
      { apply tmp_val_zero; [|rewrite I2; apply nth_zeros]. apply Rminus_diag_eq. symmetry. exact Hmi. }
      unfold xval. rewrite Tz. rn. rewrite (I1 j Hjd). unfold G, grad_F, mean_row.
      rewrite (Rsum_map_ext (fun i0 => nth i0 (vr_mem s) 0 * ent P i0 j) (fun i0 => loss_deriv P z i0 * ent P i0 j)).
      - unfold nlit. rn. change (Z.pos 2) with 2%Z. fold z. eqR. field. apply not_0_INR. fold n. lia.
      - intros k Hk. apply in_seq in Hk. rewrite Hm by (fold n in Hk; lia). reflexivity. }
    exists x1a, x2a, (vr_x1 s'), (vr_x2 s'). split; [exact La1|]. split; [exact La2|]. split; [exact P1|]. split; [exact P2|].
    split; [|split].
    - intros j Hj. specialize (Y0 j Hj). rewrite F0 in Y0. split; [rn; fold z in Y0; eqR; lra|]. rewrite <- (Hx ptr1 B1 (vr_y0 s) j Hq1 Hj). exact (X1 j Hj).
    - intros j Hj. specialize (Y1 j Hj). rewrite F1 in Y1. split; [rn; fold z in Y1; eqR; lra|]. rewrite <- (Hx ptr2 B2 (vr_y1 s) j Hq2 Hj). exact (X2 j Hj).
    - intros j Hj. destruct (Z j Hj) as (_ & E). rewrite Fz, F0, F1 in E. exact E. }
  assert (Hb1 : block_penalty ptr1 g1 z - Rsum (map (fun j => nth j (map G1 (seq 0 d)) 0 * (nth j y 0 - nth j z 0)) (seq 0 d)) <= block_penalty ptr1 g1 y).
  { apply (sum_blocks_le ptr1 g1 (map G1 (seq 0 d)) z y (fun h => exists i, (i < n)%nat /\ In h (pblocks P ptr1 i)) Hq1).
    - intros h Hh. apply touches_dec; auto.
    - intros h Hh (i & Hi & Hin). destruct (Samp i Hi) as (x1a & x2a & x1p & x2p & La1 & La2 & P1 & P2 & S1 & S2 & _).
      pose proof (vr_block_ineq ptr1 B1 g1 prox1 step z y (vr_y0 s) G i h x1a x1p Hq1 EB1 Hc1 Hp1 Hst Hi Hin Hh La1 Ly P1) as V.
      rewrite (Rsum_map_ext (fun j => nth j (map G1 (seq 0 d)) 0 * (nth j y 0 - nth j z 0)) (fun j => (G j / 2 - (nth j z 0 - nth j (vr_y0 s) 0) / (step * nth (nth j (rblocks ptr1) 0%nat) (k_d B1) 0)) * (nth j y 0 - nth j z 0))).
      + apply V; intros j Hj; apply S1; exists h; auto.
      + intros j Hj. rewrite nth_mapseq by exact (blk_in_lt ptr1 d h j Hq1 Hh Hj). reflexivity.
    - intros h j Hh Nt Hj. apply Hy; [exact (blk_in_lt ptr1 d h j Hq1 Hh Hj)|]. intros (Ht & _). apply Nt. eapply touched_blk; eauto. }
  assert (Hb2 : block_penalty ptr2 g2 z - Rsum (map (fun j => nth j (map G2 (seq 0 d)) 0 * (nth j y 0 - nth j z 0)) (seq 0 d)) <= block_penalty ptr2 g2 y).
  { apply (sum_blocks_le ptr2 g2 (map G2 (seq 0 d)) z y (fun h => exists i, (i < n)%nat /\ In h (pblocks P ptr2 i)) Hq2).
    - intros h Hh. apply touches_dec; auto.
    - intros h Hh (i & Hi & Hin). destruct (Samp i Hi) as (x1a & x2a & x1p & x2p & La1 & La2 & P1 & P2 & S1 & S2 & _).
      pose proof (vr_block_ineq ptr2 B2 g2 prox2 step z y (vr_y1 s) G i h x2a x2p Hq2 EB2 Hc2 Hp2 Hst Hi Hin Hh La2 Ly P2) as V.
      rewrite (Rsum_map_ext (fun j => nth j (map G2 (seq 0 d)) 0 * (nth j y 0 - nth j z 0)) (fun j => (G j / 2 - (nth j z 0 - nth j (vr_y1 s) 0) / (step * nth (nth j (rblocks ptr2) 0%nat) (k_d B2) 0)) * (nth j y 0 - nth j z 0))).
      + apply V; intros j Hj; apply S2; exists h; auto.
      + intros j Hj. rewrite nth_mapseq by exact (blk_in_lt ptr2 d h j Hq2 Hh Hj). reflexivity.
    - intros h j Hh Nt Hj. apply Hy; [exact (blk_in_lt ptr2 d h j Hq2 Hh Hj)|]. intros (_ & Ht). apply Nt. eapply touched_blk; eauto. }
  assert (Hs : Rsum (map (fun j => nth j (map G1 (seq 0 d)) 0 * (nth j y 0 - nth j z 0)) (seq 0 d)) + Rsum (map (fun j => nth j (map G2 (seq 0 d)) 0 * (nth j y 0 - nth j z 0)) (seq 0 d))
     = Rsum (map (fun j => (grad_F P z j + p_alpha P * nth j z 0) * (nth j y 0 - nth j z 0)) (seq 0 d))).
  { rewrite <- Rsum_map_plus. apply Rsum_map_ext. intros j Hj. apply in_seq in Hj. rewrite !nth_mapseq by lia. fold (G j).
    destruct (touched_decc ptr1 ptr2 j) as [Tj|Nj]; auto; try lia.
    - destruct Tj as (T1 & T2).
      destruct T1 as (i1 & Hi1 & B1j). apply (ext_spec P HP ptr1 Hq1 i1 j Hi1) in B1j. destruct T2 as (i2 & Hi2 & B2j). apply (ext_spec P HP ptr2 Hq2 i2 j Hi2) in B2j.
      destruct (Samp i1 Hi1) as (_ & _ & _ & _ & _ & _ & _ & _ & _ & _ & W). specialize (W j (or_introl B1j)). unfold wavg in W. rn. fold (w1 j) in W. fold (w2 j) in W.
      assert (0 < w1 j). { destruct B1j as (h & Hh & Hb). unfold w1. destruct (ext_block P HP ptr1 Hq1 i1 j h Hi1 Hh Hb) as (-> & _). exact (kd_pos ptr1 B1 i1 h Hq1 EB1 Hi1 Hh). }
      assert (0 < w2 j). { destruct B2j as (h & Hh & Hb). unfold w2. destruct (ext_block P HP ptr2 Hq2 i2 j h Hi2 Hh Hb) as (-> & _). exact (kd_pos ptr2 B2 i2 h Hq2 EB2 Hi2 Hh). }
      change (grad_F P z j + p_alpha P * nth j z 0) with (G j). unfold G1, G2.
      assert (A : (nth j z 0 - nth j (vr_y0 s) 0) / (step * w1 j) + (nth j z 0 - nth j (vr_y1 s) 0) / (step * w2 j) = 0).
      { rewrite W. eqR. field. repeat split; lra. }
      exact (half_sum _ _ _ _ A).
    - assert (E : nth j y 0 - nth j z 0 = 0) by (rewrite (Hy j) by (auto; lia); apply Rminus_diag_eq; reflexivity). rewrite E, !Rmult_0_r. lra. }
  lra.
Qed.
End Fix.
