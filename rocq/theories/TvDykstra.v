(** * The Dykstra loop for two-dimensional total variation *)
From Coq Require Import ZArith Bool List Lia Reals Lra Permutation.
From Verif Require Import Num Vec Spec SpecTv RVec ModelPenalty PenaltyFacts ModelTv TvSafe TvHull TvKkt TvTaut TvLines.
Import ListNotations.
Local Open Scope nat_scope.

(** ** every arithmetic: the loop always returns *)
Section Safe.
Context {K : Num}.
Lemma vadd_len (u v : list K) : length u = length v -> length (vadd u v) = length u.
Proof. intros L. unfold vadd. rewrite map2_length. lia. Qed.
Lemma vsub_len (u v : list K) : length u = length v -> length (vsub u v) = length u.
Proof. intros L. unfold vsub. rewrite map2_length. lia. Qed.
Definition dlen (n : nat) (s : dykstra K) : Prop := length (d_x s) = n /\ length (d_p s) = n /\ length (d_q s) = n.
Lemma dykstra_step_run (pinf ninf step : K) rows cols (s : dykstra K) : 1 <= rows -> 1 <= cols -> dlen (rows * cols) s ->
  exists y x, dykstra_step pinf ninf step rows cols s = Ok (mkD x y (vadd (d_p s) (vsub (d_x s) y)) (vadd (d_q s) (vsub y x))) /\ length y = rows * cols /\ length x = rows * cols /\
   (forall l, In l (map (col_idx rows cols) (seq 0 cols)) -> prox_tv1d pinf ninf (at_ l (vadd (d_x s) (d_p s))) step = Ok (at_ l y)) /\
   (forall l, In l (map (row_idx cols) (seq 0 rows)) -> prox_tv1d pinf ninf (at_ l (vadd y (d_q s))) step = Ok (at_ l x)) /\
   dlen (rows * cols) (mkD x y (vadd (d_p s) (vsub (d_x s) y)) (vadd (d_q s) (vsub y x))).
Proof.
  intros Hr Hc (L1 & L2 & L3). unfold dykstra_step.
  destruct (prox_cols_run pinf ninf step (vadd (d_x s) (d_p s)) rows cols) as (y & -> & Ly & Vy); [rewrite vadd_len; lia|exact Hr|]. cbn [bind].
  destruct (prox_rows_run pinf ninf step (vadd y (d_q s)) rows cols) as (x & -> & Lx & Vx); [rewrite vadd_len; lia|exact Hc|]. cbn [bind].
  exists y, x. split; [reflexivity|]. split; [exact Ly|]. split; [exact Lx|]. split; [exact Vy|]. split; [exact Vx|]. unfold dlen. cbn [d_x d_p d_q].
  split; [exact Lx|]. rewrite !vadd_len by (rewrite vsub_len; lia). lia.
Qed.
Lemma npmax_run (v : list K) : v <> [] -> exists m, npmax v = Ok m.
Proof. destruct v; [congruence|]. intros _. eexists. reflexivity. Qed.
Lemma dykstra_total (pinf ninf step : K) rows cols tol n : 1 <= rows -> 1 <= cols -> forall acc s, dlen (rows * cols) s -> (1 <= n \/ acc = true) ->
  exists s' b, dykstra_loop pinf ninf step rows cols tol n acc s = Ok (s', b) /\ dlen (rows * cols) s'.
Proof.
  intros Hr Hc. induction n as [|n IH]; intros acc s L Hn; cbn [dykstra_loop].
  - destruct Hn as [Hn| ->]; [lia|]. eauto.
  - destruct (dykstra_step_run pinf ninf step rows cols s Hr Hc L) as (y & x & -> & Ly & Lx & _ & _ & L'). cbn [bind d_x d_y].
    destruct (npmax_run (vabs (vsub y x))) as (m & ->). { intros E. apply (f_equal (@length K)) in E. unfold vabs in E. rewrite map_length, vsub_len in E by lia. cbn in E. nia. }
    cbn [bind]. destruct (m <? tol)%num; [eauto|]. apply IH; auto.
Qed.
Lemma prox_tv2d_total (pinf ninf : K) w step rows cols max_iter tol : 1 <= rows -> 1 <= cols -> length w = rows * cols -> 1 <= max_iter ->
  exists x b, prox_tv2d pinf ninf w step rows cols max_iter tol = Ok (x, b) /\ length x = length w.
Proof.
  intros Hr Hc L Hm. unfold prox_tv2d. rewrite L, Nat.eqb_refl. cbn [negb].
  destruct (dykstra_total pinf ninf step rows cols tol max_iter Hr Hc false (mkD w [] (vzeros (rows * cols)) (vzeros (rows * cols)))) as (s & b & -> & L'); [|auto|].
  - unfold dlen, vzeros. cbn [d_x d_p d_q]. rewrite !repeat_length. auto.
  - cbn [bind]. exists (d_x s), b. split; [reflexivity|]. destruct L' as (-> & _). reflexivity.
Qed.
(** without a positive size nothing is returned *)
Lemma low_tv1d_empty (pinf ninf step : K) : low_tv1d pinf ninf step [] = Err IndexError.
Proof. reflexivity. Qed.
End Safe.

(** ** over the reals *)
Local Open Scope R_scope.
Lemma npmax_R (v : list R) m : npmax (K:=RN) v = Ok m -> In m v /\ forall x, In x v -> x <= m.
Proof.
  destruct v as [|a v]; [discriminate|]. unfold npmax. intros E. injection E as <-. set (f := fun m y : R => _).
  enough (G : forall v a, In (fold_left f v a) (a :: v) /\ forall x, In x (a :: v) -> x <= fold_left f v a) by apply G. clear. induction v as [|b v IH]; intros a.
  - cbn. split; [auto|]. intros x [->|[]]. lra.
  - cbn [fold_left]. destruct (IH (f a b)) as (I1 & I2). assert (F : (f a b = a \/ f a b = b) /\ a <= f a b /\ b <= f a b).
    { unfold f. rewrite !nisnan_R. rn. destruct (Rltb_spec a b); split; auto; lra. }
    destruct F as (F1 & F2 & F3). split.
    + cbn in I1 |- *. destruct I1 as [I1|I1]; [rewrite <- I1; destruct F1 as [-> | ->]; auto|auto].
    + intros x [->|[->|Hx]]; [eapply Rle_trans; [exact F2|apply I2; left; reflexivity]|eapply Rle_trans; [exact F3|apply I2; left; reflexivity]|apply I2; right; exact Hx].
Qed.

Lemma col_ne rows cols j : (1 <= rows)%nat -> col_idx rows cols j <> [].
Proof. intros H. unfold col_idx. destruct rows; [lia|discriminate]. Qed.
Lemma row_ne cols i : (1 <= cols)%nat -> row_idx cols i <> [].
Proof. intros H. unfold row_idx. destruct cols; [lia|discriminate]. Qed.

Section Real.
Variables (pinf ninf step : R) (rows cols : nat) (w : list R).
Hypothesis Hs : 0 <= step.
Hypothesis Hr : (1 <= rows)%nat.
Hypothesis Hc : (1 <= cols)%nat.
Let N := (rows * cols)%nat.
Hypothesis Lw : length w = N.
Definition cl := map (col_idx rows cols) (seq 0 cols).
Definition rl := map (row_idx cols) (seq 0 rows).
(** u is a subgradient of step * (seminorm) at x *)
Definition sgr (lines : list (list nat)) (x u : list R) : Prop := forall z, length z = N -> step * ltv lines x + dot u (vminus z x) <= step * ltv lines z.
Lemma sgr_dual lines x u : length x = N -> length u = N -> sgr lines x u -> dot u x = step * ltv lines x /\ forall z, length z = N -> dot u z <= step * ltv lines z.
Proof.
  intros Lx Lu H. assert (E : dot u x = step * ltv lines x).
  { pose proof (H (zeros N) ltac:(apply zeros_length)) as H1. rewrite ltv_zeros in H1. unfold vminus in H1. rewrite dot_lin_r, dot_zeros_r in H1 by (rewrite ?zeros_length; lia).
    pose proof (H (lin 1 x 1 x) ltac:(rewrite lin_length; lia)) as H2. unfold vminus in H2. rewrite !dot_lin_r in H2 by (rewrite ?lin_length; lia).
    pose proof (ltv_lin lines 1 x 1 x eq_refl) as H3. rewrite Rabs_R1 in H3. pose proof (Rmult_le_compat_l _ _ _ Hs H3). lra. }
  split; [exact E|]. intros z Lz. specialize (H z Lz). unfold vminus in H. rewrite dot_lin_r in H by lia. lra.
Qed.
Definition dual_ok (lines : list (list nat)) (u : list R) : Prop := forall z, length z = N -> dot u z <= step * ltv lines z.

Definition dinv (s : dykstra RN) : Prop := dlen (K:=RN) N s /\ (forall k, (k < N)%nat -> nth k (d_x s) 0 + nth k (d_p s) 0 + nth k (d_q s) 0 = nth k w 0) /\ dual_ok cl (d_p s) /\ dual_ok rl (d_q s).
Lemma nth_vadd (u v : list R) k : length u = length v -> @eq R (@nth R k (vadd (K:=RN) u v) 0) (nth k u 0 + nth k v 0).
Proof. intros L. eapply eq_trans; [exact (f_equal (fun l => nth k l 0) (vadd_R u v))|]. apply nth_vplus, L. Qed.
Lemma nth_vsub (u v : list R) k : length u = length v -> @eq R (@nth R k (vsub (K:=RN) u v) 0) (nth k u 0 - nth k v 0).
Proof. intros L. eapply eq_trans; [exact (f_equal (fun l => nth k l 0) (vsub_R u v))|]. apply nth_vminus, L. Qed.
Lemma half_step (x y p p' : list R) lines : length x = N -> length y = N -> length p = N -> length p' = N -> (forall k, (k < N)%nat -> nth k p' 0 = nth k p 0 + (nth k x 0 - nth k y 0)) ->
  dual_ok lines p -> sgr lines y p' -> dot y y <= dot x x - dot (vminus x y) (vminus x y).
Proof.
  intros Lx Ly Lp Lp' E D G. destruct (sgr_dual lines y p' Ly Lp' G) as (G1 & _). pose proof (D y Ly) as D1.
  assert (Q : dot p' y = dot p y + dot (vminus x y) y).
  { rewrite !dot_sm by (unfold vminus; rewrite ?lin_length; lia). unfold vminus. rewrite lin_length, Lx, Ly, Lp, Lp', Nat.min_id. fold (vminus x y). rewrite <- sm_add. apply sm_ext. intros k Hk. rewrite (E k Hk), nth_vminus by lia. ring. }
  unfold vminus in *. rewrite !dot_lin_l in * by (rewrite ?lin_length; lia). rewrite !dot_lin_r by lia. rewrite (dot_comm y x) in *. lra.
Qed.
Lemma step_inv (s : dykstra RN) : dinv s -> exists s' : dykstra RN, dykstra_step (K:=RN) pinf ninf step rows cols s = Ok s' /\ dinv s' /\ length (d_y s') = N /\
  sgr cl (d_y s') (d_p s') /\ sgr rl (d_x s') (d_q s') /\ dot (d_x s') (d_x s') <= dot (d_x s) (d_x s) - dot (vminus (d_y s') (d_x s')) (vminus (d_y s') (d_x s')).
Proof.
  intros (L & S & Dp & Dq). destruct (dykstra_step_run (K:=RN) pinf ninf step rows cols s Hr Hc L) as (y & x & E & Ly & Lx & Vy & Vx & L').
  exists (mkD x y (vadd (d_p s) (vsub (d_x s) y)) (vadd (d_q s) (vsub y x))). split; [exact E|].
  destruct L as (L1 & L2 & L3). destruct L' as (_ & L2' & L3'). cbn [d_x d_y d_p d_q] in *.
  change (@length R y = N) in Ly. change (@length R x = N) in Lx. change (@length R (d_x s) = N) in L1. change (@length R (d_p s) = N) in L2. change (@length R (d_q s) = N) in L3.
  set (p' := vadd (d_p s) (vsub (d_x s) y)) in *. set (q' := vadd (d_q s) (vsub y x)) in *. change (@length R p' = N) in L2'. change (@length R q' = N) in L3'.
  assert (Lxy : @length R (vsub (K:=RN) (d_x s) y) = N) by (eapply eq_trans; [exact (vsub_len (K:=RN) (d_x s) y (eq_trans L1 (eq_sym Ly)))|exact L1]).
  assert (Lyx : @length R (vsub (K:=RN) y x) = N) by (eapply eq_trans; [exact (vsub_len (K:=RN) y x (eq_trans Ly (eq_sym Lx)))|exact Ly]).
  assert (Ep : forall k, @eq R (@nth R k p' 0) (@nth R k (d_p s) 0 + (@nth R k (d_x s) 0 - @nth R k y 0))).
  { intros k. eapply eq_trans; [apply nth_vadd; lia|]. f_equal. apply nth_vsub. lia. }
  assert (Eq : forall k, @eq R (@nth R k q' 0) (@nth R k (d_q s) 0 + (@nth R k y 0 - @nth R k x 0))).
  { intros k. eapply eq_trans; [apply nth_vadd; lia|]. f_equal. apply nth_vsub. lia. }
  assert (Gp : sgr cl y p').
  { assert (P : Permutation (concat cl) (seq 0 N)) by apply cols_perm. assert (Ne : forall l, In l cl -> l <> []). { intros l Hl. apply in_map_iff in Hl as (j & <- & _). apply col_ne, Hr. }
    assert (La : @length R (vadd (K:=RN) (d_x s) (d_p s)) = N) by (eapply eq_trans; [exact (vadd_len (K:=RN) (d_x s) (d_p s) (eq_trans L1 (eq_sym L2)))|exact L1]).
    pose proof (lines_vi pinf ninf step N cl (vadd (d_x s) (d_p s)) y Hs La Ly P Ne Vy) as V. intros z Lz. specialize (V z Lz). replace p' with (vminus (vadd (K:=RN) (d_x s) (d_p s)) y); [exact V|].
    apply (list_ext _ _ 0); [unfold vminus; rewrite lin_length; lia|]. intros k _. rewrite nth_vminus by lia. rewrite Ep. rewrite nth_vadd by lia. ring. }
  assert (Gq : sgr rl x q').
  { assert (P : Permutation (concat rl) (seq 0 N)) by apply rows_perm. assert (Ne : forall l, In l rl -> l <> []). { intros l Hl. apply in_map_iff in Hl as (j & <- & _). apply row_ne, Hc. }
    assert (La : @length R (vadd (K:=RN) y (d_q s)) = N) by (eapply eq_trans; [exact (vadd_len (K:=RN) y (d_q s) (eq_trans Ly (eq_sym L3)))|exact Ly]).
    pose proof (lines_vi pinf ninf step N rl (vadd y (d_q s)) x Hs La Lx P Ne Vx) as V. intros z Lz. specialize (V z Lz). replace q' with (vminus (vadd (K:=RN) y (d_q s)) x); [exact V|].
    apply (list_ext _ _ 0); [unfold vminus; rewrite lin_length; lia|]. intros k _. rewrite nth_vminus by lia. rewrite Eq. rewrite nth_vadd by lia. ring. }
  split; [|split; [exact Ly|split; [exact Gp|split; [exact Gq|]]]].
  - unfold dinv, dlen. cbn [d_x d_p d_q]. split; [auto|]. split; [|split].
    + intros k Hk. specialize (S k Hk). pose proof (Ep k) as A. pose proof (Eq k) as B. change (@nth R k x 0 + @nth R k p' 0 + @nth R k q' 0 = nth k w 0). change (@nth R k (d_x s) 0 + @nth R k (d_p s) 0 + @nth R k (d_q s) 0 = nth k w 0) in S. lra.
    + exact (proj2 (sgr_dual cl y p' Ly L2' Gp)).
    + exact (proj2 (sgr_dual rl x q' Lx L3' Gq)).
  - pose proof (half_step (d_x s) y (d_p s) p' cl L1 Ly L2 L2' (fun k _ => Ep k) Dp Gp) as A. pose proof (half_step y x (d_q s) q' rl Ly Lx L3 L3' (fun k _ => Eq k) Dq Gq) as B.
    pose proof (dot_self_nonneg (vminus (d_x s) y)). lra.
Qed.

(** the end: an explicit gap *)
Lemma gap (x y p q : list R) (d : R) : length x = N -> length y = N -> length p = N -> length q = N -> (forall k, (k < N)%nat -> nth k x 0 + nth k p 0 + nth k q 0 = nth k w 0) ->
  sgr cl y p -> sgr rl x q -> (forall k, (k < N)%nat -> Rabs (nth k y 0 - nth k x 0) <= d) ->
  forall z, length z = N -> step * (ltv cl x + ltv rl x) + / 2 * dist2 x w + / 2 * dist2 z x <= step * (ltv cl z + ltv rl z) + / 2 * dist2 z w + 4 * step * INR N * d.
Proof.
  intros Lx Ly Lp Lq S Gp Gq Hd z Lz. destruct (sgr_dual cl y p Ly Lp Gp) as (E & D). pose proof (Gp z Lz) as Vp. pose proof (Gq z Lz) as Vq.
  pose proof (D (vminus y x) ltac:(unfold vminus; rewrite lin_length; lia)) as D1.
  assert (T1 : ltv cl x <= ltv cl y + ltv cl (vminus y x)).
  { replace x with (lin 1 y (-1) (vminus y x)) at 1. 2:{ apply (list_ext _ _ 0); [unfold vminus; rewrite !lin_length; lia|]. intros k _. rewrite nth_lin by (unfold vminus; rewrite lin_length; lia). rewrite nth_vminus by lia. ring. }
    pose proof (ltv_lin cl 1 y (-1) (vminus y x) ltac:(unfold vminus; rewrite lin_length; lia)) as Q. rewrite Rabs_R1, (Rabs_left (-1)) in Q by lra. lra. }
  assert (T2 : ltv cl (vminus y x) <= 2 * (INR N * d)).
  { eapply Rle_trans; [apply (ltv_l1 cl N); [unfold vminus; rewrite lin_length; lia|apply cols_perm]|]. apply Rmult_le_compat_l; [lra|].
    assert (Ld : length (vminus y x) = N) by (unfold vminus; rewrite lin_length; lia). rewrite <- Ld. apply l1_bound. intros k Hk. rewrite nth_vminus by lia. apply Hd. lia. }
  assert (Q : dot (vminus w x) (vminus z x) = dot p (vminus z x) + dot q (vminus z x)).
  { rewrite !dot_sm by (unfold vminus; rewrite ?lin_length; lia). replace (length (vminus w x)) with N by (unfold vminus; rewrite lin_length; lia). rewrite Lp, Lq, <- sm_add. apply sm_ext. intros k Hk. specialize (S k Hk). rewrite !nth_vminus by lia. rewrite <- S. ring. }
  pose proof (dist2_expand z x w ltac:(lia) ltac:(lia)) as X.
  assert (P1 : dot p (vminus z y) = dot p (vminus z x) - dot p (vminus y x)). { unfold vminus. rewrite !dot_lin_r by lia. ring. }
  pose proof (Rmult_le_compat_l _ _ _ Hs T1). pose proof (Rmult_le_compat_l _ _ _ Hs T2).
  lra.
Qed.
Lemma tv2_lines x : tv2 rows cols x = ltv cl x + ltv rl x.
Proof.
  unfold tv2, tv_cols, tv_rows, ltv, cl, rl. rewrite !map_map. f_equal; f_equal; apply map_ext; intros; f_equal; unfold img_col, img_row, sub_, col_idx, row_idx; rewrite map_map; reflexivity.
Qed.
Definition approx (d : R) (x : list R) : Prop := length x = N /\ forall z, length z = N -> prox_obj (tv2 rows cols) step w x + / 2 * dist2 z x <= prox_obj (tv2 rows cols) step w z + 4 * step * INR N * d.
Lemma loop_R tol n : forall acc s, dinv s -> (1 <= n)%nat \/ acc = true -> exists s' b, dykstra_loop (K:=RN) pinf ninf step rows cols tol n acc s = Ok (s', b) /\
  (b = false -> approx tol (d_x s')) /\ (b = true -> 0 <= tol -> INR n * (tol * tol) <= dot (d_x s) (d_x s)).
Proof.
  induction n as [|n IH]; intros acc s I Hn; cbn [dykstra_loop].
  - destruct Hn as [Hn| ->]; [lia|]. exists s, true. split; [reflexivity|]. split; [discriminate|]. intros _ _. cbn. rewrite Rmult_0_l. apply dot_self_nonneg.
  - destruct (step_inv s I) as (s1 & -> & I1 & Ly & Gp & Gq & Dec). cbn [bind].
    assert (Lx : @length R (d_x s1) = N) by (destruct I1 as ((L & _) & _); exact L). change (@length R (d_y s1) = N) in Ly.
    assert (Vn : @length R (vsub (K:=RN) (d_y s1) (d_x s1)) = N) by (eapply eq_trans; [exact (vsub_len (K:=RN) (d_y s1) (d_x s1) (eq_trans Ly (eq_sym Lx)))|exact Ly]).
    destruct (npmax_run (K:=RN) (vabs (vsub (d_y s1) (d_x s1)))) as (m & Em). { intros E. apply (f_equal (@length R)) in E. unfold vabs in E. rewrite map_length in E. cbn in E. change (@length R (vsub (K:=RN) (d_y s1) (d_x s1)) = 0%nat) in E. unfold N in Vn. nia. }
    rewrite Em. cbn [bind]. destruct (npmax_R _ m Em) as (M1 & M2).
    assert (Hm : forall k, (k < N)%nat -> Rabs (nth k (d_y s1) 0 - nth k (d_x s1) 0) <= m).
    { intros k Hk. apply M2. pose proof (nth_vsub (d_y s1) (d_x s1) k ltac:(lia)) as Q. eapply (eq_ind _ (fun t => In (Rabs t) _)); [|exact Q]. apply (in_map Rabs). apply nth_In. lia. }
    destruct (m <? tol)%num eqn:B; rn.
    + apply Rltb_iff in B. exists s1, false. split; [reflexivity|]. split; [|discriminate]. intros _. split; [exact Lx|]. intros z Lz. unfold prox_obj. rewrite !tv2_lines.
      destruct I1 as ((A1 & A2 & A3) & A4 & _). apply (gap (d_x s1) (d_y s1) (d_p s1) (d_q s1)); try assumption. intros k Hk. specialize (Hm k Hk). lra.
    + destruct (IH true s1 I1 (or_intror eq_refl)) as (s' & b & -> & H1 & H2). exists s', b. split; [reflexivity|]. split; [exact H1|]. intros Hb Ht. specialize (H2 Hb Ht).
      assert (tol <= m). { destruct (Rltb_spec m tol); [discriminate|lra]. }
      apply in_map_iff in M1 as (v & <- & Hv). apply (In_nth _ _ 0) in Hv as (k & Hk & Ek). change (k < @length R (vsub (K:=RN) (d_y s1) (d_x s1)))%nat in Hk. rewrite Vn in Hk.
      assert (Q : tol * tol <= dot (vminus (d_y s1) (d_x s1)) (vminus (d_y s1) (d_x s1))).
      { rewrite dot_sm by reflexivity. replace (length (vminus (d_y s1) (d_x s1))) with N by (unfold vminus; rewrite lin_length; lia).
        assert (G : forall j n (f : nat -> R), (forall i, 0 <= f i) -> (j < n)%nat -> f j <= sm n f).
        { clear. intros j n f Hf. induction n as [|n IH]; intros Hj; [lia|]. cbn [sm]. destruct (Nat.eq_dec j n) as [->|D]; [|specialize (IH ltac:(lia)); specialize (Hf n); lra].
          pose proof (sm_le n (fun _ => 0) f (fun i _ => Hf i)) as Q. rewrite sm_zero in Q by reflexivity. lra. }
        eapply Rle_trans; [|apply (G k N (fun j => nth j (vminus (d_y s1) (d_x s1)) 0 * nth j (vminus (d_y s1) (d_x s1)) 0)); [intros i; apply Rle_0_sqr|exact Hk]]. cbn beta.
        rewrite nth_vminus by lia. pose proof (nth_vsub (d_y s1) (d_x s1) k ltac:(lia)) as Q. pose proof (eq_trans (eq_sym Ek) Q) as Q'.
        rewrite <- Q'. change (tol <= Rabs v) in H. pose proof (Rmult_le_compat _ _ _ _ Ht Ht H H) as Q2. rewrite <- Rabs_mult in Q2. rewrite Rabs_right in Q2 by (apply Rle_ge, Rle_0_sqr). exact Q2. }
      rewrite S_INR. change (@carrier RN) with R in *. lra.
Qed.
Lemma prox_tv2d_R tol max_iter : (1 <= max_iter)%nat -> exists x b, prox_tv2d (K:=RN) pinf ninf w step rows cols max_iter tol = Ok (x, b) /\
  (b = false -> approx tol x) /\ (b = true -> 0 <= tol -> INR max_iter * (tol * tol) <= dot w w).
Proof.
  intros Hm. unfold prox_tv2d. change (@length RN w) with (@length R w). rewrite Lw. fold N. rewrite Nat.eqb_refl. cbn [negb].
  destruct (loop_R tol max_iter false (mkD (K:=RN) w [] (vzeros N) (vzeros N))) as (s' & b & E & H1 & H2); [|auto|].
  - assert (Z : @eq (list R) (vzeros (K:=RN) N) (zeros N)) by apply vzeros_R. split; [split; [exact Lw|cbn [d_p d_q]; split; unfold vzeros; apply repeat_length]|]. cbn [d_x d_p d_q]. split; [|split].
    + intros k Hk. eapply eq_trans; [exact (f_equal (fun l => nth k w 0 + nth k l 0 + nth k l 0) Z)|]. cbn beta. rewrite nth_zeros. ring.
    + intros z _. eapply Rle_trans; [exact (Req_le _ _ (f_equal (fun l => dot l z) Z))|]. cbn beta. rewrite dot_zeros_l. apply Rmult_le_pos; [exact Hs|apply ltv_nonneg].
    + intros z _. eapply Rle_trans; [exact (Req_le _ _ (f_equal (fun l => dot l z) Z))|]. cbn beta. rewrite dot_zeros_l. apply Rmult_le_pos; [exact Hs|apply ltv_nonneg].
  - rewrite E. cbn [bind]. exists (d_x s'), b. auto.
Qed.
End Real.
