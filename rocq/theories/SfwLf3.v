(** * minimize_sfw, variant LF, any batch size: the mean rate over all sequences of batches *)
From Coq Require Import Reals Lra Lia List Bool ZArith Permutation.
From Verif Require Import Num Vec Spec SpecSparse RVec ConvexFacts ModelConstraint ModelPenalty PenaltyFacts PenaltyFacts2 ModelUtilsArr UtilsMain
  ModelFrankWolfe FrankWolfeConv FrankWolfeMain ModelRandomized SpecFiniteSum RandomizedFacts RandomizedProx RandomizedSaga ModelSfw SpecSfw SpecSfwMean SfwFacts SfwStep SfwMain SfwMain2 SfwMain3 SfwRate SfwRate2 SfwMean SfwMean2 SfwMean3 SfwLf SfwLfArith SfwLf2.
Import ListNotations.
Local Open Scope R_scope.

Lemma main_C119_mean_rate : forall (pow23 : R -> R) (P : problem RN) (f : R -> R -> R) lmo lipschitz bs c batches tol max_iter x0 (dom : list R -> Prop) (C Dinf L : R) (y : list R),
  problem_wf P -> (1 <= bs <= p_n P)%nat -> balanced (p_n P) bs c batches -> batches <> [] ->
  convex_set (p_d P) dom -> lmo_exact (p_d P) dom lmo -> convex_loss P f ->
  curvature (p_d P) dom (mean_loss P f) (grad_list P) C ->
  (forall u v i, length u = p_d P -> length v = p_d P -> dom u -> dom v -> (i < p_n P)%nat -> Rabs (adot P i u - adot P i v) <= Dinf) ->
  0 <= L -> (forall p q b, Rabs (p_fd P p b - p_fd P q b) <= L * Rabs (p - q)) ->
  length x0 = p_d P -> dom x0 -> length y = p_d P -> dom y -> (1 <= max_iter)%nat -> tol <= 0 ->
  let nb := (p_n P / bs)%nat in
  let k := INR (nb * max_iter) in
  let m := INR (p_n P) / INR bs in
  let G0 := / INR (p_n P) * Rsum (map (fun i => Rabs (loss_deriv P x0 i)) (seq 0 (p_n P))) in
  exists res : list (list nat) -> sfw_result RN,
    (forall w, In w (seqs batches (nb * max_iter)) ->
       minimize_sfw (K:=RN) pow23 P lmo LF SSublinear lipschitz bs tol Vanilla max_iter (batch_draws nb w) x0 = Ok (res w)) /\
    / INR (length batches ^ (nb * max_iter)) *
      Rsum (map (fun w => mean_loss P f (sr_x (res w)) - mean_loss P f y) (seqs batches (nb * max_iter)))
    <= (6 * Dinf * G0 + 10 * L * (Dinf * Dinf) + 2 * C) * sqrt (m / (2 * m + k + 1)).
Proof.
  intros pow23 P f lmo lipschitz bs c Bt tol max_iter x0 dom C Dinf L y W Hb HBt HN Hc Hl Hconv HC HDinf HL0 HL L0 Hx Ly Hy Hm Ht nb kk m G0.
  assert (Hn : (1 <= p_n P)%nat) by lia.
  assert (HN' : (1 <= length Bt)%nat) by (destruct Bt; [congruence|cbn; lia]).
  assert (Hi : exists s0, sfw_init (K:=RN) P LF x0 None = Ok s0).
  { unfold sfw_init. rewrite (mv_R P W x0 (seq 0 (p_n P)) L0) by (apply seq_lt; lia). eexists. reflexivity. }
  destruct Hi as (s0 & Es).
  destruct (init_goodV P LF dom x0 s0 W L0 Hx Es) as (G0' & T0 & Ex & Ed).
  assert (Hsg : forall i, (i < p_n P)%nat -> nth i (sw_sigma s0 : list R) 0 = adot P i x0).
  { destruct (init_facts P LF x0 None s0 W L0 Es) as (_ & _ & _ & _ & _ & _ & H). intros i Hi. exact (H eq_refl i Hi). }
  assert (GL : goodL P dom Dinf s0).
  { split; [exact G0'|]. intros i v Hi Lv Hv. rewrite (Hsg i Hi). apply HDinf; assumption. }
  assert (Hnb : (nb * bs <= p_n P)%nat) by (unfold nb; rewrite Nat.mul_comm; apply Nat.mul_div_le; lia).
  set (T := (nb * max_iter)%nat) in *.
  pose proof (nextL_ok pow23 P lmo lipschitz bs dom Dinf W Hb Hc Hl HDinf) as Hnext.
  assert (Hrun : forall w, In w (seqs Bt T) -> exists r,
    minimize_sfw (K:=RN) pow23 P lmo LF SSublinear lipschitz bs tol Vanilla max_iter (batch_draws nb w) x0 = Ok r /\ sr_x r = sw_x (stV pow23 P LF lmo lipschitz bs s0 w)).
  { intros w Hw. apply seqs_in in Hw as (Lw & F).
    destruct (epochs_gen pow23 P LF lmo lipschitz bs Hb (goodL P dom Dinf) Hnext tol Ht nb w Hnb (bal_oks (p_n P) bs Bt c HBt w F) max_iter 0 s0 [] Hm) as (r & Er & Hr & _).
    - rewrite Lw. unfold T. lia.
    - exact GL.
    - exists r. split.
      + unfold minimize_sfw. cbn [bind]. change (@length (carrier RN) x0) with (length x0). rewrite L0, Nat.eqb_refl. cbn [negb].
        exact (bind_use _ _ _ _ Es Er).
      + rewrite Hr. cbn [Nat.mul skipn]. rewrite firstn_all2 by (rewrite Lw; unfold T; lia). reflexivity. }
  set (dflt := mkSfwR (K:=RN) [] false 0 [] s0).
  exists (fun w => match minimize_sfw (K:=RN) pow23 P lmo LF SSublinear lipschitz bs tol Vanilla max_iter (batch_draws nb w) x0 with Ok r => r | Err _ => dflt end).
  split. { intros w Hw. destruct (Hrun w Hw) as (r & -> & _). reflexivity. }
  assert (HD : 0 <= Dinf). { specialize (HDinf y y 0%nat Ly Ly Hy Hy ltac:(lia)). rewrite Rminus_eq_0, Rabs_R0 in HDinf. exact HDinf. }
  assert (HC0 : 0 <= C) by (apply (curv_nonneg P f dom C y); assumption).
  assert (Hnp : 0 < INR (p_n P)) by (apply lt_0_INR; lia).
  assert (HG : 0 <= G0).
  { unfold G0. apply Rmult_le_pos; [left; apply Rinv_0_lt_compat, Hnp|].
    generalize (seq 0 (p_n P)). intros l. induction l as [|a l IH]; cbn [map Rsum]; [lra|]. apply Rplus_le_le_0_compat; [apply Rabs_pos|exact IH]. }
  pose proof (m_ge1 P bs Hb) as Hm1. change (mLF P bs) with m in Hm1.
  set (D2 := Dinf * Dinf) in *. assert (HD2 : 0 <= D2) by (apply Rmult_le_pos; exact HD).
  set (B := 3 * Dinf * G0 + 5 * L * D2 + C).
  assert (HDG : 0 <= Dinf * G0) by (apply Rmult_le_pos; assumption). assert (HLD : 0 <= L * D2) by (apply Rmult_le_pos; assumption).
  assert (HB : 0 <= B) by (unfold B; lra).
  set (hb := fun t => match t with O => Rmax (2 * B * rL m 0) (mean_loss P f x0 - mean_loss P f y) | S _ => 2 * B * rL m (INR t) end).
  set (vb := fun t => INR (p_n P) * D2 * (25 * m / (2 * m + INR t + 1))).
  set (ub := fun t => G0 * (m / (m + INR t))).
  set (mu := fun t => 5 * rL m (INR t)).
  assert (Hq : 0 < INR (length Bt ^ T)) by (apply powN_pos_L; exact HN').
  assert (HT : (1 <= T)%nat). { unfold T. assert (1 <= nb)%nat by (unfold nb; apply Nat.div_le_lower_bound; lia). nia. }
  assert (HkT : (6 * Dinf * G0 + 10 * L * D2 + 2 * C) * sqrt (m / (2 * m + kk + 1)) = hb T).
  { unfold hb. destruct T as [|T']; [lia|]. unfold B, rL, kk. ring. }
  rewrite HkT. apply Rmult_le_reg_l with (INR (length Bt ^ T)); [exact Hq|]. rewrite <- Rmult_assoc, Rinv_r, Rmult_1_l by lra.
  eapply Rle_trans; [apply Req_le|apply (mean_hL pow23 P f lmo lipschitz bs dom C Dinf L W Hb Hc Hl Hconv HC HDinf HL HL0 Bt c y s0 HBt HN' Ly Hy GL T0 vb ub hb mu)].
  - f_equal. apply map_ext_in. intros w Hw. unfold hL. destruct (Hrun w Hw) as (r & -> & ->). reflexivity.
  - unfold vb. fold D2. cbn [INR]. rewrite <- (Rmult_1_r (INR (p_n P) * D2)) at 1. apply Rmult_le_compat_l; [apply Rmult_le_pos; lra|]. apply le_div; lra.
  - intros t. fold D2. change (mLF P bs) with m. pose proof (pos_INR t) as Hpt. destruct (Rle_dec (2 * m + INR (S t) + 1) (25 * m)) as [Hs|Hs].
    + left. unfold vb. rewrite <- (Rmult_1_r (INR (p_n P) * D2)) at 1. apply Rmult_le_compat_l; [apply Rmult_le_pos; lra|]. rewrite S_INR in *. apply le_div; lra.
    + right. rewrite S_INR in Hs. pose proof (sq_rec m (INR t) Hm1 Hpt ltac:(cbn zeta; lra)) as H. cbn zeta in H.
      assert (HnD : 0 <= INR (p_n P) * D2) by (apply Rmult_le_pos; lra).
      pose proof (Rmult_le_compat_l _ _ _ HnD H) as H2. unfold vb. rewrite S_INR. replace (2 * m + (INR t + 1) + 1) with (2 * m + INR t + 1 + 1) by ring. lra.
  - unfold UL, stV, ub. cbn [fold_left INR]. rewrite Rplus_0_r. replace (m / m) with 1 by (field; lra). rewrite Rmult_1_r.
    unfold Us, G0. rewrite <- Rsum_map_mult. apply Req_le. f_equal. apply map_ext_in. intros i Hi. apply in_seq in Hi. unfold un. rewrite (Hsg i ltac:(lia)), Ed, nth_zeros.
    unfold loss_deriv. rewrite Rminus_0_l, Rabs_Ropp, Rabs_mult, (Rabs_pos_eq (/ INR (p_n P))) by (left; apply Rinv_0_lt_compat; exact Hnp). reflexivity.
  - intros t. change (mLF P bs) with m. unfold ub. pose proof (un_rec m (INR t) Hm1 (pos_INR t)) as H. rewrite S_INR.
    pose proof (Rmult_le_compat_l _ _ _ HG H). lra.
  - intros t. unfold mu. destruct (rL_sq m (INR t) Hm1 (pos_INR t)) as (_ & H & _). lra.
  - unfold hL, stV, hb. cbn [fold_left]. rewrite Ex. apply Rmax_r.
  - intros t. fold D2. change (mLF P bs) with m. pose proof (pos_INR t) as Hpt. destruct (rL_sq m (INR t) Hm1 Hpt) as (Er & Hr0 & Hr1).
    pose proof (alf_range P pow23 bs Hb t) as Ha. change (mLF P bs) with m in Ha.
    pose proof (un_rL m (INR t) Hm1 Hpt) as Hu. pose proof (alf_rL m (INR t) Hm1 Hpt ltac:(lra)) as Har. pose proof (rL_rec m (INR t) Hm1 Hpt ltac:(lra)) as Hrr.
    assert (Ev : / INR (p_n P) * vb t / mu t = mu t * D2).
    { unfold vb, mu. replace (25 * m / (2 * m + INR t + 1)) with (25 * (rL m (INR t) * rL m (INR t))) by (rewrite Er; field; lra). field. lra. }
    rewrite Ev. set (r := rL m (INR t)) in *. set (al := alf m (INR t)) in *.
    assert (Hbr : ub t * Dinf + L * (/ 2 * (mu t * D2 + mu t * D2)) + al / 2 * C <= B * r).
    { unfold ub, mu, B. fold r. pose proof (Rmult_le_compat_l _ _ _ HDG Hu) as H1. pose proof (Rmult_le_compat_r C _ _ HC0 Har) as H2. lra. }
    assert (Hst : (1 - al) * hb t + al * (B * r) <= hb (S t)).
    { assert (HS : hb (S t) = 2 * B * rL m (INR t + 1)) by (unfold hb; rewrite S_INR; reflexivity). rewrite HS.
      pose proof (Rmult_le_compat_l (2 * B) _ _ ltac:(lra) Hrr) as H1.
      assert (E : (1 - al) * hb t = (1 - al) * (2 * B * r)).
      { destruct t as [|t]; [|reflexivity]. assert (Ea : al = 1) by (unfold al, alf; cbn [INR]; field; lra). rewrite Ea. ring. }
      rewrite E. lra. }
    pose proof (Rmult_le_compat_l al _ _ (Rlt_le _ _ (proj1 Ha)) Hbr). lra.
Qed.
