(** * Lipschitz constants, Hessian products, partial derivatives (copt/loss.py) *)
From Coq Require Import Reals ZArith List Bool Lra Lia Psatz Permutation.
From Verif Require Import Num Vec Spec RVec ConvexFacts SpecLoss LossFacts LossScalar LossHess ModelPenalty PenaltyFacts ModelTv ModelLoss LossLink LossMain.
Import ListNotations.
Open Scope R_scope.
Local Notation log1pR := (fun t : R => ln (1 + t)) (only parsing).

(** ** lipschitz *)
Ltac okinj H := match type of H with Ok ?a = Ok ?b => let E := fresh in assert (E : b = a) by congruence; clear H; subst b end.
Lemma INR_eq (A : matrix RN) : @nofnat RN (n_samples A) = INR (length (m_rows A)).
Proof. unfold n_samples. apply nofnat_R. Qed.
Lemma main_C23_log (svds1 : matrix RN -> result RN) (A0 : option (matrix RN)) (A : matrix RN) (b : list R) (alpha s : R) :
  log_init (K:=RN) A0 b = Ok A -> rect (m_cols A) (m_rows A) -> 0 <= alpha -> svds1 A = Ok s -> opnorm (m_cols A) (m_rows A) s ->
  exists L : R, log_lipschitz (K:=RN) svds1 A alpha = Ok L /\
  forall (x y : list R) (vx vy : R) (gx gy : list R), length x = m_cols A -> length y = m_cols A ->
    log_f_grad (K:=RN) exp log1pR A b alpha false x true = Ok (RPair (K:=RN) vx gx) ->
    log_f_grad (K:=RN) exp log1pR A b alpha false y true = Ok (RPair (K:=RN) vy gy) ->
    norm2 (vminus gx gy) <= L * norm2 (vminus x y).
Proof.
  intros Hi HA Ha Hs (Ps & Ho & _). destruct (log_init_inv A0 b A Hi) as (_ & Hb & Hn & _).
  unfold log_lipschitz. rewrite Hs. cbn [bind]. eexists. split; [reflexivity|].
  intros x y vx vy gx gy Hx Hy Ex Ey. rewrite (log_f_grad_core A b alpha HA Hb false x x 0 true) in Ex by auto.
  rewrite (log_f_grad_core A b alpha HA Hb false y y 0 true) in Ey by auto. injection Ex as <- <-. injection Ey as <- <-.
  rewrite !(log_grad_eq A b alpha). rewrite INR_eq, nlit_R. rn.
  eapply Rle_trans; [apply (rgrad_lip dlog (/ 4) log_lip ltac:(lra) (m_cols A) (m_rows A) b alpha HA Hb Hn s Ha Ps Ho x y Hx Hy)|].
  right. nlen. f_equal. f_equal. unfold Rdiv. ring.
Qed.
Lemma main_C23_sq (svds1 : matrix RN -> result RN) (A : matrix RN) (b : list R) (alpha s : R) :
  rect (m_cols A) (m_rows A) -> length b = length (m_rows A) -> (0 < length (m_rows A))%nat ->
  0 <= alpha -> svds1 A = Ok s -> opnorm (m_cols A) (m_rows A) s ->
  exists L : R, sq_lipschitz (K:=RN) svds1 A alpha = Ok L /\
  forall (x y : list R) (vx vy : R) (gx gy : list R), length x = m_cols A -> length y = m_cols A ->
    sq_f_grad (K:=RN) A b alpha x true = Ok (RPair (K:=RN) vx gx) ->
    sq_f_grad (K:=RN) A b alpha y true = Ok (RPair (K:=RN) vy gy) ->
    norm2 (vminus gx gy) <= L * norm2 (vminus x y).
Proof.
  intros HA Hb Hn Ha Hs (Ps & Ho & _).
  unfold sq_lipschitz. rewrite Hs. cbn [bind]. eexists. split; [reflexivity|].
  intros x y vx vy gx gy Hx Hy Ex Ey. destruct (sq_core A b alpha HA Hb Hn x Hx) as (_ & _ & E1). destruct (sq_core A b alpha HA Hb Hn y Hy) as (_ & _ & E2).
  rewrite E1 in Ex. rewrite E2 in Ey. injection Ex as <- <-. injection Ey as <- <-. rewrite INR_eq. rn.
  eapply Rle_trans; [apply (rgrad_lip dsq 1 sq_lip ltac:(lra) (m_cols A) (m_rows A) b alpha HA Hb Hn s Ha Ps Ho x y Hx Hy)|].
  right. nlen. f_equal. f_equal. unfold Rdiv. ring.
Qed.
Lemma main_C23_huber (svds1 : matrix RN -> result RN) (A : matrix RN) (b : list R) (alpha delta s : R) :
  rect (m_cols A) (m_rows A) -> length b = length (m_rows A) -> (0 < length (m_rows A))%nat -> 0 < delta ->
  0 <= alpha -> svds1 A = Ok s -> opnorm (m_cols A) (m_rows A) s ->
  exists L : R, hub_lipschitz (K:=RN) svds1 A alpha = Ok L /\
  forall (x y : list R) (vx vy : R) (gx gy : list R), length x = m_cols A -> length y = m_cols A ->
    hub_f_grad (K:=RN) A b alpha delta x true = Ok (RPair (K:=RN) vx gx) ->
    hub_f_grad (K:=RN) A b alpha delta y true = Ok (RPair (K:=RN) vy gy) ->
    norm2 (vminus gx gy) <= L * norm2 (vminus x y).
Proof.
  intros HA Hb Hn Hd Ha Hs (Ps & Ho & _).
  unfold hub_lipschitz. rewrite Hs. cbn [bind]. eexists. split; [reflexivity|].
  intros x y vx vy gx gy Hx Hy Ex Ey. destruct (hub_core A b alpha delta HA Hb Hn Hd x Hx) as (_ & E1). destruct (hub_core A b alpha delta HA Hb Hn Hd y Hy) as (_ & E2).
  rewrite E1 in Ex. rewrite E2 in Ey. injection Ex as <- <-. injection Ey as <- <-. rewrite INR_eq. rn.
  eapply Rle_trans; [apply (rgrad_lip (dhub delta) 1 (fun b x y => hub_lip delta b x y Hd) ltac:(lra) (m_cols A) (m_rows A) b alpha HA Hb Hn s Ha Ps Ho x y Hx Hy)|].
  right. nlen. f_equal. f_equal. unfold Rdiv. ring.
Qed.

(** ** tightness: no smaller constant works *)
Lemma lip_lower d (G : list R -> list R) (v h : list R) (q C M : R) : length v = d -> length h = d -> (forall x, length x = d -> length (G x) = d) ->
  v <> zeros d -> dot h v = q * dot v v ->
  (forall t, 0 < t -> norm2 (vminus (vminus (G (smul t v)) (G (zeros d))) (smul t h)) <= C * (t * t)) ->
  (forall x y, length x = d -> length y = d -> norm2 (vminus (G x) (G y)) <= M * norm2 (vminus x y)) -> q <= M.
Proof.
  intros Hv Hh HG Nz Hq HC HM.
  assert (Pv : 0 < dot v v).
  { pose proof (dot_self_nonneg v). destruct (Req_dec (dot v v) 0) as [E|E]; [|lra]. exfalso. apply Nz. rewrite <- Hv. apply dot_self_zero; auto. }
  assert (Pn : 0 < norm2 v) by (pose proof (norm2_sq v); pose proof (norm2_nonneg v); nra).
  enough (G0 : 0 <= (M - q) * dot v v) by nra.
  apply (small_t _ (Rabs C * norm2 v)). intros t Ht Ht1.
  assert (Lz : length (zeros d) = d) by apply zeros_length. assert (Lt : length (smul t v) = d) by leng.
  specialize (HC t Ht). specialize (HM _ _ Lt Lz). pose proof (HG _ Lt) as L1. pose proof (HG _ Lz) as L2.
  set (g1 := G (smul t v)) in *. set (g0 := G (zeros d)) in *.
  assert (E0 : norm2 (vminus (smul t v) (zeros d)) = t * norm2 v).
  { replace (vminus (smul t v) (zeros d)) with (smul t v). - rewrite norm2_smul, Rabs_right by lra. auto.
    - apply (list_ext _ _ 0); [leng|]. intros i Hi. unfold vminus. rewrite nth_lin by leng. rewrite nth_zeros. ring. }
  rewrite E0 in HM.
  set (e := vminus (vminus g1 g0) (smul t h)) in *. assert (Le : length e = d) by (unfold e; leng).
  pose proof (dot_le_norm (vminus g1 g0) v) as D1. pose proof (dot_ge_norm e v) as D2.
  assert (E1 : dot (vminus g1 g0) v = dot e v + t * (q * dot v v)).
  { unfold e. unfold vminus at 2. rewrite dot_lin_l by leng. rewrite dot_smul_l, Hq. ring. }
  assert (B1 : norm2 (vminus g1 g0) * norm2 v <= M * (t * norm2 v) * norm2 v) by (apply Rmult_le_compat_r; lra).
  assert (B2 : norm2 e * norm2 v <= Rabs C * (t * t) * norm2 v).
  { apply Rmult_le_compat_r; [lra|]. pose proof (Rle_abs C). assert (0 < t * t) by nra. nra. }
  assert (K : 0 <= t * ((M - q) * dot v v + t * (Rabs C * norm2 v))).
  { replace (M * (t * norm2 v) * norm2 v) with (t * (M * (norm2 v * norm2 v))) in B1 by ring. rewrite norm2_sq in B1. nra. }
  apply Rmult_le_reg_l with t; auto. lra.
Qed.
Lemma matvec_smul A t v : matvec A (smul t v) = smul t (matvec A v).
Proof. unfold matvec, smul. rewrite map_map. apply map_ext. intros r. apply (dot_smul_r t r v). Qed.
Lemma matvec_zeros d A : matvec A (zeros d) = zeros (length A).
Proof. unfold matvec. induction A; cbn; auto. rewrite dot_zeros_r, IHA. reflexivity. Qed.
Lemma vminus_zeros d v : length v = d -> vminus v (zeros d) = v.
Proof. intros H. apply (list_ext _ _ 0); [leng|]. intros i Hi. unfold vminus. rewrite nth_lin by leng. rewrite nth_zeros. ring. Qed.
Lemma zeros_length' d : length (zeros d) = d. Proof. apply zeros_length. Qed.
Lemma wsum_smul d t A : rect d A -> forall l, wsum d (smul t l) A = smul t (wsum d l A).
Proof.
  induction 1 as [|r A Hr HA IH]; intros [|x l]; cbn.
  1-3: apply (list_ext _ _ 0); [rewrite map_length; auto|intros i Hi; change (map (Rmult t) (zeros d)) with (smul t (zeros d)); rewrite nth_smul, !nth_zeros; ring].
  change (map (Rmult t) l) with (smul t l). rewrite IH. pose proof (wsum_length d A HA l) as Lw.
  change (map (Rmult t) (vplus (smul x r) (wsum d l A))) with (smul t (vplus (smul x r) (wsum d l A))).
  apply (list_ext _ _ 0); [leng|]. intros i Hi. rewrite nth_smul. unfold vplus. rewrite !nth_lin by leng. rewrite !nth_smul. ring.
Qed.
Lemma sq_tight d A b alpha s v M : rect d A -> length b = length A -> (0 < length A)%nat -> length v = d -> v <> zeros d ->
  norm2 (matvec A v) = s * norm2 v -> grad_lipschitz d M (rgrad dsq d A b alpha) -> 1 * (s * s) / INR (length A) + alpha <= M.
Proof.
  intros HA Hb Hn Hv Nz Hs HM. pose proof (lt_0_INR _ Hn) as P.
  set (h := vplus (smul (/ INR (length A)) (wsum d (matvec A v) A)) (smul alpha v)).
  pose proof (wsum_length d A HA (matvec A v)) as Lw.
  apply (lip_lower d (rgrad dsq d A b alpha) v h _ 0 M); auto.
  - unfold h. leng.
  - intros x Hx. apply rgrad_length; auto.
  - unfold h, vplus. rewrite dot_lin_l by leng. rewrite !dot_smul_l. rewrite (wsum_dot d) by (auto; apply matvec_length).
    rewrite <- (norm2_sq (matvec A v)), Hs. rewrite <- (norm2_sq v). field. lra.
  - intros t Ht. rewrite Rmult_0_l.
    assert (E : vminus (vminus (rgrad dsq d A b alpha (smul t v)) (rgrad dsq d A b alpha (zeros d))) (smul t h) = zeros d).
    { unfold rgrad, mgrad, h.
      set (u1 := map2 dsq b (matvec A (smul t v))). set (u0 := map2 dsq b (matvec A (zeros d))).
      assert (L1 : length u1 = length A) by (unfold u1; rewrite map2_length, matvec_length; lia).
      assert (L0 : length u0 = length A) by (unfold u0; rewrite map2_length, matvec_length; lia).
      assert (W : vminus (wsum d u1 A) (wsum d u0 A) = smul t (wsum d (matvec A v) A)).
      { rewrite wsum_sub by auto. replace (vminus u1 u0) with (smul t (matvec A v)).
        - apply wsum_smul; auto.
        - unfold u1, u0. rewrite matvec_smul, matvec_zeros. rewrite <- (matvec_length A v). pose proof (matvec_length A v) as Lm. rewrite <- Hb in Lm. revert Lm. generalize (matvec A v). clear.
          induction b as [|b0 b IH]; intros [|x l] L; cbn in *; try lia; auto. change (map (Rmult t) l) with (smul t l). f_equal; [unfold dsq; ring|apply (IH l); lia]. }
      pose proof (wsum_length d A HA u1). pose proof (wsum_length d A HA u0).
      apply (list_ext _ _ 0); [leng|]. intros i Hi. 
      assert (Wi : nth i (wsum d u1 A) 0 - nth i (wsum d u0 A) 0 = t * nth i (wsum d (matvec A v) A) 0).
      { rewrite <- nth_smul, <- W. unfold vminus. rewrite nth_lin by leng. ring. }
      unfold vminus, vplus. repeat rewrite nth_lin by leng. rewrite !nth_smul. repeat rewrite nth_lin by leng. rewrite !nth_smul, !nth_zeros.
      replace (nth i (wsum d u1 A) 0) with (nth i (wsum d u0 A) 0 + t * nth i (wsum d (matvec A v) A) 0) by lra. ring. }
    rewrite E. unfold norm2. rewrite dot_zeros_l, sqrt_0. lra.
Qed.
Lemma log_tight d A b alpha s v M : rect d A -> length b = length A -> (0 < length A)%nat -> length v = d -> v <> zeros d ->
  norm2 (matvec A v) = s * norm2 v -> grad_lipschitz d M (rgrad dlog d A b alpha) -> / 4 * (s * s) / INR (length A) + alpha <= M.
Proof.
  intros HA Hb Hn Hv Nz Hs HM. pose proof (lt_0_INR _ Hn) as P.
  destruct (mgrad_second d A b HA Hb Hn (zeros d) (zeros_length d)) as (C & PC & HC).
  set (h := vplus (mhess d A (zeros d) v) (smul alpha v)).
  pose proof (mhess_length d A HA (zeros d) v) as Lh.
  assert (S0 : dsig 0 = / 4) by (unfold dsig, sigma; rewrite Ropp_0, exp_0; field).
  assert (EH : forall u, length u = d -> mhess d A (zeros d) u = smul (/ INR (length A)) (wsum d (smul (/ 4) (matvec A u)) A)).
  { intros u Hu. unfold mhess. f_equal. f_equal. rewrite matvec_zeros, <- (matvec_length A u). generalize (matvec A u). clear -S0.
    induction l; cbn; auto. f_equal; [rewrite S0; reflexivity|exact IHl]. }
  apply (lip_lower d (rgrad dlog d A b alpha) v h _ (C * dot v v) M); auto.
  - unfold h. leng.
  - intros x Hx. apply rgrad_length; auto.
  - unfold h, vplus. rewrite dot_lin_l by leng. rewrite EH by auto. rewrite !dot_smul_l. rewrite (wsum_dot d) by (auto; rewrite smul_length; apply matvec_length).
    rewrite dot_smul_l, <- (norm2_sq (matvec A v)), Hs. rewrite <- (norm2_sq v). field. lra.
  - intros t Ht. specialize (HC (smul t v) ltac:(leng)). rewrite vminus_zeros in HC by leng. rewrite dot_smul_l, dot_smul_r in HC.
    match goal with |- norm2 ?a <= _ => replace a with (vminus (vminus (mgrad dlog d A b (smul t v)) (mgrad dlog d A b (zeros d))) (mhess d A (zeros d) (smul t v))) end.
    + eapply Rle_trans; [exact HC|]. right; ring.
    + pose proof (mgrad_length dlog d A b HA (smul t v)). pose proof (mgrad_length dlog d A b HA (zeros d)). pose proof (mhess_length d A HA (zeros d) (smul t v)).
      assert (EM : mhess d A (zeros d) (smul t v) = smul t (mhess d A (zeros d) v)).
      { rewrite !EH by leng. rewrite matvec_smul. apply (list_ext _ _ 0).
        - rewrite !smul_length. rewrite !wsum_length by auto. auto.
        - intros i Hi. rewrite !nth_smul. 
          rewrite !wsum_smul, !nth_smul by auto. ring. }
      rewrite EM. apply (list_ext _ _ 0); [unfold rgrad, h; leng|]. intros i Hi. unfold rgrad, h, vminus, vplus. repeat rewrite nth_lin by leng. rewrite !nth_smul. repeat rewrite nth_lin by leng. rewrite !nth_smul, nth_zeros. ring.
Qed.

Lemma main_C23_sq_tight (svds1 : matrix RN -> result RN) (A : matrix RN) (b : list R) (alpha s L M : R) :
  rect (m_cols A) (m_rows A) -> length b = length (m_rows A) -> (0 < length (m_rows A))%nat ->
  svds1 A = Ok s -> opnorm (m_cols A) (m_rows A) s -> sq_lipschitz (K:=RN) svds1 A alpha = Ok L ->
  (forall (x y : list R) (vx vy : R) (gx gy : list R), length x = m_cols A -> length y = m_cols A ->
    sq_f_grad (K:=RN) A b alpha x true = Ok (RPair (K:=RN) vx gx) ->
    sq_f_grad (K:=RN) A b alpha y true = Ok (RPair (K:=RN) vy gy) ->
    norm2 (vminus gx gy) <= M * norm2 (vminus x y)) -> L <= M.
Proof.
  intros HA Hb Hn Hs (Ps & Ho & v & Hv & Nz & Hsv) HL HM. unfold sq_lipschitz in HL. rewrite Hs in HL. cbn [bind] in HL. okinj HL.
  rewrite INR_eq. rn. eapply Rle_trans; [|apply (sq_tight (m_cols A) (m_rows A) b alpha s v M HA Hb Hn Hv Nz Hsv)]. { right. nlen. unfold Rdiv. ring. }
  intros x y Hx Hy. destruct (sq_core A b alpha HA Hb Hn x Hx) as (_ & _ & E1). destruct (sq_core A b alpha HA Hb Hn y Hy) as (_ & _ & E2).
  exact (HM x y _ _ _ _ Hx Hy E1 E2).
Qed.
Lemma main_C23_log_tight (svds1 : matrix RN -> result RN) (A0 : option (matrix RN)) (A : matrix RN) (b : list R) (alpha s L M : R) :
  log_init (K:=RN) A0 b = Ok A -> rect (m_cols A) (m_rows A) ->
  svds1 A = Ok s -> opnorm (m_cols A) (m_rows A) s -> log_lipschitz (K:=RN) svds1 A alpha = Ok L ->
  (forall (x y : list R) (vx vy : R) (gx gy : list R), length x = m_cols A -> length y = m_cols A ->
    log_f_grad (K:=RN) exp log1pR A b alpha false x true = Ok (RPair (K:=RN) vx gx) ->
    log_f_grad (K:=RN) exp log1pR A b alpha false y true = Ok (RPair (K:=RN) vy gy) ->
    norm2 (vminus gx gy) <= M * norm2 (vminus x y)) -> L <= M.
Proof.
  intros Hi HA Hs (Ps & Ho & v & Hv & Nz & Hsv) HL HM. destruct (log_init_inv A0 b A Hi) as (_ & Hb & Hn & _).
  unfold log_lipschitz in HL. rewrite Hs in HL. cbn [bind] in HL. okinj HL.
  rewrite INR_eq, nlit_R. rn. eapply Rle_trans; [|apply (log_tight (m_cols A) (m_rows A) b alpha s v M HA Hb Hn Hv Nz Hsv)]. { right. nlen. unfold Rdiv. ring. }
  intros x y Hx Hy. rewrite <- !(log_grad_eq A b alpha).
  eapply (HM x y _ _ _ _ Hx Hy).
  - rewrite (log_f_grad_core A b alpha HA Hb false x x 0 true) by auto. reflexivity.
  - rewrite (log_f_grad_core A b alpha HA Hb false y y 0 true) by auto. reflexivity.
Qed.

(** ** max_lipschitz: one sample at a time *)
Section OneSample.
Variables (phi dphi : R -> R -> R) (c : R).
Hypothesis gap : forall b z z', 0 <= phi b z' - phi b z - dphi b z * (z' - z) <= c / 2 * ((z' - z) * (z' - z)).
Hypothesis lip : forall b x y, Rabs (dphi b x - dphi b y) <= c * Rabs (x - y).
Hypothesis Hc : 0 <= c.
Lemma single_row (alpha bi : R) (r x : list R) : ridge alpha (mean_loss phi [r] [bi]) x = ridge alpha (fun w => phi bi (dot r w)) x.
Proof. unfold ridge, mean_loss. cbn. field. Qed.
Lemma one_gradient d alpha bi r x g : length r = d -> length x = d -> is_gradient d (ridge alpha (fun w => phi bi (dot r w))) x g -> g = rgrad dphi d [r] [bi] alpha x.
Proof.
  intros Hr Hx Hg. eapply gradient_unique; eauto.
  apply (gradient_ext d (ridge alpha (mean_loss phi [r] [bi]))); auto. { intros y Hy. apply single_row. }
  apply (rloss_gradient phi dphi c); auto. constructor; auto.
Qed.
Lemma one_is_gradient d alpha bi r x : length r = d -> length x = d -> is_gradient d (ridge alpha (fun w => phi bi (dot r w))) x (rgrad dphi d [r] [bi] alpha x).
Proof.
  intros Hr Hx. apply (gradient_ext d (ridge alpha (mean_loss phi [r] [bi]))); auto. { intros y Hy. apply single_row. }
  apply (rloss_gradient phi dphi c); auto. constructor; auto.
Qed.
Lemma norm2_row1 t : norm2 [t] = Rabs t.
Proof. unfold norm2. replace (dot [t] [t]) with (Rsqr t) by (unfold Rsqr; cbn; ring). apply sqrt_Rsqr_abs. Qed.
Lemma row_norm r v : norm2 (matvec [r] v) <= norm2 r * norm2 v.
Proof.
  assert (E : norm2 (matvec [r] v) = Rabs (dot r v)).
  { apply norm2_row1. }
  rewrite E. apply Rabs_le. pose proof (dot_le_norm r v). pose proof (dot_ge_norm r v). lra.
Qed.
Lemma row_attain r : norm2 (matvec [r] r) = norm2 r * norm2 r.
Proof. rewrite norm2_sq. cbn [matvec map]. rewrite norm2_row1. apply Rabs_right. apply Rle_ge, dot_self_nonneg. Qed.
Lemma one_lip d alpha bi r m x y gx gy : length r = d -> length x = d -> length y = d -> 0 <= alpha -> c * dot r r + alpha <= m ->
  is_gradient d (ridge alpha (fun w => phi bi (dot r w))) x gx -> is_gradient d (ridge alpha (fun w => phi bi (dot r w))) y gy ->
  norm2 (vminus gx gy) <= m * norm2 (vminus x y).
Proof.
  intros Hr Hx Hy Ha Hm Gx Gy. apply one_gradient in Gx; auto. apply one_gradient in Gy; auto. subst gx gy.
  eapply Rle_trans; [apply (rgrad_lip dphi c lip Hc d [r] [bi] alpha) with (s := norm2 r); auto; [constructor; auto|apply norm2_nonneg|intros v _; apply row_norm]|].
  apply Rmult_le_compat_r; [apply norm2_nonneg|]. cbn [length INR]. rewrite norm2_sq. unfold Rdiv. rewrite Rinv_1. lra.
Qed.
End OneSample.
Lemma row_max (rows : list (list R)) : rows <> [] -> exists m, npmax (K:=RN) (map (fun r => vdot (K:=RN) r r) rows) = Ok m /\
  (forall r, In r rows -> dot r r <= m) /\ exists i r, nth_error rows i = Some r /\ dot r r = m.
Proof.
  intros H. assert (HM : exists m, npmax (K:=RN) (map (fun r => vdot (K:=RN) r r) rows) = Ok m) by (destruct rows; [congruence|eexists; reflexivity]).
  destruct HM as (m & E). exists m. split; auto. destruct (npmax_R _ m E) as [I1 F1]. rewrite Forall_forall in F1. split.
  - intros r Hr. rewrite <- vdot_R. apply F1. apply (in_map (fun r => vdot (K:=RN) r r)); auto.
  - apply in_map_iff in I1. destruct I1 as (r & Er & Ir). apply In_nth_error in Ir. destruct Ir as (i & Hi). exists i, r. rewrite <- vdot_R. auto.
Qed.
Lemma main_C23_max_log (A0 : option (matrix RN)) (A : matrix RN) (b : list R) (alpha : R) :
  log_init (K:=RN) A0 b = Ok A -> rect (m_cols A) (m_rows A) -> 0 <= alpha ->
  exists M : R, log_max_lipschitz (K:=RN) A alpha = Ok M /\
  forall (i : nat) (r : list R) (bi : R), nth_error (m_rows A) i = Some r -> nth_error b i = Some bi ->
  forall x y gx gy, length x = m_cols A -> length y = m_cols A ->
    is_gradient (m_cols A) (ridge alpha (fun w => log_term bi (dot r w))) x gx ->
    is_gradient (m_cols A) (ridge alpha (fun w => log_term bi (dot r w))) y gy ->
    norm2 (vminus gx gy) <= M * norm2 (vminus x y).
Proof.
  intros Hi HA Ha. destruct (log_init_inv A0 b A Hi) as (_ & Hb & Hn & _).
  destruct (row_max (m_rows A)) as (m & E & U & _). { intros E. rewrite E in Hn. cbn in Hn. lia. }
  unfold log_max_lipschitz. rewrite E. cbn [bind]. eexists. split; [reflexivity|].
  intros i r bi Er Eb x y gx gy Hx Hy Gx Gy. apply nth_error_In in Er. unfold rect in HA. rewrite Forall_forall in HA.
  eapply (one_lip log_term dlog (/ 4) log_gap log_lip ltac:(lra) (m_cols A) alpha bi r); eauto.
  rewrite nlit_R. rn. pose proof (U r Er). lra.
Qed.
Lemma main_C23_max_sq (A : matrix RN) (b : list R) (alpha : R) :
  rect (m_cols A) (m_rows A) -> m_rows A <> [] -> 0 <= alpha ->
  exists M : R, sq_max_lipschitz (K:=RN) A alpha = Ok M /\
  forall (i : nat) (r : list R) (bi : R), nth_error (m_rows A) i = Some r -> nth_error b i = Some bi ->
  forall x y gx gy, length x = m_cols A -> length y = m_cols A ->
    is_gradient (m_cols A) (ridge alpha (fun w => sq_term bi (dot r w))) x gx ->
    is_gradient (m_cols A) (ridge alpha (fun w => sq_term bi (dot r w))) y gy ->
    norm2 (vminus gx gy) <= M * norm2 (vminus x y).
Proof.
  intros HA Hn Ha. destruct (row_max (m_rows A) Hn) as (m & E & U & _).
  unfold sq_max_lipschitz. rewrite E. cbn [bind]. eexists. split; [reflexivity|].
  intros i r bi Er Eb x y gx gy Hx Hy Gx Gy. apply nth_error_In in Er. unfold rect in HA. rewrite Forall_forall in HA.
  eapply (one_lip sq_term dsq 1 sq_gap sq_lip ltac:(lra) (m_cols A) alpha bi r); eauto.
  rn. pose proof (U r Er). lra.
Qed.
Lemma nonzero_vec d : (0 < d)%nat -> exists v : list R, length v = d /\ v <> zeros d.
Proof. intros H. exists (repeat 1 d). split; [apply repeat_length|]. destruct d; [lia|]. cbn. intros E. injection E as E _. lra. Qed.
Lemma row_witness d (r : list R) : (0 < d)%nat -> length r = d -> exists v, length v = d /\ v <> zeros d /\ norm2 (matvec [r] v) = norm2 r * norm2 v.
Proof.
  intros Hd Hr. destruct (list_eq_dec Req_EM_T r (zeros d)) as [->|N].
  - destruct (nonzero_vec d Hd) as (v & Hv & Nz). exists v. repeat split; auto. cbn [matvec map]. rewrite norm2_row1, dot_zeros_l, Rabs_R0. unfold norm2 at 1. rewrite dot_zeros_l, sqrt_0. ring.
  - exists r. repeat split; auto. apply row_attain.
Qed.
Lemma main_C23_max_log_tight (A0 : option (matrix RN)) (A : matrix RN) (b : list R) (alpha M : R) :
  log_init (K:=RN) A0 b = Ok A -> rect (m_cols A) (m_rows A) -> (0 < m_cols A)%nat -> log_max_lipschitz (K:=RN) A alpha = Ok M ->
  exists (i : nat) (r : list R) (bi : R), nth_error (m_rows A) i = Some r /\ nth_error b i = Some bi /\
  forall M' : R, (forall x y gx gy, length x = m_cols A -> length y = m_cols A ->
    is_gradient (m_cols A) (ridge alpha (fun w => log_term bi (dot r w))) x gx ->
    is_gradient (m_cols A) (ridge alpha (fun w => log_term bi (dot r w))) y gy ->
    norm2 (vminus gx gy) <= M' * norm2 (vminus x y)) -> M <= M'.
Proof.
  intros Hi HA Hd HM. destruct (log_init_inv A0 b A Hi) as (_ & Hb & Hn & _).
  destruct (row_max (m_rows A)) as (m & E & _ & i & r & Er & Em). { intros E. rewrite E in Hn. cbn in Hn. lia. }
  unfold log_max_lipschitz in HM. rewrite E in HM. cbn [bind] in HM. okinj HM.
  assert (Hi' : (i < length b)%nat). { rewrite Hb. apply nth_error_Some. intros E9. pose proof (eq_trans (eq_sym Er) E9). discriminate. }
  destruct (nth_error b i) as [bi|] eqn:Eb; [|apply nth_error_Some in Hi'; congruence].
  exists i, r, bi. repeat split; auto. intros M' HM'. pose proof (nth_error_In _ _ Er) as Ir. unfold rect in HA. rewrite Forall_forall in HA. pose proof (HA r Ir) as Hr.
  destruct (row_witness (m_cols A) r Hd Hr) as (v & Hv & Nz & Ev).
  pose proof (log_tight (m_cols A) [r] [bi] alpha (norm2 r) v M' ltac:(constructor; auto) eq_refl ltac:(cbn; lia) Hv Nz Ev) as T.
  rewrite nlit_R. rn. rewrite <- Em. rewrite norm2_sq in T. cbn [length INR] in T. unfold Rdiv in T. rewrite Rinv_1 in T.
  eapply Rle_trans; [|apply T].
  - right. cbn. unfold Rdiv. ring.
  - intros x y Hx Hy. apply (HM' x y); auto; apply (one_is_gradient log_term dlog (/ 4) log_gap ltac:(lra)); auto.
Qed.
Lemma main_C23_max_sq_tight (A : matrix RN) (b : list R) (alpha M : R) :
  rect (m_cols A) (m_rows A) -> length b = length (m_rows A) -> m_rows A <> [] -> (0 < m_cols A)%nat -> sq_max_lipschitz (K:=RN) A alpha = Ok M ->
  exists (i : nat) (r : list R) (bi : R), nth_error (m_rows A) i = Some r /\ nth_error b i = Some bi /\
  forall M' : R, (forall x y gx gy, length x = m_cols A -> length y = m_cols A ->
    is_gradient (m_cols A) (ridge alpha (fun w => sq_term bi (dot r w))) x gx ->
    is_gradient (m_cols A) (ridge alpha (fun w => sq_term bi (dot r w))) y gy ->
    norm2 (vminus gx gy) <= M' * norm2 (vminus x y)) -> M <= M'.
Proof.
  intros HA Hb Hn Hd HM.
  destruct (row_max (m_rows A) Hn) as (m & E & _ & i & r & Er & Em).
  unfold sq_max_lipschitz in HM. rewrite E in HM. cbn [bind] in HM. okinj HM.
  assert (Hi' : (i < length b)%nat). { rewrite Hb. apply nth_error_Some. intros E9. pose proof (eq_trans (eq_sym Er) E9). discriminate. }
  destruct (nth_error b i) as [bi|] eqn:Eb; [|apply nth_error_Some in Hi'; congruence].
  exists i, r, bi. repeat split; auto. intros M' HM'. pose proof (nth_error_In _ _ Er) as Ir. unfold rect in HA. rewrite Forall_forall in HA. pose proof (HA r Ir) as Hr.
  destruct (row_witness (m_cols A) r Hd Hr) as (v & Hv & Nz & Ev).
  pose proof (sq_tight (m_cols A) [r] [bi] alpha (norm2 r) v M' ltac:(constructor; auto) eq_refl ltac:(cbn; lia) Hv Nz Ev) as T.
  rn. rewrite <- Em. rewrite norm2_sq in T. cbn [length INR] in T. unfold Rdiv in T. rewrite Rinv_1 in T.
  eapply Rle_trans; [|apply T].
  - right. ring.
  - intros x y Hx Hy. apply (HM' x y); auto; apply (one_is_gradient sq_term dsq 1 sq_gap ltac:(lra)); auto.
Qed.
