(** * From the model of copt/loss.py to the specification *)
From Coq Require Import Reals List Bool Lra Lia Psatz Permutation.
From Verif Require Import Num Vec Spec RVec ConvexFacts SpecLoss LossFacts LossScalar ModelPenalty ModelTv ModelLoss.
Import ListNotations.
Open Scope R_scope.

Notation np_log1p_R := (fun t : R => ln (1 + t)) (only parsing).

Lemma mat_dot_ok (A : matrix RN) (x : list R) : length x = m_cols A -> mat_dot (K:=RN) A x = Ok (matvec (m_rows A) x).
Proof.
  intros H. unfold mat_dot. replace (Nat.eqb _ _) with true by (symmetry; apply Nat.eqb_eq; exact H). f_equal. unfold matvec. apply map_ext. intros r. apply vdot_R.
Qed.
Lemma fold_vadd (d : nat) (l : list (list R)) : Forall (fun r => length r = d) l -> forall acc : list R, length acc = d ->
  @eq (list R) (fold_left (@vadd RN) l acc) (vplus acc (fold_right vplus (zeros d) l)) /\ length (fold_right vplus (zeros d) l) = d.
Proof.
  induction 1 as [|r l Hr Hl IH]; intros acc Ha; cbn.
  - split; [|apply zeros_length]. apply (list_ext _ _ 0); [leng|]. intros i Hi. unfold vplus. rewrite nth_lin by leng. rewrite nth_zeros. rn; ring.
  - destruct (IH (vplus acc r) ltac:(leng)) as [E L]. revert E L. generalize (fold_right vplus (zeros d) l). intros q E L. split; [|leng].
    eapply eq_trans; [|eapply eq_trans; [exact E|]]; [rewrite vadd_R; reflexivity|].
    apply (list_ext _ _ 0); [leng|]. intros i Hi. unfold vplus. repeat rewrite nth_lin by leng. ring.
Qed.
Lemma rows_sum_R (d : nat) (A : list (list R)) (u : list R) : rect d A -> rows_sum (K:=RN) d A u = wsum d u A.
Proof.
  intros HA. unfold rows_sum. 
  assert (F : Forall (fun r => length r = d) (map2 (@vscale RN) u A)).
  { revert u. induction HA as [|r A Hr HA IH]; intros [|x u]; cbn; constructor; auto. unfold vscale. rewrite map_length. auto. }
  rewrite vzeros_R. destruct (fold_vadd d _ F (zeros d) (zeros_length d)) as [E L]. eapply eq_trans; [exact E|].
  assert (W : fold_right vplus (zeros d) (map2 (@vscale RN) u A) = wsum d u A).
  { clear. revert u. induction A as [|r A IH]; intros [|x u]; cbn; auto. rewrite IH. reflexivity. }
  rewrite W in *. apply (list_ext _ _ 0); [leng|]. intros i Hi. unfold vplus. rewrite nth_lin by leng. rewrite nth_zeros. ring.
Qed.
Lemma tmat_dot_ok (A : matrix RN) (u : list R) : rect (m_cols A) (m_rows A) -> length u = length (m_rows A) ->
  tmat_dot (K:=RN) A u = Ok (wsum (m_cols A) u (m_rows A)).
Proof. intros HA H. unfold tmat_dot, n_samples. replace (Nat.eqb _ _) with true by (symmetry; apply Nat.eqb_eq; exact H). f_equal. apply rows_sum_R; auto. Qed.
Lemma vdivs_R (v : list R) (c : R) : vdivs (K:=RN) v c = smul (/ c) v.
Proof. unfold vdivs, smul. apply map_ext. intros a. rn. unfold Rdiv. ring. Qed.
Lemma vmean_R (v : list R) : @eq R (vmean (K:=RN) v) (Rsum v / INR (length v)).
Proof. unfold vmean. rewrite vsum_R, nofnat_R. reflexivity. Qed.

(** ** npmax / npmin over the reals *)
Lemma nisnan_R0 (x : R) : nisnan (K:=RN) x = false.
Proof. unfold nisnan. rn. unfold Reqb. destruct (Req_EM_T x x); auto. congruence. Qed.
Lemma npmax_R (v : list R) m : npmax (K:=RN) v = Ok m -> In m v /\ Forall (fun t => t <= m) v.
Proof.
  destruct v as [|x v]; [discriminate|]. intros E. cbn [npmax] in E. injection E as <-.
  assert (G : forall v x, (In (fold_left (fun m y : R => if nisnan (K:=RN) m then m else if nisnan (K:=RN) y then y else if Rltb m y then y else m) v x) (x :: v)) /\
     Forall (fun t => t <= fold_left (fun m y : R => if nisnan (K:=RN) m then m else if nisnan (K:=RN) y then y else if Rltb m y then y else m) v x) (x :: v)).
  { clear. induction v as [|y v IH]; intros x; cbn [fold_left]; [split; [left; auto|repeat constructor; lra]|].
    rewrite !nisnan_R0. destruct (Rltb_spec x y).
    - destruct (IH y) as [I F]. split; [right; auto|]. inversion F; subst. constructor; [lra|auto].
    - destruct (IH x) as [I F]. split; [destruct I; [left; auto|right; right; auto]|]. inversion F; subst. constructor; auto. constructor; [lra|auto]. }
  exact (G v x).
Qed.
Lemma npmin_R (v : list R) m : npmin (K:=RN) v = Ok m -> In m v /\ Forall (fun t => m <= t) v.
Proof.
  destruct v as [|x v]; [discriminate|]. intros E. cbn [npmin] in E. injection E as <-.
  assert (G : forall v x, (In (fold_left (fun m y : R => if nisnan (K:=RN) m then m else if nisnan (K:=RN) y then y else if Rltb y m then y else m) v x) (x :: v)) /\
     Forall (fun t => fold_left (fun m y : R => if nisnan (K:=RN) m then m else if nisnan (K:=RN) y then y else if Rltb y m then y else m) v x <= t) (x :: v)).
  { clear. induction v as [|y v IH]; intros x; cbn [fold_left]; [split; [left; auto|repeat constructor; lra]|].
    rewrite !nisnan_R0. destruct (Rltb_spec y x).
    - destruct (IH y) as [I F]. split; [right; auto|]. inversion F; subst. constructor; [lra|auto].
    - destruct (IH x) as [I F]. split; [destruct I; [left; auto|right; right; auto]|]. inversion F; subst. constructor; auto. constructor; [lra|auto]. }
  exact (G v x).
Qed.

(** ** scalars *)
Lemma logsig_R (t : R) : Rabs (logsig (K:=RN) exp np_log1p_R t - ln (sigma t)) <= exp (-33) /\
  (-18 <= t < 37 -> @eq R (logsig (K:=RN) exp np_log1p_R t) (ln (sigma t))).
Proof.
  unfold logsig. rn. pose proof (exp_pos (-33)) as P33.
  destruct (Rltb_spec t (-33)) as [L|L].
  { split; [|lra]. rewrite ln_sigma_neg. replace (t - (t - ln (1 + exp t))) with (ln (1 + exp t)) by ring.
    pose proof (exp_pos t). pose proof (ln_1p_upper (exp t) ltac:(lra)). pose proof (exp_le t (-33) ltac:(lra)).
    assert (0 <= ln (1 + exp t)) by (rewrite <- ln_1; apply Rlt_le, ln_increasing; lra).
    rewrite Rabs_right by lra. lra. }
  destruct (Rleb_spec (-33) t) as [L1|L1]; [|lra]. cbn [andb].
  destruct (Rltb_spec t (-18)) as [L2|L2].
  { split; [|lra]. rewrite ln_sigma_neg. replace (t - exp t - (t - ln (1 + exp t))) with (ln (1 + exp t) - exp t) by ring.
    pose proof (exp_pos t). pose proof (ln_1p_upper (exp t) ltac:(lra)). pose proof (ln_1p_lower (exp t) ltac:(lra)).
    assert (exp t * exp t <= exp (-33)).
    { rewrite <- exp_plus. apply exp_le. lra. }
    rewrite Rabs_left1 by lra. lra. }
  destruct (Rleb_spec (-18) t) as [L3|L3]; [|lra]. cbn [andb].
  destruct (Rltb_spec t 37) as [L4|L4].
  { rewrite ln_sigma. split; [|auto]. rewrite Rminus_diag_eq by auto. rewrite Rabs_R0. lra. }
  destruct (Rleb_spec 37 t) as [L5|L5]; [|lra].
  split; [|lra]. rewrite ln_sigma. replace (- exp (- t) - - ln (1 + exp (- t))) with (ln (1 + exp (- t)) - exp (- t)) by ring.
  pose proof (exp_pos (- t)). pose proof (ln_1p_upper (exp (- t)) ltac:(lra)). pose proof (ln_1p_lower (exp (- t)) ltac:(lra)).
  assert (exp (- t) * exp (- t) <= exp (-33)).
  { rewrite <- exp_plus. apply exp_le. lra. }
  rewrite Rabs_left1 by lra. lra.
Qed.
Lemma expit_b_R (t b : R) : @eq R (expit_b (K:=RN) exp t b) (sigma t - b).
Proof.
  unfold expit_b, sigma. rn. pose proof (exp_pos t). pose proof (exp_pos (- t)).
  destruct (Rltb_spec t 0); [|field; lra]. rewrite exp_Ropp. field. lra.
Qed.
Lemma log_sigma_R pos (t : R) : @eq R (log_sigma (K:=RN) exp pos t) (sigma t).
Proof.
  unfold log_sigma, sigma. rn. pose proof (exp_pos t). pose proof (exp_pos (- t)). destruct pos; [field; lra|]. rewrite exp_Ropp. field. lra.
Qed.

(** ** LogLoss *)
Lemma log_init_R (A0 : option (matrix RN)) (b : list R) :
  let A := match A0 with Some A => A | None => eye (length b) end in
  (b <> [] /\ Forall (fun t => 0 <= t <= 1) b /\ length (m_rows A) = length b -> log_init (K:=RN) A0 b = Ok A) /\
  (b = [] \/ Exists (fun t => t < 0 \/ 1 < t) b \/ length (m_rows A) <> length b -> log_init (K:=RN) A0 b = Err ValueError).
Proof.
  intros A. unfold log_init. fold A.
  assert (D : b = [] \/ b <> []) by (clear A; destruct b; [auto|right; congruence]). destruct D as [E0|N].
  { split; [intros [N _]; congruence|]. intros _. subst b. reflexivity. }
  assert (HM : exists m, npmax (K:=RN) b = Ok m) by (clear A; destruct b; [congruence|eexists; reflexivity]). destruct HM as [mx Hmx].
  assert (HM : exists m, npmin (K:=RN) b = Ok m) by (clear A; destruct b; [congruence|eexists; reflexivity]). destruct HM as [mn Hmn].
  destruct (npmax_R b mx Hmx) as [I1 F1]. destruct (npmin_R b mn Hmn) as [I2 F2].
  rewrite Hmx. cbn [bind]. rewrite Hmn. cbn [bind]. rewrite Forall_forall in F1, F2. unfold n_samples. rn. split.
  - intros (_ & F & L). rewrite Forall_forall in F. rewrite Rltb_false by (apply F; auto). rewrite Rltb_false by (apply F; auto).
    replace (Nat.eqb _ _) with true by (symmetry; apply Nat.eqb_eq; exact L). reflexivity.
  - intros [C|[C|C]]; [congruence| |].
    + apply Exists_exists in C. destruct C as (t & It & [Ht|Ht]).
      * destruct (Rltb 1 mx); [reflexivity|]. rewrite Rltb_true; [reflexivity|]. eapply Rle_lt_trans; [apply F2|]; eauto.
      * rewrite Rltb_true; [reflexivity|]. eapply Rlt_le_trans; [|apply F1]; eauto.
    + destruct (Rltb 1 mx); [reflexivity|]. destruct (Rltb mn 0); [reflexivity|]. replace (Nat.eqb _ _) with false by (symmetry; apply Nat.eqb_neq; exact C). reflexivity.
Qed.
Lemma log_init_inv (A0 : option (matrix RN)) (b : list R) A : log_init (K:=RN) A0 b = Ok A ->
  b <> [] /\ length b = length (m_rows A) /\ (0 < length (m_rows A))%nat /\ Forall (fun t => 0 <= t <= 1) b /\
  A = match A0 with Some A => A | None => eye (length b) end.
Proof.
  intros H. destruct (log_init_R A0 b) as [_ Hbad]. cbv zeta in Hbad.
  destruct b as [|b0 b']; [discriminate|]. assert (N : b0 :: b' <> []) by congruence. revert H Hbad N. generalize (b0 :: b'). clear b0 b'. intros b H Hbad N.
  assert (EA : A = match A0 with Some A => A | None => eye (length b) end).
  { unfold log_init in H. apply bind_ok in H. destruct H as (mx & _ & H). destruct (_ <? _)%num; [discriminate|].
    apply bind_ok in H. destruct H as (mn & _ & H). destruct (_ <? _)%num; [discriminate|]. destruct (negb _); [discriminate|]. injection H as <-. auto. }
  rewrite <- EA in Hbad.
  assert (L : length (m_rows A) = length b).
  { destruct (Nat.eq_dec (length (m_rows A)) (length b)); auto. rewrite Hbad in H; auto. discriminate. }
  do 2 (split; [auto|]). split; [destruct b; [congruence|cbn in L; lia]|]. split; auto.
  apply Forall_forall. intros t It. destruct (Rle_dec 0 t); [destruct (Rle_dec t 1); [auto|]|].
  - rewrite Hbad in H; [discriminate|]. right; left. apply Exists_exists. exists t. split; auto. lra.
  - rewrite Hbad in H; [discriminate|]. right; left. apply Exists_exists. exists t. split; auto. lra.
Qed.
Lemma eye_rect n : rect (m_cols (eye (K:=RN) n)) (m_rows (eye (K:=RN) n)) /\ length (m_rows (eye (K:=RN) n)) = n.
Proof. unfold eye, rect; cbn. split; [|rewrite map_length, seq_length; auto]. apply Forall_forall. intros r Hr. apply in_map_iff in Hr. destruct Hr as (i & <- & _). rewrite map_length, seq_length; auto. Qed.

Lemma map2_map_r {A B C D} (f : A -> B -> C) (g : D -> B) (u : list A) (v : list D) : map2 f u (map g v) = map2 (fun a d => f a (g d)) u v.
Proof. revert v; induction u; intros [|]; cbn; f_equal; auto. Qed.
Lemma map2_ext {A B C} (f g : A -> B -> C) u v : (forall a b, In b v -> f a b = g a b) -> map2 f u v = map2 g u v.
Proof. revert v; induction u as [|a u IH]; intros [|b v] H; cbn; f_equal; auto. - apply H; left; auto. - apply IH. intros; apply H; right; auto. Qed.
Lemma map2_swap {A B C} (f : A -> B -> C) u v : map2 f u v = map2 (fun b a => f a b) v u.
Proof. revert v; induction u as [|a u IH]; intros [|b v]; cbn; f_equal; auto. Qed.
Lemma mean_loss_c_map2 (phi : R -> R -> R) (A : list (list R)) (b w : list R) (c : R) :
  mean_loss_c phi A b w c = Rsum (map2 phi b (map (fun t => t + c) (matvec A w))) / INR (length A).
Proof.
  unfold mean_loss_c, matvec. f_equal. rewrite map_map. revert A; induction b as [|b0 b IH]; intros [|r A]; cbn; auto. f_equal. apply IH.
Qed.
Lemma mean_loss_c0 phi A b w : mean_loss_c phi A b w 0 = mean_loss phi A b w.
Proof. unfold mean_loss_c, mean_loss. f_equal. f_equal. apply map_ext. intros p. rewrite Rplus_0_r. auto. Qed.

(** the value: z is the list of margins *)
Lemma log_mean (b z : list R) : length b = length z -> (0 < length z)%nat ->
  Rabs (vmean (K:=RN) (map2 (fun bi zi : R => (1 - bi) * zi - logsig (K:=RN) exp np_log1p_R zi) b z) - Rsum (map2 log_term b z) / INR (length z)) <= exp (-33) /\
  (Forall (fun t => -18 <= t < 37) z ->
   @eq R (vmean (K:=RN) (map2 (fun bi zi : R => (1 - bi) * zi - logsig (K:=RN) exp np_log1p_R zi) b z)) (Rsum (map2 log_term b z) / INR (length z))).
Proof.
  intros L N. rewrite vmean_R, map2_length, L, Nat.min_id. assert (P : 0 < INR (length z)) by (apply lt_0_INR; auto).
  set (u := Rsum _). set (v := Rsum (map2 log_term b z)).
  assert (G : Rabs (u - v) <= INR (length z) * exp (-33) /\ (Forall (fun t => -18 <= t < 37) z -> u = v)).
  { unfold u, v. clear -L. revert z L. induction b as [|b0 b IH]; intros [|z0 z] L; try discriminate.
    - cbn. rewrite Rminus_0_r, Rabs_R0. split; [lra|auto].
    - destruct (IH z ltac:(cbn in L; lia)) as [G1 G2]. destruct (logsig_R z0) as [H1 H2]. cbn [map2 Rsum length].
      rewrite log_term_eq. set (l0 := logsig (K:=RN) _ _ z0) in *. rewrite S_INR. split.
      + replace ((1 - b0) * z0 - l0 + Rsum (map2 (fun bi zi : R => (1 - bi) * zi - logsig (K:=RN) exp np_log1p_R zi) b z) - ((1 - b0) * z0 - ln (sigma z0) + Rsum (map2 log_term b z)))
          with (- (l0 - ln (sigma z0)) + (Rsum (map2 (fun bi zi : R => (1 - bi) * zi - logsig (K:=RN) exp np_log1p_R zi) b z) - Rsum (map2 log_term b z))) by ring.
        eapply Rle_trans; [apply Rabs_triang|]. rewrite Rabs_Ropp. lra.
      + intros F. inversion F; subst. rewrite G2 by auto. rewrite H2 by auto. ring. }
  destruct G as [G1 G2]. split.
  - replace (u / INR (length z) - v / INR (length z)) with ((u - v) * / INR (length z)) by (unfold Rdiv; ring).
    rewrite Rabs_mult, (Rabs_right (/ _)) by (apply Rle_ge, Rlt_le, Rinv_0_lt_compat; auto).
    apply Rmult_le_reg_r with (INR (length z)); auto. rewrite Rmult_assoc, Rinv_l by lra. lra.
  - intros F. rewrite G2; auto.
Qed.

Section LogLoss.
Variables (A : matrix RN) (b : list R) (alpha : R).
Hypothesis HA : rect (m_cols A) (m_rows A).
Hypothesis Hb : length b = length (m_rows A).
Hypothesis Hn : (0 < length (m_rows A))%nat.
Let d := m_cols A.
Let n := length (m_rows A).
Let fg := log_f_grad (K:=RN) exp np_log1p_R A b alpha.

(** with or without intercept: margins *)
Definition margins (w : list R) (c : R) : list R := map (fun t => t + c) (matvec (m_rows A) w).
Definition lval (w : list R) (c : R) : R :=
  vmean (K:=RN) (map2 (fun bi zi : R => (1 - bi) * zi - logsig (K:=RN) exp np_log1p_R zi) b (margins w c)) + alpha / 2 * dot w w.
Definition lres (w : list R) (c : R) : list R := map2 dlog b (margins w c).
Lemma margins_length w c : length (margins w c) = n.
Proof. unfold margins. rewrite map_length. apply matvec_length. Qed.
Lemma lres_length w c : length (lres w c) = n.
Proof. unfold lres. rewrite map2_length, margins_length. unfold n. rewrite Hb. apply Nat.min_id. Qed.
Lemma lres_expit w c : map2 (expit_b (K:=RN) exp) (margins w c) b = lres w c.
Proof. unfold lres. rewrite map2_swap. apply map2_ext. intros a t _. apply expit_b_R. Qed.

Lemma log_f_grad_core intercept x w c rg : split_intercept (K:=RN) intercept x = Ok (w, c) -> length w = d ->
  fg intercept x rg = Ok (if rg then if intercept then RGrad (K:=RN) (vplus (smul (/ INR n) (wsum d (lres w c) (m_rows A))) (smul alpha w) ++ [Rsum (lres w c) / INR n])
                              else RPair (K:=RN) (lval w c) (vplus (smul (/ INR n) (wsum d (lres w c) (m_rows A))) (smul alpha w))
                     else RLoss (K:=RN) (lval w c)).
Proof.
  intros Hs Hw. unfold fg, log_f_grad. rewrite Hs. cbn [bind]. rewrite mat_dot_ok by auto. cbn [bind].
  change (map (fun t : RN => (t + c)%num) (matvec (m_rows A) w)) with (margins w c).
  assert (EV : @eq (carrier RN) (vmean (K:=RN) (map2 (fun bi zi : RN => ((n1 - bi) * zi - logsig (K:=RN) exp np_log1p_R zi)%num) b (margins w c)) + nlit (K:=RN) 1 2 * alpha * vdot (K:=RN) w w)%num (lval w c)).
  { unfold lval. rewrite vdot_R, nlit_R. rn. unfold Rdiv. ring. }
  rewrite EV.
  destruct rg; cbn [negb]; [|reflexivity].
  rewrite lres_expit. rewrite tmat_dot_ok by (auto; apply lres_length). cbn [bind].
  assert (EG : @eq (list (carrier RN)) (vadd (K:=RN) (vdivs (K:=RN) (wsum (m_cols A) (lres w c) (m_rows A)) (nofnat (K:=RN) (n_samples A))) (vscale (K:=RN) alpha w))
    (vplus (smul (/ INR n) (wsum d (lres w c) (m_rows A))) (smul alpha w))).
  { rewrite nofnat_R. eapply eq_trans; [apply vadd_R|]. f_equal. apply vdivs_R. }
  rewrite EG.
  assert (EM : @eq (carrier RN) (vmean (K:=RN) (lres w c)) (Rsum (lres w c) / INR n)).
  { eapply eq_trans; [apply vmean_R|]. rewrite lres_length. reflexivity. }
  rewrite EM. destruct intercept; reflexivity.
Qed.
Lemma lval_spec w c : Rabs (lval w c - (mean_loss_c log_term (m_rows A) b w c + alpha / 2 * dot w w)) <= exp (-33) /\
  ((forall r, In r (m_rows A) -> -18 <= dot r w + c < 37) -> lval w c = mean_loss_c log_term (m_rows A) b w c + alpha / 2 * dot w w).
Proof.
  pose proof (margins_length w c) as L. destruct (log_mean b (margins w c)) as [G1 G2]; [rewrite L; unfold n; auto|rewrite L; auto|].
  rewrite mean_loss_c_map2. change (map (fun t => t + c) (matvec (m_rows A) w)) with (margins w c).
  rewrite L in G1, G2. unfold n in G1, G2. unfold lval. split.
  - match goal with |- Rabs (?a + ?p - (?m + ?p)) <= _ => replace (a + p - (m + p)) with (a - m) by ring end. exact G1.
  - intros H. rewrite G2; auto. apply Forall_forall. intros t Ht. unfold margins, matvec in Ht. rewrite map_map in Ht.
    apply in_map_iff in Ht. destruct Ht as (r & <- & Hr). apply H; auto.
Qed.
Lemma split_false x : split_intercept (K:=RN) false x = Ok (x, 0).
Proof. reflexivity. Qed.
Lemma split_true w (c : R) : split_intercept (K:=RN) true (w ++ [c]) = Ok (w, c).
Proof. unfold split_intercept. rewrite rev_app_distr. cbn. rewrite removelast_last. reflexivity. Qed.
Lemma margins0 w : margins w 0 = matvec (m_rows A) w.
Proof. unfold margins. erewrite map_ext; [apply map_id|]. intros; cbn; ring. Qed.
Lemma log_grad_eq w : vplus (smul (/ INR n) (wsum d (lres w 0) (m_rows A))) (smul alpha w) = rgrad dlog d (m_rows A) b alpha w.
Proof. unfold rgrad, mgrad, lres. rewrite margins0. reflexivity. Qed.
End LogLoss.
