(** * Proofs of the property theorems for copt/loss.py *)
From Coq Require Import Reals ZArith List Bool Lra Lia Psatz Permutation.
From Verif Require Import Num Vec Spec RVec ConvexFacts SpecLoss LossFacts LossScalar LossHess ModelPenalty PenaltyFacts ModelTv ModelLoss LossLink.
Import ListNotations.
Open Scope R_scope.
Local Notation log1pR := (fun t : R => ln (1 + t)) (only parsing).

Ltac nlen := change (@length (vec RN)) with (@length (list R)) in *; change (@length (list (carrier RN))) with (@length (list R)) in *;
  change (@length (carrier RN)) with (@length R) in *.
(** ** LogLoss *)
Lemma main_C19_value (A0 : option (matrix RN)) (A : matrix RN) (b : list R) (alpha : R) (x : list R) :
  log_init (K:=RN) A0 b = Ok A -> rect (m_cols A) (m_rows A) -> length x = m_cols A ->
  exists v : R, log_call (K:=RN) exp log1pR A b alpha false x = Ok (RLoss (K:=RN) v) /\
    (exists g, log_f_grad (K:=RN) exp log1pR A b alpha false x true = Ok (RPair (K:=RN) v g)) /\
    Rabs (v - ridge alpha (mean_loss log_term (m_rows A) b) x) <= exp (-33) /\
    ((forall r, In r (m_rows A) -> -18 <= dot r x < 37) -> v = ridge alpha (mean_loss log_term (m_rows A) b) x).
Proof.
  intros Hi HA Hx. destruct (log_init_inv A0 b A Hi) as (_ & Hb & Hn & _).
  exists (lval A b alpha x 0). unfold log_call. 
  rewrite (log_f_grad_core A b alpha HA Hb false x x 0 false) by auto.
  rewrite (log_f_grad_core A b alpha HA Hb false x x 0 true) by auto.
  destruct (lval_spec A b alpha Hb Hn x 0) as [G1 G2]. rewrite mean_loss_c0 in G1, G2.
  split; [reflexivity|]. split; [eexists; reflexivity|]. split; [exact G1|].
  intros H. apply G2. intros r Hr. rewrite Rplus_0_r. auto.
Qed.
Lemma main_C19_intercept (A0 : option (matrix RN)) (A : matrix RN) (b : list R) (alpha : R) (w : list R) (c : R) :
  log_init (K:=RN) A0 b = Ok A -> rect (m_cols A) (m_rows A) -> length w = m_cols A ->
  exists v : R, log_call (K:=RN) exp log1pR A b alpha true (w ++ [c]) = Ok (RLoss (K:=RN) v) /\
    Rabs (v - (mean_loss_c log_term (m_rows A) b w c + alpha / 2 * dot w w)) <= exp (-33) /\
    ((forall r, In r (m_rows A) -> -18 <= dot r w + c < 37) -> v = mean_loss_c log_term (m_rows A) b w c + alpha / 2 * dot w w).
Proof.
  intros Hi HA Hw. destruct (log_init_inv A0 b A Hi) as (_ & Hb & Hn & _).
  exists (lval A b alpha w c). unfold log_call.
  rewrite (log_f_grad_core A b alpha HA Hb true (w ++ [c]) w c false) by (auto; apply split_true).
  split; [reflexivity|]. apply lval_spec; auto.
Qed.

Lemma main_C20_gradient (A0 : option (matrix RN)) (A : matrix RN) (b : list R) (alpha : R) (x : list R) :
  log_init (K:=RN) A0 b = Ok A -> rect (m_cols A) (m_rows A) -> length x = m_cols A ->
  exists (v : R) (g : list R), log_f_grad (K:=RN) exp log1pR A b alpha false x true = Ok (RPair (K:=RN) v g) /\
    is_gradient (m_cols A) (ridge alpha (mean_loss log_term (m_rows A) b)) x g.
Proof.
  intros Hi HA Hx. destruct (log_init_inv A0 b A Hi) as (_ & Hb & Hn & _).
  rewrite (log_f_grad_core A b alpha HA Hb false x x 0 true) by auto. eexists. eexists. split; [reflexivity|].
  rewrite (log_grad_eq A b alpha). apply (rloss_gradient log_term dlog (/ 4)); auto; [apply log_gap|lra].
Qed.
Lemma mean_loss_aug phi d A b y : rect d A -> length y = S d -> mean_loss phi (aug A) b y = mean_loss_c phi A b (removelast y) (last y 0).
Proof.
  intros HA Hy. destruct (snoc_cases y d Hy) as (w & c & -> & Hw). rewrite removelast_last, last_last.
  rewrite mean_loss_map2, mean_loss_c_map2, aug_length, (aug_matvec d) by auto. reflexivity.
Qed.
Lemma main_C20_intercept (A0 : option (matrix RN)) (A : matrix RN) (b : list R) (alpha : R) (w : list R) (c : R) :
  log_init (K:=RN) A0 b = Ok A -> rect (m_cols A) (m_rows A) -> length w = m_cols A ->
  exists g : list R, log_f_grad (K:=RN) exp log1pR A b alpha true (w ++ [c]) true = Ok (RGrad (K:=RN) g) /\
    is_gradient (S (m_cols A)) (fun y => mean_loss_c log_term (m_rows A) b (removelast y) (last y 0) + alpha / 2 * dot (removelast y) (removelast y)) (w ++ [c]) g.
Proof.
  intros Hi HA Hw. destruct (log_init_inv A0 b A Hi) as (_ & Hb & Hn & _).
  rewrite (log_f_grad_core A b alpha HA Hb true (w ++ [c]) w c true) by (auto; apply split_true). eexists. split; [reflexivity|].
  set (d := m_cols A) in *. set (n := length (m_rows A)) in *.
  assert (HA' := aug_rect d _ HA). assert (Ln := aug_length (m_rows A)).
  assert (E : vplus (smul (/ INR n) (wsum d (lres A b w c) (m_rows A))) (smul alpha w) ++ [Rsum (lres A b w c) / INR n]
    = vplus (mgrad dlog (S d) (aug (m_rows A)) b (w ++ [c])) (smul alpha w ++ [0])).
  { unfold mgrad. rewrite Ln. fold n. rewrite (aug_matvec d) by auto. change (map2 dlog b (map (fun t => t + c) (matvec (m_rows A) w))) with (lres A b w c).
    rewrite (aug_wsum d) by (auto; apply lres_length; auto). rewrite smul_snoc. unfold vplus.
    pose proof (wsum_length d _ HA (lres A b w c)). rewrite lin_snoc by leng. f_equal. f_equal. change (@length (list R) (m_rows A)) with n. unfold Rdiv; ring. }
  rewrite E. apply (gradient_plus (S d)); [rewrite app_length; cbn; lia| |apply ridge_gradient_c; auto].
  eapply gradient_ext; [rewrite app_length; cbn; lia| |].
  - intros y Hy. apply (mean_loss_aug log_term d (m_rows A) b y HA Hy).
  - destruct (frobenius (S d) (aug (m_rows A)) HA') as (s & Hs & Ho).
    assert (Lx : length (w ++ [c]) = S d) by (rewrite app_length; cbn; lia).
    apply (gradient_intro (S d) _ _ _ (/ 4 * (s * s) / INR (length (aug (m_rows A))) / 2)); auto; [apply mgrad_length; auto|].
    intros y Hy. assert (Hb' : length b = length (aug (m_rows A))) by (change (@length (list R) (m_rows A)) with n in Ln; lia).
    pose proof (mean_gap log_term dlog (/ 4) log_gap ltac:(lra) (S d) (aug (m_rows A)) b HA' Hb' ltac:(lia) s Hs Ho (w ++ [c]) y Lx Hy) as G.
    rewrite <- dist2_dot by lia. rewrite Rabs_right by lra. apply G.
Qed.
Lemma main_C20_expit (t b : R) : expit_b (K:=RN) exp t b = sigma t - b /\ log_sigma (K:=RN) exp true t = sigma t /\ log_sigma (K:=RN) exp false t = sigma t.
Proof. split; [apply expit_b_R|split; apply log_sigma_R]. Qed.

Lemma main_C25_labels (A0 : option (matrix RN)) (b : list R) : b <> [] ->
  let A := match A0 with Some A => A | None => eye (K:=RN) (length b) end in
  (log_init (K:=RN) A0 b = Err ValueError <-> (Exists (fun t => t < 0 \/ 1 < t) b \/ (A0 <> None /\ length (m_rows A) <> length b))) /\
  (log_init (K:=RN) A0 b <> Err ValueError -> log_init (K:=RN) A0 b = Ok A).
Proof.
  intros N A. destruct (log_init_R A0 b) as [H1 H2]. fold A in H1, H2.
  assert (LN : A0 = None -> length (m_rows A) = length b).
  { intros ->. unfold A. destruct (eye_rect (length b)). auto. }
  assert (D : (Forall (fun t => 0 <= t <= 1) b /\ length (m_rows A) = length b) \/
              (Exists (fun t => t < 0 \/ 1 < t) b \/ (A0 <> None /\ length (m_rows A) <> length b))).
  { destruct (Nat.eq_dec (length (m_rows A)) (length b)) as [L|L].
    - assert (DD : Forall (fun t => 0 <= t <= 1) b \/ Exists (fun t => t < 0 \/ 1 < t) b).
      { clear. induction b as [|t b IH]; [left; constructor|]. destruct (Rle_dec 0 t); [destruct (Rle_dec t 1)|]; [|right; left; lra|right; left; lra].
        destruct IH; [left; constructor; auto|right; right; auto]. }
      destruct DD; auto.
    - right; right. split; auto. }
  destruct D as [[F L]|D].
  - rewrite H1 by auto. split; [|auto]. split; [discriminate|]. intros [X|[_ X]]; [|contradiction].
    exfalso. apply Exists_exists in X. destruct X as (t & I & X). rewrite Forall_forall in F. specialize (F t I). lra.
  - rewrite H2 by tauto. split; [tauto|]. intros X; contradiction.
Qed.
Lemma main_C25_empty (K : Num) (A0 : option (matrix K)) : log_init A0 [] = Err ValueError.
Proof. reflexivity. Qed.

(** ** SquareLoss *)
Lemma np_sub_eq (K : Num) (u v : vec K) : length u = length v -> np_sub u v = Ok (vsub u v).
Proof. intros H. unfold np_sub. rewrite H, Nat.eqb_refl. reflexivity. Qed.
Lemma sq_mean (z : list R) : @eq R (vmean (K:=RN) (vmul (K:=RN) z z)) (dot z z / INR (length z)).
Proof.
  unfold vmean. change (vsum (K:=RN) (vmul (K:=RN) z z)) with (vdot (K:=RN) z z). rewrite vdot_R, nofnat_R. unfold vmul. rewrite map2_length, Nat.min_id. reflexivity.
Qed.
Lemma sq_val_spec (A : list (list R)) (b x : list R) alpha : length b = length A -> (0 < length A)%nat ->
  ridge alpha (mean_loss sq_term A b) x = / (2 * INR (length A)) * dist2 (matvec A x) b + alpha / 2 * dot x x.
Proof.
  intros Hb Hn. unfold ridge. f_equal. rewrite mean_loss_map2. pose proof (lt_0_INR _ Hn).
  assert (E : Rsum (map2 sq_term b (matvec A x)) = / 2 * dist2 (matvec A x) b).
  { unfold matvec. clear Hn H. revert b Hb. induction A as [|r A IH]; intros [|b0 b] Hb; cbn in *; try lia; [lra|].
    rewrite IH by lia. unfold sq_term. ring. }
  rewrite E. field. lra.
Qed.
Section Sq.
Variables (A : matrix RN) (b : list R) (alpha : R).
Hypothesis HA : rect (m_cols A) (m_rows A).
Hypothesis Hb : length b = length (m_rows A).
Hypothesis Hn : (0 < length (m_rows A))%nat.
Lemma sq_core (x : list R) : length x = m_cols A ->
  sq_call (K:=RN) A b alpha x = Ok (ridge alpha (mean_loss sq_term (m_rows A) b) x) /\
  sq_f_grad (K:=RN) A b alpha x false = Ok (RLoss (K:=RN) (ridge alpha (mean_loss sq_term (m_rows A) b) x)) /\
  sq_f_grad (K:=RN) A b alpha x true = Ok (RPair (K:=RN) (ridge alpha (mean_loss sq_term (m_rows A) b) x) (rgrad dsq (m_cols A) (m_rows A) b alpha x)).
Proof.
  intros Hx. unfold sq_call, sq_f_grad. rewrite mat_dot_ok by auto. cbn [bind].
  rewrite np_sub_eq by (eapply eq_trans; [apply matvec_length|symmetry; exact Hb]). cbn [bind].
  rewrite vsub_R. set (z := vminus (matvec (m_rows A) x) b).
  assert (Lz : length z = length (m_rows A)) by (unfold z; pose proof (matvec_length (m_rows A) x); nlen; leng).
  assert (EV : @eq (carrier RN) (nlit (K:=RN) 1 2 * vmean (K:=RN) (vmul (K:=RN) z z) + nlit (K:=RN) 1 2 * ((alpha : carrier RN) * vdot (K:=RN) x x))%num (ridge alpha (mean_loss sq_term (m_rows A) b) x)).
  { rewrite sq_val_spec by auto. rewrite dist2_dot by (pose proof (matvec_length (m_rows A) x); nlen; lia). fold z.
    rewrite vdot_R, nlit_R. rewrite sq_mean, Lz. rn. pose proof (lt_0_INR _ Hn). field. lra. }
  rewrite EV. split; [reflexivity|]. cbn [negb]. split; [reflexivity|].
  rewrite tmat_dot_ok by (auto). cbn [bind]. f_equal. f_equal. unfold n_samples. rewrite nofnat_R.
  eapply eq_trans; [apply vadd_R|]. unfold rgrad, mgrad. f_equal. eapply eq_trans; [apply vdivs_R|]. f_equal. f_equal.
  unfold z. clear. revert b. generalize (matvec (m_rows A) x). induction l as [|t l IH]; intros [|b0 b]; cbn; auto. unfold vminus in IH. rewrite IH. unfold dsq. f_equal. ring.
Qed.
End Sq.
Lemma main_C21_square (A : matrix RN) (b : list R) (alpha : R) (x : list R) :
  rect (m_cols A) (m_rows A) -> length b = length (m_rows A) -> (0 < length (m_rows A))%nat -> length x = m_cols A ->
  let F := fun y => / (2 * INR (length (m_rows A))) * dist2 (matvec (m_rows A) y) b + alpha / 2 * dot y y in
  sq_call (K:=RN) A b alpha x = Ok (F x) /\ sq_f_grad (K:=RN) A b alpha x false = Ok (RLoss (K:=RN) (F x)) /\
  exists g, sq_f_grad (K:=RN) A b alpha x true = Ok (RPair (K:=RN) (F x) g) /\ is_gradient (m_cols A) F x g.
Proof.
  intros HA Hb Hn Hx F. destruct (sq_core A b alpha HA Hb Hn x Hx) as (E1 & E2 & E3).
  assert (EF : forall y, ridge alpha (mean_loss sq_term (m_rows A) b) y = F y) by (intros y; apply sq_val_spec; auto).
  rewrite EF in *. do 2 (split; [auto|]). eexists. split; [exact E3|].
  eapply gradient_ext; [exact Hx| |apply (rloss_gradient sq_term dsq 1); auto; [apply sq_gap|lra]].
  intros y _. apply EF.
Qed.
(** the constructor does not compare the shapes *)
Lemma main_C21_shapes (K : Num) (A : matrix K) (b : vec K) (alpha : K) (x : vec K) :
  (length x <> m_cols A -> sq_call A b alpha x = Err ValueError /\ forall rg, sq_f_grad A b alpha x rg = Err ValueError) /\
  (length x = m_cols A -> length b <> length (m_rows A) -> length b <> 1%nat -> length (m_rows A) <> 1%nat ->
     sq_call A b alpha x = Err ValueError /\ forall rg, sq_f_grad A b alpha x rg = Err ValueError) /\
  (length x = m_cols A -> length (m_rows A) = 1%nat -> (2 <= length b)%nat ->
     (exists v, sq_call A b alpha x = Ok v) /\ sq_f_grad A b alpha x true = Err ValueError).
Proof.
  unfold sq_call, sq_f_grad, mat_dot. split; [|split].
  - intros H. apply Nat.eqb_neq in H. rewrite H. auto.
  - intros H Hb Hb1 Hn. rewrite H, Nat.eqb_refl. cbn [bind].
    assert (E : np_sub (map (fun r : vec K => vdot r x) (m_rows A)) b = Err ValueError).
    { unfold np_sub. rewrite map_length. destruct (Nat.eqb_spec (length (m_rows A)) (length b)); [congruence|].
      destruct (m_rows A) as [|r [|r' rows]]; cbn in *; [|lia|]; destruct b as [|b0 [|b1 b]]; cbn in *; try lia; auto. }
    rewrite E. auto.
  - intros H Hn Hb. rewrite H, Nat.eqb_refl. cbn [bind].
    destruct (m_rows A) as [|r [|r' rows]] eqn:EA; cbn in Hn; try lia. destruct b as [|b0 [|b1 b]]; cbn in Hb; try lia.
    unfold np_sub. cbn [map length Nat.eqb bind]. split; [eexists; reflexivity|].
    unfold tmat_dot, n_samples. rewrite EA. cbn [length]. reflexivity.
Qed.

(** ** HuberLoss *)
Lemma mask_length {T U} (idx : list bool) (u : list T) (v : list U) : length u = length v -> length (mask idx u) = length (mask idx v).
Proof. revert u v; induction idx as [|[] idx IH]; intros [|a u] [|c v] L; cbn in *; try lia; auto. Qed.
Lemma mask_rect d rows : rect d rows -> forall ix, rect d (mask ix rows).
Proof.
  unfold rect. induction 1 as [|r rows Hr HR IH]; intros [|[] ix]; cbn; [constructor|constructor|constructor|constructor| |apply IH].
  constructor; [auto|apply IH].
Qed.
Section Hub.
Variables (A : matrix RN) (b : list R) (alpha delta : R).
Hypothesis HA : rect (m_cols A) (m_rows A).
Hypothesis Hb : length b = length (m_rows A).
Hypothesis Hn : (0 < length (m_rows A))%nat.
Hypothesis Hd : 0 < delta.
Let idx (z : list R) := map (fun t => Rltb (Rabs t) delta) z.
Lemma hub_val z : / 2 * Rsum (map2 Rmult (mask (idx z) z) (mask (idx z) z)) + Rsum (map (fun t => delta * (Rabs t - / 2 * delta)) (mask (map negb (idx z)) z))
  = Rsum (map (huber delta) z).
Proof.
  induction z as [|t z IH]; cbn; [ring|]. unfold huber at 1. destruct (Rltb_spec (Rabs t) delta) as [L|L]; cbn.
  - destruct (Rle_dec (Rabs t) delta); [|lra]. rewrite <- IH. fold (idx z). ring.
  - rewrite <- IH. fold (idx z). destruct (Rle_dec (Rabs t) delta) as [L2|L2]; [|ring].
    assert (E : Rabs t = delta) by lra. assert (t * t = delta * delta) by (rewrite <- E; unfold Rabs; destruct (Rcase_abs t); ring).
    rewrite E, H. field.
Qed.
Definition hres (z : list R) : list R := map (fun t => if Rltb (Rabs t) delta then t else delta * nsign (K:=RN) t) z.
Lemma hub_wsum d rows z : rect d rows -> length z = length rows ->
  vplus (wsum d (mask (idx z) z) (mask (idx z) rows)) (wsum d (map (fun t => delta * nsign (K:=RN) t) (mask (map negb (idx z)) z)) (mask (map negb (idx z)) rows))
  = wsum d (hres z) rows.
Proof.
  intros Hr. revert z. induction Hr as [|r rows Hr HR IH]; intros [|t z] L; cbn in L; try lia.
  - cbn. unfold vplus. apply (list_ext _ _ 0); [leng|]. intros i Hi. rewrite nth_lin by leng. rewrite !nth_zeros. ring.
  - specialize (IH z ltac:(lia)).
    assert (RM : forall ix, rect d (mask ix rows)).
    { apply mask_rect; exact HR. }
    cbn [idx hres map mask wsum negb] in *. fold (idx z) in *. fold (hres z) in *.
    set (p := wsum d (mask (idx z) z) (mask (idx z) rows)) in *.
    set (q := wsum d (map (fun t => delta * nsign (K:=RN) t) (mask (map negb (idx z)) z)) (mask (map negb (idx z)) rows)) in *.
    assert (Lp : length p = d) by (apply wsum_length, RM). assert (Lq : length q = d) by (apply wsum_length, RM).
    rewrite <- IH. destruct (Rltb (Rabs t) delta); cbn [negb mask wsum map].
    + fold p q. apply (list_ext _ _ 0); [leng|]. intros i Hi. unfold vplus. repeat rewrite nth_lin by leng. rewrite nth_smul. ring.
    + fold p q. apply (list_ext _ _ 0); [leng|]. intros i Hi. unfold vplus. repeat rewrite nth_lin by leng. rewrite nth_smul. ring.
Qed.
Lemma nsign_R_pos (t : R) : 0 < t -> @eq R (nsign (K:=RN) t) 1.
Proof. intros H. unfold nsign. rn. rewrite Rltb_true by auto. reflexivity. Qed.
Lemma nsign_R_neg (t : R) : t < 0 -> @eq R (nsign (K:=RN) t) (-1).
Proof. intros H. unfold nsign. rn. rewrite Rltb_false by lra. rewrite Rltb_true by auto. reflexivity. Qed.
Lemma hres_dhub l : length l = length b -> hres (vminus l b) = map2 (dhub delta) b l.
Proof.
  clear HA Hb Hn. revert l. induction b as [|b0 b' IH]; intros [|t l] L; cbn in L; try lia; [reflexivity|].
  specialize (IH l ltac:(lia)). unfold vminus in *. cbn [lin hres map map2]. fold (hres (lin 1 l (-1) b')). rewrite IH. f_equal.
  replace (1 * t + -1 * b0) with (t - b0) by ring.
  destruct (dhub_cases delta b0 t Hd) as [[M E]|[[M E]|[M E]]]; rewrite E.
  - rewrite Rltb_false by (rewrite Rabs_left; lra). rewrite nsign_R_neg by lra. ring.
  - destruct (Rltb_spec (Rabs (t - b0)) delta) as [Q|Q]; [reflexivity|]. unfold Rabs in Q. destruct (Rcase_abs (t - b0)).
    + rewrite nsign_R_neg by lra. lra.
    + rewrite nsign_R_pos by lra. lra.
  - rewrite Rltb_false by (rewrite Rabs_right; lra). rewrite nsign_R_pos by lra. ring.
Qed.
Lemma hub_esum : forall (b l : list R), length l = length b -> Rsum (map (huber delta) (vminus l b)) = Rsum (map2 (hub_term delta) b l).
Proof.
  intros b1. induction b1 as [|b0 b1 IH]; intros [|t l] L; cbn in *; try lia; auto. unfold hub_term at 1. replace (1 * t + -1 * b0) with (t - b0) by ring.
  f_equal. apply IH. lia.
Qed.
Lemma hub_core (x : list R) : length x = m_cols A ->
  hub_f_grad (K:=RN) A b alpha delta x false = Ok (RLoss (K:=RN) (ridge alpha (mean_loss (hub_term delta) (m_rows A) b) x)) /\
  hub_f_grad (K:=RN) A b alpha delta x true = Ok (RPair (K:=RN) (ridge alpha (mean_loss (hub_term delta) (m_rows A) b) x) (rgrad (dhub delta) (m_cols A) (m_rows A) b alpha x)).
Proof.
  intros Hx. unfold hub_f_grad. rewrite mat_dot_ok by auto. cbn [bind].
  pose proof (matvec_length (m_rows A) x) as Lm.
  rewrite np_sub_eq by (eapply eq_trans; [exact Lm|symmetry; exact Hb]). cbn [bind].
  rewrite vsub_R. set (z := vminus (matvec (m_rows A) x) b).
  assert (Lz : length z = length (m_rows A)) by (unfold z; nlen; leng). pose proof (lt_0_INR _ Hn) as P.
  change (map (fun t : RN => (nabs RN t <? delta)%num) z) with (idx z).
  match goal with |- context [RLoss ?e] => assert (EV : @eq (carrier RN) e (ridge alpha (mean_loss (hub_term delta) (m_rows A) b) x)) end.
  { rewrite vdot_R, nlit_R, nofnat_R, !vsum_R. unfold ridge. rewrite mean_loss_map2. nlen. rewrite Lz. rn.
    replace (map (fun t : R => delta * (Rabs t - 1 / 2 * delta)) (mask (map negb (idx z)) z)) with (map (fun t : R => delta * (Rabs t - / 2 * delta)) (mask (map negb (idx z)) z)) by (apply map_ext; intros; field).
    pose proof (hub_val z) as HV. unfold vmul. rn.
    assert (E2 : Rsum (map (huber delta) z) = Rsum (map2 (hub_term delta) b (matvec (m_rows A) x))).
    { unfold z. apply hub_esum. nlen. lia. }
    rewrite <- E2, <- HV. field. lra. }
  rewrite EV. cbn [negb]. split; [reflexivity|].
  replace (Nat.eqb (@length (carrier RN) z) (n_samples A)) with true by (symmetry; apply Nat.eqb_eq; exact Lz). cbn [negb]. f_equal. f_equal.
  assert (RM : forall ix, rect (m_cols A) (mask ix (m_rows A))).
  { apply mask_rect; exact HA. }
  unfold n_samples. rewrite nofnat_R.
  rewrite !rows_sum_R by apply RM.
  set (p := wsum _ _ (mask (idx z) (m_rows A))). set (q := wsum (m_cols A) (map (fun t : R => delta * nsign (K:=RN) t) (mask (map negb (idx z)) z)) (mask (map negb (idx z)) (m_rows A))).
  change (wsum (m_cols A) (map (fun t : carrier RN => nmul RN delta (nsign (K:=RN) t)) (mask (map negb (idx z)) z)) (mask (map negb (idx z)) (m_rows A))) with q.
  assert (Lp : length p = m_cols A) by (apply wsum_length, RM). assert (Lq : length q = m_cols A) by (apply wsum_length, RM).
  assert (W : vplus p q = wsum (m_cols A) (hres z) (m_rows A)) by exact (hub_wsum (m_cols A) (m_rows A) z HA Lz).
  unfold rgrad, mgrad. rewrite <- (hres_dhub (matvec (m_rows A) x)) by (nlen; lia). fold z. rewrite <- W.
  eapply eq_trans; [apply vadd_R|]. eapply eq_trans; [apply f_equal2; [apply vadd_R|apply vdivs_R]|].
  eapply eq_trans; [apply f_equal2; [apply f_equal2; [apply vdivs_R|reflexivity]|reflexivity]|].
  change (vscale (K:=RN) alpha x) with (smul alpha x). clearbody p q.
  apply (list_ext _ _ 0); [leng|]. intros i Hi. unfold vplus. repeat rewrite nth_lin by leng. rewrite !nth_smul. repeat rewrite nth_lin by leng. nlen. ring.
Qed.
End Hub.
Lemma main_C22_huber (A : matrix RN) (b : list R) (alpha delta : R) (x : list R) :
  rect (m_cols A) (m_rows A) -> length b = length (m_rows A) -> (0 < length (m_rows A))%nat -> 0 < delta -> length x = m_cols A ->
  let F := ridge alpha (mean_loss (hub_term delta) (m_rows A) b) in
  hub_call (K:=RN) A b alpha delta x = Ok (RLoss (K:=RN) (F x)) /\
  exists g, hub_f_grad (K:=RN) A b alpha delta x true = Ok (RPair (K:=RN) (F x) g) /\ is_gradient (m_cols A) F x g.
Proof.
  intros HA Hb Hn Hd Hx F. destruct (hub_core A b alpha delta HA Hb Hn Hd x Hx) as (E1 & E2).
  split; [exact E1|]. eexists. split; [exact E2|].
  apply (rloss_gradient (hub_term delta) (dhub delta) 1); auto; [intros; apply hub_gap; auto|lra].
Qed.
