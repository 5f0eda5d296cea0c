(** * Hessian products, partial derivatives, intercept mode, end-to-end rates (copt/loss.py) *)
From Coq Require Import Reals ZArith List Bool Lra Lia Psatz Permutation.
From Verif Require Import Num Vec Spec RVec ConvexFacts SpecLoss LossFacts LossScalar LossHess ModelPenalty PenaltyFacts ModelTv ModelLoss LossLink LossMain LossMain2.
Import ListNotations.
Open Scope R_scope.
Local Notation log1pR := (fun t : R => ln (1 + t)) (only parsing).

(** ** hessian_mv *)
Definition wrows (z : list R) (rows : list (list R)) : list (list R) := map2 (@vscale RN) (map dsig z) rows.
Lemma wrows_rect d z rows : rect d rows -> rect d (wrows z rows).
Proof. intros H. revert z. unfold wrows. induction H as [|r rows Hr H IH]; intros [|t z]; cbn; constructor; auto. - unfold vscale. rewrite map_length. auto. - apply IH. Qed.
Lemma weighted_dot (rows : list (list R)) : forall (z s : list R), length z = length rows ->
  matvec (wrows z rows) s = map2 (fun t v => dsig t * v) z (matvec rows s).
Proof.
  induction rows as [|r rows IH]; intros [|t z] s L; cbn in L; try lia; auto. cbn [map map2 matvec wrows]. f_equal; [|apply IH; lia].
  rewrite vscale_R. apply dot_smul_l.
Qed.
Lemma weighted_ones d (rows : list (list R)) : rect d rows -> forall (z : list R), length z = length rows ->
  wsum d (repeat 1 (length rows)) (wrows z rows) = wsum d (map dsig z) rows.
Proof.
  induction 1 as [|r rows Hr H IH]; intros [|t z] L; cbn in L; try lia; auto.
  unfold wrows in *. cbn [length repeat map map2 wsum]. rewrite IH by lia. f_equal. replace (vscale (K:=RN) (dsig t) r) with (smul (dsig t) r) by (symmetry; apply vscale_R).
  apply (list_ext _ _ 0); [leng|]. intros i Hi. rewrite !nth_smul. ring.
Qed.
Lemma wsum_add d (A : list (list R)) : rect d A -> forall a b, length a = length b -> wsum d (vplus a b) A = vplus (wsum d a A) (wsum d b A).
Proof.
  induction 1 as [|r A Hr HA IH]; intros [|x a] [|y b] L; cbn in L; try lia.
  1-3: cbn; apply (list_ext _ _ 0); [leng|intros i Hi; unfold vplus; rewrite nth_lin by leng; rewrite !nth_zeros; ring].
  change (vplus (x :: a) (y :: b)) with ((1 * x + 1 * y) :: vplus a b). cbn [wsum]. rewrite IH by lia.
  pose proof (wsum_length d A HA a). pose proof (wsum_length d A HA b).
  apply (list_ext _ _ 0); [leng|]. intros i Hi. unfold vplus. repeat rewrite nth_lin by leng. rewrite !nth_smul. ring.
Qed.
Lemma weights_split e : forall z v : list R, length z = length v ->
  map2 (fun t v => dsig t * v) z (map (fun t => t + e) v) = vplus (map2 (fun t v => dsig t * v) z v) (smul e (map dsig z)).
Proof. induction z as [|t z IH]; intros [|x v] L; cbn in L; try lia; auto. cbn [map map2]. rewrite IH by lia. cbn. unfold vplus. f_equal. ring. Qed.
Lemma Rsum_vplus : forall a b : list R, length a = length b -> Rsum (vplus a b) = Rsum a + Rsum b.
Proof. induction a as [|x a IH]; intros [|y b] L; cbn in L; try lia; cbn; [ring|]. unfold vplus in IH. rewrite IH by lia. ring. Qed.
Lemma Rsum_smul e : forall a : list R, Rsum (smul e a) = e * Rsum a.
Proof. induction a as [|x a IH]; cbn; [ring|]. unfold smul in IH. rewrite IH. ring. Qed.
Lemma Rsum_map2_dot : forall z v : list R, Rsum (map2 (fun t v => dsig t * v) z v) = dot (map dsig z) v.
Proof. induction z as [|t z IH]; intros [|x v]; cbn; auto. rewrite IH. auto. Qed.
Section Hess.
Variables (A : matrix RN) (alpha : R).
Hypothesis HA : rect (m_cols A) (m_rows A).
Let d := m_cols A.
Let n := length (m_rows A).
Lemma hess_false (x s : list R) : length x = d -> length s = d ->
  log_hessian_mv (K:=RN) sigma A alpha false x s = Ok (vplus (mhess d (m_rows A) x s) (smul (/ INR n * alpha) s)).
Proof.
  intros Hx Hs. unfold log_hessian_mv. rewrite split_false. cbn [bind]. rewrite mat_dot_ok by auto. cbn [bind].
  set (ax := matvec (m_rows A) x). assert (Lx : length ax = n) by apply matvec_length.
  match goal with |- context [map2 (@vscale RN) ?q _] => assert (Ed : @eq (list (carrier RN)) q (map dsig ax)) end.
  { rewrite map_map. apply map_ext. intros t. rn. rewrite Rplus_0_r. reflexivity. }
  rewrite Ed. assert (Ef : firstn (m_cols A) s = s) by (apply firstn_all2; fold d; lia). 
  match goal with |- context [mat_dot ?M ?v9] => assert (EM : mat_dot (K:=RN) M v9 = Ok (map2 (fun t v => dsig t * v) ax (matvec (m_rows A) s))) end.
  { rewrite mat_dot_ok by (cbn; etransitivity; [apply (f_equal (@length R) Ef)|exact Hs]). cbn [m_rows]. f_equal. etransitivity; [apply (f_equal _ Ef)|].
    apply (weighted_dot (m_rows A) ax s). exact Lx. }
  rewrite EM. cbn [bind]. rewrite tmat_dot_ok by (auto; rewrite map2_length, matvec_length; unfold n in *; nlen; lia). cbn [bind]. f_equal.
  etransitivity; [apply vdivs_R|]. rewrite INR_eq. fold n. etransitivity; [apply (f_equal (smul _)); apply vadd_R|].
  etransitivity; [apply (f_equal (fun q => smul _ (vplus _ q))); etransitivity; [apply (f_equal (vscale (K:=RN) alpha) Ef)|apply vscale_R]|].
  unfold mhess. change (@length (list R) (m_rows A)) with n. fold ax d. pose proof (wsum_length d _ HA (map2 (fun t v => dsig t * v) ax (matvec (m_rows A) s))) as Lw.
  fold d. apply (list_ext _ _ 0); [leng|]. intros i Hi. unfold vplus. rewrite nth_smul. rewrite !nth_lin by leng. rewrite !nth_smul. ring.
Qed.
Lemma hess_true (w : list R) (c : R) (s : list R) (e : R) : length w = d -> length s = d ->
  log_hessian_mv (K:=RN) sigma A alpha true (w ++ [c]) (s ++ [e]) =
  Ok (vplus (mhess (S d) (aug (m_rows A)) (w ++ [c]) (s ++ [e])) (smul (/ INR n * alpha) s ++ [0])).
Proof.
  intros Hx Hs. unfold log_hessian_mv. rewrite split_true. cbn [bind]. rewrite mat_dot_ok by auto. cbn [bind].
  set (z := map (fun t => t + c) (matvec (m_rows A) w)). assert (Lz : length z = n) by (unfold z; rewrite map_length; apply matvec_length).
  match goal with |- context [map2 (@vscale RN) ?q _] => assert (Ed : @eq (list (carrier RN)) q (map dsig z)) end.
  { unfold z. rewrite !map_map. apply map_ext. intros t. rn. reflexivity. }
  rewrite Ed. assert (Ef : firstn (m_cols A) (s ++ [e]) = s). { rewrite firstn_app. fold d. rewrite Hs, Nat.sub_diag. cbn. rewrite app_nil_r. apply firstn_all2. lia. }
  set (v := matvec (m_rows A) s). assert (Lv : length v = n) by apply matvec_length.
  match goal with |- context [mat_dot ?M ?v9] => assert (EM : mat_dot (K:=RN) M v9 = Ok (map2 (fun t v => dsig t * v) z (matvec (m_rows A) s))) end.
  { rewrite mat_dot_ok by (cbn; etransitivity; [apply (f_equal (@length R) Ef)|exact Hs]). cbn [m_rows]. f_equal. etransitivity; [apply (f_equal _ Ef)|].
    apply (weighted_dot (m_rows A) z s). exact Lz. }
  rewrite EM. cbn [bind]. rewrite tmat_dot_ok by (auto; rewrite map2_length, matvec_length; unfold n in *; nlen; lia). cbn [bind].
  rewrite rev_app_distr. cbn [rev app bind m_rows]. f_equal.
  assert (Edd : rows_sum (K:=RN) (m_cols A) (map2 (@vscale RN) (map dsig z) (m_rows A)) (repeat n1 (n_samples A)) = wsum d (map dsig z) (m_rows A)).
  { etransitivity; [apply (rows_sum_R d (wrows z (m_rows A))); apply wrows_rect; auto|]. apply (weighted_ones d (m_rows A) HA z Lz). }
  match goal with |- context [rows_sum ?a ?b ?c] => replace (rows_sum (K:=RN) a b c) with (wsum d (map dsig z) (m_rows A)) by (symmetry; exact Edd) end.
  etransitivity; [apply vdivs_R|]. rewrite INR_eq. fold n.
  set (p := wsum d (map2 (fun t v => dsig t * v) z v) (m_rows A)). set (q := wsum d (map dsig z) (m_rows A)).
  match goal with |- smul _ ?l = _ => assert (EL : @eq (list R) l (vplus (vplus p (smul alpha s)) (smul e q) ++ [dot q s + Rsum (map dsig z) * e])) end.
  { f_equal.
    - etransitivity; [apply vadd_R|]. apply (f_equal2 vplus); [|apply vscale_R]. etransitivity; [apply vadd_R|]. apply (f_equal2 vplus); [reflexivity|]. etransitivity; [apply (f_equal (vscale (K:=RN) alpha) Ef)|apply vscale_R].
    - apply (f_equal (fun t : R => [t])). apply (f_equal2 Rplus); [|apply (f_equal (fun t => t * e)); apply vsum_R]. etransitivity; [apply vdot_R|]. apply (f_equal (dot q) Ef). }
  rewrite EL. clear EL. unfold p, q. clear p q.
  pose proof (wsum_length d _ HA (map dsig z)) as L1. pose proof (wsum_length d _ HA (map2 (fun t v => dsig t * v) z v)) as L2.
  set (u := map2 (fun t v => dsig t * v) z (map (fun t => t + e) v)).
  assert (Lu : length u = n) by (unfold u; rewrite map2_length, map_length; lia).
  assert (EW : wsum d u (m_rows A) = vplus (wsum d (map2 (fun t v => dsig t * v) z v) (m_rows A)) (smul e (wsum d (map dsig z) (m_rows A)))).
  { unfold u. rewrite weights_split by lia. rewrite (wsum_add d) by (auto; rewrite map2_length, smul_length, map_length; lia). rewrite (wsum_smul d) by auto. reflexivity. }
  unfold mhess. rewrite aug_length. change (@length (list R) (m_rows A)) with n. rewrite (aug_matvec d (m_rows A) w c HA Hx), (aug_matvec d (m_rows A) s e HA Hs). fold z v. fold u.
  rewrite (aug_wsum d (m_rows A) HA u Lu). rewrite EW. rewrite !smul_snoc. unfold vplus at 3. rewrite lin_snoc by (fold (vplus (wsum d (map2 (fun t v => dsig t * v) z v) (m_rows A)) (smul e (wsum d (map dsig z) (m_rows A)))); leng).
  f_equal.
  - set (p := wsum d (map2 (fun t v => dsig t * v) z v) (m_rows A)) in *. set (q := wsum d (map dsig z) (m_rows A)) in *.
    apply (list_ext _ _ 0); [leng|]. intros i Hi. unfold vplus. rewrite nth_smul. repeat rewrite nth_lin by leng. rewrite !nth_smul. repeat rewrite nth_lin by leng. rewrite !nth_smul. ring.
  - f_equal. unfold u. rewrite weights_split by lia. rewrite Rsum_vplus by (rewrite map2_length, smul_length, map_length; lia). rewrite Rsum_smul, Rsum_map2_dot.
    rewrite (wsum_dot d) by (auto; rewrite map_length; exact Lz). fold v. rn. ring.
Qed.
End Hess.

Lemma rgrad_second d A b alpha x : rect d A -> length b = length A -> (0 < length A)%nat -> length x = d ->
  is_derivative d (rgrad dlog d A b alpha) x (fun s => vplus (mhess d A x s) (smul alpha s)).
Proof.
  intros HA Hb Hn Hx. destruct (mgrad_second d A b HA Hb Hn x Hx) as (C & PC & HC).
  apply (derivative_intro d _ x _ C). intros y Hy. specialize (HC y Hy).
  eapply Rle_trans; [|exact HC]. right. f_equal. unfold rgrad.
  pose proof (mgrad_length dlog d A b HA y). pose proof (mgrad_length dlog d A b HA x). pose proof (mhess_length d A HA x (vminus y x)) as Lh.
  set (g1 := mgrad dlog d A b y) in *. set (g0 := mgrad dlog d A b x) in *. set (h := mhess d A x (vminus y x)) in *.
  apply (list_ext _ _ 0); [leng|]. intros i Hi. unfold vminus, vplus. repeat rewrite nth_lin by leng. rewrite !nth_smul. repeat rewrite nth_lin by leng. ring.
Qed.
Lemma derivative_ext n G x H H' : length x = n -> (forall s, length s = n -> H s = H' s) -> is_derivative n G x H -> is_derivative n G x H'.
Proof. intros Hx E D eps He. destruct (D eps He) as (dl & P & Q). exists dl. split; auto. intros y Hy Hd. rewrite <- E by leng. auto. Qed.
Lemma derivative_fun_ext n G G' x H : length x = n -> (forall s, length s = n -> G s = G' s) -> is_derivative n G x H -> is_derivative n G' x H.
Proof. intros Hx E D eps He. destruct (D eps He) as (dl & P & Q). exists dl. split; auto. intros y Hy Hd. rewrite <- !E by auto. auto. Qed.

Lemma main_C24_hessian_partial (A0 : option (matrix RN)) (A : matrix RN) (b : list R) (alpha : R) (x : list R) :
  log_init (K:=RN) A0 b = Ok A -> rect (m_cols A) (m_rows A) -> length x = m_cols A ->
  exists G H : list R -> list R,
    (forall y : list R, length y = m_cols A -> exists v : R, log_f_grad (K:=RN) exp log1pR A b alpha false y true = Ok (RPair (K:=RN) v (G y))) /\
    (forall s : list R, length s = m_cols A -> log_hessian_mv (K:=RN) sigma A alpha false x s = Ok (H s)) /\
    is_derivative (m_cols A) G x (fun s => vplus (H s) (smul ((1 - / INR (length b)) * alpha) s)) /\
    (alpha = 0 \/ length b = 1%nat -> is_derivative (m_cols A) G x H).
Proof.
  intros Hi HA Hx. destruct (log_init_inv A0 b A Hi) as (_ & Hb & Hn & _).
  exists (rgrad dlog (m_cols A) (m_rows A) b alpha).
  exists (fun s => vplus (mhess (m_cols A) (m_rows A) x s) (smul (/ INR (length (m_rows A)) * alpha) s)).
  assert (D := rgrad_second (m_cols A) (m_rows A) b alpha x HA Hb Hn Hx).
  split; [|split; [|split]].
  - intros y Hy. eexists. rewrite (log_f_grad_core A b alpha HA Hb false y y 0 true) by auto. rewrite <- (log_grad_eq A b alpha). reflexivity.
  - intros s Hs. apply hess_false; auto.
  - eapply derivative_ext; [exact Hx| |exact D]. intros s Hs. cbn beta. pose proof (mhess_length (m_cols A) (m_rows A) HA x s) as Lh. set (h := mhess _ _ x s) in *. clearbody h. rewrite Hb. nlen.
    set (k := INR (length (m_rows A))). apply (list_ext _ _ 0); [leng|]. intros i Hi'. unfold vplus. repeat rewrite nth_lin by leng. rewrite !nth_smul. ring.
  - intros Hz. eapply derivative_ext; [exact Hx| |exact D]. intros s Hs. cbn beta. f_equal. f_equal. destruct Hz as [->|L]; [ring|]. replace (length (m_rows A)) with 1%nat by lia. cbn. field.
Qed.
Lemma main_C24_refuted (A0 : option (matrix RN)) (A : matrix RN) (b : list R) (alpha : R) (x : list R) (G H : list R -> list R) :
  log_init (K:=RN) A0 b = Ok A -> rect (m_cols A) (m_rows A) -> length x = m_cols A ->
  (0 < m_cols A)%nat -> (2 <= length b)%nat -> alpha <> 0 ->
  (forall y : list R, length y = m_cols A -> exists v : R, log_f_grad (K:=RN) exp log1pR A b alpha false y true = Ok (RPair (K:=RN) v (G y))) ->
  (forall s : list R, length s = m_cols A -> log_hessian_mv (K:=RN) sigma A alpha false x s = Ok (H s)) ->
  ~ is_derivative (m_cols A) G x H.
Proof.
  intros Hi HA Hx Hd Hn2 Ha HG HH D.
  destruct (main_C24_hessian_partial A0 A b alpha x Hi HA Hx) as (G' & H' & HG' & HH' & D' & _).
  assert (LH : forall s, length s = m_cols A -> length (H s) = m_cols A).
  { intros s Hs. pose proof (hess_false A alpha HA x s Hx Hs) as E. rewrite (HH s Hs) in E. assert (E2 : H s = vplus (mhess (m_cols A) (m_rows A) x s) (smul (/ INR (length (m_rows A)) * alpha) s)) by congruence.
    rewrite E2. pose proof (mhess_length (m_cols A) (m_rows A) HA x s). leng. }
  assert (LG : forall s, length s = m_cols A -> length (G s) = m_cols A).
  { intros s Hs. destruct (HG s Hs) as (v & E). destruct (log_init_inv A0 b A Hi) as (_ & Hb & Hn & _).
    rewrite (log_f_grad_core A b alpha HA Hb false s s 0 true) in E by auto. rewrite (log_grad_eq A b alpha) in E.
    assert (E2 : G s = rgrad dlog (m_cols A) (m_rows A) b alpha s) by congruence. rewrite E2. apply rgrad_length; auto. }
  assert (EG : forall s, length s = m_cols A -> G' s = G s).
  { intros s Hs. destruct (HG s Hs) as (v & E). destruct (HG' s Hs) as (v' & E'). congruence. }
  assert (EH : forall s, length s = m_cols A -> H' s = H s).
  { intros s Hs. pose proof (HH s Hs). pose proof (HH' s Hs). congruence. }
  set (d := m_cols A) in *. set (k := (1 - / INR (length b)) * alpha) in *.
  assert (Pk : 0 < Rabs k).
  { apply Rabs_pos_lt. unfold k. apply Rmult_integral_contrapositive. split; auto. apply le_INR in Hn2. cbn in Hn2. intros E.
    assert (/ INR (length b) <= / 2) by (apply Rinv_le_contravar; lra). lra. }
  destruct (D (Rabs k / 4)) as (d1 & P1 & Q1); [lra|]. destruct (D' (Rabs k / 4)) as (d2 & P2 & Q2); [lra|].
  destruct (nonzero_vec d Hd) as (v & Hv & Nz).
  assert (Pn : 0 < norm2 v). { pose proof (norm2_nonneg v). destruct (Req_dec (norm2 v) 0) as [E|E]; [|lra]. exfalso. apply Nz. rewrite <- Hv. apply dot_self_zero. rewrite <- norm2_sq, E. ring. }
  set (dl := Rmin d1 d2). assert (Pd : 0 < dl) by (unfold dl; apply Rmin_pos; auto).
  set (t := dl / norm2 v). assert (Pt : 0 < t) by (apply Rdiv_lt_0_compat; auto).
  set (y := vplus x (smul t v)). assert (Ly : length y = d) by (unfold y; leng).
  assert (Eyx : vminus y x = smul t v). { unfold y. apply (list_ext _ _ 0); [leng|]. intros i Hi'. unfold vminus, vplus. repeat rewrite nth_lin by leng. ring. }
  assert (En : norm2 (smul t v) = dl). { rewrite norm2_smul, Rabs_right by lra. unfold t. field. lra. }
  specialize (Q1 y Ly). specialize (Q2 y Ly). rewrite Eyx, En in Q1, Q2.
  specialize (Q1 ltac:(unfold dl; apply Rmin_l)). specialize (Q2 ltac:(unfold dl; apply Rmin_r)).
  rewrite !EG in Q2 by auto. rewrite EH in Q2 by leng.
  set (g := vminus (G y) (G x)) in *. assert (Lg : length g = d) by (unfold g; pose proof (LG y Ly); pose proof (LG x Hx); leng).
  set (h := H (smul t v)) in *. assert (Lh : length h = d) by (apply LH; leng).
  assert (T : norm2 (smul k (smul t v)) <= norm2 (vminus g h) + norm2 (vminus g (vplus h (smul k (smul t v))))).
  { replace (smul k (smul t v)) with (vminus (vminus g h) (vminus g (vplus h (smul k (smul t v))))) at 1.
    - unfold vminus at 1. eapply Rle_trans; [apply norm2_triangle; leng|]. rewrite Rabs_R1. replace (Rabs (-1)) with 1 by (rewrite Rabs_left; lra). lra.
    - apply (list_ext _ _ 0); [leng|]. intros i Hi'. unfold vminus, vplus. repeat rewrite nth_lin by leng. ring. }
  rewrite norm2_smul, En in T. nra.
Qed.

Lemma grad_c_eq (A : matrix RN) (b : list R) (alpha : R) (w : list R) (c : R) : rect (m_cols A) (m_rows A) -> length b = length (m_rows A) -> length w = m_cols A ->
  vplus (smul (/ INR (length (m_rows A))) (wsum (m_cols A) (lres A b w c) (m_rows A))) (smul alpha w) ++ [Rsum (lres A b w c) / INR (length (m_rows A))]
    = vplus (mgrad dlog (S (m_cols A)) (aug (m_rows A)) b (w ++ [c])) (smul alpha w ++ [0]).
Proof.
  intros HA Hb Hw. set (d := m_cols A) in *. set (n := length (m_rows A)) in *.
  unfold mgrad. rewrite aug_length. change (@length (list R) (m_rows A)) with n. rewrite (aug_matvec d) by auto. change (map2 dlog b (map (fun t => t + c) (matvec (m_rows A) w))) with (lres A b w c).
  rewrite (aug_wsum d) by (auto; apply lres_length; auto). rewrite smul_snoc. unfold vplus.
  pose proof (wsum_length d _ HA (lres A b w c)). rewrite lin_snoc by leng. f_equal. f_equal. unfold Rdiv; ring.
Qed.
Lemma main_C24_intercept_partial (A0 : option (matrix RN)) (A : matrix RN) (b : list R) (alpha : R) (x : list R) :
  log_init (K:=RN) A0 b = Ok A -> rect (m_cols A) (m_rows A) -> length x = S (m_cols A) ->
  exists G H : list R -> list R,
    (forall y : list R, length y = S (m_cols A) -> log_f_grad (K:=RN) exp log1pR A b alpha true y true = Ok (RGrad (K:=RN) (G y))) /\
    (forall s : list R, length s = S (m_cols A) -> log_hessian_mv (K:=RN) sigma A alpha true x s = Ok (H s)) /\
    is_derivative (S (m_cols A)) G x (fun s => vplus (H s) (smul ((1 - / INR (length b)) * alpha) (removelast s) ++ [0])).
Proof.
  intros Hi HA Hx. destruct (log_init_inv A0 b A Hi) as (_ & Hb & Hn & _).
  set (d := m_cols A) in *. set (n := length (m_rows A)) in *.
  assert (HA' := aug_rect d _ HA). assert (Ln := aug_length (m_rows A)).
  assert (Hb' : length b = length (aug (m_rows A))) by (change (@length (list R) (m_rows A)) with n in Ln; lia).
  exists (fun y => vplus (mgrad dlog (S d) (aug (m_rows A)) b y) (smul alpha (removelast y) ++ [0])).
  exists (fun s => vplus (mhess (S d) (aug (m_rows A)) x s) (smul (/ INR n * alpha) (removelast s) ++ [0])).
  assert (Lrl : forall y : list R, length y = S d -> length (removelast y) = d).
  { intros y Hy. destruct (snoc_cases y d Hy) as (w & c & -> & Hw). rewrite removelast_last. auto. }
  split; [|split].
  - intros y Hy. destruct (snoc_cases y d Hy) as (w & c & -> & Hw). rewrite removelast_last.
    rewrite (log_f_grad_core A b alpha HA Hb true (w ++ [c]) w c true) by (auto; apply split_true). f_equal. f_equal. apply grad_c_eq; auto.
  - intros s Hs. destruct (snoc_cases x d Hx) as (w & c & -> & Hw). destruct (snoc_cases s d Hs) as (s0 & e & -> & Hs0). rewrite removelast_last. apply hess_true; auto.
  - destruct (mgrad_second (S d) (aug (m_rows A)) b HA' Hb' ltac:(lia) x Hx) as (C & PC & HC).
    apply (derivative_intro (S d) _ x _ C). intros y Hy. specialize (HC y Hy).
    eapply Rle_trans; [|exact HC]. right. f_equal.
    pose proof (mgrad_length dlog (S d) _ b HA' y). pose proof (mgrad_length dlog (S d) _ b HA' x). pose proof (mhess_length (S d) _ HA' x (vminus y x)) as Lh.
    set (g1 := mgrad dlog (S d) _ b y) in *. set (g0 := mgrad dlog (S d) _ b x) in *. set (h := mhess (S d) _ x (vminus y x)) in *. clearbody g1 g0 h.
    rewrite Hb. change (@length (list R) (m_rows A)) with n. set (k := INR n).
    destruct (snoc_cases x d Hx) as (w & c & -> & Hw). destruct (snoc_cases y d Hy) as (s0 & e & -> & Hs0). unfold vminus at 3 4. rewrite !lin_snoc by lia. rewrite !removelast_last.
    assert (Ew : nth d (smul alpha s0 ++ [0]) 0 = 0 /\ nth d (smul alpha w ++ [0]) 0 = 0).
    { split; (rewrite app_nth2 by leng; rewrite smul_length, ?Hs0, ?Hw, Nat.sub_diag; reflexivity). }
    assert (LL : forall t (v : list R), length v = d -> length (smul t v ++ [0]) = S d) by (intros t v Hv; rewrite app_length, smul_length; cbn; lia).
    assert (Lm : length (lin 1 s0 (-1) w) = d) by leng.
    pose proof (LL alpha s0 Hs0) as L1. pose proof (LL alpha w Hw) as L2. pose proof (LL (/ k * alpha) _ Lm) as L3. pose proof (LL ((1 - / k) * alpha) _ Lm) as L4.
    assert (Li0 : length (vminus (vminus g1 g0) h) = S d) by leng.
    apply (list_ext _ _ 0). { rewrite Li0. revert L1 L2 L3 L4. generalize (smul alpha s0 ++ [0]) (smul alpha w ++ [0]) (smul (/ k * alpha) (lin 1 s0 (-1) w) ++ [0]) (smul ((1 - / k) * alpha) (lin 1 s0 (-1) w) ++ [0]). intros; leng. }
    intros i Hi'.
    assert (Li : (i < S d)%nat). { revert Hi' L1 L2 L3 L4. generalize (smul alpha s0 ++ [0]) (smul alpha w ++ [0]) (smul (/ k * alpha) (lin 1 s0 (-1) w) ++ [0]) (smul ((1 - / k) * alpha) (lin 1 s0 (-1) w) ++ [0]). intros l l0 l1 l2 Hq Q1 Q2 Q3 Q4; match type of Hq with (_ < ?t)%nat => assert (t = S d) by leng end; lia. }
    assert (S1 : nth i (smul alpha s0 ++ [0]) 0 = if (i <? d)%nat then alpha * nth i s0 0 else 0).
    { destruct (Nat.ltb_spec i d); [rewrite app_nth1 by leng; apply nth_smul|replace i with d by lia; apply Ew]. }
    assert (S2 : nth i (smul alpha w ++ [0]) 0 = if (i <? d)%nat then alpha * nth i w 0 else 0).
    { destruct (Nat.ltb_spec i d); [rewrite app_nth1 by leng; apply nth_smul|replace i with d by lia; apply Ew]. }
    assert (S3 : forall t, nth i (smul t (lin 1 s0 (-1) w) ++ [0]) 0 = if (i <? d)%nat then t * (nth i s0 0 - nth i w 0) else 0).
    { intros t. destruct (Nat.ltb_spec i d); [rewrite app_nth1 by leng; rewrite nth_smul, nth_lin by leng; ring|]. replace i with d by lia. rewrite app_nth2 by leng. rewrite smul_length, lin_length, Hs0, Hw. rewrite Nat.min_id, Nat.sub_diag. reflexivity. }
    assert (SUM : nth i (smul (/ k * alpha) (lin 1 s0 (-1) w) ++ [0]) 0 + nth i (smul ((1 - / k) * alpha) (lin 1 s0 (-1) w) ++ [0]) 0 = nth i (smul alpha s0 ++ [0]) 0 - nth i (smul alpha w ++ [0]) 0).
    { rewrite S1, S2, !S3. destruct (i <? d)%nat; ring. }
    clear S1 S2 S3 Ew LL. revert L1 L2 L3 L4 SUM. generalize (smul alpha s0 ++ [0]) (smul alpha w ++ [0]) (smul (/ k * alpha) (lin 1 s0 (-1) w) ++ [0]) (smul ((1 - / k) * alpha) (lin 1 s0 (-1) w) ++ [0]).
    intros r1 r2 r3 r4 L1 L2 L3 L4 SUM. unfold vminus, vplus. repeat rewrite nth_lin by leng. lra.
Qed.

(** ** partial_deriv *)
Definition pd1 {K : Num} (np_exp : K -> K) (p y : K) : K :=
  (if nltb K p (n0 (n:=K)) then (((n1 - y) * np_exp p - y) / (n1 + np_exp p))%num else (((n1 - y) - y * np_exp (- p)) / (n1 + np_exp (- p)))%num).
Lemma partial_any (K : Num) (np_exp : K -> K) (sched : list nat) (p y : list K) : length y = length p -> Permutation sched (seq 0 (length p)) ->
  log_partial_deriv np_exp sched p y = Ok (map2 (pd1 np_exp) p y).
Proof.
  intros Ly HP. unfold log_partial_deriv.
  assert (Hin : forall j, In j sched <-> (j < length p)%nat).
  { intros j. split; intros H; [apply (Permutation_in _ HP) in H; apply in_seq in H; lia|apply (Permutation_in _ (Permutation_sym HP)); apply in_seq; lia]. }
  assert (Lz : length (vzeros (K:=K) (length p)) = length p) by apply repeat_length.
  match goal with |- forM _ ?bd _ = _ => destruct (forM_upd_each sched bd (fun i _ => pd1 np_exp (nth i p n0) (nth i y n0)) (fun _ => True)) with (x := vzeros (K:=K) (length p)) as (x' & He & Hl & _ & H1 & _) end.
  - apply (Permutation_NoDup (Permutation_sym HP)), seq_NoDup.
  - intros j v Hj _ dd Hlt. split; auto. apply Hin in Hj. cbv beta.
    rewrite (get_ok p j n0) by exact Hj. cbn [bind]. rewrite (get_ok y j n0) by lia. cbn [bind]. rewrite set_ok by exact Hlt. reflexivity.
  - exact I.
  - apply Forall_forall. intros j Hj. apply Hin in Hj. lia.
  - rewrite He. f_equal. apply (nth_ext _ _ n0 n0); [rewrite map2_length; lia|]. intros j Hj.
    rewrite H1 by (apply Hin; lia).
    clear -Ly Hj Hl Lz. assert (Hj' : (j < length p)%nat) by lia. clear -Ly Hj'. revert y j Ly Hj'. induction p as [|a p IH]; intros [|c y] [|j] Ly Hj; cbn in *; try lia; auto. apply IH; lia.
Qed.
Lemma main_C26_schedules (K : Num) (np_exp : K -> K) (s1 s2 : list nat) (p y : list K) : length y = length p ->
  Permutation s1 (seq 0 (length p)) -> Permutation s2 (seq 0 (length p)) ->
  exists out, log_partial_deriv np_exp s1 p y = Ok out /\ log_partial_deriv np_exp s2 p y = Ok out /\ length out = length p.
Proof. intros Ly H1 H2. exists (map2 (pd1 np_exp) p y). rewrite !partial_any by auto. repeat split; auto. rewrite map2_length. lia. Qed.
Lemma pd1_R (p y : R) : @eq R (pd1 (K:=RN) exp p y) (sigma p - y).
Proof.
  unfold pd1, sigma. rn. pose proof (exp_pos p). pose proof (exp_pos (- p)).
  destruct (Rltb_spec p 0); [|field; lra]. rewrite exp_Ropp. field. lra.
Qed.
Lemma wsum_nth d (A : list (list R)) : rect d A -> forall u j, nth j (wsum d u A) 0 = Rsum (map2 (fun ui r => ui * nth j r 0) u A).
Proof.
  induction 1 as [|r A Hr HA IH]; intros [|x u] j; cbn [wsum map2 Rsum]; try apply nth_zeros. 
  pose proof (wsum_length d A HA u). unfold vplus. rewrite nth_lin by leng. rewrite IH, nth_smul. ring.
Qed.
Lemma main_C26_log (A0 : option (matrix RN)) (A : matrix RN) (b : list R) (alpha : R) (x : list R) (sched : list nat) :
  log_init (K:=RN) A0 b = Ok A -> rect (m_cols A) (m_rows A) -> length x = m_cols A -> Permutation sched (seq 0 (length b)) ->
  exists (p u : list R) (v : R) (g : list R), mat_dot (K:=RN) A x = Ok p /\ log_partial_deriv (K:=RN) exp sched p b = Ok u /\
    log_f_grad (K:=RN) exp log1pR A b alpha false x true = Ok (RPair (K:=RN) v g) /\ length g = m_cols A /\
    forall j, (j < m_cols A)%nat -> nth j g 0 = Rsum (map2 (fun ui r => ui * nth j r 0) u (m_rows A)) / INR (length b) + alpha * nth j x 0.
Proof.
  intros Hi HA Hx HP. destruct (log_init_inv A0 b A Hi) as (_ & Hb & Hn & _).
  rewrite mat_dot_ok by auto. exists (matvec (m_rows A) x), (map2 dlog b (matvec (m_rows A) x)). eexists. eexists. split; [reflexivity|].
  split; [|split].
  - assert (Lm : length (matvec (m_rows A) x) = length b) by (rewrite matvec_length; symmetry; exact Hb).
    rewrite <- Lm in HP. etransitivity; [apply (partial_any RN exp sched _ b (eq_sym Lm) HP)|]. f_equal. rewrite map2_swap. apply map2_ext. intros a t _. apply pd1_R.
  - rewrite (log_f_grad_core A b alpha HA Hb false x x 0 true) by auto. reflexivity.
  - rewrite (log_grad_eq A b alpha). split; [apply rgrad_length; auto|]. intros j Hj. unfold rgrad, mgrad.
    pose proof (wsum_length (m_cols A) (m_rows A) HA (map2 dlog b (matvec (m_rows A) x))).
    unfold vplus. rewrite nth_lin by leng. rewrite !nth_smul, (wsum_nth (m_cols A)) by auto. rewrite Hb. nlen. unfold Rdiv. ring.
Qed.
Lemma main_C26_square (A : matrix RN) (b : list R) (alpha : R) (x : list R) :
  rect (m_cols A) (m_rows A) -> length b = length (m_rows A) -> (0 < length (m_rows A))%nat -> length x = m_cols A ->
  exists (p u : list R) (v : R) (g : list R), mat_dot (K:=RN) A x = Ok p /\ sq_partial_deriv (K:=RN) p b = Ok u /\
    sq_f_grad (K:=RN) A b alpha x true = Ok (RPair (K:=RN) v g) /\ length g = m_cols A /\
    forall j, (j < m_cols A)%nat -> nth j g 0 = Rsum (map2 (fun ui r => ui * nth j r 0) u (m_rows A)) / INR (length b) + alpha * nth j x 0.
Proof.
  intros HA Hb Hn Hx. destruct (sq_core A b alpha HA Hb Hn x Hx) as (_ & _ & E).
  rewrite mat_dot_ok by auto. exists (matvec (m_rows A) x), (map2 dsq b (matvec (m_rows A) x)). eexists. eexists. split; [reflexivity|].
  split; [|split; [exact E|]].
  - unfold sq_partial_deriv. rewrite np_sub_eq by (rewrite matvec_length; auto). f_equal. assert (Lm : length (matvec (m_rows A) x) = length b) by (rewrite matvec_length; symmetry; exact Hb). revert Lm. generalize (matvec (m_rows A) x). clear.
    induction b as [|c b IH]; intros [|a l] L; cbn in L; try lia; auto. cbn [map2]. rewrite <- IH by lia. reflexivity.
  - split; [apply rgrad_length; auto|]. intros j Hj. unfold rgrad, mgrad.
    pose proof (wsum_length (m_cols A) (m_rows A) HA (map2 dsq b (matvec (m_rows A) x))).
    unfold vplus. rewrite nth_lin by leng. rewrite !nth_smul, (wsum_nth (m_cols A)) by auto. rewrite Hb. nlen. unfold Rdiv. ring.
Qed.
