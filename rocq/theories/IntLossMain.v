(** * Proofs for LogLoss on integer arrays *)
From Coq Require Import Reals ZArith List Bool Lra Lia.
From Verif Require Import Num Vec Spec RVec ConvexFacts SpecLoss LossFacts LossScalar LossHess ModelPenalty PenaltyFacts ModelTv ModelLoss LossLink LossMain LossMain3 ModelTorch ModelMemory MemoryMain ModelIntLoss.
Import ListNotations.
Local Open Scope R_scope.
Local Notation log1pR := (fun t : R => ln (1 + t)) (only parsing).

Lemma map2_ext {A B C : Type} (f g : A -> B -> C) : (forall a b, f a b = g a b) -> forall u v, map2 f u v = map2 g u v.
Proof. intros H. induction u as [|a u IH]; intros [|c v]; cbn; try reflexivity. rewrite H, IH. reflexivity. Qed.

(** float64 arrays, or no intercept: the plain model, for every arithmetic *)
Lemma main_C126_float_partial : forall (K : Num) (np_exp np_log1p sc_expit cast : K -> K) (tA tx talpha : dtype) (A : matrix K) (b : vec K) (alpha : K) (intercept : bool) (x s : vec K) (rg : bool),
  (tA = Floating \/ tx = Floating \/ intercept = false ->
   log_f_grad_typed np_exp np_log1p cast tA tx A b alpha intercept x rg = log_f_grad np_exp np_log1p A b alpha intercept x rg) /\
  log_hessian_mv_typed sc_expit cast Floating talpha A alpha intercept x s = log_hessian_mv sc_expit A alpha intercept x s.
Proof.
  intros K np_exp np_log1p sc_expit cast tA tx talpha A b alpha intercept x s rg. split.
  - intros H. assert (E : z_type tA tx intercept = Floating).
    { unfold z_type, promote. destruct H as [->|[->| ->]]; [reflexivity|destruct tA; reflexivity|destruct tA, tx; reflexivity]. }
    unfold log_f_grad_typed, log_f_grad. rewrite E. reflexivity.
  - unfold log_hessian_mv_typed, log_hessian_mv. destruct (split_intercept intercept x) as [[x_ c]|]; [|reflexivity]. cbn [bind].
    destruct (mat_dot A x_) as [ax|]; [|reflexivity]. cbn [bind]. destruct (mat_dot _ _) as [v|]; [|reflexivity]. cbn [bind].
    destruct (tmat_dot A v) as [h|]; [|reflexivity]. cbn [bind]. unfold store. rewrite map_id. destruct talpha; reflexivity.
Qed.

(** ** truncation *)
Lemma int_part_range (v : R) (z : Z) : IZR z <= v < IZR z + 1 -> Int_part v = z.
Proof.
  intros [H1 H2]. destruct (base_Int_part v) as [B1 B2]. assert (Int_part v < z + 1)%Z by (apply lt_IZR; rewrite plus_IZR; lra).
  assert (z < Int_part v + 1)%Z by (apply lt_IZR; rewrite plus_IZR; lra). lia.
Qed.
Lemma cast_below (v : R) (z : Z) : IZR z <= 0 -> IZR z - 1 < v <= IZR z -> int_cast v = IZR z.
Proof.
  intros Hz Hv. unfold int_cast. destruct (Rlt_dec v 0) as [L|L].
  - rewrite (int_part_range (- v) (- z)); [rewrite opp_IZR; ring|rewrite opp_IZR; lra].
  - assert (v = 0) by lra. assert (IZR z = 0) by lra. subst v. rewrite (int_part_range 0 0) by lra. lra.
Qed.
Lemma logsig_range (t : R) : (t <= -1 -> t - 1 < logsig (K:=RN) exp log1pR t <= t) /\ (0 <= t -> -1 < logsig (K:=RN) exp log1pR t <= 0).
Proof.
  assert (L2 : forall u, 0 < u <= 1 -> 0 < ln (1 + u) < 1).
  { intros u Hu. split; [rewrite <- ln_1; apply ln_increasing; lra|]. pose proof (exp_ineq1 1 ltac:(lra)). pose proof (ln_increasing (1 + u) (exp 1) ltac:(lra) ltac:(lra)) as Q. rewrite ln_exp in Q. exact Q. }
  assert (E1 : forall u, u <= 0 -> 0 < exp u <= 1).
  { intros u Hu. split; [apply exp_pos|]. rewrite <- exp_0. destruct (Req_dec u 0) as [->|N]; [lra|]. left. apply exp_increasing. lra. }
  assert (E2 : forall u, u < 0 -> exp u < 1) by (intros u Hu; rewrite <- exp_0; apply exp_increasing, Hu).
  unfold logsig. rn. split; intros H.
  - pose proof (E1 t ltac:(lra)) as P. destruct (Rltb_spec t (-33)) as [A|A]; [lra|]. destruct (Rleb_spec (-33) t) as [B|B]; [|lra]. cbn [andb].
    destruct (Rltb_spec t (-18)) as [C|C]; [pose proof (E2 t ltac:(lra)); lra|]. destruct (Rleb_spec (-18) t) as [D|D]; [|lra]. cbn [andb].
    destruct (Rltb_spec t 37) as [F|F]; [|lra].
    assert (EQ : ln (1 + exp (- t)) = ln (1 + exp t) - t).
    { replace (1 + exp (- t)) with ((1 + exp t) * exp (- t)). 2:{ rewrite Rmult_plus_distr_r, <- exp_plus. replace (t + - t) with 0 by ring. rewrite exp_0. ring. }
      rewrite ln_mult by (try apply exp_pos; lra). rewrite ln_exp. ring. }
    rewrite EQ. pose proof (L2 (exp t) P). lra.
  - pose proof (E1 (- t) ltac:(lra)) as P. destruct (Rltb_spec t (-33)) as [A|A]; [lra|]. destruct (Rleb_spec (-33) t) as [B|B]; [|lra]. cbn [andb].
    destruct (Rltb_spec t (-18)) as [C|C]; [lra|]. destruct (Rleb_spec (-18) t) as [D|D]; [|lra]. cbn [andb].
    destruct (Rltb_spec t 37) as [F|F]; [pose proof (L2 (exp (- t)) P); lra|]. destruct (Rleb_spec 37 t) as [G|G]; [|lra]. pose proof (E2 (- t) ltac:(lra)). lra.
Qed.
Lemma cast_logsig (z : Z) : int_cast (logsig (K:=RN) exp log1pR (IZR z)) = Rmin (IZR z) 0.
Proof.
  destruct (logsig_range (IZR z)) as [H1 H2]. destruct (Z_lt_le_dec z 0) as [L|L].
  - assert (IZR z <= -1) by (apply IZR_le; lia). rewrite Rmin_left by lra. apply cast_below; [lra|apply H1; lra].
  - assert (0 <= IZR z) by (apply IZR_le; lia). rewrite Rmin_right by lra. specialize (H2 ltac:(lra)). apply (cast_below _ 0); lra.
Qed.
Lemma cast_expit (t b : R) : 0 <= b <= 1 -> int_cast (expit_b (K:=RN) exp t b) = 0.
Proof. intros Hb. rewrite (proj1 (main_C20_expit t b)). apply int_cast_small. pose proof (sigma_pos t). apply Rabs_def1; lra. Qed.

(** ** integer matrix and point, with an intercept *)
Definition int_term (b z : R) : R := (1 - b) * Rmax z 0 + b * Rmax (- z) 0.
Lemma int_terms : forall (b z : list R), Forall (fun v => exists k, v = IZR k) z ->
  map2 (fun bi zi : R => (1 - bi) * zi - int_cast (logsig (K:=RN) exp log1pR zi)) b z = map2 int_term b z.
Proof.
  induction b as [|c b IH]; intros [|t z] Hz; cbn [map2]; try reflexivity. rewrite (IH z (Forall_inv_tail Hz)). f_equal.
  destruct (Forall_inv Hz) as [k ->]. rewrite cast_logsig. unfold int_term, Rmin, Rmax. destruct (Rle_dec (IZR k) 0), (Rle_dec (- IZR k) 0); try lra. assert (Q : IZR k = 0) by lra. rewrite Q. ring.
Qed.
Lemma int_dot : forall (r w : list R), Forall (fun v => exists k, v = IZR k) r -> Forall (fun v => exists k, v = IZR k) w -> exists k, dot r w = IZR k.
Proof.
  induction r as [|a r IH]; intros [|c w] Hr Hw; cbn; try (exists 0%Z; reflexivity). destruct (Forall_inv Hr) as [p ->], (Forall_inv Hw) as [q ->].
  destruct (IH w (Forall_inv_tail Hr) (Forall_inv_tail Hw)) as [k ->]. exists (p * q + k)%Z. rewrite plus_IZR, mult_IZR. reflexivity.
Qed.

Lemma main_C126_value_partial : forall (A : matrix RN) (b : list R) (alpha : R) (w : list R) (c : R),
  rect (m_cols A) (m_rows A) -> length w = m_cols A -> length b = length (m_rows A) ->
  Forall (Forall (fun v => exists k, v = IZR k)) (m_rows A) -> Forall (fun v => exists k, v = IZR k) w -> (exists k, c = IZR k) ->
  log_f_grad_typed (K:=RN) exp log1pR int_cast Integral Integral A b alpha true (w ++ [c]) false =
    Ok (RLoss (K:=RN) (Rsum (map2 (fun bi z => (1 - bi) * Rmax z 0 + bi * Rmax (- z) 0) b (map (fun r => dot r w + c) (m_rows A))) / INR (length b) + alpha / 2 * dot w w)).
Proof.
  intros A b alpha w c HA Lw Lb IA Iw [kc Ec]. unfold log_f_grad_typed. rewrite split_true. cbn [bind]. rewrite mat_dot_ok by auto. cbn [bind negb].
  unfold z_type, promote, store. f_equal. f_equal.
  assert (Iz : Forall (fun v => exists k, v = IZR k) (map (fun t => t + c) (matvec (m_rows A) w))).
  { unfold matvec. rewrite map_map. apply Forall_map. eapply Forall_impl; [|exact IA]. intros r Hr. cbn beta. destruct (int_dot r w Hr Iw) as [k ->]. rewrite Ec. exists (k + kc)%Z. rewrite plus_IZR. reflexivity. }
  pose proof (int_terms b _ Iz) as E. 
  assert (EV : @eq R (vmean (K:=RN) (map2 (fun bi zi : R => (1 - bi) * zi - int_cast (logsig (K:=RN) exp log1pR zi)) b (map (fun t => t + c) (matvec (m_rows A) w))))
    (Rsum (map2 (fun bi z => (1 - bi) * Rmax z 0 + bi * Rmax (- z) 0) b (map (fun r => dot r w + c) (m_rows A))) / INR (length b))).
  { rewrite E, vmean_R. unfold matvec. rewrite map_map. unfold int_term. f_equal. f_equal. rewrite map2_length, map_length. nlen. f_equal. lia. }
  rn. change (@n1 RN) with 1. etransitivity; [apply (f_equal2 Rplus); [exact EV|reflexivity]|]. rewrite vdot_R, nlit_R. unfold Rdiv. ring.
Qed.
Lemma expit_zeros : forall (z b : list R), Forall (fun t => 0 <= t <= 1) b -> length b = length z -> map2 (fun zi bi : R => int_cast (expit_b (K:=RN) exp zi bi)) z b = zeros (length z).
Proof.
  induction z as [|t z IH]; intros [|c b] Hb L; cbn in L; try discriminate; [reflexivity|]. cbn [map2 length]. rewrite (IH b (Forall_inv_tail Hb) (eq_add_S _ _ L)).
  rewrite cast_expit by exact (Forall_inv Hb). reflexivity.
Qed.
Lemma main_C126_gradient_partial : forall (A : matrix RN) (b : list R) (alpha : R) (w : list R) (c : R),
  rect (m_cols A) (m_rows A) -> length w = m_cols A -> length b = length (m_rows A) -> Forall (fun t => 0 <= t <= 1) b ->
  log_f_grad_typed (K:=RN) exp log1pR int_cast Integral Integral A b alpha true (w ++ [c]) true = Ok (RGrad (K:=RN) (smul alpha w ++ [0])).
Proof.
  intros A b alpha w c HA Lw Lb Hb. unfold log_f_grad_typed. rewrite split_true. cbn [bind]. rewrite mat_dot_ok by auto. cbn [bind negb].
  unfold z_type, promote, store. match goal with |- context [map2 _ ?z0 b] => set (z := z0 : list R) end. assert (Lz : length z = length (m_rows A)) by (unfold z; rewrite map_length; apply matvec_length).
  pose proof (expit_zeros z b Hb ltac:(nlen; lia)) as E. match goal with |- context [tmat_dot A ?u0] => change u0 with (map2 (fun zi bi : R => int_cast (expit_b (K:=RN) exp zi bi)) z b) end. rewrite E.
  rewrite tmat_dot_ok by (auto; rewrite zeros_length; nlen; lia). cbn [bind]. f_equal. f_equal.
  apply (f_equal2 (@app R)).
  - etransitivity; [apply vadd_R|]. etransitivity; [apply (f_equal2 vplus); [apply vdivs_R|apply vscale_R]|]. apply (list_ext _ _ 0).
    + pose proof (wsum_length (m_cols A) _ HA (zeros (length z))). leng.
    + intros i Hi. pose proof (wsum_length (m_cols A) _ HA (zeros (length z))) as Lw'. unfold vplus. rewrite nth_lin by leng. rewrite !nth_smul.
      assert (Z : forall rows d k, rect d rows -> nth i (wsum d (zeros k) rows) 0 = 0) 
        by (intros rows d k Hr; rewrite (wsum_nth d rows Hr); clear; revert k; induction rows as [|r rows IH]; intros [|k]; cbn; try reflexivity; change (repeat 0 k) with (zeros k); rewrite IH; ring).
      rewrite Z by auto. ring.
  - f_equal. rewrite vmean_R. unfold zeros. assert (Z : forall k, Rsum (repeat 0 k) = 0) by (induction k as [|k IH]; cbn; lra). rewrite Z. unfold Rdiv. apply Rmult_0_l.
Qed.
Lemma main_C126_hessian_partial : forall (A : matrix RN) (alpha : R) (talpha : dtype) (x s : list R),
  rect (m_cols A) (m_rows A) -> m_rows A <> [] ->
  (length x = m_cols A -> length s = m_cols A ->
   log_hessian_mv_typed (K:=RN) sigma int_cast Integral Floating A alpha false x s = Err TypeError /\
   log_hessian_mv_typed (K:=RN) sigma int_cast Integral Integral A alpha false x s =
     Ok (smul (/ INR (length (m_rows A))) (vplus (map int_cast (smul (INR (length (m_rows A))) (mhess (m_cols A) (m_rows A) x s))) (smul alpha s)))) /\
  (length x = S (m_cols A) -> length s = S (m_cols A) ->
   log_hessian_mv_typed (K:=RN) sigma int_cast Integral talpha A alpha true x s = Err TypeError).
Proof.
  intros A alpha talpha x s HA Hne. split.
  - intros Hx Hs. unfold log_hessian_mv_typed. rewrite split_false. cbn [bind]. rewrite mat_dot_ok by auto. cbn [bind].
    set (ax := matvec (m_rows A) x). set (n := length (m_rows A)). assert (Lx : length ax = n) by apply matvec_length.
    match goal with |- context [map2 (@vscale RN) ?q _] => assert (Ed : @eq (list (carrier RN)) q (map dsig ax)) end.
    { rewrite map_map. apply map_ext. intros t. rn. rewrite Rplus_0_r. reflexivity. }
    rewrite Ed. assert (Ef : firstn (m_cols A) s = s) by (apply firstn_all2; lia).
    match goal with |- context [mat_dot ?M ?v9] => assert (EM : mat_dot (K:=RN) M v9 = Ok (map2 (fun t v => dsig t * v) ax (matvec (m_rows A) s))) end.
    { rewrite mat_dot_ok by (cbn; etransitivity; [apply (f_equal (@length R) Ef)|exact Hs]). cbn [m_rows]. f_equal. etransitivity; [apply (f_equal _ Ef)|].
      apply (weighted_dot (m_rows A) ax s). exact Lx. }
    rewrite EM. cbn [bind]. rewrite tmat_dot_ok by (auto; rewrite map2_length, matvec_length; unfold n in *; nlen; lia). cbn [bind promote store].
    split; [reflexivity|]. f_equal.
    etransitivity; [apply vdivs_R|]. rewrite nofnat_R. change (n_samples A) with n. etransitivity; [apply (f_equal (smul _)); apply vadd_R|].
    etransitivity; [apply (f_equal (fun q => smul _ (vplus _ q))); etransitivity; [apply (f_equal (vscale (K:=RN) alpha) Ef)|apply vscale_R]|].
    apply f_equal. apply (f_equal (fun q => vplus q _)). unfold mhess. fold ax n. change (@length (list R) (m_rows A)) with n. change (store (K:=RN) int_cast Integral) with int_cast.
    assert (N : INR n <> 0) by (apply not_0_INR; unfold n; destruct (m_rows A); [congruence|discriminate]).
    f_equal. apply (list_ext _ _ 0); [leng|]. intros i Hi. rewrite !nth_smul. field. exact N.
  - intros Hx Hs. destruct (snoc_cases x _ Hx) as (w & c & -> & Lw). destruct (snoc_cases s _ Hs) as (v & e & -> & Lv).
    unfold log_hessian_mv_typed. rewrite split_true. cbn [bind]. rewrite mat_dot_ok by auto. cbn [bind].
    assert (Ef : firstn (m_cols A) (v ++ [e]) = v) by (rewrite firstn_app, Lv, Nat.sub_diag; cbn [firstn]; rewrite app_nil_r; apply firstn_all2; lia).
    match goal with |- context [mat_dot ?M ?v9] => assert (EM : exists u, mat_dot (K:=RN) M v9 = Ok u /\ length u = length (m_rows A)) end.
    { eexists. split; [apply mat_dot_ok; etransitivity; [apply (f_equal (@length R) Ef)|exact Lv]|]. rewrite matvec_length. cbn [m_rows]. rewrite map2_length, !map_length, matvec_length. apply Nat.min_id. }
    destruct EM as (u & EM & Lu). rewrite EM. cbn [bind]. rewrite tmat_dot_ok by auto. cbn [bind].
    rewrite rev_app_distr. destruct talpha; reflexivity.
Qed.
Lemma sigma_0 : sigma 0 = / 2.
Proof. unfold sigma. rewrite Ropp_0, exp_0. f_equal. Qed.
Lemma main_C126_refuted : exists (A : matrix RN) (b x : list R),
  log_init (K:=RN) (Some A) b = Ok A /\
  log_f_grad_typed (K:=RN) exp log1pR int_cast Floating Floating A b 0 true x false = Ok (RLoss (K:=RN) (ln 2)) /\
  log_f_grad_typed (K:=RN) exp log1pR int_cast Integral Integral A b 0 true x false = Ok (RLoss (K:=RN) 0) /\
  log_f_grad_typed (K:=RN) exp log1pR int_cast Floating Floating A b 0 true x true = Ok (RGrad (K:=RN) [- (1 / 2); - (1 / 2)]) /\
  log_f_grad_typed (K:=RN) exp log1pR int_cast Integral Integral A b 0 true x true = Ok (RGrad (K:=RN) [0; 0]).
Proof.
  pose (A := mkMat (K:=RN) [[1]] 1). exists A, [1], [0; 0].
  assert (HA : rect (m_cols A) (m_rows A)) by (repeat constructor).
  assert (Hi : log_init (K:=RN) (Some A) [1] = Ok A).
  { destruct (main_C25_labels (Some A) [1] ltac:(discriminate)) as [Q1 Q2]. apply Q2. intros E. apply Q1 in E. destruct E as [E|[_ E]]; [|apply E; reflexivity].
    apply Exists_cons in E. destruct E as [E|E]; [lra|inversion E]. }
  split; [exact Hi|].
  destruct (main_C126_float_partial RN exp log1pR sigma int_cast Floating Floating Floating A [1] 0 true [0; 0] [] false) as [F1 _].
  destruct (main_C126_float_partial RN exp log1pR sigma int_cast Floating Floating Floating A [1] 0 true [0; 0] [] true) as [F2 _].
  rewrite F1, F2 by auto. split; [|split; [|split]].
  - destruct (main_C19_intercept (Some A) A [1] 0 [0] 0 Hi HA eq_refl) as (v & E & _ & Q). unfold log_call in E. cbn [app] in E. rewrite E. f_equal. f_equal.
    rewrite Q. 2:{ intros r [<-|[]]. cbn. lra. }
    unfold mean_loss_c. cbn. replace (1 * 0 + 0 + 0) with 0 by ring. unfold log_term. rewrite sigma_0, ln_Rinv by lra. field.
  - pose proof (main_C126_value_partial A [1] 0 [0] 0 HA eq_refl eq_refl) as E. cbn [app] in E. rewrite E; clear E.
    + f_equal. f_equal. cbn. rewrite !Rmult_0_l, ?Rmult_0_r, !Rplus_0_r, Ropp_0, Rmax_left by lra. unfold Rdiv. ring.
    + repeat constructor. exists 1%Z. reflexivity.
    + repeat constructor. exists 0%Z. reflexivity.
    + exists 0%Z. reflexivity.
  - pose proof (log_f_grad_core A [1] 0 HA eq_refl true [0; 0] [0] 0 true eq_refl eq_refl) as E. rewrite E. f_equal. f_equal. unfold lres, margins. cbn. unfold dlog. replace (1 * 0 + 0 + 0) with 0 by ring. rewrite sigma_0. repeat f_equal; field.
  - pose proof (main_C126_gradient_partial A [1] 0 [0] 0 HA eq_refl eq_refl) as E. cbn [app] in E. rewrite E; [|repeat constructor; lra]. cbn. rewrite Rmult_0_l. reflexivity.
Qed.
