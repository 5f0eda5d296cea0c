(** * Finite-sum losses: gap bounds, gradients, smoothness (independent of the model) *)
From Coq Require Import Reals List Lra Lia Psatz.
From Verif Require Import Num Vec Spec RVec ConvexFacts SpecLoss.
Import ListNotations.
Open Scope R_scope.

(** sum_i u_i a_i *)
Fixpoint wsum (d : nat) (u : list R) (A : list (list R)) : list R :=
  match u, A with x :: u', r :: A' => vplus (smul x r) (wsum d u' A') | _, _ => zeros d end.

Lemma wsum_length d A : rect d A -> forall u, length (wsum d u A) = d.
Proof. induction 1 as [|r A Hr HA IH]; intros [|x u]; cbn; try apply zeros_length. specialize (IH u). leng. Qed.
Lemma matvec_length A x : length (matvec A x) = length A.
Proof. apply map_length. Qed.
Lemma wsum_dot d A : rect d A -> forall u v, length v = d -> length u = length A -> dot (wsum d u A) v = dot u (matvec A v).
Proof.
  induction 1 as [|r A Hr HA IH]; intros [|x u] v Hv Hu; cbn in *; try lia; try apply dot_zeros_l.
  pose proof (wsum_length d A HA u). unfold vplus. rewrite dot_lin_l by leng. rewrite dot_smul_l, IH by lia. fold (matvec A v). ring.
Qed.
Lemma matvec_vminus d A : rect d A -> forall x y, length x = d -> length y = d -> matvec A (vminus x y) = vminus (matvec A x) (matvec A y).
Proof.
  induction 1 as [|r A Hr HA IH]; intros x y Hx Hy; [reflexivity|].
  unfold matvec in *. cbn. f_equal; [|apply IH; auto]. unfold vminus. rewrite dot_lin_r by leng. ring.
Qed.
Lemma frobenius d A : rect d A -> exists s, 0 <= s /\ forall v, length v = d -> norm2 (matvec A v) <= s * norm2 v.
Proof.
  intros HA. assert (G : exists q, 0 <= q /\ forall v, length v = d -> dot (matvec A v) (matvec A v) <= q * dot v v).
  { induction HA as [|r A Hr HA (q & Hq & IH)].
    - exists 0. split; [lra|]. intros; cbn. lra.
    - exists (dot r r + q). pose proof (dot_self_nonneg r). split; [lra|]. intros v Hv. unfold matvec in *. cbn.
      specialize (IH v Hv). pose proof (cauchy_sq r v). lra. }
  destruct G as (q & Hq & G). exists (sqrt q). split; [apply sqrt_pos|]. intros v Hv.
  apply norm2_le_sq.
  - apply Rmult_le_pos; [apply sqrt_pos|apply norm2_nonneg].
  - replace (sqrt q * norm2 v * (sqrt q * norm2 v)) with ((sqrt q * sqrt q) * (norm2 v * norm2 v)) by ring.
    rewrite sqrt_sqrt, norm2_sq by auto. auto.
Qed.
Lemma wsum_norm d A s : rect d A -> 0 <= s -> (forall v, length v = d -> norm2 (matvec A v) <= s * norm2 v) ->
  forall u, length u = length A -> norm2 (wsum d u A) <= s * norm2 u.
Proof.
  intros HA Hs Ho u Hu. pose proof (wsum_length d A HA u) as Hw.
  pose proof (wsum_dot d A HA u (wsum d u A) Hw Hu) as E. pose proof (norm2_sq (wsum d u A)) as Q.
  pose proof (dot_le_norm u (matvec A (wsum d u A))). pose proof (Ho _ Hw). pose proof (norm2_nonneg u). pose proof (norm2_nonneg (wsum d u A)).
  destruct (Req_dec (norm2 (wsum d u A)) 0) as [Z|Z]; [rewrite Z; nra|].
  apply Rmult_le_reg_r with (norm2 (wsum d u A)); [lra|]. rewrite Q, E. eapply Rle_trans; [exact H|]. nra.
Qed.

Section Scalar.
Variables (phi dphi : R -> R -> R) (c : R).
Hypothesis phi_gap : forall b x y, 0 <= phi b y - phi b x - dphi b x * (y - x) <= c / 2 * ((y - x) * (y - x)).
Hypothesis dphi_lip : forall b x y, Rabs (dphi b x - dphi b y) <= c * Rabs (x - y).
Hypothesis Hc : 0 <= c.

Lemma esum_gap b : forall z z', length z = length b -> length z' = length b ->
  0 <= Rsum (map2 phi b z') - Rsum (map2 phi b z) - dot (map2 dphi b z) (vminus z' z) <= c / 2 * dist2 z' z.
Proof.
  induction b as [|b0 b IH]; intros [|x z] [|y z'] Hz Hz'; cbn in *; try lia; [lra|].
  specialize (IH z z' ltac:(lia) ltac:(lia)). pose proof (phi_gap b0 x y). unfold vminus in IH. 
  replace (1 * y + -1 * x) with (y - x) by ring. lra.
Qed.
Lemma esum_lip b : forall z z', length z = length b -> length z' = length b ->
  dist2 (map2 dphi b z) (map2 dphi b z') <= c * c * dist2 z z'.
Proof.
  induction b as [|b0 b IH]; intros [|x z] [|y z'] Hz Hz'; cbn in *; try lia; [lra|].
  specialize (IH z z' ltac:(lia) ltac:(lia)). pose proof (dphi_lip b0 x y).
  assert ((dphi b0 x - dphi b0 y) * (dphi b0 x - dphi b0 y) <= c * c * ((x - y) * (x - y))).
  { pose proof (Rabs_pos (dphi b0 x - dphi b0 y)). pose proof (Rabs_pos (x - y)).
    assert (Q1 : forall t, Rabs t * Rabs t = t * t) by (intro t; unfold Rabs; destruct (Rcase_abs t); ring).
    rewrite <- Q1, <- (Q1 (x - y)). replace (c * c * (Rabs (x - y) * Rabs (x - y))) with ((c * Rabs (x - y)) * (c * Rabs (x - y))) by ring.
    apply Rmult_le_compat; auto. }
  lra.
Qed.

Variables (d : nat) (A : list (list R)) (b : list R).
Hypothesis HA : rect d A.
Hypothesis Hb : length b = length A.
Hypothesis Hn : (0 < length A)%nat.
Definition mgrad (x : list R) : list R := smul (/ INR (length A)) (wsum d (map2 dphi b (matvec A x)) A).

Lemma mean_loss_map2 (f : R -> R -> R) x : mean_loss f A b x = Rsum (map2 f b (matvec A x)) / INR (length A).
Proof.
  unfold mean_loss, matvec. f_equal. clear HA Hn Hb. revert A. induction b as [|b0 b' IH]; intros [|r A']; cbn; auto.
  f_equal. apply IH.
Qed.
Lemma INR_pos : 0 < INR (length A).
Proof. apply lt_0_INR; auto. Qed.
Lemma mgrad_length x : length (mgrad x) = d.
Proof. unfold mgrad. rewrite smul_length. apply wsum_length; auto. Qed.
Lemma mean_gap s : 0 <= s -> (forall v, length v = d -> norm2 (matvec A v) <= s * norm2 v) ->
  forall x y, length x = d -> length y = d ->
  0 <= mean_loss phi A b y - mean_loss phi A b x - dot (mgrad x) (vminus y x) <= c * (s * s) / INR (length A) / 2 * dist2 y x.
Proof.
  intros Hs Ho x y Hx Hy. rewrite !mean_loss_map2. unfold mgrad. rewrite dot_smul_l.
  rewrite (wsum_dot d) by (auto; try leng; rewrite map2_length, matvec_length; lia).
  rewrite (matvec_vminus d) by auto.
  pose proof (esum_gap b (matvec A x) (matvec A y) ltac:(rewrite matvec_length; lia) ltac:(rewrite matvec_length; lia)) as G.
  set (e := _ - _ - _) in G. pose proof INR_pos as P.
  assert (D : dist2 (matvec A y) (matvec A x) <= s * s * dist2 y x).
  { rewrite !dist2_dot by (rewrite ?matvec_length; lia). rewrite <- (matvec_vminus d) by auto.
    assert (Hv : length (vminus y x) = d) by leng. specialize (Ho _ Hv).
    apply norm2_le_sq in Ho; [|apply Rmult_le_pos; auto; apply norm2_nonneg].
    eapply Rle_trans; [exact Ho|]. right. rewrite <- norm2_sq. ring. }
  match goal with |- 0 <= ?E <= _ => replace E with (e / INR (length A)) by (unfold e; field; lra) end.
  split.
  - apply Rmult_le_pos; [lra|]. apply Rlt_le, Rinv_0_lt_compat; lra.
  - replace (c * (s * s) / INR (length A) / 2 * dist2 y x) with ((c / 2 * (s * s * dist2 y x)) / INR (length A)) by (field; lra).
    apply Rmult_le_compat_r; [apply Rlt_le, Rinv_0_lt_compat; lra|].
    eapply Rle_trans; [apply G|]. apply Rmult_le_compat_l; lra.
Qed.
Lemma wsum_sub : forall u v, length u = length A -> length v = length A -> vminus (wsum d u A) (wsum d v A) = wsum d (vminus u v) A.
Proof.
  clear Hb Hn. induction HA as [|r A' Hr HA' IH]; intros [|x u] [|y v] Hu Hv; cbn in *; try lia.
  - unfold vminus. apply (list_ext _ _ 0); [len|]. intros i Hi. rewrite nth_lin by len. rewrite !nth_zeros. ring.
  - change (lin 1 u (-1) v) with (vminus u v). rewrite <- (IH HA') by lia. pose proof (wsum_length d A' HA' u). pose proof (wsum_length d A' HA' v).
    apply (list_ext _ _ 0); [leng|]. intros i Hi. unfold vplus, vminus. repeat rewrite nth_lin by leng. rewrite !nth_smul. ring.
Qed.
Lemma mean_lip s : 0 <= s -> (forall v, length v = d -> norm2 (matvec A v) <= s * norm2 v) ->
  forall x y, length x = d -> length y = d ->
  norm2 (vminus (mgrad x) (mgrad y)) <= c * (s * s) / INR (length A) * norm2 (vminus x y).
Proof.
  intros Hs Ho x y Hx Hy. pose proof INR_pos as P. unfold mgrad.
  set (u := map2 dphi b (matvec A x)). set (v := map2 dphi b (matvec A y)).
  assert (Hu : length u = length A) by (unfold u; rewrite map2_length, matvec_length; lia).
  assert (Hv : length v = length A) by (unfold v; rewrite map2_length, matvec_length; lia).
  pose proof (wsum_length d A HA u). pose proof (wsum_length d A HA v).
  replace (vminus (smul (/ INR (length A)) (wsum d u A)) (smul (/ INR (length A)) (wsum d v A)))
    with (smul (/ INR (length A)) (wsum d (vminus u v) A)).
  2:{ rewrite <- wsum_sub by auto. apply (list_ext _ _ 0); [leng|]. intros i Hi. rewrite nth_smul. unfold vminus. rewrite !nth_lin by leng. rewrite !nth_smul. ring. }
  rewrite norm2_smul, Rabs_right by (apply Rle_ge, Rlt_le, Rinv_0_lt_compat; lra).
  replace (c * (s * s) / INR (length A) * norm2 (vminus x y)) with (/ INR (length A) * (s * (c * (s * norm2 (vminus x y))))) by (field; lra).
  apply Rmult_le_compat_l; [apply Rlt_le, Rinv_0_lt_compat; lra|].
  eapply Rle_trans; [apply (wsum_norm d A s); auto; leng|]. apply Rmult_le_compat_l; auto.
  assert (Hxy : length (vminus x y) = d) by leng. specialize (Ho _ Hxy). rewrite (matvec_vminus d) in Ho by auto.
  apply Rle_trans with (c * norm2 (vminus (matvec A x) (matvec A y))); [|apply Rmult_le_compat_l; auto].
  apply norm2_le_sq; [apply Rmult_le_pos; auto; apply norm2_nonneg|].
  pose proof (esum_lip b (matvec A x) (matvec A y) ltac:(rewrite matvec_length; lia) ltac:(rewrite matvec_length; lia)) as G.
  fold u v in G. rewrite !dist2_dot in G by (rewrite ?matvec_length; lia).
  eapply Rle_trans; [exact G|]. rewrite <- (norm2_sq (vminus (matvec A x) (matvec A y))). right; ring.
Qed.
End Scalar.

(** ** gradients *)
Lemma abs_le_inv a c : Rabs a <= c -> - c <= a <= c.
Proof. intros H. pose proof (Rle_abs a). pose proof (Rle_abs (- a)). rewrite Rabs_Ropp in *. lra. Qed.
Lemma gradient_intro n F x g C : length x = n -> length g = n ->
  (forall y, length y = n -> Rabs (F y - F x - dot g (vminus y x)) <= C * dot (vminus y x) (vminus y x)) -> is_gradient n F x g.
Proof.
  intros Hx Hg H. split; auto. intros eps He. exists (eps / (Rabs C + 1)). pose proof (Rabs_pos C).
  split; [apply Rdiv_lt_0_compat; lra|]. intros y Hy Hd.
  eapply Rle_trans; [apply H; auto|]. rewrite <- norm2_sq. pose proof (norm2_nonneg (vminus y x)) as P.
  apply Rle_trans with ((Rabs C + 1) * norm2 (vminus y x) * norm2 (vminus y x)).
  - rewrite Rmult_assoc. apply Rmult_le_compat_r; [nra|]. pose proof (Rle_abs C). lra.
  - apply Rmult_le_compat_r; auto. apply Rmult_le_compat_l with (r := Rabs C + 1) in Hd; [|lra].
    replace ((Rabs C + 1) * (eps / (Rabs C + 1))) with eps in Hd by (field; lra). exact Hd.
Qed.
Lemma gradient_plus n F G x g h : length x = n -> is_gradient n F x g -> is_gradient n G x h -> is_gradient n (fun y => F y + G y) x (vplus g h).
Proof.
  intros Hx [Hg HF] [Hh HG]. split; [leng|]. intros eps He.
  destruct (HF (eps / 2) ltac:(lra)) as (d1 & P1 & D1). destruct (HG (eps / 2) ltac:(lra)) as (d2 & P2 & D2).
  exists (Rmin d1 d2). split; [apply Rmin_pos; auto|]. intros y Hy Hd.
  specialize (D1 y Hy (Rle_trans _ _ _ Hd (Rmin_l _ _))). specialize (D2 y Hy (Rle_trans _ _ _ Hd (Rmin_r _ _))).
  unfold vplus. rewrite dot_lin_l by leng.
  replace (F y + G y - (F x + G x) - (1 * dot g (vminus y x) + 1 * dot h (vminus y x)))
    with ((F y - F x - dot g (vminus y x)) + (G y - G x - dot h (vminus y x))) by ring.
  eapply Rle_trans; [apply Rabs_triang|]. lra.
Qed.
Lemma gradient_ext n F G x g : length x = n -> (forall y, length y = n -> F y = G y) -> is_gradient n F x g -> is_gradient n G x g.
Proof.
  intros Hx E [Hg H]. split; auto. intros eps He. destruct (H eps He) as (dl & P & D). exists dl. split; auto.
  intros y Hy Hd. rewrite <- !E by auto. apply D; auto.
Qed.
(** a gradient is unique *)
Lemma gradient_unique n F x g h : length x = n -> is_gradient n F x g -> is_gradient n F x h -> g = h.
Proof.
  intros Hx [Hg HF] [Hh HG].
  assert (Z : dot (vminus g h) (vminus g h) = 0).
  { set (v := vminus g h). assert (Hv : length v = n) by (unfold v; leng). pose proof (dot_self_nonneg v) as P. pose proof (norm2_nonneg v) as Pn. pose proof (norm2_sq v) as Q.
    destruct (Req_dec (dot v v) 0) as [|NZ]; auto. exfalso.
    assert (Nv : 0 < norm2 v) by nra.
    destruct (HF (norm2 v / 3) ltac:(lra)) as (d1 & P1 & D1). destruct (HG (norm2 v / 3) ltac:(lra)) as (d2 & P2 & D2).
    set (t := Rmin d1 d2 / norm2 v). assert (Pt : 0 < t) by (apply Rdiv_lt_0_compat; auto; apply Rmin_pos; auto).
    set (y := vplus x (smul t v)). assert (Hy : length y = n) by (unfold y; leng).
    assert (Ey : vminus y x = smul t v).
    { apply (list_ext _ _ 0); [leng|]. intros i Hi. rewrite nth_smul. unfold y, vminus, vplus. rewrite !nth_lin by leng. rewrite nth_smul. ring. }
    assert (Nd : norm2 (vminus y x) = Rmin d1 d2).
    { rewrite Ey, norm2_smul, Rabs_right by lra. unfold t. field. lra. }
    specialize (D1 y Hy ltac:(rewrite Nd; apply Rmin_l)). specialize (D2 y Hy ltac:(rewrite Nd; apply Rmin_r)).
    rewrite Ey, norm2_smul, dot_smul_r, (Rabs_right t) in D1 by lra. rewrite Ey, norm2_smul, dot_smul_r, (Rabs_right t) in D2 by lra.
    assert (E : dot g v - dot h v = dot v v) by (unfold v at 3; unfold vminus; rewrite dot_lin_l by leng; ring).
    assert (t * dot v v <= 2 * (norm2 v / 3 * (t * norm2 v))).
    { rewrite <- E. apply abs_le_inv in D1, D2. lra. }
    rewrite <- Q in H. nra. }
  rewrite <- dist2_dot in Z by lia. apply dist2_zero; [lia|]. lra.
Qed.

(** the ridge penalty *)
Lemma ridge_gap alpha x y : length x = length y ->
  alpha / 2 * dot y y - alpha / 2 * dot x x - dot (smul alpha x) (vminus y x) = alpha / 2 * dist2 y x.
Proof. intros H. ipx. rewrite !(dot_comm y x). field. Qed.
Lemma ridge_gradient n alpha x : length x = n -> is_gradient n (fun y => alpha / 2 * dot y y) x (smul alpha x).
Proof.
  intros Hx. apply (gradient_intro n _ x _ (Rabs alpha)); auto; [leng|]. intros y Hy.
  rewrite ridge_gap by lia. rewrite <- dist2_dot by lia. pose proof (dist2_nonneg y x).
  rewrite Rabs_mult, (Rabs_right (dist2 y x)) by lra. apply Rmult_le_compat_r; auto.
  unfold Rdiv. rewrite Rabs_mult, (Rabs_right (/ 2)) by lra. pose proof (Rabs_pos alpha). lra.
Qed.

(** ** the regularised finite sum *)
Section Ridge.
Variables (phi dphi : R -> R -> R) (c : R).
Hypothesis phi_gap : forall b x y, 0 <= phi b y - phi b x - dphi b x * (y - x) <= c / 2 * ((y - x) * (y - x)).
Hypothesis dphi_lip : forall b x y, Rabs (dphi b x - dphi b y) <= c * Rabs (x - y).
Hypothesis Hc : 0 <= c.
Variables (d : nat) (A : list (list R)) (b : list R) (alpha : R).
Hypothesis HA : rect d A.
Hypothesis Hb : length b = length A.
Hypothesis Hn : (0 < length A)%nat.
Definition rloss := ridge alpha (mean_loss phi A b).
Definition rgrad (x : list R) := vplus (mgrad dphi d A b x) (smul alpha x).

Lemma rgrad_length x : length x = d -> length (rgrad x) = d.
Proof. intros Hx. unfold rgrad. pose proof (mgrad_length dphi d A b HA x). leng. Qed.
Lemma rloss_gradient x : length x = d -> is_gradient d rloss x (rgrad x).
Proof.
  intros Hx. unfold rloss, rgrad, ridge. apply gradient_plus; auto; [|apply ridge_gradient; auto].
  destruct (frobenius d A HA) as (s & Hs & Ho).
  apply (gradient_intro d _ x _ (c * (s * s) / INR (length A) / 2)); auto; [apply mgrad_length; auto|].
  intros y Hy. pose proof (mean_gap phi dphi c phi_gap Hc d A b HA Hb Hn s Hs Ho x y Hx Hy) as G.
  rewrite <- dist2_dot by lia. rewrite Rabs_right by lra. apply G.
Qed.
Lemma rloss_gap s x y : 0 <= s -> (forall v, length v = d -> norm2 (matvec A v) <= s * norm2 v) -> length x = d -> length y = d ->
  alpha / 2 * dist2 y x <= rloss y - rloss x - dot (rgrad x) (vminus y x) <= (c * (s * s) / INR (length A) + alpha) / 2 * dist2 y x.
Proof.
  intros Hs Ho Hx Hy. pose proof (mean_gap phi dphi c phi_gap Hc d A b HA Hb Hn s Hs Ho x y Hx Hy) as G.
  pose proof (ridge_gap alpha x y ltac:(lia)) as E. unfold rloss, rgrad, ridge. pose proof (mgrad_length dphi d A b HA x).
  unfold vplus. rewrite dot_lin_l by leng. lra.
Qed.
Lemma rloss_convex : 0 <= alpha -> first_order d rloss rgrad.
Proof.
  intros Ha u v Hu Hv. destruct (frobenius d A HA) as (s & Hs & Ho).
  pose proof (rloss_gap s u v Hs Ho Hu Hv). pose proof (dist2_nonneg v u). nra.
Qed.
Lemma rloss_smooth s : 0 <= s -> (forall v, length v = d -> norm2 (matvec A v) <= s * norm2 v) ->
  smooth_upper d (c * (s * s) / INR (length A) + alpha) rloss rgrad.
Proof. intros Hs Ho u v Hu Hv. pose proof (rloss_gap s u v Hs Ho Hu Hv). lra. Qed.
Lemma rgrad_lip s : 0 <= alpha -> 0 <= s -> (forall v, length v = d -> norm2 (matvec A v) <= s * norm2 v) ->
  grad_lipschitz d (c * (s * s) / INR (length A) + alpha) rgrad.
Proof.
  intros Ha Hs Ho u v Hu Hv. pose proof (mean_lip dphi c dphi_lip Hc d A b HA Hb Hn s Hs Ho u v Hu Hv) as G.
  unfold rgrad. pose proof (mgrad_length dphi d A b HA u). pose proof (mgrad_length dphi d A b HA v).
  replace (vminus (vplus (mgrad dphi d A b u) (smul alpha u)) (vplus (mgrad dphi d A b v) (smul alpha v)))
    with (lin 1 (vminus (mgrad dphi d A b u) (mgrad dphi d A b v)) alpha (vminus u v)).
  2:{ apply (list_ext _ _ 0); [leng|]. intros i Hi. unfold vplus, vminus. repeat rewrite nth_lin by leng. rewrite !nth_smul. ring. }
  eapply Rle_trans; [apply norm2_triangle; leng|]. rewrite Rabs_R1, (Rabs_right alpha) by lra. lra.
Qed.
End Ridge.
