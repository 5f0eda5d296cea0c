(** * Intercepts (augmented rows) and the derivative of the logistic gradient (independent of the model) *)
From Coq Require Import Reals List Bool Lra Lia Psatz.
From Verif Require Import Num Vec Spec RVec ConvexFacts SpecLoss LossFacts LossScalar.
Import ListNotations.
Open Scope R_scope.

(** ** augmented rows *)
Definition aug (A : list (list R)) : list (list R) := map (fun r => r ++ [1]) A.
Lemma aug_length A : length (aug A) = length A.
Proof. apply map_length. Qed.
Lemma aug_rect d A : rect d A -> rect (S d) (aug A).
Proof. unfold rect, aug. intros H. apply Forall_map. eapply Forall_impl; [|exact H]. intros r Hr. cbn in Hr. cbv beta. rewrite app_length; cbn; lia. Qed.
Lemma dot_snoc u v a c : length u = length v -> dot (u ++ [a]) (v ++ [c]) = dot u v + a * c.
Proof. revert v; induction u as [|x u IH]; intros [|y v] L; cbn in *; try lia; [ring|]. rewrite IH by lia. ring. Qed.
Lemma aug_matvec d A w c : rect d A -> length w = d -> matvec (aug A) (w ++ [c]) = map (fun t => t + c) (matvec A w).
Proof.
  intros HA Hw. unfold matvec, aug. rewrite !map_map. apply map_ext_in. intros r Hr.
  unfold rect in HA. rewrite Forall_forall in HA. rewrite dot_snoc by (rewrite (HA r Hr); auto). ring.
Qed.
Lemma lin_snoc a u x b v y : length u = length v -> lin a (u ++ [x]) b (v ++ [y]) = lin a u b v ++ [a * x + b * y].
Proof. revert v; induction u as [|p u IH]; intros [|q v] L; cbn in *; try lia; auto. rewrite IH by lia. auto. Qed.
Lemma smul_snoc a u x : smul a (u ++ [x]) = smul a u ++ [a * x].
Proof. unfold smul. rewrite map_app. reflexivity. Qed.
Lemma zeros_snoc d : zeros (S d) = zeros d ++ [0].
Proof. unfold zeros. induction d; cbn in *; congruence. Qed.
Lemma aug_wsum d A : rect d A -> forall u, length u = length A -> wsum (S d) u (aug A) = wsum d u A ++ [Rsum u].
Proof.
  induction 1 as [|r A Hr HA IH]; intros [|x u] L; cbn [wsum aug map Rsum length] in *; try lia; [apply zeros_snoc|].
  change (map (fun r => r ++ [1]) A) with (aug A). rewrite IH by lia. rewrite smul_snoc. unfold vplus. pose proof (wsum_length d A HA u).
  rewrite lin_snoc by leng. f_equal. f_equal. ring.
Qed.
Lemma snoc_cases (y : list R) n : length y = S n -> exists w c, y = w ++ [c] /\ length w = n.
Proof.
  intros H. destruct (exists_last (l:=y)) as (w & c & ->); [intros ->; discriminate|]. exists w, c. split; auto. rewrite app_length in H; cbn in H; lia.
Qed.
Lemma norm2_snoc0 u : norm2 (u ++ [0]) = norm2 u.
Proof. unfold norm2. rewrite dot_snoc by auto. f_equal. ring. Qed.
(** the penalty that ignores the intercept *)
Lemma ridge_gradient_c d alpha w c : length w = d ->
  is_gradient (S d) (fun y => alpha / 2 * dot (removelast y) (removelast y)) (w ++ [c]) (smul alpha w ++ [0]).
Proof.
  intros Hw. apply (gradient_intro (S d) _ _ _ (Rabs alpha)); [rewrite app_length; cbn; lia|rewrite app_length, smul_length; cbn; lia|].
  intros y Hy. destruct (snoc_cases y d Hy) as (v & e & -> & Hv). rewrite !removelast_last.
  unfold vminus. rewrite lin_snoc by lia. rewrite !dot_snoc by (rewrite ?smul_length; leng).
  fold (vminus v w). pose proof (ridge_gap alpha w v ltac:(lia)) as E.
  replace (alpha / 2 * dot v v - alpha / 2 * dot w w - (dot (smul alpha w) (vminus v w) + 0 * (1 * e + -1 * c))) with (alpha / 2 * dist2 v w) by lra.
  rewrite dist2_dot by lia. pose proof (dot_self_nonneg (vminus v w)) as P. pose proof (Rabs_pos alpha) as Q.
  rewrite Rabs_mult, (Rabs_right (dot _ _)) by lra. unfold Rdiv. rewrite Rabs_mult, (Rabs_right (/ 2)) by lra. rewrite Rmult_assoc.
  apply Rmult_le_compat_l; auto. pose proof (Rle_0_sqr (1 * e + -1 * c)) as S. unfold Rsqr in S. lra.
Qed.

(** ** derivatives of maps *)
Lemma derivative_intro n G x H C :
  (forall y, length y = n -> norm2 (vminus (vminus (G y) (G x)) (H (vminus y x))) <= C * dot (vminus y x) (vminus y x)) -> is_derivative n G x H.
Proof.
  intros Hyp eps He. exists (eps / (Rabs C + 1)). pose proof (Rabs_pos C).
  split; [apply Rdiv_lt_0_compat; lra|]. intros y Hy Hd.
  eapply Rle_trans; [apply Hyp; auto|]. rewrite <- norm2_sq. pose proof (norm2_nonneg (vminus y x)) as P.
  apply Rle_trans with ((Rabs C + 1) * norm2 (vminus y x) * norm2 (vminus y x)).
  - rewrite Rmult_assoc. apply Rmult_le_compat_r; [nra|]. pose proof (Rle_abs C). lra.
  - apply Rmult_le_compat_r; auto. apply Rmult_le_compat_l with (r := Rabs C + 1) in Hd; [|lra].
    replace ((Rabs C + 1) * (eps / (Rabs C + 1))) with eps in Hd by (field; lra). exact Hd.
Qed.
Definition dsig (t : R) : R := sigma t * (1 - sigma t).
Lemma res_second b : forall z z', length z = length b -> length z' = length b ->
  norm2 (vminus (vminus (map2 dlog b z') (map2 dlog b z)) (map2 (fun t v => dsig t * v) z (vminus z' z))) <= / 4 * dist2 z' z.
Proof.
  intros z z' Lz Lz'. apply norm2_le_sq; [pose proof (dist2_nonneg z' z); lra|]. revert z z' Lz Lz'.
  induction b as [|b0 b IH]; intros [|x z] [|y z'] Lz Lz'; cbn in Lz, Lz'; try lia; [cbn; lra|].
  specialize (IH z z' ltac:(lia) ltac:(lia)). pose proof (sigma_second x y) as S. cbn [map2 vminus lin dot dist2] in *.
  unfold vminus in IH. cbn [map2 lin dot].
  set (Q := dist2 z' z) in *. pose proof (dist2_nonneg z' z) as PQ. fold Q in PQ.
  set (e := 1 * (1 * dlog b0 y + -1 * dlog b0 x) + -1 * (dsig x * (1 * y + -1 * x))).
  assert (Ee : e = sigma y - sigma x - sigma x * (1 - sigma x) * (y - x)) by (unfold e, dlog, dsig; ring).
  rewrite <- Ee in S. set (q := (y - x) * (y - x)) in *. assert (Pq : 0 <= q) by (unfold q; apply Rle_0_sqr).
  assert (e * e <= / 4 * q * (/ 4 * q)).
  { assert (Q2 : e * e = Rabs e * Rabs e) by (unfold Rabs; destruct (Rcase_abs e); ring). rewrite Q2. pose proof (Rabs_pos e). apply Rmult_le_compat; auto. }
  match goal with |- _ + ?t <= _ => assert (t <= / 4 * Q * (/ 4 * Q)) by exact IH end. nra.
Qed.
Section Deriv.
Variables (d : nat) (A : list (list R)) (b : list R).
Hypothesis HA : rect d A.
Hypothesis Hb : length b = length A.
Hypothesis Hn : (0 < length A)%nat.
Definition mhess (x s : list R) : list R := smul (/ INR (length A)) (wsum d (map2 (fun t v => dsig t * v) (matvec A x) (matvec A s)) A).
Lemma mhess_length x s : length (mhess x s) = d.
Proof. unfold mhess. rewrite smul_length. apply wsum_length; auto. Qed.
Lemma mgrad_second x : length x = d -> exists C, 0 <= C /\ forall y, length y = d ->
  norm2 (vminus (vminus (mgrad dlog d A b y) (mgrad dlog d A b x)) (mhess x (vminus y x))) <= C * dot (vminus y x) (vminus y x).
Proof.
  intros Hx. destruct (frobenius d A HA) as (s & Hs & Ho). assert (P : 0 < INR (length A)) by (apply lt_0_INR; auto).
  assert (Pi : 0 < / INR (length A)) by (apply Rinv_0_lt_compat; auto).
  exists (/ INR (length A) * (s * (/ 4 * (s * s)))). split.
  { repeat apply Rmult_le_pos; lra. }
  intros y Hy. unfold mgrad, mhess.
  set (u := map2 dlog b (matvec A y)). set (v := map2 dlog b (matvec A x)). set (h := map2 _ (matvec A x) _).
  assert (Lu : length u = length A) by (unfold u; rewrite map2_length, matvec_length; lia).
  assert (Lv : length v = length A) by (unfold v; rewrite map2_length, matvec_length; lia).
  assert (Lh : length h = length A) by (unfold h; rewrite map2_length, !matvec_length; lia).
  assert (E : vminus (vminus (smul (/ INR (length A)) (wsum d u A)) (smul (/ INR (length A)) (wsum d v A))) (smul (/ INR (length A)) (wsum d h A))
    = smul (/ INR (length A)) (wsum d (vminus (vminus u v) h) A)).
  { pose proof (wsum_length d A HA u). pose proof (wsum_length d A HA v). pose proof (wsum_length d A HA h).
    rewrite <- (wsum_sub d A HA) by leng. rewrite <- (wsum_sub d A HA) by leng.
    apply (list_ext _ _ 0); [leng|]. intros i Hi. rewrite nth_smul. unfold vminus. repeat rewrite nth_lin by leng. rewrite !nth_smul. ring. }
  rewrite E, norm2_smul, Rabs_right by lra. rewrite Rmult_assoc. apply Rmult_le_compat_l; [lra|].
  eapply Rle_trans; [apply (wsum_norm d A s); auto; leng|]. rewrite Rmult_assoc. apply Rmult_le_compat_l; auto.
  unfold u, v, h. rewrite (matvec_vminus d) by auto.
  eapply Rle_trans; [apply res_second; rewrite matvec_length; lia|]. rewrite Rmult_assoc. apply Rmult_le_compat_l; [lra|].
  rewrite dist2_dot by (rewrite !matvec_length; lia). rewrite <- (matvec_vminus d) by auto.
  assert (Hv : length (vminus y x) = d) by leng. specialize (Ho _ Hv).
  apply norm2_le_sq in Ho; [|apply Rmult_le_pos; auto; apply norm2_nonneg].
  eapply Rle_trans; [exact Ho|]. right. rewrite <- norm2_sq. ring.
Qed.
End Deriv.
