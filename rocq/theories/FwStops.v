(** * Frank-Wolfe stops: how many iterations until the certificate is below the tolerance (C104, C105) *)
From Coq Require Import ZArith Bool List Lia Reals Lra.
From Verif Require Import Num Vec Spec RVec ConvexFacts PenaltyFacts ModelConstraint ModelFrankWolfe FrankWolfeFacts FrankWolfeConv FrankWolfeMain FrankWolfeMain2 FrankWolfeRuns.
Import ListNotations.
Local Open Scope R_scope.

(** ** the decrease of every iteration *)
Lemma decrease_generic n dom fg lmo (step : fw_strategy RN) lipschitz (tol : RN) max_iter cb (x0 : vec RN) (r : fw_result RN) (C e : R)
  (ok : fw_iter RN -> Prop) (T : nat -> R -> Prop) :
  grad_ok n fg -> convex_set n dom -> lmo_exact n dom lmo ->
  length x0 = n -> dom x0 -> step_hyp fg x0 step lipschitz ->
  (forall it (s : fw_state RN) o ss lip' fgn found log1, feas_inv n step lipschitz dom x0 s ->
     fw_inv fg lmo tol x0 it s ->
     step_facts n fg step dom s o ss lip' ->
     fw_select fg step lipschitz (with_lip s (cur_lip fg s o)) it (fw_cert (lmo_dir o) (fs_grad s)) (cur_lip fg s o) (lmo_dir o)
         (nsq (vnorm (lmo_dir o))) (lmo_max_step o) = Ok (ss, lip', fgn, found, log1) ->
     ok (mkFwI (fs_x s) (fs_f s) (fs_grad s) o (fw_cert (lmo_dir o) (fs_grad s)) lip' ss (vadd (fs_x s) (vscale ss (lmo_dir o))) found it) ->
     forall t, T it t ->
     objective fg (vplus (fs_x s) (smul ss (lmo_dir o))) <=
       objective fg (fs_x s) + t * dot (gradient fg (fs_x s)) (lmo_dir o) + t * t / 2 * C + e) ->
  minimize_fw fg lmo step lipschitz tol max_iter cb Vanilla x0 = Ok r ->
  (length (fr_x r) = n /\ dom (fr_x r)) /\ fw_chain x0 (fr_iters r) /\ fr_x r = fw_last x0 (fr_iters r) /\
  Forall (fun i : fw_iter RN => tol < fi_cert i /\ length (fi_x i) = n /\ dom (fi_x i) /\ length (fi_next i) = n /\ dom (fi_next i) /\
     (ok i -> forall t, T (fi_it i) t -> objective fg (fi_next i) <= objective fg (fi_x i) - t * fi_cert i + t * t / 2 * C + e)) (fr_iters r).
Proof.
  intros Hg Hd Hl Hx Hd0 Hs Hdec E.
  pose proof (tol_nonneg _ _ _ _ _ _ _ _ _ _ E) as Ht.
  set (P := fun (iters : list (fw_iter RN)) => Forall (fun i : fw_iter RN => length (fi_next i) = n /\ dom (fi_next i) /\ (ok i -> forall t, T (fi_it i) t -> objective fg (fi_next i) <= objective fg (fi_x i) - t * fi_cert i + t * t / 2 * C + e)) iters).
  destruct (vanilla_ind n fg lmo step lipschitz tol cb Hg Ht dom Hd (lmo_exact_feasible _ _ _ Hl) x0 Hx Hd0 Hs
    (fun _ s => P (fs_iters s)) (fun r => P (fr_iters r) /\ fr_x r = fw_last x0 (fr_iters r)) max_iter) with (r := r) as ((Q & Ql) & (A & B & G & D) & F & Ch).
  { constructor. }
  { intros it s o Hit J Hv Hfe Ho. cbv zeta. assert (Hlast : fs_x s = fw_last x0 (fs_iters s)) by apply Hv.
    split; [intros _; split; [exact J|exact Hlast]|].
    intros Hc ss lip' fgn found log1 Hsel Hsf stop log2 Hf1 Hv1.
    split; [intros _; split; [exact J|exact Hlast]|].
    intros _. assert (HP : P (fs_iters (stepped s it o ss lip' fgn found log2 None))).
    2:{ split; [exact HP|]. intros _. split; [exact HP|reflexivity]. }
    unfold stepped. cbn [fs_iters]. constructor; [|exact J]. cbn [fi_it fi_next fi_x fi_cert]. destruct Hf1 as ((N1 & N2 & _) & _). split; [exact N1|]. split; [exact N2|]. intros Hok t HT.
    pose proof (Hdec it s o ss lip' fgn found log1 Hfe Hv Hsf Hsel Hok t HT) as Hde.
    assert (Hgs : fs_grad s = gradient fg (fs_x s)) by (unfold gradient; rewrite <- (proj1 Hv); reflexivity).
    rewrite fw_cert_R, vscale_R, vadd_R. rewrite Hgs in *. rewrite (dot_comm (lmo_dir o)).
    change (vec RN) with (list R) in *. change (carrier RN) with R in *. lra. }
  { exact E. }
  split; [auto|]. split; [exact Ch|]. split; [exact Ql|]. rewrite Forall_forall in *. intros i Hi. destruct (F i Hi) as (_ & _ & _ & F4 & _). destruct (G i Hi) as (G1 & G2 & _).
  unfold P in Q. rewrite Forall_forall in Q.
  split; [|split; [exact G1|split; [exact G2|exact (Q i Hi)]]]. revert F4. rn. destruct (Rleb_spec (fi_cert i) tol) as [H|H]; intros F4; [discriminate|]. exact H.
Qed.

(** ** counting on a chain of iterations *)
Lemma chain_sum (f : list R -> R) (dl : R) (l : list (fw_iter RN)) : forall x0, fw_chain (K:=RN) x0 l ->
  Forall (fun i : fw_iter RN => f (fi_next i) <= f (fi_x i) - dl) l -> f (fw_last (K:=RN) x0 l) <= f x0 - INR (length l) * dl.
Proof.
  induction l as [|i l IH]; intros x0 Hc Hf.
  - cbn. lra.
  - destruct Hc as (Hx & _ & Hc). inversion Hf as [|? ? Hi Hl]; subst. specialize (IH x0 Hc Hl). rewrite Hx in Hi. cbn [length fw_last]. rewrite S_INR. lra.
Qed.
(** the last 2a iterations of the list, as sequences *)
Lemma chain_rate (f : list R -> R) (y : list R) (C e : R) (l : list (fw_iter RN)) : forall x0, fw_chain (K:=RN) x0 l -> 0 <= C -> 0 <= e ->
  Forall (fun i : fw_iter RN => f (fi_x i) - f y <= fi_cert i /\
     f (fi_next i) <= f (fi_x i) - 2 / (INR (fi_it i) + 2) * fi_cert i + 2 / (INR (fi_it i) + 2) * (2 / (INR (fi_it i) + 2)) / 2 * C + e) l ->
  l <> [] -> f (fw_last (K:=RN) x0 l) - f y <= 2 * C / (INR (length l) + 2) + INR (length l) * e.
Proof.
  induction l as [|i l IH]; intros x0 Hc HC He Hf Hn; [congruence|]. destruct Hc as (Hx & Hk & Hc). inversion Hf as [|? ? Hi Hl]; subst. destruct Hi as (H1 & H2).
  cbn [fw_last length]. rewrite Hk in H2. apply rate_step with (h := f (fi_x i) - f y) (cert := fi_cert i); auto; [|lra].
  destruct l as [|j l]; [left; reflexivity|]. right. rewrite Hx. apply IH; [exact Hc|exact HC|exact He|exact Hl|discriminate].
Qed.
(** dropping the newest iterations *)
Lemma chain_app (l1 l2 : list (fw_iter RN)) x0 : fw_chain (K:=RN) x0 (l1 ++ l2) -> fw_chain (K:=RN) x0 l2 /\
  forall (f : list R -> R) (dl : R), Forall (fun i : fw_iter RN => f (fi_next i) <= f (fi_x i) - dl) l1 -> f (fw_last (K:=RN) x0 (l1 ++ l2)) <= f (fw_last (K:=RN) x0 l2) - INR (length l1) * dl.
Proof.
  induction l1 as [|i l1 IH]; intros Hc; cbn [app].
  - split; [exact Hc|]. intros f dl _. cbn [app length INR]. lra.
  - destruct Hc as (Hx & _ & Hc). destruct (IH Hc) as (H1 & H2). split; [exact H1|]. intros f dl Hf. inversion Hf as [|? ? Hi Hl]; subst. specialize (H2 f dl Hl). rewrite Hx in Hi. cbn [fw_last length]. rewrite S_INR. lra.
Qed.
Lemma chain_its (l : list (fw_iter RN)) x0 : fw_chain (K:=RN) x0 l -> Forall (fun i => (fi_it i < length l)%nat) l.
Proof.
  induction l as [|i l IH]; intros Hc; constructor; destruct Hc as (_ & Hk & Hc); cbn [length]; [lia|]. specialize (IH Hc). eapply Forall_impl; [|exact IH]. cbn. intros j Hj. lia.
Qed.
Lemma chain_its_ge (l1 l2 : list (fw_iter RN)) x0 : fw_chain (K:=RN) x0 (l1 ++ l2) -> Forall (fun i => (length l2 <= fi_it i)%nat) l1.
Proof.
  induction l1 as [|i l1 IH]; intros Hc; constructor; destruct Hc as (_ & Hk & Hc); [rewrite Hk, app_length; lia|apply IH, Hc].
Qed.
(** 2a iterations with certificate above tol are impossible when 4 C + 3 a^2 e < a tol *)
Lemma too_many (f : list R -> R) (C e tol : R) (a : nat) (l : list (fw_iter RN)) x0 : fw_chain (K:=RN) x0 l -> 0 <= C -> 0 <= e -> 0 < tol -> length l = (2 * a)%nat -> (0 < a)%nat ->
  Forall (fun i : fw_iter RN => tol < fi_cert i /\ f (fi_x i) - f (fw_last (K:=RN) x0 l) <= fi_cert i /\
     f (fi_next i) <= f (fi_x i) - 2 / (INR (fi_it i) + 2) * fi_cert i + 2 / (INR (fi_it i) + 2) * (2 / (INR (fi_it i) + 2)) / 2 * C + e) l ->
  INR a * tol <= 4 * C + 3 * (INR a * INR a) * e.
Proof.
  intros Hc HC He Ht Hl Ha Hf. set (y := fw_last (K:=RN) x0 l) in *.
  assert (Hsplit : l = firstn a l ++ skipn a l) by (symmetry; apply firstn_skipn).
  assert (L1 : length (firstn a l) = a) by (rewrite firstn_length; lia). assert (L2 : length (skipn a l) = a) by (rewrite skipn_length; lia).
  set (l1 := firstn a l) in *. set (l2 := skipn a l) in *. 
  pose proof Hc as Hc0. rewrite Hsplit in Hc0. pose proof (chain_its_ge _ _ _ Hc0) as Hge. pose proof (chain_its _ _ Hc) as Hlt. rewrite L2 in Hge. rewrite Hl in Hlt.
  destruct (chain_app _ _ _ Hc0) as (Hc2 & Hsum). rewrite <- Hsplit in Hsum. fold y in Hsum.
  assert (F1 : Forall (fun i : fw_iter RN => tol < fi_cert i /\ (a <= fi_it i < 2 * a)%nat /\ f (fi_next i) <= f (fi_x i) - 2 / (INR (fi_it i) + 2) * fi_cert i + 2 / (INR (fi_it i) + 2) * (2 / (INR (fi_it i) + 2)) / 2 * C + e) l1).
  { rewrite Forall_forall in *. intros i Hi. assert (In i l) by (rewrite Hsplit; apply in_or_app; left; exact Hi). split; [apply Hf; assumption|]. split; [split; [apply Hge|apply Hlt]; assumption|apply Hf; assumption]. }
  assert (F2 : Forall (fun i : fw_iter RN => f (fi_x i) - f y <= fi_cert i /\ f (fi_next i) <= f (fi_x i) - 2 / (INR (fi_it i) + 2) * fi_cert i + 2 / (INR (fi_it i) + 2) * (2 / (INR (fi_it i) + 2)) / 2 * C + e) l2).
  { rewrite Forall_forall in *. intros i Hi. assert (In i l) by (rewrite Hsplit; apply in_or_app; right; exact Hi). split; apply Hf; assumption. }
  assert (Hn2 : l2 <> []) by (intros E; rewrite E in L2; cbn in L2; lia).
  pose proof (chain_rate f y C e l2 x0 Hc2 HC He F2 Hn2) as HR. rewrite L2 in HR.
  set (A := INR a) in *. assert (HA : 1 <= A) by (unfold A; change 1 with (INR 1); apply le_INR; lia).
  set (dl := 2 / (2 * A + 1) * tol - 2 / ((A + 2) * (A + 2)) * C - e).
  assert (F3 : Forall (fun i : fw_iter RN => f (fi_next i) <= f (fi_x i) - dl) l1).
  { rewrite Forall_forall in *. intros i Hi. destruct (F1 i Hi) as (I1 & (I2 & I3) & I4). set (j := INR (fi_it i)) in *.
    assert (J1 : A <= j) by (apply le_INR; exact I2). assert (J2 : j + 1 <= 2 * A). { unfold j, A. replace (INR (fi_it i) + 1) with (INR (S (fi_it i))) by (rewrite S_INR; ring). replace (2 * INR a) with (INR (2 * a)) by (rewrite mult_INR; cbn; ring). apply le_INR. lia. }
    assert (G1 : 2 / (2 * A + 1) <= 2 / (j + 2)). { unfold Rdiv. apply Rmult_le_compat_l; [lra|]. apply Rinv_le_contravar; lra. }
    assert (G2 : 2 / (j + 2) * (2 / (j + 2)) / 2 <= 2 / ((A + 2) * (A + 2))). { replace (2 / (j + 2) * (2 / (j + 2)) / 2) with (2 / ((j + 2) * (j + 2))) by (field; lra). unfold Rdiv. apply Rmult_le_compat_l; [lra|]. apply Rinv_le_contravar; nra. }
    assert (P1 : 0 < 2 / (2 * A + 1)) by (apply Rdiv_lt_0_compat; lra).
    assert (M1 : 2 / (2 * A + 1) * tol <= 2 / (j + 2) * fi_cert i) by (apply Rmult_le_compat; lra).
    assert (M2 : 2 / (j + 2) * (2 / (j + 2)) / 2 * C <= 2 / ((A + 2) * (A + 2)) * C) by (apply Rmult_le_compat_r; lra).
    unfold dl. lra. }
  pose proof (Hsum f dl F3) as HS. rewrite L1 in HS. fold A in HS.
  assert (HT : A * dl <= 2 * C / (A + 2) + A * e) by lra. unfold dl in HT.
  assert (B1 : A * (2 / ((A + 2) * (A + 2)) * C) <= 2 * C / (A + 2)).
  { replace (2 * C / (A + 2)) with ((A + 2) * (2 / ((A + 2) * (A + 2)) * C)) by (field; lra). apply Rmult_le_compat_r; [|lra]. apply Rmult_le_pos; [|exact HC]. apply Rlt_le, Rdiv_lt_0_compat; nra. }
  assert (B2 : A * (2 / (2 * A + 1) * tol) <= 4 * C / (A + 2) + 2 * (A * e)). { replace (4 * C / (A + 2)) with (2 * (2 * C / (A + 2))) by (field; lra). lra. }
  assert (B3 : A * tol <= (2 * A + 1) / 2 * (4 * C / (A + 2)) + (2 * A + 1) * (A * e)).
  { replace (A * tol) with ((2 * A + 1) / 2 * (A * (2 / (2 * A + 1) * tol))) by (field; lra). eapply Rle_trans; [apply Rmult_le_compat_l; [lra|exact B2]|]. lra. }
  assert (B4 : (2 * A + 1) / 2 * (4 * C / (A + 2)) = 4 * C - 4 * C * ((3 / 2) / (A + 2))) by (field; lra).
  assert (B50 : 0 <= A * (A - 1) * e) by (apply Rmult_le_pos; [apply Rmult_le_pos; lra|exact He]).
  assert (B5 : (2 * A + 1) * (A * e) <= 3 * (A * A) * e) by lra.
  assert (HA2 : 0 < (3 / 2) / (A + 2)) by (apply Rdiv_lt_0_compat; lra).
  assert (0 <= 4 * C * (3 / 2 / (A + 2))) by (apply Rmult_le_pos; lra). lra.
Qed.

(** ** a run without callback that does not stop does all its iterations *)
Lemma run_exit n dom fg lmo step lipschitz tol max_iter x0 (r : fw_result RN) :
  grad_ok n fg -> lmo_exact n dom lmo -> 
  minimize_fw fg lmo step lipschitz tol max_iter None Vanilla x0 = Ok r ->
  (length (fr_iters r) <= max_iter)%nat /\
  ((fr_exit r = ExitGap /\ fr_cert r <= tol) \/ (fr_exit r = ExitMaxIter /\ length (fr_iters r) = max_iter)).
Proof.
  intros Hg Hl E.
  pose proof (main_C49_certificate_partial RN fg lmo step lipschitz tol max_iter None Vanilla x0 r E) as H49.
  pose proof E as E'. apply minimize_fw_loop in E' as (_ & a & Ha & E').
  assert (G : (length (fr_iters r) <= max_iter)%nat /\ fr_exit r <> ExitCallback /\ (fr_exit r = ExitGap -> fr_cert r <= tol)).
  { clear H49. cbn in Ha. subst a. refine (@fw_loop_ind RN fg _ step lipschitz tol None (fun it s => fw_inv fg _ tol x0 it s)
      (fun r => (length (fr_iters r) <= max_iter)%nat /\ fr_exit r <> ExitCallback /\ (fr_exit r = ExitGap -> fr_cert r <= tol)) max_iter _ max_iter 0 _ r _ _ E').
    2:{ lia. } 2:{ apply fw_inv_init. }
    intros it s o Hit Hv Ho. cbv zeta. assert (Hlen : length (fs_iters s) = it) by apply Hv. split.
    - intros Hc. apply Rleb_iff in Hc. cbn. split; [lia|]. split; [discriminate|]. intros _. exact Hc.
    - intros Hcc ss lip' fgn found log1 Hs stop log2 Hcb. cbn [cb_call] in Hcb. injection Hcb as <- _. split; [intros Hst; discriminate Hst|].
      intros _ act Hact. split; [eapply fw_inv_step; eassumption|]. intros _. cbn. split; [lia|]. split; discriminate. }
  destruct G as (G1 & G2 & G3). split; [exact G1|]. destruct (fr_exit r) eqn:Ex.
  - left. split; [reflexivity|]. apply G3. reflexivity.
  - congruence.
  - right. split; [reflexivity|]. destruct H49 as (i & rest & _ & _ & _ & _ & Hk). exact Hk.
Qed.
(** the gap at the returned point: no direction of the domain decreases the linearisation by more than the certificate *)
Definition fw_gap_le (n : nat) (dom : list R -> Prop) fg (x : list R) (tol : R) : Prop :=
  forall y, length y = n -> dom y -> dot (gradient fg x) (vminus x y) <= tol.

Lemma gap_at_exit n dom fg lmo step lipschitz tol max_iter cb x0 (r : fw_result RN) :
  grad_ok n fg -> convex_set n dom -> lmo_exact n dom lmo -> length x0 = n -> dom x0 -> step_hyp fg x0 step lipschitz ->
  minimize_fw fg lmo step lipschitz tol max_iter cb Vanilla x0 = Ok r ->
  fr_exit r = ExitGap -> fr_cert r <= tol /\ fw_gap_le n dom fg (fr_x r) (fr_cert r).
Proof.
  intros Hg Hd Hl Hx Hd0 Hs E.
  pose proof (tol_nonneg _ _ _ _ _ _ _ _ _ _ E) as Ht.
  destruct (vanilla_ind n fg lmo step lipschitz tol cb Hg Ht dom Hd (lmo_exact_feasible _ _ _ Hl) x0 Hx Hd0 Hs (fun _ _ => True)
    (fun r : fw_result RN => fr_exit r = ExitGap -> fr_cert r <= tol /\ fw_gap_le n dom fg (fr_x r) (fr_cert r)) max_iter I) with (r := r) as (Q & _); [|exact E|exact Q].
  intros it s o Hit _ Hv Hfe Ho. cbv zeta.
  assert (Hgs : fs_grad s = gradient fg (fs_x s)) by (unfold gradient; rewrite <- (proj1 Hv); reflexivity).
  split.
  - intros Hc _. cbn [fr_cert fr_x fw_finish fs_x with_lip]. split; [exact Hc|].
    intros y Hy Hdy. destruct Hfe as ((G1 & G2 & _) & _). rewrite vopp_R in Ho. 
    assert (Hgl : length (fs_grad s) = n) by (rewrite Hgs; apply Hg; exact G1).
    assert (Hu : length (smul (-1) (fs_grad s)) = n) by (rewrite smul_length; exact Hgl).
    destruct (Hl _ _ (fs_active s) Hu G1 G2) as (o' & Ho' & A & (B1 & B2 & B3) & _). rewrite Ho in Ho'. injection Ho' as <-.
    specialize (B3 y ltac:(congruence) Hdy). rewrite fw_cert_R. rewrite <- Hgs.
    change (vec RN) with (list R) in *. change (carrier RN) with R in *. revert B3. ipx. rewrite (dot_comm (fs_grad s) (lmo_dir o)). lra.
  - intros Hc ss lip' fgn found log1 Hsel Hss stop log2 Hf1 Hv1. split; [intros _ Hex; discriminate Hex|]. intros _. split; [exact I|]. intros _ Hex; discriminate Hex.
Qed.

(** ** the decrease of one iteration, per step rule *)
Definition gam (it : nat) (t : R) : Prop := t = 2 / (INR it + 2).
Definition unit_t (it : nat) (t : R) : Prop := 0 <= t <= 1.
Lemma gam_unit it t : gam it t -> unit_t it t.
Proof. intros ->. apply gamma_range. Qed.

Lemma runs_sublinear n dom fg lmo lipschitz tol max_iter cb (x0 : vec RN) (r : fw_result RN) (C : R) :
  grad_ok n fg -> convex_set n dom -> lmo_exact n dom lmo ->
  curvature n dom (objective fg) (gradient fg) C -> length x0 = n -> dom x0 ->
  minimize_fw fg lmo FSSublinear lipschitz tol max_iter cb Vanilla x0 = Ok r ->
  0 <= C /\ (length (fr_x r) = n /\ dom (fr_x r)) /\ fw_chain x0 (fr_iters r) /\ fr_x r = fw_last x0 (fr_iters r) /\
  Forall (fun i : fw_iter RN => tol < fi_cert i /\ length (fi_x i) = n /\ dom (fi_x i) /\ length (fi_next i) = n /\ dom (fi_next i) /\
     forall t, gam (fi_it i) t -> objective fg (fi_next i) <= objective fg (fi_x i) - t * fi_cert i + t * t / 2 * C + 0) (fr_iters r).
Proof.
  intros Hg Hd Hl Hcu Hx Hd0 E. split.
  { pose proof (Hcu x0 x0 1 Hx Hx Hd0 Hd0 ltac:(lra)) as H.
    replace (lin (1 - 1) x0 1 x0) with x0 in H.
    2:{ apply list_ext with (d := 0); [leng|]. intros i Hi. rewrite nth_lin by reflexivity. lra. }
    rewrite vminus_self, dot_zeros_r in H. lra. }
  destruct (decrease_generic n dom fg lmo FSSublinear lipschitz tol max_iter cb x0 r C 0 (fun _ => True) gam Hg Hd Hl Hx Hd0 I) as (A & B & D & F); [|exact E|].
  { intros it s o ss lip' fgn found log1 Hfe Hv (F1 & F2 & F3 & F4 & F5 & F6 & _) Hsel _ t ->.
    rewrite fw_cert_R, norm_d_R, F3 in Hsel.
    pose proof (select_range fg FSSublinear lipschitz _ _ _ _ _ _ _ _ _ _ _ _ F4 F5 Rle_0_1 I Hsel) as (S1 & S2).
    rewrite <- S1. destruct Hfe as ((G1 & G2 & _) & _).
    rewrite lin_step by lengr. 
    assert (Hlv : length (vplus (fs_x s) (lmo_dir o)) = n) by lengr.
    pose proof (Hcu (fs_x s) (vplus (fs_x s) (lmo_dir o)) ss G1 Hlv G2 F2 S2) as H'.
    replace (vminus (vplus (fs_x s) (lmo_dir o)) (fs_x s)) with (lmo_dir o) in H'.
    2:{ apply list_ext with (d := 0); [lengr|]. intros i Hi. rewrite nth_vminus by lengr. rewrite nth_vplus by lengr.
        change (carrier RN) with R in *. lra. }
    lra. }
  split; [exact A|]. split; [exact B|]. split; [exact D|]. eapply Forall_impl; [|exact F]. cbn beta. intros i (I1 & I2 & I3 & I4 & I5 & I6). auto 10.
Qed.

Lemma runs_DR n dom fg lmo (L L0 D2 : R) tol max_iter cb (x0 : vec RN) (r : fw_result RN) :
  grad_ok n fg -> convex_set n dom -> lmo_exact n dom lmo ->
  smooth_upper n L (objective fg) (gradient fg) -> L <= L0 -> 0 < L0 -> diameter2 n dom D2 ->
  length x0 = n -> dom x0 ->
  minimize_fw fg lmo FSDR (Some L0) tol max_iter cb Vanilla x0 = Ok r ->
  0 <= L0 * D2 /\ (length (fr_x r) = n /\ dom (fr_x r)) /\ fw_chain x0 (fr_iters r) /\ fr_x r = fw_last x0 (fr_iters r) /\
  Forall (fun i : fw_iter RN => tol < fi_cert i /\ length (fi_x i) = n /\ dom (fi_x i) /\ length (fi_next i) = n /\ dom (fi_next i) /\
     forall t, unit_t (fi_it i) t -> objective fg (fi_next i) <= objective fg (fi_x i) - t * fi_cert i + t * t / 2 * (L0 * D2) + 0) (fr_iters r).
Proof.
  intros Hg Hd Hl Hsm HL HL0 HD Hx Hd0 E.
  assert (HD2 : 0 <= D2). { pose proof (HD x0 x0 Hx Hx Hd0 Hd0) as H. rewrite dist2_refl in H. exact H. }
  split; [apply Rmult_le_pos; lra|].
  destruct (decrease_generic n dom fg lmo FSDR (Some L0) tol max_iter cb x0 r (L0 * D2) 0 (fun i => fi_lip i = L0) unit_t Hg Hd Hl Hx Hd0 HL0) as (A & B & D & F); [|exact E|].
  { intros it s o ss lip' fgn found log1 Hfe Hv (F1 & F2 & F3 & F4 & F5 & F6 & F7 & F8) Hsel Hok t Ht.
    cbn [fi_lip] in Hok.
    rewrite fw_cert_R, norm_d_R, F3 in Hsel.
    pose proof (select_range fg FSDR (Some L0) _ _ _ _ _ _ _ _ _ _ _ _ F4 F5 Rle_0_1 F8 Hsel) as (S1 & S2 & S3 & _).
    assert (Hcl : cur_lip fg s o = L0) by congruence. rewrite Hcl in S1.
    destruct Hfe as ((G1 & G2 & _) & _).
    assert (Hgs : fs_grad s = gradient fg (fs_x s)) by (unfold gradient; rewrite <- (proj1 Hv); reflexivity).
    eapply model_decrease with (Lt := L0) (Lbar := L0) (n := n) (dom := dom); eauto; [lra|].
    rewrite Rplus_0_r. unfold quad_model.
    pose proof (smooth_along n L (objective fg) (gradient fg) (fs_x s) (lmo_dir o) ss Hsm G1 F1) as Hs.
    rewrite <- Hgs, (dot_comm (fs_grad s)) in Hs.
    assert (/ 2 * (ss * ss) * L * dot (lmo_dir o) (lmo_dir o) <= / 2 * (ss * ss) * L0 * dot (lmo_dir o) (lmo_dir o)).
    { apply Rmult_le_compat_r; [lra|]. apply Rmult_le_compat_l; [|exact HL]. pose proof (Rle_0_sqr ss) as Hsq; unfold Rsqr in Hsq; rn; lra. }
    rn. lra. }
  pose proof (dr_lip _ _ _ _ _ _ _ _ E) as Hlip.
  split; [exact A|]. split; [exact B|]. split; [exact D|]. rewrite Forall_forall in *. intros i Hi. destruct (F i Hi) as (I1 & I2 & I3 & I4 & I5 & I6). auto 10.
Qed.

(** with an L-smooth objective and an initial estimate that is not absurdly small, every line search of the run succeeds *)
Lemma bt_all_found n dom fg lmo (L L0 : R) (tol : RN) max_iter cb (x0 : vec RN) (r : fw_result RN) :
  grad_ok n fg -> convex_set n dom -> lmo_feasible n dom lmo ->
  smooth_upper n L (objective fg) (gradient fg) -> 0 < L0 -> L <= L0 * (9 / 10) ^ max_iter * 2 ^ 99 ->
  length x0 = n -> dom x0 ->
  minimize_fw fg lmo FSBacktracking (Some L0) tol max_iter cb Vanilla x0 = Ok r ->
  Forall (fun i : fw_iter RN => fi_found i = true) (fr_iters r).
Proof.
  intros Hg Hd Hl Hsm HL0 HL Hx Hd0 E.
  pose proof (tol_nonneg _ _ _ _ _ _ _ _ _ _ E) as Ht.
  set (P := fun (iters : list (fw_iter RN)) => Forall (fun i : fw_iter RN => fi_found i = true) iters).
  destruct (vanilla_ind n fg lmo FSBacktracking (Some L0) tol cb Hg Ht dom Hd Hl x0 Hx Hd0 HL0
    (fun it s => P (fs_iters s) /\ exists l, fs_lip s = Some l /\ L0 * (9 / 10) ^ it <= l) (fun r => P (fr_iters r)) max_iter) with (r := r) as (Q & _); [| |exact E|exact Q].
  { split; [constructor|]. exists L0. split; [reflexivity|]. cbn [pow]. lra. }
  intros it s o Hit (J1 & l & El & Hle) Hv Hfe Ho. cbv zeta.
  split; [intros _; exact J1|].
  intros Hc ss lip' fgn found log1 Hsel Hsf stop log2 Hf1 Hv1.
  split; [intros _; exact J1|]. intros _.
  destruct Hsf as (F1 & F2 & F3 & F4 & F5 & F6 & F7 & F8).
  rewrite fw_cert_R, norm_d_R, F3 in Hsel.
  unfold fw_select in Hsel. injection Hsel as _ H2 _ H4 _.
  assert (Hcl : cur_lip fg s o = l) by (unfold cur_lip; rewrite El; reflexivity).
  rewrite Hcl in *. cbn [fs_x fs_f fs_old with_lip] in H2, H4.
  destruct Hfe as ((G1 & _) & _).
  assert (Hgs : fs_grad s = gradient fg (fs_x s)) by (unfold gradient; rewrite <- (proj1 Hv); reflexivity).
  assert (Hfs : fs_f s = objective fg (fs_x s)) by (unfold objective; rewrite <- (proj1 Hv); reflexivity).
  assert (Hp9 : 0 < 2 ^ 99) by (apply pow_lt; lra).
  assert (Hpow : L0 * (9 / 10) ^ max_iter <= 9 / 10 * l).
  { apply Rle_trans with (L0 * (9 / 10) ^ (S it)).
    - apply Rmult_le_compat_l; [lra|]. replace max_iter with ((max_iter - S it) + S it)%nat by lia. rewrite pow_add.
      assert (K1 : 0 < (9 / 10) ^ S it) by (apply pow_lt; lra). assert (K2 : (9 / 10) ^ (max_iter - S it) <= 1). { rewrite <- (pow1 (max_iter - S it)). apply pow_incr. lra. }
      rewrite <- (Rmult_1_l ((9 / 10) ^ S it)) at 2. apply Rmult_le_compat_r; lra.
    - cbn [pow]. lra. }
  destruct (main_C43_line_search fg (fs_x s) (fs_f s) (fs_old s) (- dot (lmo_dir o) (fs_grad s)) l 1 (lmo_dir o) (dot (lmo_dir o) (lmo_dir o)) F4 F8 F5 Rle_0_1) as (_ & S2 & _).
  destruct (main_C43_line_search_succeeds fg (fs_x s) (fs_f s) (fs_old s) (- dot (lmo_dir o) (fs_grad s)) l 1 (lmo_dir o) (dot (lmo_dir o) (lmo_dir o)) L F4 F8 F5 Rle_0_1) as (S1 & _).
  { intros t _. pose proof (smooth_along n L (objective fg) (gradient fg) (fs_x s) (lmo_dir o) t Hsm G1 F1) as Hs.
    rewrite <- Hgs, (dot_comm (fs_grad s)) in Hs. clear HL. rewrite Hfs. unfold objective in *. rn. lra. }
  { eapply Rle_trans; [exact HL|]. apply Rmult_le_compat_r; [lra|exact Hpow]. }
  assert (Hfo : found = true) by (rewrite <- H4; exact S1).
  assert (HP : P (fs_iters (stepped s it o ss lip' fgn found log2 None))) by (constructor; [exact Hfo|exact J1]).
  split; [|intros _; exact HP]. split; [exact HP|]. exists lip'. split; [reflexivity|]. rewrite <- H2.
  eapply Rle_trans; [|exact S2]. cbn [pow]. clear HL Hpow. lra.
Qed.

Lemma runs_backtracking n dom fg lmo (L L0 D2 : R) tol max_iter cb (x0 : vec RN) (r : fw_result RN) :
  grad_ok n fg -> convex_set n dom -> lmo_exact n dom lmo ->
  smooth_upper n L (objective fg) (gradient fg) -> 0 < L0 -> L <= L0 * (9 / 10) ^ max_iter * 2 ^ 99 -> diameter2 n dom D2 ->
  length x0 = n -> dom x0 ->
  minimize_fw fg lmo FSBacktracking (Some L0) tol max_iter cb Vanilla x0 = Ok r ->
  0 <= Rmax L0 (2 * L) * D2 /\ (length (fr_x r) = n /\ dom (fr_x r)) /\ fw_chain x0 (fr_iters r) /\ fr_x r = fw_last x0 (fr_iters r) /\
  Forall (fun i : fw_iter RN => tol < fi_cert i /\ length (fi_x i) = n /\ dom (fi_x i) /\ length (fi_next i) = n /\ dom (fi_next i) /\
     forall t, unit_t (fi_it i) t -> objective fg (fi_next i) <= objective fg (fi_x i) - t * fi_cert i + t * t / 2 * (Rmax L0 (2 * L) * D2) + EPS) (fr_iters r).
Proof.
  intros Hg Hd Hl Hsm HL0 HL HD Hx Hd0 E.
  assert (HD2 : 0 <= D2). { pose proof (HD x0 x0 Hx Hx Hd0 Hd0) as H. rewrite dist2_refl in H. exact H. }
  set (Lb := Rmax L0 (2 * L)). assert (HLb : L0 <= Lb) by apply Rmax_l.
  pose proof (bt_all_found n dom fg lmo L L0 tol max_iter cb x0 r Hg Hd (lmo_exact_feasible _ _ _ Hl) Hsm HL0 HL Hx Hd0 E) as Hfound. clear HL.
  split; [apply Rmult_le_pos; lra|].
  destruct (decrease_generic n dom fg lmo FSBacktracking (Some L0) tol max_iter cb x0 r (Lb * D2) EPS (fun i => fi_found i = true /\ fi_lip i <= Lb) unit_t Hg Hd Hl Hx Hd0 HL0) as (A & B & D & F); [|exact E|].
  { intros it s o ss lip' fgn found log1 Hfe Hv (F1 & F2 & F3 & F4 & F5 & F6 & F7 & F8) Hsel (Ok1 & Ok2) t Ht.
    cbn [fi_lip fi_found] in Ok1, Ok2.
    rewrite fw_cert_R, norm_d_R, F3 in Hsel.
    pose proof (fw_select_eval _ _ _ _ _ _ _ _ _ _ Hsel) as Hev. cbn [fs_x with_lip] in Hev. rewrite vscale_R, vadd_R in Hev.
    pose proof (select_range fg FSBacktracking (Some L0) _ _ _ _ _ _ _ _ _ _ _ _ F4 F5 Rle_0_1 F8 Hsel) as (S1 & S2 & S3).
    destruct (S3 Ok1) as (S4 & S5 & S6). cbn [fs_f with_lip] in S4.
    destruct Hfe as ((G1 & G2 & _) & _).
    assert (Hgs : fs_grad s = gradient fg (fs_x s)) by (unfold gradient; rewrite <- (proj1 Hv); reflexivity).
    assert (Hfs : fs_f s = objective fg (fs_x s)) by (unfold objective; rewrite <- (proj1 Hv); reflexivity).
    eapply model_decrease with (Lt := lip') (Lbar := Lb) (n := n) (dom := dom); eauto.
    rewrite <- Hfs. unfold objective. rewrite <- Hev. exact S4. }
  pose proof (bt_lip_bound n dom fg lmo L L0 tol max_iter cb x0 r Hg Hd (lmo_exact_feasible _ _ _ Hl) Hsm HL0 Hx Hd0 E Hfound) as Hb.
  split; [exact A|]. split; [exact B|]. split; [exact D|]. rewrite Forall_forall in *. intros i Hi. destruct (F i Hi) as (I1 & I2 & I3 & I4 & I5 & I6).
  split; [exact I1|]. split; [exact I2|]. split; [exact I3|]. split; [exact I4|]. split; [exact I5|]. apply I6. split; [apply Hfound; exact Hi|apply Hb; exact Hi].
Qed.

(** ** from the decrease to the number of iterations *)
Lemma chain_suffix (l1 l2 : list (fw_iter RN)) x0 : fw_chain (K:=RN) x0 (l1 ++ l2) -> fw_chain (K:=RN) x0 l2.
Proof. intros H. apply (chain_app _ _ _ H). Qed.
Lemma last_dom n (dom : list R -> Prop) x0 (l : list (fw_iter RN)) : length x0 = n -> dom x0 ->
  Forall (fun i : fw_iter RN => length (fi_next i) = n /\ dom (fi_next i)) l -> length (fw_last (K:=RN) x0 l) = n /\ dom (fw_last (K:=RN) x0 l).
Proof. intros A B H. destruct l as [|i l]; [split; assumption|]. exact (Forall_inv H). Qed.
Lemma convex_count n (dom : list R -> Prop) (fg : vec RN -> RN * vec RN) (C e tol : R) (a : nat) (l : list (fw_iter RN)) (x0 : vec RN) :
  0 <= C -> 0 <= e -> 0 < tol -> (0 < a)%nat -> length x0 = n -> dom x0 ->
  fw_chain (K:=RN) x0 l ->
  Forall (fun i : fw_iter RN => tol < fi_cert i /\ length (fi_x i) = n /\ dom (fi_x i) /\ length (fi_next i) = n /\ dom (fi_next i) /\
     forall t, gam (fi_it i) t -> objective fg (fi_next i) <= objective fg (fi_x i) - t * fi_cert i + t * t / 2 * C + e) l ->
  (forall (i : fw_iter RN) y, In i l -> length y = n -> dom y -> objective fg (fi_x i) - objective fg y <= fi_cert i) ->
  4 * C + 3 * (INR a * INR a) * e < INR a * tol -> (length l < 2 * a)%nat.
Proof.
  intros HC He Ht Ha Hx Hd Hc HF Hcert Hlt. destruct (Nat.lt_ge_cases (length l) (2 * a)) as [H|H]; [exact H|]. exfalso.
  set (l1 := firstn (length l - 2 * a) l). set (l2 := skipn (length l - 2 * a) l).
  assert (Hs : l = l1 ++ l2) by (symmetry; apply firstn_skipn).
  assert (L2 : length l2 = (2 * a)%nat) by (unfold l2; rewrite skipn_length; lia).
  rewrite Hs in Hc, HF, Hcert. apply chain_suffix in Hc. apply Forall_app in HF as (_ & HF).
  assert (Hy : length (fw_last (K:=RN) x0 l2) = n /\ dom (fw_last (K:=RN) x0 l2)). { apply last_dom; [exact Hx|exact Hd|]. eapply Forall_impl; [|exact HF]. cbn beta. intros i Hi. split; apply Hi. }
  pose proof (too_many (objective fg) C e tol a l2 x0 Hc HC He Ht L2 Ha) as HT. apply (Rlt_irrefl (INR a * tol)). eapply Rle_lt_trans; [apply HT|exact Hlt].
  rewrite Forall_forall in *. intros i Hi. destruct (HF i Hi) as (I1 & _ & _ & _ & _ & I6). split; [exact I1|]. split; [apply Hcert; [apply in_or_app; right; exact Hi|apply Hy|apply Hy]|]. apply I6. reflexivity.
Qed.
Lemma nonconvex_count n (dom : list R -> Prop) (fg : vec RN -> RN * vec RN) (C e tol m : R) (a : nat) (l : list (fw_iter RN)) (x0 : vec RN) :
  0 < C -> 0 < tol -> length x0 = n -> dom x0 ->
  fw_chain (K:=RN) x0 l ->
  Forall (fun i : fw_iter RN => tol < fi_cert i /\ length (fi_x i) = n /\ dom (fi_x i) /\ length (fi_next i) = n /\ dom (fi_next i) /\
     forall t, unit_t (fi_it i) t -> objective fg (fi_next i) <= objective fg (fi_x i) - t * fi_cert i + t * t / 2 * C + e) l ->
  (forall y, length y = n -> dom y -> m <= objective fg y) ->
  objective fg x0 - m < INR a * (tol / 2 * Rmin 1 (tol / C) - e) -> (length l < a)%nat.
Proof.
  intros HC Ht Hx Hd Hc HF Hm Hlt. set (t := Rmin 1 (tol / C)) in *. set (dl := tol / 2 * t - e) in *.
  assert (Htc : 0 < tol / C) by (apply Rdiv_lt_0_compat; lra).
  assert (Ht1 : 0 < t <= 1) by (split; [unfold t; apply Rmin_glb_lt; lra|apply Rmin_l]).
  assert (HtC : t * C <= tol). { apply Rle_trans with (tol / C * C); [apply Rmult_le_compat_r; [lra|apply Rmin_r]|right; field; lra]. }
  assert (HS : objective fg (fw_last (K:=RN) x0 l) <= objective fg x0 - INR (length l) * dl).
  { apply (chain_sum (objective fg)); [exact Hc|]. eapply Forall_impl; [|exact HF]. cbn beta. intros i (I1 & _ & _ & _ & _ & I6).
    assert (Hu : unit_t (fi_it i) t) by (unfold unit_t; lra). specialize (I6 t Hu).
    assert (t * tol <= t * fi_cert i) by (apply Rmult_le_compat_l; lra).
    assert (t * t / 2 * C <= t * tol / 2). { replace (t * t / 2 * C) with (t * (t * C) / 2) by field. assert (t * (t * C) <= t * tol) by (apply Rmult_le_compat_l; lra). lra. }
    unfold dl. lra. }
  assert (HL : length (fw_last (K:=RN) x0 l) = n /\ dom (fw_last (K:=RN) x0 l)). { apply last_dom; [exact Hx|exact Hd|]. eapply Forall_impl; [|exact HF]. cbn beta. intros i Hi. split; apply Hi. }
  pose proof (Hm _ (proj1 HL) (proj2 HL)) as H1. pose proof (Hm _ Hx Hd) as H0.
  destruct (Nat.lt_ge_cases (length l) a) as [H|H]; [exact H|]. exfalso.
  assert (Hla : INR a <= INR (length l)) by (apply le_INR; exact H). pose proof (pos_INR a) as Hpa.
  assert (0 < dl) by (destruct (Rle_or_lt dl 0) as [Hn|Hn]; [assert (INR a * dl <= 0) by (rewrite <- (Rmult_0_r (INR a)); apply Rmult_le_compat_l; lra); lra|exact Hn]).
  assert (INR a * dl <= INR (length l) * dl) by (apply Rmult_le_compat_r; lra). lra.
Qed.

(** ** C104: convex objectives *)
Definition fw_stops (n : nat) (dom : list R -> Prop) fg (tol : R) (k : nat) (r : fw_result RN) : Prop :=
  fr_exit r = ExitGap /\ (length (fr_iters r) < k)%nat /\ fr_cert r <= tol /\ length (fr_x r) = n /\ dom (fr_x r) /\
  forall y, length y = n -> dom y -> dot (gradient fg (fr_x r)) (vminus (fr_x r) y) <= tol.
Lemma stops_of n dom fg lmo step lipschitz tol max_iter x0 (r : fw_result RN) k :
  grad_ok n fg -> convex_set n dom -> lmo_exact n dom lmo -> length x0 = n -> dom x0 -> step_hyp fg x0 step lipschitz ->
  minimize_fw fg lmo step lipschitz tol max_iter None Vanilla x0 = Ok r -> (length (fr_x r) = n /\ dom (fr_x r)) -> (k <= max_iter)%nat -> (length (fr_iters r) < k)%nat ->
  fw_stops n dom fg tol k r.
Proof.
  intros Hg Hd Hl Hx Hd0 Hs E Hr Hk Hlen. destruct (run_exit n dom fg lmo step lipschitz tol max_iter x0 r Hg Hl E) as (_ & [(Ex & Hc)|(Ex & Hk2)]); [|lia].
  destruct (gap_at_exit n dom fg lmo step lipschitz tol max_iter None x0 r Hg Hd Hl Hx Hd0 Hs E Ex) as (G1 & G2).
  split; [exact Ex|]. split; [exact Hlen|]. split; [exact G1|]. split; [apply Hr|]. split; [apply Hr|]. intros y Hy Hdy. specialize (G2 y Hy Hdy). lra.
Qed.

Lemma main_C104_sublinear : forall n dom fg lmo lipschitz tol max_iter (x0 : vec RN) (C : R) (a : nat),
  grad_ok n fg -> convex_set n dom -> lmo_exact n dom lmo -> first_order n (objective fg) (gradient fg) ->
  curvature n dom (objective fg) (gradient fg) C -> length x0 = n -> dom x0 ->
  0 < tol -> (0 < a)%nat -> (2 * a <= max_iter)%nat -> 4 * C < INR a * tol ->
  exists r : fw_result RN, minimize_fw fg lmo FSSublinear lipschitz tol max_iter None Vanilla x0 = Ok r /\
    fw_stops n dom fg tol (2 * a) r /\
    forall y, length y = n -> dom y -> objective fg (fr_x r) - objective fg y <= tol.
Proof.
  intros n dom fg lmo lipschitz tol m x0 C a Hg Hd Hl Hf Hcu Hx Hd0 Ht Ha Hm Hlt.
  destruct (main_C41_returns n dom fg lmo FSSublinear lipschitz tol m None x0 Hg Hd (lmo_exact_feasible _ _ _ Hl) Hx Hd0 I (Rlt_le _ _ Ht) ltac:(lia) I) as (r & E).
  destruct (runs_sublinear n dom fg lmo lipschitz tol m None x0 r C Hg Hd Hl Hcu Hx Hd0 E) as (HC & Hr & Hch & _ & HF).
  destruct (main_C42_certificate_bound n dom fg lmo FSSublinear lipschitz tol m None x0 r Hg Hd Hl Hf Hx Hd0 I E) as (B1 & _ & B3).
  pose proof (convex_count n dom fg C 0 tol a (fr_iters r) x0 HC (Rle_refl 0) Ht Ha Hx Hd0 Hch HF B1 ltac:(rewrite Rmult_0_r, Rplus_0_r; exact Hlt)) as Hlen.
  pose proof (stops_of n dom fg lmo FSSublinear lipschitz tol m x0 r (2 * a) Hg Hd Hl Hx Hd0 I E Hr Hm Hlen) as HS.
  exists r. split; [exact E|]. split; [exact HS|]. intros y Hy Hdy. destruct (B3 (proj1 HS) y Hy Hdy) as (X1 & X2). eapply Rle_trans; eassumption.
Qed.
Lemma main_C104_DR : forall n dom fg lmo (L L0 D2 : R) tol max_iter (x0 : vec RN) (a : nat),
  grad_ok n fg -> convex_set n dom -> lmo_exact n dom lmo -> first_order n (objective fg) (gradient fg) ->
  smooth_upper n L (objective fg) (gradient fg) -> L <= L0 -> 0 < L0 -> diameter2 n dom D2 -> length x0 = n -> dom x0 ->
  0 < tol -> (0 < a)%nat -> (2 * a <= max_iter)%nat -> 4 * (L0 * D2) < INR a * tol ->
  exists r : fw_result RN, minimize_fw fg lmo FSDR (Some L0) tol max_iter None Vanilla x0 = Ok r /\
    fw_stops n dom fg tol (2 * a) r /\
    forall y, length y = n -> dom y -> objective fg (fr_x r) - objective fg y <= tol.
Proof.
  intros n dom fg lmo L L0 D2 tol m x0 a Hg Hd Hl Hf Hsm HL HL0 HD Hx Hd0 Ht Ha Hm Hlt.
  destruct (main_C41_returns n dom fg lmo FSDR (Some L0) tol m None x0 Hg Hd (lmo_exact_feasible _ _ _ Hl) Hx Hd0 HL0 (Rlt_le _ _ Ht) ltac:(lia) ltac:(discriminate)) as (r & E).
  destruct (runs_DR n dom fg lmo L L0 D2 tol m None x0 r Hg Hd Hl Hsm HL HL0 HD Hx Hd0 E) as (HC & Hr & Hch & _ & HF).
  destruct (main_C42_certificate_bound n dom fg lmo FSDR (Some L0) tol m None x0 r Hg Hd Hl Hf Hx Hd0 HL0 E) as (B1 & _ & B3).
  assert (HF' : Forall (fun i : fw_iter RN => tol < fi_cert i /\ length (fi_x i) = n /\ dom (fi_x i) /\ length (fi_next i) = n /\ dom (fi_next i) /\
     forall t, gam (fi_it i) t -> objective fg (fi_next i) <= objective fg (fi_x i) - t * fi_cert i + t * t / 2 * (L0 * D2) + 0) (fr_iters r)).
  { eapply Forall_impl; [|exact HF]. cbn beta. intros i (I1 & I2 & I3 & I4 & I5 & I6). do 5 (split; [assumption|]). intros t Hgt. apply I6, gam_unit, Hgt. }
  pose proof (convex_count n dom fg (L0 * D2) 0 tol a (fr_iters r) x0 HC (Rle_refl 0) Ht Ha Hx Hd0 Hch HF' B1 ltac:(rewrite Rmult_0_r, Rplus_0_r; exact Hlt)) as Hlen.
  pose proof (stops_of n dom fg lmo FSDR (Some L0) tol m x0 r (2 * a) Hg Hd Hl Hx Hd0 HL0 E Hr Hm Hlen) as HS.
  exists r. split; [exact E|]. split; [exact HS|]. intros y Hy Hdy. destruct (B3 (proj1 HS) y Hy Hdy) as (X1 & X2). eapply Rle_trans; eassumption.
Qed.
Lemma main_C104_backtracking : forall n dom fg lmo (L L0 D2 : R) tol max_iter (x0 : vec RN) (a : nat),
  grad_ok n fg -> convex_set n dom -> lmo_exact n dom lmo -> first_order n (objective fg) (gradient fg) ->
  smooth_upper n L (objective fg) (gradient fg) -> 0 < L0 -> L <= L0 * (9 / 10) ^ max_iter * 2 ^ 99 -> diameter2 n dom D2 -> length x0 = n -> dom x0 ->
  0 < tol -> (0 < a)%nat -> (2 * a <= max_iter)%nat -> 4 * (Rmax L0 (2 * L) * D2) + 3 * (INR a * INR a) * EPS < INR a * tol ->
  exists r : fw_result RN, minimize_fw fg lmo FSBacktracking (Some L0) tol max_iter None Vanilla x0 = Ok r /\
    fw_stops n dom fg tol (2 * a) r /\
    forall y, length y = n -> dom y -> objective fg (fr_x r) - objective fg y <= tol.
Proof.
  intros n dom fg lmo L L0 D2 tol m x0 a Hg Hd Hl Hf Hsm HL0 HL HD Hx Hd0 Ht Ha Hm Hlt.
  destruct (main_C41_returns n dom fg lmo FSBacktracking (Some L0) tol m None x0 Hg Hd (lmo_exact_feasible _ _ _ Hl) Hx Hd0 HL0 (Rlt_le _ _ Ht) ltac:(clear HL; lia) I) as (r & E).
  destruct (runs_backtracking n dom fg lmo L L0 D2 tol m None x0 r Hg Hd Hl Hsm HL0 HL HD Hx Hd0 E) as (HC & Hr & Hch & _ & HF). clear HL.
  destruct (main_C42_certificate_bound n dom fg lmo FSBacktracking (Some L0) tol m None x0 r Hg Hd Hl Hf Hx Hd0 HL0 E) as (B1 & _ & B3).
  assert (HF' : Forall (fun i : fw_iter RN => tol < fi_cert i /\ length (fi_x i) = n /\ dom (fi_x i) /\ length (fi_next i) = n /\ dom (fi_next i) /\
     forall t, gam (fi_it i) t -> objective fg (fi_next i) <= objective fg (fi_x i) - t * fi_cert i + t * t / 2 * (Rmax L0 (2 * L) * D2) + EPS) (fr_iters r)).
  { eapply Forall_impl; [|exact HF]. cbn beta. intros i (I1 & I2 & I3 & I4 & I5 & I6). do 5 (split; [assumption|]). intros t Hgt. apply I6, gam_unit, Hgt. }
  pose proof (convex_count n dom fg (Rmax L0 (2 * L) * D2) EPS tol a (fr_iters r) x0 HC (Rlt_le _ _ EPS_pos) Ht Ha Hx Hd0 Hch HF' B1 Hlt) as Hlen.
  pose proof (stops_of n dom fg lmo FSBacktracking (Some L0) tol m x0 r (2 * a) Hg Hd Hl Hx Hd0 HL0 E Hr Hm Hlen) as HS.
  exists r. split; [exact E|]. split; [exact HS|]. intros y Hy Hdy. destruct (B3 (proj1 HS) y Hy Hdy) as (X1 & X2). eapply Rle_trans; eassumption.
Qed.

(** ** C105: objectives that are smooth and bounded below, convex or not *)
Lemma main_C105_DR : forall n dom fg lmo (L L0 D2 m : R) tol max_iter (x0 : vec RN) (a : nat),
  grad_ok n fg -> convex_set n dom -> lmo_exact n dom lmo ->
  smooth_upper n L (objective fg) (gradient fg) -> L <= L0 -> 0 < L0 -> 0 < D2 -> diameter2 n dom D2 -> length x0 = n -> dom x0 ->
  (forall y, length y = n -> dom y -> m <= objective fg y) ->
  0 < tol -> (a <= max_iter)%nat -> objective fg x0 - m < INR a * (tol / 2 * Rmin 1 (tol / (L0 * D2))) ->
  exists r : fw_result RN, minimize_fw fg lmo FSDR (Some L0) tol max_iter None Vanilla x0 = Ok r /\
    fw_stops n dom fg tol a r /\ objective fg (fr_x r) <= objective fg x0.
Proof.
  intros n dom fg lmo L L0 D2 m tol mi x0 a Hg Hd Hl Hsm HL HL0 HD0 HD Hx Hd0 Hlow Ht Hm Hlt.
  assert (Ha : (0 < a)%nat). { destruct a; [|lia]. exfalso. cbn [INR] in Hlt. rewrite Rmult_0_l in Hlt. specialize (Hlow x0 Hx Hd0). lra. }
  destruct (main_C41_returns n dom fg lmo FSDR (Some L0) tol mi None x0 Hg Hd (lmo_exact_feasible _ _ _ Hl) Hx Hd0 HL0 (Rlt_le _ _ Ht) ltac:(lia) ltac:(discriminate)) as (r & E).
  destruct (runs_DR n dom fg lmo L L0 D2 tol mi None x0 r Hg Hd Hl Hsm HL HL0 HD Hx Hd0 E) as (HC & Hr & Hch & Hlast & HF).
  assert (HCp : 0 < L0 * D2) by (apply Rmult_lt_0_compat; assumption).
  pose proof (nonconvex_count n dom fg (L0 * D2) 0 tol m a (fr_iters r) x0 HCp Ht Hx Hd0 Hch HF Hlow ltac:(rewrite Rminus_0_r; exact Hlt)) as Hlen.
  exists r. split; [exact E|]. split; [exact (stops_of n dom fg lmo FSDR (Some L0) tol mi x0 r a Hg Hd Hl Hx Hd0 HL0 E Hr Hm Hlen)|].
  rewrite Hlast. pose proof (chain_sum (objective fg) 0 (fr_iters r) x0 Hch) as HS. rewrite Rmult_0_r, Rminus_0_r in HS. apply HS.
  eapply Forall_impl; [|exact HF]. cbn beta. intros i (_ & _ & _ & _ & _ & I6). assert (Hu : unit_t (fi_it i) 0) by (unfold unit_t; lra). specialize (I6 0 Hu). lra.
Qed.
Lemma main_C105_backtracking : forall n dom fg lmo (L L0 D2 m : R) tol max_iter (x0 : vec RN) (a : nat),
  grad_ok n fg -> convex_set n dom -> lmo_exact n dom lmo ->
  smooth_upper n L (objective fg) (gradient fg) -> 0 < L0 -> L <= L0 * (9 / 10) ^ max_iter * 2 ^ 99 -> 0 < D2 -> diameter2 n dom D2 -> length x0 = n -> dom x0 ->
  (forall y, length y = n -> dom y -> m <= objective fg y) ->
  0 < tol -> (a <= max_iter)%nat -> objective fg x0 - m < INR a * (tol / 2 * Rmin 1 (tol / (Rmax L0 (2 * L) * D2)) - EPS) ->
  exists r : fw_result RN, minimize_fw fg lmo FSBacktracking (Some L0) tol max_iter None Vanilla x0 = Ok r /\
    fw_stops n dom fg tol a r /\ objective fg (fr_x r) <= objective fg x0.
Proof.
  intros n dom fg lmo L L0 D2 m tol mi x0 a Hg Hd Hl Hsm HL0 HL HD0 HD Hx Hd0 Hlow Ht Hm Hlt.
  assert (Ha : (0 < a)%nat). { destruct a; [|clear HL; lia]. exfalso. cbn [INR] in Hlt. rewrite Rmult_0_l in Hlt. specialize (Hlow x0 Hx Hd0). clear HL. lra. }
  destruct (main_C41_returns n dom fg lmo FSBacktracking (Some L0) tol mi None x0 Hg Hd (lmo_exact_feasible _ _ _ Hl) Hx Hd0 HL0 (Rlt_le _ _ Ht) ltac:(clear HL; lia) I) as (r & E).
  destruct (runs_backtracking n dom fg lmo L L0 D2 tol mi None x0 r Hg Hd Hl Hsm HL0 HL HD Hx Hd0 E) as (HC & Hr & Hch & Hlast & HF). clear HL.
  set (C := Rmax L0 (2 * L) * D2) in *.
  assert (HCp : 0 < C) by (apply Rmult_lt_0_compat; [pose proof (Rmax_l L0 (2 * L)); lra|assumption]).
  pose proof (nonconvex_count n dom fg C EPS tol m a (fr_iters r) x0 HCp Ht Hx Hd0 Hch HF Hlow Hlt) as Hlen.
  exists r. split; [exact E|]. split; [exact (stops_of n dom fg lmo FSBacktracking (Some L0) tol mi x0 r a Hg Hd Hl Hx Hd0 HL0 E Hr Hm Hlen)|].
  rewrite Hlast. set (t := Rmin 1 (tol / C)) in *. set (dl := tol / 2 * t - EPS) in *.
  assert (Hdl : 0 < dl). { pose proof (pos_INR a) as Hpa. pose proof (Hlow x0 Hx Hd0). destruct (Rle_or_lt dl 0) as [Hn|Hn]; [assert (INR a * dl <= 0) by (rewrite <- (Rmult_0_r (INR a)); apply Rmult_le_compat_l; lra); lra|exact Hn]. }
  assert (Htc : 0 < tol / C) by (apply Rdiv_lt_0_compat; lra).
  assert (Ht1 : 0 < t <= 1) by (split; [unfold t; apply Rmin_glb_lt; lra|apply Rmin_l]).
  assert (HtC : t * C <= tol) by (apply Rle_trans with (tol / C * C); [apply Rmult_le_compat_r; [lra|apply Rmin_r]|right; field; lra]).
  pose proof (chain_sum (objective fg) 0 (fr_iters r) x0 Hch) as HS. rewrite Rmult_0_r, Rminus_0_r in HS. apply HS.
  eapply Forall_impl; [|exact HF]. cbn beta. intros i (I1 & _ & _ & _ & _ & I6).
  assert (Hu : unit_t (fi_it i) t) by (unfold unit_t; lra). specialize (I6 t Hu).
  assert (t * tol <= t * fi_cert i) by (apply Rmult_le_compat_l; lra).
  assert (t * t / 2 * C <= t * tol / 2). { replace (t * t / 2 * C) with (t * (t * C) / 2) by field. assert (t * (t * C) <= t * tol) by (apply Rmult_le_compat_l; lra). lra. }
  unfold dl in Hdl. lra.
Qed.
