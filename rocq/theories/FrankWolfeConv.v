(** * Frank-Wolfe over the reals: step sizes, feasibility, gap, descent, rates *)
From Coq Require Import ZArith Reals List Bool Lra Lia Psatz.
From Verif Require Import Num Vec Spec RVec ModelConstraint ModelFrankWolfe ConvexFacts ConstraintFacts FrankWolfeFacts.
Import ListNotations.
Open Scope R_scope.

Ltac lengr := change (vec RN) with (list R) in *; change (carrier RN) with R in *; leng.

Definition EPS : R := 1 / 8388608.
Lemma EPS_pos : 0 < EPS. Proof. unfold EPS; lra. Qed.

(** right-hand side of the sufficient decrease condition for curvature estimate L *)
Definition quad_model (s cert L nd : R) : R := - s * cert + / 2 * (s * s) * L * nd.

Lemma trial_spec (cert lip ms nd s rhs : R) : 0 < cert -> 0 < lip -> 0 < nd -> 0 <= ms ->
  @fw_trial RN cert lip ms nd = (s, rhs) ->
  0 <= s <= ms /\ rhs = quad_model s cert lip nd /\ rhs <= - / 2 * (s * cert) /\
  s = Rmin (cert / (nd * lip)) ms.
Proof.
  intros Hc Hl Hn Hm. unfold fw_trial, quad_model, nlit, nsq; rn.
  assert (0 < nd * lip) by (apply Rmult_lt_0_compat; assumption).
  set (t := cert / (nd * lip)).
  assert (Ht : t * (nd * lip) = cert) by (unfold t; field; split; lra).
  assert (0 < t) by (apply Rdiv_lt_0_compat; lra).
  destruct (Rltb_spec t ms); intros E; injection E as <- <-.
  - split; [lra|]. split; [|split; [lra|rewrite Rmin_left by lra; reflexivity]].
    rewrite <- Ht. lra.
  - split; [lra|]. split; [lra|]. split; [|rewrite Rmin_right by lra; reflexivity].
    assert (ms * (nd * lip) <= cert) by (rewrite <- Ht; apply Rmult_le_compat_r; lra).
    assert (ms * (ms * (nd * lip)) <= ms * cert) by (apply Rmult_le_compat_l; lra).
    lra.
Qed.

Lemma bt_loop_spec fg (x : list R) (f_t cert ms : R) (d : list R) (nd : R) :
  0 < cert -> 0 < nd -> 0 <= ms -> forall k (lip : R) last, 0 < lip ->
  (0 < k)%nat \/ 0 <= fst last <= ms ->
  let o := @fw_bt_loop RN fg k x f_t cert lip ms d nd last in
  0 <= bt_step o <= ms /\ lip <= bt_lip o /\
  (bt_found o = true ->
     fst (bt_fg o) - f_t <= quad_model (bt_step o) cert (bt_lip o) nd + EPS /\
     quad_model (bt_step o) cert (bt_lip o) nd <= - / 2 * (bt_step o * cert) /\
     bt_step o = Rmin (cert / (nd * bt_lip o)) ms).
Proof.
  intros Hc Hn Hm. induction k as [|k IH]; intros lip last Hl Hk.
  - destruct Hk as [Hk|Hk]; [lia|]. cbn. split; [exact Hk|]. split; [lra|discriminate].
  - cbn [fw_bt_loop]. destruct (@fw_trial RN cert lip ms nd) as [s rhs] eqn:Et.
    destruct (trial_spec _ _ _ _ _ _ Hc Hl Hn Hm Et) as (A & B & C & D).
    set (fgn := fg _). destruct (nleb RN _ _) eqn:El.
    + cbn [bt_step bt_lip bt_found bt_fg]. split; [exact A|]. split; [lra|]. intros _.
      rn. apply Rleb_iff in El. unfold fw_EPS, nlit in El; rn. unfold EPS. rewrite <- B. split; [|split; [exact C|exact D]].
      exact El.
    + assert (Hl2 : 0 < lip * 2) by lra.
      destruct (IH (lip * 2) (s, fgn) Hl2 (or_intror A)) as (A' & B' & C').
      split; [exact A'|]. split; [|exact C']. rn. lra.
Qed.

Lemma bt_loop_found (fg : list R -> R * list R) (x : list R) (f_t cert ms : R) (d : list R) (nd L : R) :
  0 < cert -> 0 < nd -> 0 <= ms ->
  (forall s, 0 <= s <= ms -> fst (fg (vplus x (smul s d))) - f_t <= quad_model s cert L nd) ->
  forall k (lip : R) last, 0 < lip -> (0 < k)%nat ->
  let o := @fw_bt_loop RN fg k x f_t cert lip ms d nd last in
  (L <= lip * 2 ^ (k - 1) -> bt_found o = true /\ bt_lip o <= Rmax lip (2 * L)).
Proof.
  intros Hc Hn Hm Hsm. induction k as [|k IH]; intros lip last Hl Hk; [lia|].
  cbn [fw_bt_loop]. destruct (@fw_trial RN cert lip ms nd) as [s rhs] eqn:Et.
  destruct (trial_spec _ _ _ _ _ _ Hc Hl Hn Hm Et) as (A & B & C & D).
  assert (Hq : L <= lip -> rhs >= quad_model s cert L nd).
  { intros Hle. rewrite B. unfold quad_model. assert (0 <= / 2 * (s * s) * nd) by (assert (0 <= s * s) by nra; nra).
    nra. }
  rewrite vscale_R, vadd_R.
  destruct (nleb RN _ _) eqn:El.
  - cbn [bt_found bt_lip]. intros _. split; [reflexivity|apply Rmax_l].
  - intros HL. rn. destruct (Rleb_spec (fst (fg (vplus x (smul s d))) - f_t) (rhs + @fw_EPS RN)) as [|Hgt]; [congruence|].
    specialize (Hsm s A). pose proof EPS_pos as He.
    assert (HE : @fw_EPS RN = EPS) by reflexivity. rewrite HE in Hgt.
    assert (HlL : lip < L). { destruct (Rle_lt_dec L lip) as [h|h]; [specialize (Hq h); lra|exact h]. }
    destruct k as [|k]. { exfalso. simpl in HL. lra. }
    assert (Hl2 : 0 < lip * 2) by lra.
    destruct (IH (lip * 2) (s, fg (vplus x (smul s d))) Hl2 ltac:(lia)) as (A1 & A2).
    { replace (S (S k) - 1)%nat with (S k) in HL by lia. replace (S k - 1)%nat with k by lia. simpl in HL. lra. }
    split; [exact A1|]. eapply Rle_trans; [exact A2|]. apply Rmax_lub; [|apply Rmax_r].
    eapply Rle_trans; [|apply Rmax_r]. lra.
Qed.

Lemma bt_loop_lip (fg : list R -> R * list R) (x : list R) (f_t cert ms : R) (d : list R) (nd L : R) :
  0 < cert -> 0 < nd -> 0 <= ms ->
  (forall s, 0 <= s <= ms -> fst (fg (vplus x (smul s d))) - f_t <= quad_model s cert L nd) ->
  forall k (lip : R) last, 0 < lip ->
  let o := @fw_bt_loop RN fg k x f_t cert lip ms d nd last in
  bt_found o = true -> bt_lip o <= Rmax lip (2 * L).
Proof.
  intros Hc Hn Hm Hsm. induction k as [|k IH]; intros lip last Hl; [cbn; discriminate|].
  cbn [fw_bt_loop]. destruct (@fw_trial RN cert lip ms nd) as [s rhs] eqn:Et.
  destruct (trial_spec _ _ _ _ _ _ Hc Hl Hn Hm Et) as (A & B & C & D).
  assert (Hq : L <= lip -> rhs >= quad_model s cert L nd).
  { intros Hle. rewrite B. unfold quad_model. assert (0 <= / 2 * (s * s) * nd) by (assert (0 <= s * s) by nra; nra).
    nra. }
  rewrite vscale_R, vadd_R.
  destruct (nleb RN _ _) eqn:El.
  - cbn [bt_found bt_lip]. intros _. apply Rmax_l.
  - intros HL. rn. destruct (Rleb_spec (fst (fg (vplus x (smul s d))) - f_t) (rhs + @fw_EPS RN)) as [|Hgt]; [congruence|].
    specialize (Hsm s A). pose proof EPS_pos as He.
    assert (HE : @fw_EPS RN = EPS) by reflexivity. rewrite HE in Hgt.
    assert (HlL : lip < L). { destruct (Rle_lt_dec L lip) as [h|h]; [specialize (Hq h); lra|exact h]. }
    assert (Hl2 : 0 < lip * 2) by lra.
    pose proof (IH (lip * 2) (s, fg (vplus x (smul s d))) Hl2 HL) as A2.
    eapply Rle_trans; [exact A2|]. apply Rmax_lub; [|apply Rmax_r].
    eapply Rle_trans; [|apply Rmax_r]. lra.
Qed.

(** the step Rmin (cert / (nd L)) 1 minimises the model over [0, 1] *)
Lemma quad_min (cert nd L t : R) : 0 < cert -> 0 < nd -> 0 < L -> 0 <= t <= 1 ->
  quad_model (Rmin (cert / (nd * L)) 1) cert L nd <= quad_model t cert L nd.
Proof.
  intros Hc Hn HL Ht. unfold quad_model.
  assert (0 < nd * L) by (apply Rmult_lt_0_compat; assumption).
  set (u := cert / (nd * L)).
  assert (Hu : u * (nd * L) = cert) by (unfold u; field; split; lra).
  destruct (Rle_lt_dec u 1) as [Hle|Hgt].
  - rewrite Rmin_left by exact Hle. assert (0 <= (t - u) * (t - u) * (nd * L)) by (apply Rmult_le_pos; [apply Rle_0_sqr|lra]).
    rewrite <- Hu. lra.
  - rewrite Rmin_right by lra. assert (nd * L <= cert) by (rewrite <- Hu; nra).
    assert (0 <= (1 - t) * (cert - nd * L)) by (apply Rmult_le_pos; lra).
    assert (0 <= (1 - t) * (1 - t) * (nd * L)) by (apply Rmult_le_pos; [apply Rle_0_sqr|lra]).
    lra.
Qed.

Lemma lip_update_spec (f_t cert lip nd : R) old : 0 < lip ->
  9 / 10 * lip <= @fw_lip_update RN f_t old cert lip nd <= lip.
Proof.
  intros H. destruct old as [old|]; cbn [fw_lip_update]; [|lra].
  rewrite nmaxpy_R, nminpy_R. unfold nlit; rn. generalize (@nsq RN cert / (2 * (old - f_t) * nd)) as t. intros t.
  split; [eapply Rle_trans; [|apply Rmax_r]; lra|].
  apply Rmax_lub; [apply Rmin_r|lra].
Qed.

Lemma fw_cert_R (d g : list R) : @fw_cert RN d g = - dot d g.
Proof. unfold fw_cert. rewrite vopp_R, vdot_R, dot_smul_r. lra. Qed.
Lemma norm_d_R (d : list R) : @nsq RN (@vnorm RN d) = dot d d.
Proof. rewrite vnorm_R. unfold nsq; rn. apply norm2_sq. Qed.
Lemma norm_d_pos (d g : list R) : 0 < - dot d g -> 0 < dot d d.
Proof.
  intros H. destruct (Rle_lt_or_eq_dec 0 (dot d d) (dot_self_nonneg d)) as [|E]; [assumption|].
  symmetry in E. rewrite (dot_self_zero_l d g E) in H. lra.
Qed.

(** hypotheses on the linear minimisation oracle *)
Definition lmo_feasible (n : nat) (dom : list R -> Prop) (lmo : lmo_fun RN) : Prop :=
  forall u x a, length u = n -> length x = n -> dom x -> exists o : lmo_out RN,
    call_lmo lmo u x a = Ok o /\ length (lmo_dir o) = n /\ dom (vplus x (lmo_dir o)) /\ lmo_max_step o = 1.
Definition lmo_exact (n : nat) (dom : list R -> Prop) (lmo : lmo_fun RN) : Prop :=
  forall u x a, length u = n -> length x = n -> dom x -> exists o : lmo_out RN,
    call_lmo lmo u x a = Ok o /\ length (lmo_dir o) = n /\ is_lin_max dom u (vplus x (lmo_dir o)) /\ lmo_max_step o = 1.
Lemma lmo_exact_feasible n dom lmo : lmo_exact n dom lmo -> lmo_feasible n dom lmo.
Proof. intros H u x a Hu Hx Hd. destruct (H u x a Hu Hx Hd) as (o & A & B & (C1 & C2 & C3) & D). exists o; auto. Qed.

(** hypotheses on the step rule: a positive Lipschitz estimate for the two rules that divide by it *)
Definition step_hyp (fg : vec RN -> RN * vec RN) (x0 : vec RN) (step : fw_strategy RN) (lipschitz : option RN) : Prop :=
  match step with
  | FSCallable f => forall log, 0 <= f log <= 1
  | FSBacktracking | FSDR =>
      match lipschitz with
      | Some L => 0 < L
      | None => forall d, length d = length x0 -> dot d (snd (fg x0)) < 0 ->
                  snd (fg (vplus x0 (smul (1 / 1000) d))) <> snd (fg x0)
      end
  | FSSublinear | FSOther => True
  end.

Lemma lin_step (x d : list R) (t : R) : length x = length d ->
  vplus x (smul t d) = lin (1 - t) x t (vplus x d).
Proof.
  intros Hl. apply list_ext with (d := 0); [leng|]. intros i Hi.
  rewrite nth_vplus by leng. rewrite nth_smul, nth_lin by leng. rewrite nth_vplus by leng. lra.
Qed.

Section Run.
Variable n : nat.
Variable fg : vec RN -> RN * vec RN.
Variable lmo : lmo_fun RN.
Variable step : fw_strategy RN.
Variable lipschitz : option RN.
Variable tol : RN.
Variable cb : option (list (fw_event RN) -> bool).
Hypothesis Hg : forall x, length x = n -> length (snd (fg x)) = n.
Hypothesis Htol : 0 <= tol.

(** the estimate is positive whenever it is used *)
Definition lip_inv (x0 : vec RN) (s : fw_state RN) : Prop :=
  match step with
  | FSBacktracking | FSDR =>
      match fs_lip s with
      | Some l => 0 < l
      | None => fs_x s = x0 /\ lipschitz = None
      end
  | _ => True
  end.

Lemma cur_lip_pos x0 (s : fw_state RN) (o : lmo_out RN) :
  step_hyp fg x0 step lipschitz -> lip_inv x0 s -> length x0 = n ->
  (fs_f s, fs_grad s) = fg (fs_x s) -> length (fs_x s) = n -> length (lmo_dir o) = n ->
  0 < - dot (lmo_dir o) (fs_grad s) ->
  match step with FSBacktracking | FSDR => 0 < cur_lip fg s o | _ => True end.
Proof.
  intros Hs Hi Hx0 Hfg Hx Hd Hc. unfold lip_inv in Hi. unfold step_hyp in Hs.
  assert (match fs_lip s with Some l => 0 < l | None => fs_x s = x0 /\ lipschitz = None end ->
    match lipschitz with
      | Some L => 0 < L
      | None => forall d, length d = length x0 -> dot d (snd (fg x0)) < 0 ->
                  snd (fg (vplus x0 (smul (1 / 1000) d))) <> snd (fg x0)
      end -> 0 < cur_lip fg s o) as Hkey.
  { clear Hs Hi. intros Hi Hs. unfold cur_lip. destruct (fs_lip s) as [l|]; [exact Hi|]. destruct Hi as [Hxs Hl].
    rewrite Hl in Hs. unfold fw_lip_init. rewrite norm_d_R, vscale_R, vadd_R, vsub_R, vnorm_R.
    pose proof (norm_d_pos _ _ Hc) as Hnd.
    assert (Hgr : fs_grad s = snd (fg (fs_x s))) by (rewrite <- Hfg; reflexivity).
    rewrite Hgr. rewrite Hgr in Hc. rewrite Hxs in *. unfold nlit; rn.
    specialize (Hs (lmo_dir o) ltac:(congruence) ltac:(lra)).
    apply Rdiv_lt_0_compat.
    - destruct (Rle_lt_or_eq_dec 0 _ (norm2_nonneg (vminus (snd (fg x0)) (snd (fg (vplus x0 (smul (1 / 1000) (lmo_dir o)))))))) as [h|h]; [exact h|].
      exfalso. apply Hs. symmetry in h. apply norm2_zero_dot in h.
      assert (Hlp : length (vplus x0 (smul (1 / 1000) (lmo_dir o))) = n) by leng.
      symmetry. apply dist2_zero; [rewrite !Hg; auto|]. rewrite dist2_dot by (rewrite !Hg; auto). lra.
    - apply Rmult_lt_0_compat; [lra|]. apply sqrt_lt_R0. exact Hnd. }
  destruct step; auto.
Qed.

Lemma select_range (s : fw_state RN) it (cert lip : R) (d : list R) (nd ms : R) ss lip' fgn found log1 :
  0 < cert -> 0 < nd -> 0 <= ms ->
  match step with FSBacktracking | FSDR => 0 < lip | _ => True end ->
  fw_select fg step lipschitz s it cert lip d nd ms = Ok (ss, lip', fgn, found, log1) ->
  match step with
  | FSCallable f => exists log, ss = f log
  | FSBacktracking => 0 <= ss <= ms /\ 0 < lip' /\
      (found = true -> fst fgn - fs_f s <= quad_model ss cert lip' nd + EPS /\
                       quad_model ss cert lip' nd <= - / 2 * (ss * cert) /\
                       ss = Rmin (cert / (nd * lip')) ms)
  | FSDR => ss = Rmin (cert / (nd * lip)) ms /\ 0 <= ss <= ms /\ lip' = lip /\ lipschitz <> None
  | FSSublinear => ss = 2 / (INR it + 2) /\ 0 <= ss <= 1
  | FSOther => False
  end.
Proof.
  intros Hc Hn Hm Hl. unfold fw_select. destruct step as [f| | | |] eqn:Es; intros E.
  - injection E as <- <- <- <- <-. eexists; reflexivity.
  - injection E as <- <- <- <- <-. unfold fw_backtracking.
    pose proof (lip_update_spec (fs_f s) cert lip nd (fs_old s) Hl) as Hu.
    assert (Hp : 0 < fw_lip_update (K:=RN) (fs_f s) (fs_old s) cert lip nd) by lra.
    assert (H100 : (0 < 100)%nat) by lia.
    destruct (bt_loop_spec fg (fs_x s) (fs_f s) cert ms d nd Hc Hn Hm 100 _ (@n0 RN, (@n0 RN, @nil RN)) Hp (or_introl H100))
      as (A & B & C).
    split; [exact A|]. split; [lra|]. intros Hf. destruct (C Hf) as (C1 & C2 & C3). auto.
  - destruct lipschitz; [|discriminate E]. injection E as <- <- <- <- <-.
    rewrite nminpy_R; rn. assert (0 < cert / (nd * lip)).
    { apply Rdiv_lt_0_compat; [lra|apply Rmult_lt_0_compat; lra]. }
    split; [reflexivity|]. split; [|split; [reflexivity|discriminate]].
    split; [apply Rmin_glb; lra|apply Rmin_r].
  - injection E as <- <- <- <- <-.
    rn. unfold nofnat. rn. rewrite <- INR_IZR_INZ, plus_INR. change (INR 2) with 2. pose proof (pos_INR it).
    split; [reflexivity|]. split.
    + apply Rlt_le, Rdiv_lt_0_compat; lra.
    + apply Rmult_le_reg_r with (INR it + 2); [lra|]. unfold Rdiv. rewrite Rmult_assoc, Rinv_l by lra. lra.
  - discriminate E.
Qed.

(** ** Vanilla runs stay in a convex domain *)
Section Vanilla.
Variable dom : list R -> Prop.
Hypothesis Hdom : convex_set n dom.
Hypothesis Hlmo : lmo_feasible n dom lmo.
Variable x0 : vec RN.
Hypothesis Hx0 : length x0 = n.
Hypothesis Hd0 : dom x0.
Hypothesis Hstep : step_hyp fg x0 step lipschitz.

Definition ev_dom (e : fw_event RN) : Prop :=
  match e with FwCallback l | FwStep l => dom (fl_x l) | FwEval _ => True end.
Definition good_iter (i : fw_iter RN) : Prop :=
  length (fi_x i) = n /\ dom (fi_x i) /\ length (lmo_dir (fi_lmo i)) = n /\
  dom (vplus (fi_x i) (lmo_dir (fi_lmo i))) /\ lmo_max_step (fi_lmo i) = 1 /\ 0 <= fi_step i <= 1.
Definition feas_core (x : list R) (log : list (fw_event RN)) (iters : list (fw_iter RN)) : Prop :=
  length x = n /\ dom x /\ Forall good_iter iters /\ Forall ev_dom log.
Definition feas_inv (s : fw_state RN) : Prop :=
  feas_core (fs_x s) (fs_log s) (fs_iters s) /\ fs_active s = None /\ lip_inv x0 s.

(** the hypotheses of one step, collected *)
Definition step_facts (s : fw_state RN) (o : lmo_out RN) (ss lip' : RN) : Prop :=
  length (lmo_dir o) = n /\ dom (vplus (fs_x s) (lmo_dir o)) /\ lmo_max_step o = 1 /\
  0 < - dot (lmo_dir o) (fs_grad s) /\ 0 < dot (lmo_dir o) (lmo_dir o) /\
  0 <= ss <= 1 /\ match step with FSBacktracking | FSDR => 0 < lip' /\ 0 < cur_lip fg s o | _ => True end.
Lemma vanilla_step it (s : fw_state RN) (o : lmo_out RN) ss lip' fgn found log1 :
  (fs_f s, fs_grad s) = fg (fs_x s) -> feas_inv s ->
  call_lmo lmo (vopp (fs_grad s)) (fs_x s) (fs_active s) = Ok o ->
  nleb RN (fw_cert (lmo_dir o) (fs_grad s)) tol = false ->
  fw_select fg step lipschitz (with_lip s (cur_lip fg s o)) it (fw_cert (lmo_dir o) (fs_grad s)) (cur_lip fg s o) (lmo_dir o)
       (nsq (vnorm (lmo_dir o))) (lmo_max_step o) = Ok (ss, lip', fgn, found, log1) ->
  step_facts s o ss lip'.
Proof.
  intros Hfg ((Hx & Hd & _ & Hlg) & Ha & Hl) Ho Hc Hs.
  assert (Hgl : length (fs_grad s) = n).
  { replace (fs_grad s) with (snd (fg (fs_x s))) by (rewrite <- Hfg; reflexivity). apply Hg, Hx. }
  rewrite vopp_R in Ho.
  destruct (Hlmo (smul (-1) (fs_grad s)) (fs_x s) (fs_active s) (eq_trans (smul_length (-1) (fs_grad s)) Hgl) Hx Hd) as (o' & Ho' & A & B & C).
  rewrite Ho in Ho'. injection Ho' as <-.
  rewrite fw_cert_R in Hc, Hs. rewrite norm_d_R in Hs. rn.
  destruct (Rleb_spec (- dot (lmo_dir o) (fs_grad s)) tol) as [|Hcert]; [discriminate Hc|].
  assert (Hcp : 0 < - dot (lmo_dir o) (fs_grad s)) by lra.
  pose proof (norm_d_pos _ _ Hcp) as Hnd.
  pose proof (cur_lip_pos x0 s o Hstep Hl Hx0 Hfg Hx A Hcp) as Hlp.
  rewrite C in Hs.
  pose proof (select_range _ _ _ _ _ _ _ _ _ _ _ _ Hcp Hnd Rle_0_1 Hlp Hs) as Hr.
  repeat (split; [assumption|]). unfold step_hyp in Hstep.
  destruct step as [f| | | |].
  - destruct Hr as (log & ->). auto.
  - destruct Hr as (R1 & R2 & _). auto.
  - destruct Hr as (_ & R1 & R2 & _). split; [lra|]. split; [rewrite R2; exact Hlp|exact Hlp].
  - destruct Hr as (_ & R1). auto.
  - destruct Hr.
Qed.

Lemma log_dom (s : fw_state RN) it cert lip d nd ms ss lip' fgn found log1 :
  Forall ev_dom (fs_log s) -> dom (fs_x s) ->
  fw_select fg step lipschitz s it cert lip d nd ms = Ok (ss, lip', fgn, found, log1) ->
  Forall ev_dom log1.
Proof.
  intros Hl Hd. unfold fw_select. destruct step as [f| | | |]; intros E.
  - injection E as <- <- <- <- <-. repeat constructor; assumption.
  - injection E as <- <- <- <- <-. assumption.
  - destruct lipschitz; [|discriminate E]. injection E as <- <- <- <- <-. repeat constructor; assumption.
  - injection E as <- <- <- <- <-. repeat constructor; assumption.
  - discriminate E.
Qed.

Lemma feas_step it (s : fw_state RN) (o : lmo_out RN) ss lip' fgn found log1 stop log2 act :
  (fs_f s, fs_grad s) = fg (fs_x s) -> feas_inv s ->
  call_lmo lmo (vopp (fs_grad s)) (fs_x s) (fs_active s) = Ok o ->
  nleb RN (fw_cert (lmo_dir o) (fs_grad s)) tol = false ->
  fw_select fg step lipschitz (with_lip s (cur_lip fg s o)) it (fw_cert (lmo_dir o) (fs_grad s)) (cur_lip fg s o) (lmo_dir o)
       (nsq (vnorm (lmo_dir o))) (lmo_max_step o) = Ok (ss, lip', fgn, found, log1) ->
  cb_call cb log1 (mkFwL (fs_x s) (fs_f s) (fs_grad s) it (fw_cert (lmo_dir o) (fs_grad s)) (Some ss) (Some fgn) (fs_active s)) = (stop, log2) ->
  act_update s o ss = Ok act ->
  feas_inv (stepped s it o ss lip' fgn found log2 act) /\ feas_inv (halted s ss lip' log2).
Proof.
  intros Hfg Hi Ho Hc Hs Hcb Hact.
  destruct (vanilla_step it s o ss lip' fgn found log1 Hfg Hi Ho Hc Hs) as (A & B & C & D & E & F & G).
  destruct Hi as ((Hx & Hd & Hit & Hlg) & Ha & Hl).
  assert (Hlog1 : Forall ev_dom log1) by (eapply (log_dom (with_lip s (cur_lip fg s o))); eassumption).
  assert (Hlog2 : Forall ev_dom log2).
  { unfold cb_call in Hcb. destruct cb; injection Hcb as <- <-; [constructor; assumption|assumption]. }
  unfold act_update in Hact. rewrite Ha in Hact. injection Hact as <-.
  assert (Hli : match step with FSBacktracking | FSDR => 0 < lip' | _ => True end) by (destruct step; auto; apply G).
  assert (Hli' : forall s' : fw_state RN, fs_lip s' = Some lip' -> lip_inv x0 s').
  { intros s' E'. unfold lip_inv. rewrite E'. destruct step; auto. }
  split; [|split; [repeat (split; [assumption|]); assumption|split; [exact Ha|apply Hli'; reflexivity]]].
  unfold stepped. rewrite vscale_R, vadd_R.
  unfold feas_inv, feas_core; cbn [fs_x fs_active fs_iters fs_log].
  assert (Hlx : length (vplus (fs_x s) (smul ss (lmo_dir o))) = n) by lengr.
  split; [|split; [reflexivity|apply Hli'; reflexivity]].
  split; [exact Hlx|]. split.
  { rewrite lin_step by lengr. apply Hdom; auto; lengr. }
  split; [|exact Hlog2].
  constructor; [|exact Hit]. unfold good_iter; cbn [fi_x fi_lmo fi_step]. repeat split; auto; apply F.
Qed.

Lemma finish_core (s : fw_state RN) it cert (o : lmo_out RN) nxt ex : feas_core (fs_x s) (fs_log s) (fs_iters s) ->
  feas_core (fr_x (fw_finish cb s it cert o nxt ex)) (fr_log (fw_finish cb s it cert o nxt ex)) (fr_iters (fw_finish cb s it cert o nxt ex)).
Proof.
  intros (A & B & C & D). unfold fw_finish; cbn [fr_x fr_log fr_iters].
  repeat (split; [assumption|]). destruct cb; [constructor; assumption|assumption].
Qed.

Lemma feas_init a : a = None ->
  feas_inv (mkFwS x0 (fst (fg x0)) (snd (fg x0)) None lipschitz a None [FwEval x0] []).
Proof.
  intros ->. split; [|split; [reflexivity|]].
  - repeat (split; [assumption|]). split; repeat constructor.
  - unfold lip_inv, step_hyp in *; cbn [fs_lip fs_x]. destruct step; auto; destruct lipschitz; auto.
Qed.

(** Induction principle for vanilla runs: [J] is an additional invariant *)
Lemma vanilla_ind (J : nat -> fw_state RN -> Prop) (Q : fw_result RN -> Prop) (m : nat) :
  J 0%nat (mkFwS x0 (fst (fg x0)) (snd (fg x0)) None lipschitz None None [FwEval x0] []) ->
  (forall it (s : fw_state RN) o, (it < m)%nat -> J it s -> fw_inv fg lmo tol x0 it s -> feas_inv s ->
    call_lmo lmo (vopp (fs_grad s)) (fs_x s) (fs_active s) = Ok o ->
    let cert := fw_cert (lmo_dir o) (fs_grad s) in
    (cert <= tol -> Q (fw_finish cb (with_lip s (cur_lip fg s o)) it cert o None ExitGap)) /\
    (tol < cert -> forall ss lip' fgn found log1,
       fw_select fg step lipschitz (with_lip s (cur_lip fg s o)) it cert (cur_lip fg s o) (lmo_dir o)
         (nsq (vnorm (lmo_dir o))) (lmo_max_step o) = Ok (ss, lip', fgn, found, log1) ->
       step_facts s o ss lip' -> forall stop log2,
       feas_inv (stepped s it o ss lip' fgn found log2 None) ->
       fw_inv fg lmo tol x0 (S it) (stepped s it o ss lip' fgn found log2 None) ->
       (stop = true -> Q (fw_finish cb (halted s ss lip' log2) it cert o (Some fgn) ExitCallback)) /\
       (stop = false ->
          J (S it) (stepped s it o ss lip' fgn found log2 None) /\
          (S it = m -> Q (fw_finish cb (stepped s it o ss lip' fgn found log2 None) it cert o (Some fgn) ExitMaxIter))))) ->
  forall r, minimize_fw fg lmo step lipschitz tol m cb Vanilla x0 = Ok r ->
  Q r /\ feas_core (fr_x r) (fr_log r) (fr_iters r) /\ Forall (fw_iter_ok fg lmo tol) (fr_iters r) /\ fw_chain x0 (fr_iters r).
Proof.
  intros HJ0 HJ r E. apply minimize_fw_loop in E as (_ & a & -> & E).
  refine (@fw_loop_ind RN fg lmo step lipschitz tol cb (fun it s => J it s /\ fw_inv fg lmo tol x0 it s /\ feas_inv s)
    (fun r => Q r /\ feas_core (fr_x r) (fr_log r) (fr_iters r) /\ Forall (fw_iter_ok fg lmo tol) (fr_iters r) /\ fw_chain x0 (fr_iters r)) m _ m 0 _ r _ _ E).
  2:{ lia. }
  2:{ split; [exact HJ0|]. split; [apply fw_inv_init|apply feas_init; reflexivity]. }
  intros it s o Hit (Hj & Hv & Hf) Ho.
  destruct (HJ it s o Hit Hj Hv Hf Ho) as [H1 H2]. cbv zeta in H1, H2 |- *.
  assert (Hold : fs_iters s = fs_iters s -> Forall (fw_iter_ok fg lmo tol) (fs_iters s) /\ fw_chain x0 (fs_iters s)).
  { intros _. destruct Hv as (_ & _ & V1 & _ & V2). auto. }
  split.
  - intros Hc. apply Rleb_iff in Hc. split; [auto|]. split; [|apply (Hold eq_refl)].
    apply finish_core. apply Hf.
  - intros Hc ss lip' fgn found log1 Hs stop log2 Hcb.
    assert (Hc' : tol < fw_cert (K:=RN) (lmo_dir o) (fs_grad s)).
    { rn. destruct (Rleb_spec (fw_cert (K:=RN) (lmo_dir o) (fs_grad s)) tol); [discriminate Hc|assumption]. }
    specialize (H2 Hc').
    assert (Hnone : act_update s o ss = Ok None).
    { unfold act_update. destruct Hf as (_ & -> & _). reflexivity. }
    destruct (feas_step it s o ss lip' fgn found log1 stop log2 None (proj1 Hv) Hf Ho Hc Hs Hcb Hnone) as [Hf1 Hf2].
    assert (Hv1 : fw_inv fg lmo tol x0 (S it) (stepped s it o ss lip' fgn found log2 None)).
    { eapply fw_inv_step; eassumption. }
    pose proof (vanilla_step it s o ss lip' fgn found log1 (proj1 Hv) Hf Ho Hc Hs) as Hss.
    specialize (H2 ss lip' fgn found log1 Hs Hss stop log2 Hf1 Hv1). destruct H2 as [H2 H3].
    split.
    + intros Hst. split; [auto|]. split; [|apply (Hold eq_refl)]. apply finish_core. apply Hf2.
    + intros Hst act Hact. rewrite Hnone in Hact. injection Hact as <-. destruct (H3 Hst) as [H4 H5].
      split; [split; [exact H4|split; assumption]|]. intros Hm. split; [auto|]. split.
      * apply finish_core. apply Hf1.
      * destruct Hv1 as (_ & _ & V1 & _ & V2). auto.
Qed.
End Vanilla.
End Run.
