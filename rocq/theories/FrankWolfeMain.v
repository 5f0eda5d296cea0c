(** * Frank-Wolfe: closed lemmas behind the property theorems (vanilla variant) *)
From Coq Require Import ZArith Reals List Bool Lra Lia Psatz.
From Verif Require Import Num Vec Spec RVec ModelConstraint ModelFrankWolfe ConvexFacts ConstraintFacts FrankWolfeFacts FrankWolfeConv.
Import ListNotations.
Open Scope R_scope.

(** The objective and its gradient as computed by the user's function. *)
Definition grad_ok (n : nat) (fg : vec RN -> RN * vec RN) : Prop :=
  forall x, length x = n -> length (snd (fg x)) = n.
Definition objective (fg : vec RN -> RN * vec RN) (x : list R) : R := fst (fg x).
Definition gradient (fg : vec RN -> RN * vec RN) (x : list R) : list R := snd (fg x).

Lemma tol_nonneg fg lmo step lipschitz (tol : R) max_iter cb variant x0 r :
  @minimize_fw RN fg lmo step lipschitz tol max_iter cb variant x0 = Ok r -> 0 <= tol.
Proof.
  intros E. apply minimize_fw_loop in E as (Ht & _). rn.
  destruct (Rltb_spec tol 0); [discriminate Ht|assumption].
Qed.

(** ** C41 *)
Lemma main_C41_feasible : forall n dom fg lmo step lipschitz tol max_iter cb x0 (r : fw_result RN),
  grad_ok n fg -> convex_set n dom -> lmo_feasible n dom lmo ->
  length x0 = n -> dom x0 -> step_hyp fg x0 step lipschitz ->
  minimize_fw fg lmo step lipschitz tol max_iter cb Vanilla x0 = Ok r ->
  dom (fr_x r) /\
  (forall l : fw_locals RN, In (FwCallback l) (fr_log r) \/ In (FwStep l) (fr_log r) -> dom (fl_x l)) /\
  Forall (fun i : fw_iter RN => dom (fi_x i) /\ dom (fi_next i) /\ 0 <= fi_step i <= 1) (fr_iters r).
Proof.
  intros n dom fg lmo step lipschitz tol m cb x0 r Hg Hd Hl Hx Hd0 Hs E.
  pose proof (tol_nonneg _ _ _ _ _ _ _ _ _ _ E) as Ht.
  destruct (vanilla_ind n fg lmo step lipschitz tol cb Hg Ht dom Hd Hl x0 Hx Hd0 Hs (fun _ _ => True) (fun _ => True) m I) with (r := r) as (_ & (A & B & C & D) & F & G).
  { intros. split; intros; auto. }
  { exact E. }
  split; [exact B|]. split.
  - intros l Hin. rewrite Forall_forall in D. destruct Hin as [Hin|Hin]; exact (D _ Hin).
  - rewrite Forall_forall in *. intros i Hi. destruct (C i Hi) as (C1 & C2 & C3 & C4 & C5 & C6).
    destruct (F i Hi) as (_ & _ & _ & _ & F5). split; [exact C2|]. split; [|exact C6].
    rewrite F5, vscale_R, vadd_R, lin_step by lengr. apply Hd; auto; lengr.
Qed.

Lemma vanilla_total n dom fg lmo (step : fw_strategy RN) lipschitz tol cb x0 :
  grad_ok n fg -> convex_set n dom -> lmo_feasible n dom lmo ->
  length x0 = n -> step_hyp fg x0 step lipschitz -> 0 <= tol ->
  match step with FSOther => False | FSDR => lipschitz <> None | _ => True end ->
  forall k it (s : fw_state RN), feas_inv n step lipschitz dom x0 s -> fw_inv fg lmo tol x0 it s ->
  exists r, fw_loop fg lmo step lipschitz tol cb (S k) it s = Ok r.
Proof.
  intros Hg Hd Hl Hx Hs Ht Hst. induction k as [|k IH]; intros it s Hi Hv; rewrite fw_loop_unfold.
  all: assert (Hgl : length (fs_grad s) = n)
    by (replace (fs_grad s) with (snd (fg (fs_x s))) by (rewrite <- (proj1 Hv); reflexivity); apply Hg, Hi).
  all: destruct (Hl (vopp (fs_grad s)) (fs_x s) (fs_active s)) as (o & Ho & _);
    [rewrite vopp_R, smul_length; exact Hgl|apply Hi|apply Hi|].
  all: rewrite Ho; cbn [bind]; cbv zeta; destruct (nleb RN _ tol) eqn:Hc; [eexists; reflexivity|].
  all: destruct (fw_select _ _ _ _ _ _ _ _ _ _) as [[[[[ss lip'] fgn] found] log1]|e] eqn:Es;
    [|exfalso; unfold fw_select in Es; destruct step; try discriminate Es; [|exact Hst];
      destruct lipschitz; [discriminate Es|congruence]].
  all: cbn [bind]; destruct (cb_call _ _ _) as [stop log2] eqn:Ecb;
    destruct stop; [eexists; reflexivity|].
  all: assert (Hact : act_update s o ss = Ok None) by (unfold act_update; destruct Hi as (_ & -> & _); reflexivity).
  all: rewrite Hact; cbn [bind].
  - eexists; reflexivity.
  - apply IH.
    + exact (proj1 (feas_step n fg lmo step lipschitz tol cb Hg Ht dom Hd Hl x0 Hx Hs it s o ss lip' fgn found log1 false log2 None (proj1 Hv) Hi Ho Hc Es Ecb Hact)).
    + eapply fw_inv_step; eauto.
Qed.

(** every vanilla run of these hypotheses returns *)
Lemma main_C41_returns : forall n dom fg lmo step lipschitz tol max_iter cb x0,
  grad_ok n fg -> convex_set n dom -> lmo_feasible n dom lmo ->
  length x0 = n -> dom x0 -> step_hyp fg x0 step lipschitz -> 0 <= tol -> (0 < max_iter)%nat ->
  match step with FSOther => False | FSDR => lipschitz <> None | _ => True end ->
  exists r, minimize_fw fg lmo step lipschitz tol max_iter cb Vanilla x0 = Ok r.
Proof.
  intros n dom fg lmo step lipschitz tol m cb x0 Hg Hd Hl Hx Hd0 Hs Ht Hm Hst.
  destruct m as [|k]; [lia|].
  destruct (vanilla_total n dom fg lmo step lipschitz tol cb x0 Hg Hd Hl Hx Hs Ht Hst k 0 _
    (feas_init n fg step lipschitz dom x0 Hx Hd0 Hs None eq_refl) (@fw_inv_init RN fg lmo lipschitz tol x0 None)) as (r & E).
  exists r. unfold minimize_fw. change (nltb RN tol n0) with (Rltb tol 0). rewrite Rltb_false by exact Ht. cbn [bind].
  destruct (fg x0). exact E.
Qed.

(** ** C42: the certificate bounds the suboptimality *)
Lemma gap_bound n dom (f : list R -> R) gradf lmo (x y : list R) (o : lmo_out RN) a :
  (forall x, length x = n -> length (gradf x) = n) ->
  first_order n f gradf -> lmo_exact n dom lmo -> length x = n -> dom x -> length y = n -> dom y ->
  call_lmo lmo (vopp (K:=RN) (gradf x)) x a = Ok o -> f x - f y <= fw_cert (K:=RN) (lmo_dir o) (gradf x).
Proof.
  intros Hg Hf Hl Hx Hd Hy Hdy Ho. rewrite vopp_R in Ho.
  assert (Hu : length (smul (-1) (gradf x)) = n) by (rewrite smul_length; auto).
  destruct (Hl _ _ a Hu Hx Hd) as (o' & Ho' & A & (B1 & B2 & B3) & _). rewrite Ho in Ho'. injection Ho' as <-.
  specialize (B3 y ltac:(congruence) Hdy). specialize (Hf x y Hx Hy). specialize (Hg x Hx).
  rewrite fw_cert_R. change (vec RN) with (list R) in *. change (carrier RN) with R in *.
  revert B3 Hf. ipx. rewrite (dot_comm (gradf x) (lmo_dir o)). lra.
Qed.

Lemma main_C42_certificate_bound : forall n dom fg lmo step lipschitz tol max_iter cb x0 (r : fw_result RN),
  grad_ok n fg -> convex_set n dom -> lmo_exact n dom lmo -> first_order n (objective fg) (gradient fg) ->
  length x0 = n -> dom x0 -> step_hyp fg x0 step lipschitz ->
  minimize_fw fg lmo step lipschitz tol max_iter cb Vanilla x0 = Ok r ->
  (forall (i : fw_iter RN) y, In i (fr_iters r) -> length y = n -> dom y -> objective fg (fi_x i) - objective fg y <= fi_cert i) /\
  (fr_exit r <> ExitMaxIter -> forall y, length y = n -> dom y -> objective fg (fr_x r) - objective fg y <= fr_cert r) /\
  (fr_exit r = ExitGap -> forall y, length y = n -> dom y ->
     objective fg (fr_x r) - objective fg y <= fr_cert r <= tol).
Proof.
  intros n dom fg lmo step lipschitz tol m cb x0 r Hg Hd Hl Hf Hx Hd0 Hs E.
  pose proof (tol_nonneg _ _ _ _ _ _ _ _ _ _ E) as Ht.
  destruct (vanilla_ind n fg lmo step lipschitz tol cb Hg Ht dom Hd (lmo_exact_feasible _ _ _ Hl) x0 Hx Hd0 Hs (fun _ _ => True)
    (fun r : fw_result RN => (fr_exit r <> ExitMaxIter -> forall y : list R, length y = n -> dom y -> objective fg (fr_x r) - objective fg y <= fr_cert r)
       /\ (fr_exit r = ExitGap -> fr_cert r <= tol)) m I) with (r := r) as (Q & (A & B & C & D) & F & G).
  { intros it s o Hit _ Hv Hfe Ho. cbv zeta.
    assert (Hgs : fs_grad s = gradient fg (fs_x s)) by (unfold gradient; rewrite <- (proj1 Hv); reflexivity).
    assert (Hb : forall y, length y = n -> dom y -> objective fg (fs_x s) - objective fg y <= fw_cert (K:=RN) (lmo_dir o) (fs_grad s)).
    { intros y Hy Hdy. rewrite Hgs. eapply gap_bound; eauto; try apply Hfe. rewrite <- Hgs; exact Ho. }
    split.
    - intros Hc. split; auto.
    - intros Hc ss lip' fgn found log1 Hsel Hss stop log2 Hf1 Hv1. split.
      + intros _. split; [auto|]. intros Hex; discriminate Hex.
      + intros _. split; [exact I|]. intros _. split; intros Hex; [exfalso; apply Hex; reflexivity|discriminate Hex]. }
  { exact E. }
  split; [|split].
  - intros i y Hi Hy Hdy. rewrite Forall_forall in *. destruct (C i Hi) as (C1 & C2 & _).
    destruct (F i Hi) as (F1 & (a & F2) & F3 & _). rewrite F3.
    assert (Hgs : fi_grad i = gradient fg (fi_x i)) by (unfold gradient; rewrite <- F1; reflexivity).
    rewrite Hgs. eapply gap_bound; eauto. rewrite <- Hgs; exact F2.
  - apply Q.
  - intros Hex y Hy Hdy. split; [apply Q; [congruence|assumption|assumption]|apply Q; assumption].
Qed.

(** ** C43: the contract of the line search *)
Lemma main_C43_line_search : forall (fg : vec RN -> RN * vec RN) (x : list R) (f_t : R) old (cert lip ms : R) d (nd : R),
  0 < cert -> 0 < lip -> 0 < nd -> 0 <= ms ->
  let o := @fw_backtracking RN fg x f_t old cert lip ms d nd in
  let s := bt_step o in
  0 <= s <= ms /\ 9 / 10 * lip <= bt_lip o /\
  bt_fg o = fg (vplus x (smul s d)) /\
  (bt_found o = true ->
     fst (bt_fg o) - f_t <= - s * cert + / 2 * (s * s) * bt_lip o * nd + EPS /\
     fst (bt_fg o) - f_t <= - / 2 * (s * cert) + EPS).
Proof.
  intros fg x f_t old cert lip ms d nd Hc Hl Hn Hm. cbv zeta.
  pose proof (lip_update_spec f_t cert lip nd old Hl) as Hu.
  assert (Hp : 0 < fw_lip_update (K:=RN) f_t old cert lip nd) by lra.
  assert (H100 : (0 < 100)%nat) by lia.
  unfold fw_backtracking.
  pose proof (bt_loop_spec fg x f_t cert ms d nd Hc Hn Hm 100 _ (@n0 RN, (@n0 RN, @nil RN)) Hp (or_introl H100)) as H.
  pose proof (@fw_bt_loop_eval RN fg 100 x f_t cert (fw_lip_update (K:=RN) f_t old cert lip nd) ms d nd (@n0 RN, (@n0 RN, @nil RN)) (or_introl H100)) as He.
  cbv zeta in H, He. set (o := fw_bt_loop _ _ _ _ _ _ _ _ _ _) in *. clearbody o.
  destruct H as (A & B & C). split; [exact A|]. split; [lra|]. split.
  - rewrite He, vscale_R, vadd_R. reflexivity.
  - intros Hf. destruct (C Hf) as (C1 & C2 & _). unfold quad_model in *. lra.
Qed.
(** with an L-smooth objective along d, the search succeeds unless the estimate is below L / 2^99,
    and the estimate never exceeds max (its previous value) (2 L) *)
Lemma main_C43_line_search_succeeds : forall (fg : vec RN -> RN * vec RN) (x : list R) (f_t : R) old (cert lip ms : R) d (nd L : R),
  0 < cert -> 0 < lip -> 0 < nd -> 0 <= ms ->
  (forall s, 0 <= s <= ms -> fst (fg (vplus x (smul s d))) <= f_t - s * cert + / 2 * (s * s) * L * nd) ->
  L <= 9 / 10 * lip * 2 ^ 99 ->
  let o := @fw_backtracking RN fg x f_t old cert lip ms d nd in
  bt_found o = true /\ bt_lip o <= Rmax lip (2 * L).
Proof.
  intros fg x f_t old cert lip ms d nd L Hc Hl Hn Hm Hs HL. cbv zeta.
  pose proof (lip_update_spec f_t cert lip nd old Hl) as Hu.
  assert (Hp : 0 < fw_lip_update (K:=RN) f_t old cert lip nd) by lra.
  assert (H100 : (0 < 100)%nat) by lia.
  assert (H99 : L <= fw_lip_update (K:=RN) f_t old cert lip nd * 2 ^ (100 - 1)).
  { change (100 - 1)%nat with 99%nat. eapply Rle_trans; [exact HL|]. apply Rmult_le_compat_r; [apply pow_le; lra|lra]. }
  unfold fw_backtracking.
  destruct (bt_loop_found fg x f_t cert ms d nd L Hc Hn Hm) with (k := 100%nat) (last := (@n0 RN, (@n0 RN, @nil RN)))
    (lip := fw_lip_update (K:=RN) f_t old cert lip nd) as (A & B); auto.
  { intros s Hss. specialize (Hs s Hss). unfold quad_model. clear HL H99. rn. lra. }
  split; [exact A|]. eapply Rle_trans; [exact B|]. apply Rmax_lub; [|apply Rmax_r].
  eapply Rle_trans; [|apply Rmax_l]. clear HL H99. lra.
Qed.

(** ** C44: descent up to the tolerance EPS of the line search *)
Lemma main_C44_descent : forall n dom fg lmo lipschitz tol max_iter cb x0 (r : fw_result RN),
  grad_ok n fg -> convex_set n dom -> lmo_feasible n dom lmo ->
  length x0 = n -> dom x0 -> step_hyp fg x0 FSBacktracking lipschitz ->
  minimize_fw fg lmo FSBacktracking lipschitz tol max_iter cb Vanilla x0 = Ok r ->
  Forall (fun i : fw_iter RN => fi_found i = true ->
    objective fg (fi_next i) <= objective fg (fi_x i) - / 2 * (fi_step i * fi_cert i) + EPS /\ 0 < fi_cert i) (fr_iters r) /\
  (Forall (fun i : fw_iter RN => fi_found i = true) (fr_iters r) ->
    objective fg (fr_x r) <= objective fg x0 + INR (length (fr_iters r)) * EPS).
Proof.
  intros n dom fg lmo lipschitz tol m cb x0 r Hg Hd Hl Hx Hd0 Hs E.
  pose proof (tol_nonneg _ _ _ _ _ _ _ _ _ _ E) as Ht.
  set (P := fun (x : list R) (iters : list (fw_iter RN)) =>
     Forall (fun i : fw_iter RN => fi_found i = true ->
       objective fg (fi_next i) <= objective fg (fi_x i) - / 2 * (fi_step i * fi_cert i) + EPS /\ 0 < fi_cert i) iters /\
     (Forall (fun i : fw_iter RN => fi_found i = true) iters ->
       objective fg x <= objective fg x0 + INR (length iters) * EPS)).
  destruct (vanilla_ind n fg lmo FSBacktracking lipschitz tol cb Hg Ht dom Hd Hl x0 Hx Hd0 Hs
    (fun _ s => P (fs_x s) (fs_iters s)) (fun r => P (fr_x r) (fr_iters r)) m) with (r := r) as (Q & _).
  { split; [constructor|]. intros _. cbn. lra. }
  { intros it s o Hit (J1 & J2) Hv Hfe Ho. cbv zeta.
    split; [intros _; split; [exact J1|exact J2]|].
    intros Hc ss lip' fgn found log1 Hsel Hsf stop log2 Hf1 Hv1.
    split; [intros _; split; [exact J1|exact J2]|].
    intros _. assert (HP : P (fs_x (stepped s it o ss lip' fgn found log2 None)) (fs_iters (stepped s it o ss lip' fgn found log2 None))).
    2:{ split; [exact HP|]. intros _. exact HP. }
    destruct Hsf as (F1 & F2 & F3 & F4 & F5 & F6 & F7 & F8).
    rewrite fw_cert_R, norm_d_R, F3 in Hsel.
    pose proof (select_range fg FSBacktracking lipschitz _ _ _ _ _ _ _ _ _ _ _ _ F4 F5 Rle_0_1 F8 Hsel) as (S1 & S2 & S3).
    assert (Hfs : fs_f s = objective fg (fs_x s)) by (unfold objective; rewrite <- (proj1 Hv); reflexivity).
    assert (Hfn : fst fgn = objective fg (fs_x (stepped s it o ss lip' fgn found log2 None)))
      by (unfold objective; rewrite <- (proj1 Hv1); reflexivity).
    assert (Hdec : found = true -> objective fg (fs_x (stepped s it o ss lip' fgn found log2 None)) <=
       objective fg (fs_x s) - / 2 * (ss * - dot (lmo_dir o) (fs_grad s)) + EPS).
    { intros Hfo. destruct (S3 Hfo) as (S4 & S5 & _). cbn [fs_f with_lip] in S4. rewrite <- Hfn, <- Hfs. lra. }
    split.
    - constructor; [|exact J1]. cbn [fi_found fi_next fi_x fi_step fi_cert]. intros Hfo.
      specialize (Hdec Hfo). rewrite fw_cert_R. split; [exact Hdec|exact F4].
    - intros Hall. change (fs_iters (stepped s it o ss lip' fgn found log2 None)) with
        (mkFwI (fs_x s) (fs_f s) (fs_grad s) o (fw_cert (lmo_dir o) (fs_grad s)) lip' ss (fs_x (stepped s it o ss lip' fgn found log2 None)) found it :: fs_iters s) in *.
      specialize (Hdec (Forall_inv Hall)). specialize (J2 (Forall_inv_tail Hall)).
      cbn [length]. rewrite S_INR.
      assert (0 <= ss * - dot (lmo_dir o) (fs_grad s)) by (apply Rmult_le_pos; lra).
      lra. }
  { exact E. }
  exact Q.
Qed.

(** ** C47: O(1/k) rates.  [C] bounds the curvature of the objective over the domain. *)
Definition curvature (n : nat) (dom : list R -> Prop) (f : list R -> R) (gradf : list R -> list R) (C : R) : Prop :=
  forall x s t, length x = n -> length s = n -> dom x -> dom s -> 0 <= t <= 1 ->
    f (lin (1 - t) x t s) <= f x + t * dot (gradf x) (vminus s x) + t * t / 2 * C.
Definition diameter2 (n : nat) (dom : list R -> Prop) (D2 : R) : Prop :=
  forall x y, length x = n -> length y = n -> dom x -> dom y -> dist2 x y <= D2.

(** one step with decrease at least that of the step 2/(k+2), error [e] per step *)
Lemma rate_step (k : nat) (h h' cert C e : R) : 0 <= C -> 0 <= e -> h <= cert ->
  (k = 0%nat \/ h <= 2 * C / (INR k + 2) + INR k * e) ->
  h' <= h - 2 / (INR k + 2) * cert + (2 / (INR k + 2)) * (2 / (INR k + 2)) / 2 * C + e ->
  h' <= 2 * C / (INR (S k) + 2) + INR (S k) * e.
Proof.
  intros HC He Hh Hk Hd. rewrite S_INR. pose proof (pos_INR k) as Hp. set (j := INR k) in *.
  assert (Hg : 0 < 2 / (j + 2)) by (apply Rdiv_lt_0_compat; lra).
  assert (Hcert : 2 / (j + 2) * h <= 2 / (j + 2) * cert) by (apply Rmult_le_compat_l; lra).
  assert (H1 : h' <= (1 - 2 / (j + 2)) * h + (2 / (j + 2)) * (2 / (j + 2)) / 2 * C + e) by lra.
  assert (E1 : 1 - 2 / (j + 2) = j / (j + 2)) by (field; lra).
  assert (E2 : (2 / (j + 2)) * (2 / (j + 2)) / 2 * C = 2 * C / ((j + 2) * (j + 2))) by (field; lra).
  rewrite E1, E2 in H1.
  assert (H2 : j / (j + 2) * h <= j / (j + 2) * (2 * C / (j + 2) + j * e)).
  { destruct Hk as [->|Hk].
    - subst j. cbn [INR]. unfold Rdiv. rewrite !Rmult_0_l. lra.
    - apply Rmult_le_compat_l; [|exact Hk]. apply Rmult_le_pos; [exact Hp|]. apply Rlt_le, Rinv_0_lt_compat; lra. }
  assert (H3 : j / (j + 2) * (2 * C / (j + 2)) + 2 * C / ((j + 2) * (j + 2)) = 2 * C * ((j + 1) / ((j + 2) * (j + 2)))) by (field; lra).
  assert (H4 : (j + 1) / ((j + 2) * (j + 2)) <= / (j + 1 + 2)).
  { apply Rmult_le_reg_r with ((j + 2) * (j + 2)); [nra|]. unfold Rdiv. rewrite Rmult_assoc, Rinv_l, Rmult_1_r by nra.
    apply Rmult_le_reg_l with (j + 1 + 2); [lra|]. rewrite <- Rmult_assoc, Rinv_r, Rmult_1_l by lra. nra. }
  assert (H5 : j / (j + 2) * (j * e) <= j * e).
  { assert (j / (j + 2) <= 1). { apply Rmult_le_reg_r with (j + 2); [lra|]. unfold Rdiv. rewrite Rmult_assoc, Rinv_l by lra. lra. }
    rewrite <- (Rmult_1_l (j * e)) at 2. apply Rmult_le_compat_r; [nra|assumption]. }
  assert (H6 : 2 * C * ((j + 1) / ((j + 2) * (j + 2))) <= 2 * C / (j + 1 + 2)).
  { unfold Rdiv at 2. apply Rmult_le_compat_l; [lra|exact H4]. }
  lra.
Qed.

(** a generic rate: every step decreases at least as much as the model with parameter gamma, for all gamma *)
Lemma rate_generic n dom fg lmo (step : fw_strategy RN) lipschitz (tol : RN) max_iter cb (x0 : vec RN) (r : fw_result RN) (C e : R) (y : list R)
  (ok : fw_iter RN -> Prop) :
  grad_ok n fg -> convex_set n dom -> lmo_exact n dom lmo -> first_order n (objective fg) (gradient fg) ->
  length x0 = n -> dom x0 -> step_hyp fg x0 step lipschitz -> 0 <= C -> 0 <= e -> length y = n -> dom y ->
  (forall it (s : fw_state RN) o ss lip' fgn found log1, feas_inv n step lipschitz dom x0 s ->
     fw_inv fg lmo tol x0 it s ->
     step_facts n fg step dom s o ss lip' ->
     fw_select fg step lipschitz (with_lip s (cur_lip fg s o)) it (fw_cert (lmo_dir o) (fs_grad s)) (cur_lip fg s o) (lmo_dir o)
         (nsq (vnorm (lmo_dir o))) (lmo_max_step o) = Ok (ss, lip', fgn, found, log1) ->
     ok (mkFwI (fs_x s) (fs_f s) (fs_grad s) o (fw_cert (lmo_dir o) (fs_grad s)) lip' ss (vadd (fs_x s) (vscale ss (lmo_dir o))) found it) ->
     forall t, t = 2 / (INR it + 2) ->
     objective fg (vplus (fs_x s) (smul ss (lmo_dir o))) <=
       objective fg (fs_x s) + t * dot (gradient fg (fs_x s)) (lmo_dir o) + t * t / 2 * C + e) ->
  minimize_fw fg lmo step lipschitz tol max_iter cb Vanilla x0 = Ok r ->
  Forall ok (fr_iters r) -> fr_iters r <> [] ->
  objective fg (fr_x r) - objective fg y <= 2 * C / (INR (length (fr_iters r)) + 2) + INR (length (fr_iters r)) * e.
Proof.
  intros Hg Hd Hl Hf Hx Hd0 Hs HC He Hy Hdy Hdec E.
  pose proof (tol_nonneg _ _ _ _ _ _ _ _ _ _ E) as Ht.
  set (P := fun (x : list R) (iters : list (fw_iter RN)) => Forall ok iters -> length iters = 0%nat \/
      objective fg x - objective fg y <= 2 * C / (INR (length iters) + 2) + INR (length iters) * e).
  destruct (vanilla_ind n fg lmo step lipschitz tol cb Hg Ht dom Hd (lmo_exact_feasible _ _ _ Hl) x0 Hx Hd0 Hs
    (fun _ s => P (fs_x s) (fs_iters s)) (fun r => P (fr_x r) (fr_iters r)) max_iter) with (r := r) as (Q & _).
  { intros _. left; reflexivity. }
  { intros it s o Hit J Hv Hfe Ho. cbv zeta.
    split; [intros _; exact J|].
    intros Hc ss lip' fgn found log1 Hsel Hsf stop log2 Hf1 Hv1.
    split; [intros _; exact J|].
    intros _. assert (HP : P (fs_x (stepped s it o ss lip' fgn found log2 None)) (fs_iters (stepped s it o ss lip' fgn found log2 None))).
    2:{ split; [exact HP|]. intros _. exact HP. }
    intros Hall. right.
    assert (Hlen : length (fs_iters s) = it) by apply Hv.
    assert (Hlen' : length (fs_iters (stepped s it o ss lip' fgn found log2 None)) = S it) by (cbn; congruence).
    rewrite Hlen'. unfold stepped in Hall; cbn [fs_iters] in Hall.
    pose proof (J (Forall_inv_tail Hall)) as J'. rewrite Hlen in J'.
    pose proof (Hdec it s o ss lip' fgn found log1 Hfe Hv Hsf Hsel (Forall_inv Hall) _ eq_refl) as Hde.
    assert (Hgs : fs_grad s = gradient fg (fs_x s)) by (unfold gradient; rewrite <- (proj1 Hv); reflexivity).
    assert (Hgap : objective fg (fs_x s) - objective fg y <= fw_cert (K:=RN) (lmo_dir o) (fs_grad s)).
    { rewrite Hgs. eapply gap_bound; eauto; try apply Hfe. rewrite <- Hgs; exact Ho. }
    rewrite fw_cert_R in Hgap.
    apply rate_step with (h := objective fg (fs_x s) - objective fg y) (cert := - dot (lmo_dir o) (fs_grad s)); auto.
    cbn [fs_x stepped]. rewrite vscale_R, vadd_R. rewrite Hgs in *. rewrite (dot_comm (lmo_dir o)).
    change (vec RN) with (list R) in *. change (carrier RN) with R in *. lra. }
  { exact E. }
  intros Hall Hne. destruct (Q Hall) as [H0|H0]; [|exact H0]. destruct (fr_iters r); [congruence|discriminate H0].
Qed.

Lemma main_C47_rate_sublinear : forall n dom fg lmo lipschitz tol max_iter cb x0 (r : fw_result RN) (C : R) y,
  grad_ok n fg -> convex_set n dom -> lmo_exact n dom lmo -> first_order n (objective fg) (gradient fg) ->
  curvature n dom (objective fg) (gradient fg) C -> length x0 = n -> dom x0 -> length y = n -> dom y ->
  minimize_fw fg lmo FSSublinear lipschitz tol max_iter cb Vanilla x0 = Ok r -> fr_iters r <> [] ->
  objective fg (fr_x r) - objective fg y <= 2 * C / (INR (length (fr_iters r)) + 2).
Proof.
  intros n dom fg lmo lipschitz tol m cb x0 r C y Hg Hd Hl Hf Hcu Hx Hd0 Hy Hdy E Hne.
  assert (HC : 0 <= C).
  { pose proof (Hcu x0 x0 1 Hx Hx Hd0 Hd0 ltac:(lra)) as H.
    replace (lin (1 - 1) x0 1 x0) with x0 in H.
    2:{ apply list_ext with (d := 0); [leng|]. intros i Hi. rewrite nth_lin by reflexivity. lra. }
    rewrite vminus_self, dot_zeros_r in H. lra. }
  pose proof (rate_generic n dom fg lmo FSSublinear lipschitz tol m cb x0 r C 0 y (fun _ => True) Hg Hd Hl Hf Hx Hd0 I HC (Rle_refl 0) Hy Hdy) as H.
  rewrite Rmult_0_r, Rplus_0_r in H. apply H; auto.
  2:{ apply Forall_forall; auto. }
  intros it s o ss lip' fgn found log1 Hfe Hv (F1 & F2 & F3 & F4 & F5 & F6 & _) Hsel _ t ->.
  rewrite fw_cert_R, norm_d_R, F3 in Hsel.
  pose proof (select_range fg FSSublinear lipschitz _ _ _ _ _ _ _ _ _ _ _ _ F4 F5 Rle_0_1 I Hsel) as (S1 & S2).
  rewrite <- S1. destruct Hfe as ((G1 & G2 & _) & _).
  rewrite lin_step by lengr. 
  assert (Hlv : length (vplus (fs_x s) (lmo_dir o)) = n) by lengr.
  pose proof (Hcu (fs_x s) (vplus (fs_x s) (lmo_dir o)) ss G1 Hlv G2 F2 S2) as H'.
  replace (vminus (vplus (fs_x s) (lmo_dir o)) (fs_x s)) with (lmo_dir o) in H'.
  2:{ apply list_ext with (d := 0); [lengr|]. intros i Hi. rewrite nth_vminus by lengr. rewrite nth_vplus by lengr.
      change (carrier RN) with R in *. lra. }
  lra.
Qed.

Lemma vminus_vplus (x d : list R) : length x = length d -> vminus (vplus x d) x = d.
Proof.
  intros Hl. apply list_ext with (d := 0); [leng|]. intros i Hi.
  rewrite nth_vminus by leng. rewrite nth_vplus by leng. lra.
Qed.
Lemma dist2_vplus (x d : list R) : length x = length d -> dist2 (vplus x d) x = dot d d.
Proof. intros Hl. rewrite dist2_dot by leng. rewrite vminus_vplus by exact Hl. reflexivity. Qed.
Lemma smooth_along n L f gradf (x d : list R) (s : R) : smooth_upper n L f gradf -> length x = n -> length d = n ->
  f (vplus x (smul s d)) <= f x + s * dot (gradf x) d + / 2 * (s * s) * L * dot d d.
Proof.
  intros Hs Hx Hd. pose proof (Hs x (vplus x (smul s d)) Hx ltac:(leng)) as H.
  rewrite vminus_vplus in H by leng. rewrite dist2_vplus in H by leng.
  rewrite dot_smul_r in H. rewrite !dot_smul_l, !dot_smul_r in H. lra.
Qed.
(** decrease at the minimiser of the model gives the decrease at every gamma *)
Lemma model_decrease n (dom : list R -> Prop) fg (s : fw_state RN) (o : lmo_out RN) (ss Lt Lbar D2 e t : R) :
  length (fs_x s) = n -> dom (fs_x s) -> length (lmo_dir o) = n -> dom (vplus (fs_x s) (lmo_dir o)) ->
  diameter2 n dom D2 -> fs_grad s = gradient fg (fs_x s) -> 0 < Lt -> Lt <= Lbar ->
  0 < - dot (lmo_dir o) (fs_grad s) -> 0 < dot (lmo_dir o) (lmo_dir o) -> 0 <= t <= 1 ->
  ss = Rmin (- dot (lmo_dir o) (fs_grad s) / (dot (lmo_dir o) (lmo_dir o) * Lt)) 1 ->
  objective fg (vplus (fs_x s) (smul ss (lmo_dir o))) - objective fg (fs_x s) <=
    quad_model ss (- dot (lmo_dir o) (fs_grad s)) Lt (dot (lmo_dir o) (lmo_dir o)) + e ->
  objective fg (vplus (fs_x s) (smul ss (lmo_dir o))) <=
    objective fg (fs_x s) + t * dot (gradient fg (fs_x s)) (lmo_dir o) + t * t / 2 * (Lbar * D2) + e.
Proof.
  intros Hx Hd Hl Hdv HD Hgs HLt HLb Hc Hn Ht Hss Hdec.
  pose proof (quad_min _ _ _ t Hc Hn HLt Ht) as Hq. rewrite <- Hss in Hq.
  assert (Hlv : length (vplus (fs_x s) (lmo_dir o)) = n) by lengr.
  pose proof (HD _ _ Hlv Hx Hdv Hd) as Hdist. rewrite dist2_vplus in Hdist by lengr.
  rewrite <- Hgs, (dot_comm (fs_grad s)).
  assert (Lt * dot (lmo_dir o) (lmo_dir o) <= Lbar * D2) by (apply Rmult_le_compat; lra).
  unfold quad_model in Hq at 2.
  assert (/ 2 * (t * t) * Lt * dot (lmo_dir o) (lmo_dir o) <= t * t / 2 * (Lbar * D2)).
  { replace (/ 2 * (t * t) * Lt * dot (lmo_dir o) (lmo_dir o)) with (t * t / 2 * (Lt * dot (lmo_dir o) (lmo_dir o))) by field.
    apply Rmult_le_compat_l; [|assumption]. pose proof (Rle_0_sqr t) as Hsq; unfold Rsqr in Hsq; lra. }
  lra.
Qed.
Lemma gamma_range it : 0 <= 2 / (INR it + 2) <= 1.
Proof.
  pose proof (pos_INR it). split; [apply Rlt_le, Rdiv_lt_0_compat; lra|].
  apply Rmult_le_reg_r with (INR it + 2); [lra|]. unfold Rdiv. rewrite Rmult_assoc, Rinv_l by lra. lra.
Qed.

Lemma dr_lip fg lmo L0 (tol : RN) max_iter cb x0 (r : fw_result RN) :
  minimize_fw fg lmo FSDR (Some L0) tol max_iter cb Vanilla x0 = Ok r ->
  Forall (fun i : fw_iter RN => fi_lip i = L0) (fr_iters r).
Proof.
  intros E. apply minimize_fw_loop in E as (_ & a & -> & E).
  refine (@fw_loop_ind RN fg lmo FSDR (Some L0) tol cb
    (fun it s => fs_lip s = Some L0 /\ Forall (fun i : fw_iter RN => fi_lip i = L0) (fs_iters s))
    (fun r => Forall (fun i : fw_iter RN => fi_lip i = L0) (fr_iters r)) max_iter _ max_iter 0 _ r _ _ E).
  2:{ lia. }
  2:{ split; [reflexivity|constructor]. }
  intros it s o _ (I1 & I2) Ho. cbv zeta. split; [intros _; exact I2|].
  intros _ ss lip' fgn found log1 Hsel stop log2 _. split; [intros _; exact I2|].
  intros _ act _. unfold fw_select in Hsel. injection Hsel as _ H2 _ _ _.
  assert (Hl : lip' = L0) by (rewrite <- H2; unfold cur_lip; rewrite I1; reflexivity).
  split; [split|].
  - cbn. congruence.
  - constructor; [exact Hl|exact I2].
  - intros _. constructor; [exact Hl|exact I2].
Qed.

Lemma main_C47_rate_DR : forall n dom fg lmo (L L0 D2 : R) tol max_iter cb x0 (r : fw_result RN) y,
  grad_ok n fg -> convex_set n dom -> lmo_exact n dom lmo -> first_order n (objective fg) (gradient fg) ->
  smooth_upper n L (objective fg) (gradient fg) -> L <= L0 -> 0 < L0 -> diameter2 n dom D2 ->
  length x0 = n -> dom x0 -> length y = n -> dom y ->
  minimize_fw fg lmo FSDR (Some L0) tol max_iter cb Vanilla x0 = Ok r -> fr_iters r <> [] ->
  objective fg (fr_x r) - objective fg y <= 2 * (L0 * D2) / (INR (length (fr_iters r)) + 2).
Proof.
  intros n dom fg lmo L L0 D2 tol m cb x0 r y Hg Hd Hl Hf Hsm HL HL0 HD Hx Hd0 Hy Hdy E Hne.
  assert (HD2 : 0 <= D2). { pose proof (HD x0 x0 Hx Hx Hd0 Hd0) as H. rewrite dist2_refl in H. exact H. }
  assert (HC : 0 <= L0 * D2) by (apply Rmult_le_pos; lra).
  pose proof (rate_generic n dom fg lmo FSDR (Some L0) tol m cb x0 r (L0 * D2) 0 y (fun i => fi_lip i = L0) Hg Hd Hl Hf Hx Hd0 HL0 HC (Rle_refl 0) Hy Hdy) as H.
  rewrite Rmult_0_r, Rplus_0_r in H. apply H; auto.
  2:{ eapply dr_lip; exact E. }
  intros it s o ss lip' fgn found log1 Hfe Hv (F1 & F2 & F3 & F4 & F5 & F6 & F7 & F8) Hsel Hok t ->.
  cbn [fi_lip] in Hok.
  rewrite fw_cert_R, norm_d_R, F3 in Hsel.
  pose proof (select_range fg FSDR (Some L0) _ _ _ _ _ _ _ _ _ _ _ _ F4 F5 Rle_0_1 F8 Hsel) as (S1 & S2 & S3 & _).
  assert (Hcl : cur_lip fg s o = L0) by congruence. rewrite Hcl in S1.
  destruct Hfe as ((G1 & G2 & _) & _).
  assert (Hgs : fs_grad s = gradient fg (fs_x s)) by (unfold gradient; rewrite <- (proj1 Hv); reflexivity).
  eapply model_decrease with (Lt := L0) (Lbar := L0) (n := n) (dom := dom); eauto; [lra|apply gamma_range|].
  rewrite Rplus_0_r. unfold quad_model.
  pose proof (smooth_along n L (objective fg) (gradient fg) (fs_x s) (lmo_dir o) ss Hsm G1 F1) as Hs.
  rewrite <- Hgs, (dot_comm (fs_grad s)) in Hs.
  assert (/ 2 * (ss * ss) * L * dot (lmo_dir o) (lmo_dir o) <= / 2 * (ss * ss) * L0 * dot (lmo_dir o) (lmo_dir o)).
  { apply Rmult_le_compat_r; [lra|]. apply Rmult_le_compat_l; [|exact HL]. pose proof (Rle_0_sqr ss) as Hsq; unfold Rsqr in Hsq; rn; lra. }
  rn. lra.
Qed.

Lemma bt_lip_bound n dom fg lmo (L L0 : R) (tol : RN) max_iter cb x0 (r : fw_result RN) :
  grad_ok n fg -> convex_set n dom -> lmo_feasible n dom lmo -> 
  smooth_upper n L (objective fg) (gradient fg) -> 0 < L0 ->
  length x0 = n -> dom x0 ->
  minimize_fw fg lmo FSBacktracking (Some L0) tol max_iter cb Vanilla x0 = Ok r ->
  Forall (fun i : fw_iter RN => fi_found i = true) (fr_iters r) ->
  Forall (fun i : fw_iter RN => fi_lip i <= Rmax L0 (2 * L)) (fr_iters r).
Proof.
  intros Hg Hd Hl Hsm HL0 Hx Hd0 E.
  pose proof (tol_nonneg _ _ _ _ _ _ _ _ _ _ E) as Ht.
  set (P := fun (iters : list (fw_iter RN)) => Forall (fun i : fw_iter RN => fi_found i = true) iters ->
     Forall (fun i : fw_iter RN => fi_lip i <= Rmax L0 (2 * L)) iters).
  destruct (vanilla_ind n fg lmo FSBacktracking (Some L0) tol cb Hg Ht dom Hd Hl x0 Hx Hd0 HL0
    (fun _ s => P (fs_iters s) /\ (Forall (fun i : fw_iter RN => fi_found i = true) (fs_iters s) -> exists l, fs_lip s = Some l /\ l <= Rmax L0 (2 * L))) (fun r => P (fr_iters r)) max_iter) with (r := r) as (Q & _).
  { split; [intros _; constructor|]. intros _. exists L0. split; [reflexivity|apply Rmax_l]. }
  { intros it s o Hit (J1 & J2) Hv Hfe Ho. cbv zeta.
    split; [intros _; exact J1|].
    intros Hc ss lip' fgn found log1 Hsel Hsf stop log2 Hf1 Hv1.
    split; [intros _; exact J1|].
    intros _.
    assert (Hl' : Forall (fun i : fw_iter RN => fi_found i = true) (fs_iters (stepped s it o ss lip' fgn found log2 None)) -> lip' <= Rmax L0 (2 * L)).
    { intros Hall. pose proof (Forall_inv Hall) as Hfo. cbn [fi_found] in Hfo. destruct (J2 (Forall_inv_tail Hall)) as (l & El & Hle).
      destruct Hsf as (F1 & F2 & F3 & F4 & F5 & F6 & F7 & F8).
      rewrite fw_cert_R, norm_d_R, F3 in Hsel.
      unfold fw_select in Hsel. injection Hsel as _ H2 _ H4 _.
      assert (Hcl : cur_lip fg s o = l) by (unfold cur_lip; rewrite El; reflexivity).
      rewrite Hcl in *. rewrite Hfo in H4. rewrite <- H2. revert H4. unfold fw_backtracking. cbn [fs_x fs_f fs_old with_lip].
      pose proof (lip_update_spec (fs_f s) (- dot (lmo_dir o) (fs_grad s)) l (dot (lmo_dir o) (lmo_dir o)) (fs_old s) F8) as Hu.
      assert (Hp : 0 < fw_lip_update (K:=RN) (fs_f s) (fs_old s) (- dot (lmo_dir o) (fs_grad s)) l (dot (lmo_dir o) (lmo_dir o))) by (clear - Hu F8; rn; lra).
      intros H4.
      eapply Rle_trans.
      - eapply (bt_loop_lip fg (fs_x s) (fs_f s) (- dot (lmo_dir o) (fs_grad s)) 1 (lmo_dir o) (dot (lmo_dir o) (lmo_dir o)) L F4 F5 Rle_0_1) with (k := 100%nat) (last := (@n0 RN, (@n0 RN, @nil RN))); [|exact Hp|exact H4].
        intros t _. destruct Hfe as ((G1 & _) & _).
        assert (Hgs : fs_grad s = gradient fg (fs_x s)) by (unfold gradient; rewrite <- (proj1 Hv); reflexivity).
        assert (Hfs : fs_f s = objective fg (fs_x s)) by (unfold objective; rewrite <- (proj1 Hv); reflexivity).
        pose proof (smooth_along n L (objective fg) (gradient fg) (fs_x s) (lmo_dir o) t Hsm G1 F1) as Hs.
        rewrite <- Hgs, (dot_comm (fs_grad s)) in Hs. rewrite Hfs. unfold quad_model, objective in *. rn. lra.
      - apply Rmax_lub; [|apply Rmax_r]. eapply Rle_trans; [|exact Hle]. apply Hu. }
    assert (HP : P (fs_iters (stepped s it o ss lip' fgn found log2 None))).
    { intros Hall. constructor; [exact (Hl' Hall)|exact (J1 (Forall_inv_tail Hall))]. }
    split; [|intros _; exact HP]. split; [exact HP|]. intros Hall. exists lip'. split; [reflexivity|exact (Hl' Hall)]. }
  { exact E. }
  exact Q.
Qed.

Lemma main_C47_rate_backtracking : forall n dom fg lmo (L L0 D2 : R) tol max_iter cb x0 (r : fw_result RN) y,
  grad_ok n fg -> convex_set n dom -> lmo_exact n dom lmo -> first_order n (objective fg) (gradient fg) ->
  smooth_upper n L (objective fg) (gradient fg) -> 0 < L0 -> diameter2 n dom D2 ->
  length x0 = n -> dom x0 -> length y = n -> dom y ->
  minimize_fw fg lmo FSBacktracking (Some L0) tol max_iter cb Vanilla x0 = Ok r -> fr_iters r <> [] ->
  Forall (fun i : fw_iter RN => fi_found i = true) (fr_iters r) ->
  objective fg (fr_x r) - objective fg y <=
    2 * (Rmax L0 (2 * L) * D2) / (INR (length (fr_iters r)) + 2) + INR (length (fr_iters r)) * EPS.
Proof.
  intros n dom fg lmo L L0 D2 tol m cb x0 r y Hg Hd Hl Hf Hsm HL0 HD Hx Hd0 Hy Hdy E Hne Hfound.
  assert (HD2 : 0 <= D2). { pose proof (HD x0 x0 Hx Hx Hd0 Hd0) as H. rewrite dist2_refl in H. exact H. }
  set (Lb := Rmax L0 (2 * L)). assert (HLb : L0 <= Lb) by apply Rmax_l.
  assert (HC : 0 <= Lb * D2) by (apply Rmult_le_pos; lra).
  apply (rate_generic n dom fg lmo FSBacktracking (Some L0) tol m cb x0 r (Lb * D2) EPS y
    (fun i => fi_found i = true /\ fi_lip i <= Lb) Hg Hd Hl Hf Hx Hd0 HL0 HC (Rlt_le _ _ EPS_pos) Hy Hdy); auto.
  2:{ pose proof (bt_lip_bound n dom fg lmo L L0 tol m cb x0 r Hg Hd (lmo_exact_feasible _ _ _ Hl) Hsm HL0 Hx Hd0 E Hfound) as Hb.
      rewrite Forall_forall in *. intros i Hi. split; auto. }
  intros it s o ss lip' fgn found log1 Hfe Hv (F1 & F2 & F3 & F4 & F5 & F6 & F7 & F8) Hsel (Ok1 & Ok2) t ->.
  cbn [fi_lip fi_found] in Ok1, Ok2.
  rewrite fw_cert_R, norm_d_R, F3 in Hsel.
  pose proof (fw_select_eval _ _ _ _ _ _ _ _ _ _ Hsel) as Hev. cbn [fs_x with_lip] in Hev. rewrite vscale_R, vadd_R in Hev.
  pose proof (select_range fg FSBacktracking (Some L0) _ _ _ _ _ _ _ _ _ _ _ _ F4 F5 Rle_0_1 F8 Hsel) as (S1 & S2 & S3).
  destruct (S3 Ok1) as (S4 & S5 & S6). cbn [fs_f with_lip] in S4.
  destruct Hfe as ((G1 & G2 & _) & _).
  assert (Hgs : fs_grad s = gradient fg (fs_x s)) by (unfold gradient; rewrite <- (proj1 Hv); reflexivity).
  assert (Hfs : fs_f s = objective fg (fs_x s)) by (unfold objective; rewrite <- (proj1 Hv); reflexivity).
  eapply model_decrease with (Lt := lip') (Lbar := Lb) (n := n) (dom := dom); eauto; [apply gamma_range|].
  rewrite <- Hfs. unfold objective. rewrite <- Hev. exact S4.
Qed.
