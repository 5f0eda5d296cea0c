(** * Pairwise Frank-Wolfe with the DR step makes finitely many steps that move *)
From Coq Require Import ZArith Reals List Bool Lra Lia Psatz.
From Verif Require Import Num Vec Spec RVec SpecSfwMean SfwMean2 ModelConstraint ModelFrankWolfe ConvexFacts ConstraintFacts FrankWolfeFacts FrankWolfeConv FrankWolfeMain FrankWolfePair FrankWolfePairRun FrankWolfeMain2 FwPairSteps.
Import ListNotations.
Open Scope R_scope.

(** the iterations that move *)
Definition moving (i : fw_iter RN) : bool := if Req_EM_T (fi_step i) 0 then false else true.

(** the signed coordinate vectors, and the representation of the starting vertex *)
Definition reps (n : nat) (k0 : key) : list key :=
  nodup keq (k0 :: map (fun i => (1, i)) (seq 0 n) ++ map (fun i => (-1, i)) (seq 0 n)).
Lemma nodup_le {A} (dec : forall a b : A, {a = b} + {a <> b}) (l : list A) : (length (nodup dec l) <= length l)%nat.
Proof. apply NoDup_incl_length; [apply NoDup_nodup|]. intros a Ha. apply nodup_In in Ha. exact Ha. Qed.
Lemma reps_length n k0 : (length (reps n k0) <= 2 * n + 1)%nat.
Proof.
  unfold reps. etransitivity; [apply nodup_le|]. cbn [length]. rewrite app_length, !map_length, seq_length. lia.
Qed.
Lemma reps_pos n k0 : (0 < length (reps n k0))%nat.
Proof.
  assert (H : In k0 (reps n k0)) by (apply nodup_In; left; reflexivity).
  destruct (reps n k0); [destruct H|cbn; lia].
Qed.
Lemma reps_sign n k0 (sg : R) i : (sg = 1 \/ sg = -1) -> (i < n)%nat -> In (sg, i) (reps n k0).
Proof.
  intros Hs Hi. apply nodup_In. right. apply in_or_app. destruct Hs as [->| ->]; [left|right]; apply in_map_iff; exists i;
    (split; [reflexivity|apply in_seq; lia]).
Qed.

Lemma norm_vertex n (v : R) i : (i < n)%nat -> dot (vertex n v i) (vertex n v i) = v * v.
Proof.
  intros H. pose proof (dot_vertex (vertex n v i) v i) as E. rewrite vertex_length in E. rewrite (E H).
  rewrite nth_vertex by exact H. rewrite Nat.eqb_refl. reflexivity.
Qed.
Lemma norm_dir n (a b : R) i j (alpha : R) : (i < n)%nat -> (j < n)%nat -> Rabs a <= 1 -> Rabs b <= 1 ->
  dot (vminus (vertex n (alpha * a) i) (vertex n (alpha * b) j)) (vminus (vertex n (alpha * a) i) (vertex n (alpha * b) j)) <= 4 * (alpha * alpha).
Proof.
  intros Hi Hj Ha Hb.
  assert (Hl : forall k c k' c', length (vertex n k c) = length (vertex n k' c')) by (intros; rewrite !vertex_length; reflexivity).
  pose proof (dot_self_nonneg (vplus (vertex n (alpha * a) i) (vertex n (alpha * b) j))) as Hp.
  unfold vplus, vminus in *. rewrite !dot_lin_l in * by (rewrite ?lin_length; rewrite !vertex_length; lia).
  rewrite !dot_lin_r in * by (rewrite !vertex_length; lia). rewrite !norm_vertex in * by assumption.
  assert (A1 : a * a <= 1) by (unfold Rabs in Ha; destruct (Rcase_abs a); nra).
  assert (B1 : b * b <= 1) by (unfold Rabs in Hb; destruct (Rcase_abs b); nra).
  assert (A2 : alpha * a * (alpha * a) <= alpha * alpha) by (pose proof (Rle_0_sqr alpha); unfold Rsqr in *; nra).
  assert (B2 : alpha * b * (alpha * b) <= alpha * alpha) by (pose proof (Rle_0_sqr alpha); unfold Rsqr in *; nra).
  lra.
Qed.

Lemma model_half (s cert L L0 nd : R) : 0 < cert -> 0 < nd -> L <= L0 -> 0 < L0 -> 0 <= s <= cert / (nd * L0) ->
  - (s * cert) + / 2 * (s * s) * L * nd <= - / 2 * (s * cert).
Proof.
  intros Hc Hn HL HL0 [S1 S2].
  assert (Hp : 0 < nd * L0) by (apply Rmult_lt_0_compat; assumption).
  assert (E : s * (nd * L0) <= cert).
  { apply (Rmult_le_compat_r (nd * L0)) in S2; [|lra]. unfold Rdiv in S2. rewrite Rmult_assoc, Rinv_l in S2 by lra. lra. }
  assert (A : s * s * L * nd <= s * s * L0 * nd).
  { apply Rmult_le_compat_r; [lra|]. apply Rmult_le_compat_l; [apply Rle_0_sqr|exact HL]. }
  assert (B : s * (s * (nd * L0)) <= s * cert) by (apply Rmult_le_compat_l; assumption).
  lra.
Qed.
Lemma full_gain (cert tol L0 nd a2 : R) : 0 < tol -> tol < cert -> 0 < nd -> nd <= 4 * a2 -> 0 < L0 ->
  tol * tol / (8 * a2 * L0) <= / 2 * (cert / (nd * L0) * cert).
Proof.
  intros Ht Hc Hn Ha HL.
  replace (/ 2 * (cert / (nd * L0) * cert)) with ((cert * cert) * / (2 * nd * L0)) by (field; lra).
  unfold Rdiv. apply Rmult_le_compat; [nra|left; apply Rinv_0_lt_compat; nra|nra|].
  apply Rinv_le_contravar; [nra|nra].
Qed.

Section Run.
Variables (n : nat) (alpha : R).
Variable fg : vec RN -> RN * vec RN.
Variables (L L0 tol low : R).
Variable cb : option (list (fw_event RN) -> bool).
Variables (sg : R) (i0 : nat).
Hypothesis Ha : 0 < alpha.
Hypothesis Hi0 : (i0 < n)%nat.
Hypothesis Hsg : Rabs sg <= 1.
Hypothesis Hg : grad_ok n fg.
Hypothesis Hsm : smooth_upper n L (objective fg) (gradient fg).
Hypothesis HL : L <= L0.
Hypothesis HL0 : 0 < L0.
Hypothesis Htol : 0 < tol.
Let x0 : list R := vertex n (alpha * sg) i0.
Let V := reps n (sg, i0).
Let delta := tol * tol / (8 * (alpha * alpha) * L0).
Notation lmo := (l1_pairwise_oracle (K:=RN) alpha).

Definition iter_fact (i : fw_iter RN) : Prop :=
  0 <= fi_step i /\
  (fi_step i = 0 <-> lmo_max_step (fi_lmo i) = 0) /\ (fi_step i = 0 -> fi_next i = fi_x i) /\
  (fi_step i <> 0 -> objective fg (fi_next i) < objective fg (fi_x i)).
Definition run_inv (s : fw_state RN) : Prop :=
  fs_lip s = Some L0 /\ Forall iter_fact (fs_iters s) /\
  exists d, fs_active s = Some d /\ incl (map fst d) V /\
    phase n alpha V (objective fg) (objective fg x0) delta (fs_x s) d (length (filter moving (fs_iters s))).

(** the oracle, with the vertices it returns *)
Lemma oracle_reps (s : fw_state RN) it (o : lmo_out RN) : fw_inv fg lmo tol x0 it s ->
  pair_inv n alpha fg FSDR (Some L0) x0 s -> run_inv s ->
  call_lmo lmo (vopp (fs_grad s)) (fs_x s) (fs_active s) = Ok o -> 0 < - dot (lmo_dir o) (fs_grad s) ->
  exists (fw away : key) d, lmo_fw o = Some fw /\ lmo_away o = Some away /\ fs_active s = Some d /\
    In fw V /\ In away V /\ fw <> away /\ lmo_max_step o = weight d away.
Proof.
  intros Hv Hi (_ & _ & dd & Hd & Hk & _) Ho Hc.
  destruct Hi as ((Hx & (d & Hd' & Hdec) & _) & _). assert (d = dd) by congruence. subst dd.
  assert (Hgl : length (fs_grad s) = n).
  { replace (fs_grad s) with (snd (fg (fs_x s))) by (rewrite <- (proj1 Hv); reflexivity). apply Hg, Hx. }
  set (u := smul (-1) (fs_grad s)).
  assert (Hu : length u = n) by (unfold u; rewrite smul_length; exact Hgl).
  assert (Hune : u <> []) by (intros E; rewrite E in Hu; cbn in Hu; lia).
  destruct Hdec as (N & F & Sm & X).
  assert (Hne : d <> []) by (intros ->; cbn in Sm; lra).
  assert (Hb : Forall (fun it : rep RN * R => (snd (fst it) < length u)%nat) d).
  { rewrite Hu. eapply Forall_impl; [|exact F]. intros kv (_ & H & _). exact H. }
  assert (Hxu : length (fs_x s) = length u) by (rewrite Hu; exact Hx).
  destruct (l1_lmo_pairwise_correct alpha u (fs_x s) d (Rlt_le _ _ Ha) Hune Hxu Hne Hb)
    as (o' & sg' & idx & asg & aidx & w & E & E1 & E2 & E3 & E4 & E5 & E6 & E7 & E8 & E9).
  rewrite Hu in *.
  assert (Eo : o' = o).
  { rewrite Hd, vopp_R in Ho. cbn [call_lmo l1_pairwise_oracle] in Ho. unfold u in E. rn. congruence. }
  subst o'.
  exists (sg', idx), (asg, aidx), d. split; [exact E1|]. split; [exact E2|]. split; [exact Hd|].
  split.
  { apply reps_sign; [|exact E4]. destruct E9 as [->|[->|[_ Ez]]]; [left; reflexivity|right; reflexivity|]. exfalso.
    assert (Hz : dot u (lmo_dir o) = 0) by (rewrite Ez; apply dot_zeros_l).
    unfold u in Hz. rewrite dot_smul_l in Hz. rewrite (dot_comm (fs_grad s)) in Hz. rn. lra. }
  split; [apply Hk; apply in_map_iff; exists ((asg, aidx), w); auto|].
  split.
  { intros Eq. injection Eq as Eq1 Eq2. rewrite E5, Eq1, Eq2 in Hc. clear - Hc.
    assert (Hz : forall v g : list R, dot (vminus v v) g = 0).
    { induction v as [|a v IHv]; intros [|b g]; cbn; try lra. unfold vminus in IHv. specialize (IHv g). unfold vminus. lra. }
    rewrite Hz in Hc. lra. }
  rewrite E3. symmetry. apply weight_in; assumption.
Qed.

Lemma run_step it (s : fw_state RN) (o : lmo_out RN) ss lip' fgn found log1 log2 act :
  fw_inv fg lmo tol x0 it s -> pair_inv n alpha fg FSDR (Some L0) x0 s -> run_inv s ->
  call_lmo lmo (vopp (fs_grad s)) (fs_x s) (fs_active s) = Ok o ->
  tol < fw_cert (K:=RN) (lmo_dir o) (fs_grad s) ->
  fw_select fg FSDR (Some L0) (with_lip s (cur_lip fg s o)) it (fw_cert (lmo_dir o) (fs_grad s)) (cur_lip fg s o) (lmo_dir o)
       (nsq (vnorm (lmo_dir o))) (lmo_max_step o) = Ok (ss, lip', fgn, found, log1) ->
  act_update s o ss = Ok act -> run_inv (stepped s it o ss lip' fgn found log2 act).
Proof.
  intros Hv Hi Hr Ho Hc Hs Hact.
  assert (Hx0 : length x0 = n) by apply vertex_length.
  assert (Hn0 : (0 < n)%nat) by lia.
  destruct (pair_lmo n alpha fg FSDR (Some L0) tol x0 (Rlt_le _ _ Ha) Hn0 Hg Hx0 s it Hv Hi)
    as (o' & fw' & away' & d' & Ho' & Hd & Hdec & L1 & L2 & L3 & L4 & L5 & L6 & L7 & L8 & L9 & L10 & _).
  rewrite Ho in Ho'. injection Ho' as <-.
  rewrite fw_cert_R in *. rewrite norm_d_R in Hs.
  assert (Hcp : 0 < - dot (lmo_dir o) (fs_grad s)) by (rn; lra).
  pose proof (norm_d_pos _ _ Hcp) as Hnd.
  destruct (oracle_reps s it o Hv Hi Hr Ho Hcp) as (fw & away & d & M1 & M2 & M3 & M4 & M5 & M6 & M7).
  assert (fw' = fw) by congruence. assert (away' = away) by congruence. assert (d' = d) by congruence. subst fw' away' d'.
  destruct Hr as (Hlip & Hits & d1 & Hd1 & Hk & Hph). assert (d1 = d) by congruence. subst d1.
  assert (Hcl : cur_lip fg s o = L0) by (unfold cur_lip; rewrite Hlip; reflexivity).
  rewrite Hcl in Hs.
  assert (Hms : 0 <= lmo_max_step o) by (rewrite L3; exact L4).
  pose proof (select_range fg FSDR (Some L0) _ _ _ _ _ _ _ _ _ _ _ _ Hcp Hnd Hms HL0 Hs) as (R1 & R2 & R3 & _).
  pose proof (fw_select_eval _ _ _ _ _ _ _ _ _ _ Hs) as Hev. cbn [fs_x with_lip] in Hev. rewrite vscale_R, vadd_R in Hev.
  set (xn := vplus (fs_x s) (smul ss (lmo_dir o))) in *.
  assert (Hxl : length (fs_x s : list R) = n) by apply Hi.
  pose proof (smooth_along n L (objective fg) (gradient fg) (fs_x s) (lmo_dir o) ss Hsm Hxl L10) as Hq.
  assert (Hgs : gradient fg (fs_x s) = fs_grad s) by (unfold gradient; rewrite <- (proj1 Hv); reflexivity).
  rewrite Hgs, (dot_comm (fs_grad s)) in Hq. fold xn in Hq.
  assert (Htp : 0 < - dot (lmo_dir o) (fs_grad s) / (dot (lmo_dir o) (lmo_dir o) * L0)).
  { apply Rdiv_lt_0_compat; [exact Hcp|]. apply Rmult_lt_0_compat; [exact Hnd|exact HL0]. }
  assert (Hst : 0 <= ss <= - dot (lmo_dir o) (fs_grad s) / (dot (lmo_dir o) (lmo_dir o) * L0)).
  { split; [apply R2|]. rewrite R1. apply Rmin_l. }
  pose proof (model_half ss _ L L0 _ Hcp Hnd HL HL0 Hst) as Hm.
  assert (Hdec1 : objective fg xn <= objective fg (fs_x s) - / 2 * (ss * - dot (lmo_dir o) (fs_grad s))) by (rn; lra).
  assert (Hz : ss = 0 <-> lmo_max_step o = 0).
  { split; intros Hz; [|lra]. rewrite Hz in R1. unfold Rmin in R1. destruct (Rle_dec _ _); lra. }
  unfold act_update in Hact. rewrite M3, M1, M2 in Hact.
  destruct Hdec as (N & F & Sm & X).
  destruct (update_spec d fw away ss N) as (_ & U2).
  destruct U2 as (d' & U & UN & UW & US & UK).
  { destruct (keq away fw); [congruence|]. rewrite M7 in R2. lra. }
  rewrite U in Hact. cbn [bind] in Hact. injection Hact as <-.
  assert (Hincl : incl (map fst d') V).
  { intros k Hin. apply UK in Hin as [->|[->|Hin]]; auto. }
  assert (Hxn : (fs_x (stepped s it o ss lip' fgn found log2 (Some d')) : list R) = xn).
  { unfold stepped; cbn [fs_x]. rewrite vscale_R, vadd_R. reflexivity. }
  assert (Hd' : convex_decomposition n alpha d' xn).
  { unfold xn. rewrite L9. apply (update_decomposition n alpha d (fs_x s) fw away ss d'); try assumption; [|apply R2].
    split; [exact N|split; [exact F|split; [exact Sm|exact X]]]. }
  assert (Hx0s : ss = 0 -> xn = fs_x s).
  { intros ->. unfold xn. apply list_ext with (d := 0); [lengr|]. intros j _.
    rewrite nth_vplus by (rewrite smul_length; first [exact (eq_trans Hxl (eq_sym L10)) | exact (eq_trans L10 (eq_sym Hxl))]). rewrite nth_smul. lra. }
  split; [cbn [stepped fs_lip]; apply (f_equal Some); exact R3|]. split.
  { cbn [stepped fs_iters]. constructor; [|exact Hits]. unfold iter_fact; cbn [fi_step fi_lmo fi_next fi_x].
    rewrite vscale_R, vadd_R. fold xn. split; [apply R2|]. split; [exact Hz|]. split; [exact Hx0s|].
    intros Hne. assert (0 < ss * - dot (lmo_dir o) (fs_grad s)) by (apply Rmult_lt_0_compat; [lra|exact Hcp]). lra. }
  exists d'. split; [reflexivity|]. split; [exact Hincl|].
  match goal with |- phase _ _ _ _ _ _ ?z _ _ => replace z with xn by (symmetry; exact Hxn) end. cbn [stepped fs_iters filter].
  unfold moving at 1; cbn [fi_step]. destruct (Req_EM_T ss 0) as [E0|E0].
  - rewrite (Hx0s E0). apply (phase_same _ _ _ _ _ _ _ d); [exact Hph|]. intros v. rewrite UW, E0.
    destruct (keq v fw); destruct (keq v away); lra.
  - cbn [length].
    assert (Hpos : 0 < ss * - dot (lmo_dir o) (fs_grad s)) by (apply Rmult_lt_0_compat; [lra|exact Hcp]).
    destruct (Rlt_le_dec (- dot (lmo_dir o) (fs_grad s) / (dot (lmo_dir o) (lmo_dir o) * L0)) (lmo_max_step o)) as [Hlt|Hge].
    + apply (phase_new n alpha V (objective fg) (objective fg x0) delta (NoDup_nodup _ _) (fs_x s) d); [exact Hph|exact UN|exact Hincl|apply Hd'|].
      rewrite Rmin_left in R1 by lra.
      pose proof (norm_dir n (fst fw) (fst away) (snd fw) (snd away) alpha L5 L7 L6 L8) as Hn4. rewrite <- L9 in Hn4.
      pose proof (full_gain (- dot (lmo_dir o) (fs_grad s)) tol L0 _ (alpha * alpha) Htol Hc Hnd Hn4 HL0) as Hfg.
      rewrite <- R1 in Hfg. fold delta in Hfg. lra.
    + rewrite Rmin_right in R1 by lra.
      apply (phase_move n alpha V (objective fg) (objective fg x0) delta (fs_x s) d xn d' fw away); [exact Hph|exact M4|exact M5| | |lra].
      * intros v. rewrite UW, R1, M7. reflexivity.
      * unfold xn. rewrite L9, R1, M7. reflexivity.
Qed.

Lemma run_all max_iter r :
  minimize_fw fg lmo FSDR (Some L0) tol max_iter cb (@Pairwise RN (sg, i0)) x0 = Ok r ->
  Forall iter_fact (fr_iters r) /\
  (exists u : nat, (length (filter moving (fr_iters r)) < Datatypes.S u * length V ^ length V)%nat /\
     objective fg (fr_x r) + INR u * delta <= objective fg x0) /\
  (fr_exit r = ExitMaxIter -> length (fr_iters r) = max_iter) /\ (cb = None -> fr_exit r <> ExitCallback).
Proof.
  intros E.
  assert (Hx0 : length x0 = n) by apply vertex_length.
  assert (Hn0 : (0 < n)%nat) by lia.
  assert (Hsh : step_hyp_pair fg x0 FSDR (Some L0)) by exact HL0.
  apply minimize_fw_loop in E as (_ & a & -> & E).
  assert (Hfin : forall s it cert (o : lmo_out RN) nxt ex, run_inv s ->
    Forall iter_fact (fr_iters (fw_finish cb s it cert o nxt ex)) /\
    (exists u : nat, (length (filter moving (fr_iters (fw_finish cb s it cert o nxt ex))) < Datatypes.S u * length V ^ length V)%nat /\
       objective fg (fr_x (fw_finish cb s it cert o nxt ex)) + INR u * delta <= objective fg x0)).
  { intros s it cert o nxt ex (_ & Q1 & d & _ & _ & Q2). split; [exact Q1|]. apply phase_bound in Q2. exact Q2. }
  refine (@fw_loop_ind RN fg lmo FSDR (Some L0) tol cb
    (fun it s => fw_inv fg lmo tol x0 it s /\ pair_inv n alpha fg FSDR (Some L0) x0 s /\ run_inv s)
    (fun r => Forall iter_fact (fr_iters r) /\
  (exists u : nat, (length (filter moving (fr_iters r)) < Datatypes.S u * length V ^ length V)%nat /\
     objective fg (fr_x r) + INR u * delta <= objective fg x0) /\
  (fr_exit r = ExitMaxIter -> length (fr_iters r) = max_iter) /\ (cb = None -> fr_exit r <> ExitCallback)) max_iter _ max_iter 0 _ r _ _ E).
  2:{ lia. }
  2:{ split; [apply fw_inv_init|]. split; [apply pair_init; auto|]. split; [reflexivity|]. split; [constructor|].
      cbn [fs_active fs_x fs_iters filter length]. exists [((sg, i0), n1)]. split; [reflexivity|].
      split. { intros k [<-|[]]. apply nodup_In. left. reflexivity. }
      apply (fresh n alpha V (objective fg) (objective fg x0) delta (NoDup_nodup _ _) x0 [((sg, i0), 1)] 0).
      - repeat constructor. intros [].
      - intros k [<-|[]]. apply nodup_In. left. reflexivity.
      - cbn [wsum fst snd]. apply list_ext with (d := 0).
        + rewrite lin_length, Hx0, vertex_length, zeros_length. lia.
        + intros j Hj. rewrite nth_lin by (rewrite vertex_length, zeros_length; reflexivity). rewrite nth_zeros. unfold x0. lra.
      - lia.
      - cbn. lra. }
  intros it s o Hit (Hv & Hi & Hr) Ho. cbv zeta. split.
  - intros _. assert (Hr' : run_inv (with_lip s (cur_lip fg s o))).
    { destruct Hr as (Q1 & Q2). split; [cbn; unfold cur_lip; rewrite Q1; reflexivity|exact Q2]. }
    destruct (Hfin _ it (fw_cert (lmo_dir o) (fs_grad s)) o None ExitGap Hr') as (F1 & F2).
    split; [exact F1|]. split; [exact F2|]. split; [|intros _]; cbn; discriminate.
  - intros Hc ss lip' fgn found log1 Hs stop log2 Hcb.
    assert (Hc' : tol < fw_cert (K:=RN) (lmo_dir o) (fs_grad s)).
    { rn. destruct (Rleb_spec (fw_cert (K:=RN) (lmo_dir o) (fs_grad s)) tol); [discriminate Hc|assumption]. }
    split.
    + intros ->. destruct Hr as (Q1 & Q2 & d & Q3 & Q4 & Q5).
      split; [exact Q2|]. split; [apply phase_bound in Q5; exact Q5|]. split; [cbn; discriminate|].
      intros Hn. rewrite Hn in Hcb. cbn in Hcb. discriminate Hcb.
    + intros _ act Hact.
      destruct (pair_step n alpha fg FSDR (Some L0) tol cb x0 (Rlt_le _ _ Ha) Hn0 Hg (Rlt_le _ _ Htol) Hx0 Hsh it s o ss lip' fgn found log1 stop log2 act Hv Hi Ho Hc' Hs Hcb) as (_ & P2 & _).
      specialize (P2 Hact).
      pose proof (run_step it s o ss lip' fgn found log1 log2 act Hv Hi Hr Ho Hc' Hs Hact) as Hr'.
      assert (Hv' : fw_inv fg lmo tol x0 (Datatypes.S it) (stepped s it o ss lip' fgn found log2 act)) by (eapply fw_inv_step; eassumption).
      split; [split; [exact Hv'|split; [exact P2|exact Hr']]|].
      intros Hm. destruct (Hfin _ it (fw_cert (lmo_dir o) (fs_grad s)) o (Some fgn) ExitMaxIter Hr') as (F1 & F2).
      split; [exact F1|]. split; [exact F2|]. split; [|intros _; cbn; discriminate].
      intros _. cbn [fw_finish fr_iters]. destruct Hv' as (_ & _ & _ & Hl & _). rewrite Hl. exact Hm.
Qed.
End Run.

