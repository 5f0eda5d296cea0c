(** * Frank-Wolfe, pairwise variant on the l1 ball: runs *)
From Coq Require Import ZArith Reals List Bool Lra Lia Psatz.
From Verif Require Import Num Vec Spec RVec ModelConstraint ModelFrankWolfe ConvexFacts ConstraintFacts FrankWolfeFacts FrankWolfeConv FrankWolfeMain FrankWolfePair.
Import ListNotations.
Open Scope R_scope.

Definition step_hyp_pair (fg : vec RN -> RN * vec RN) (x0 : vec RN) (step : fw_strategy RN) (lipschitz : option RN) : Prop :=
  match step with FSCallable f => forall log, 0 <= f log | _ => step_hyp fg x0 step lipschitz end.

(** u.v <= u.x for the active vertex v least correlated with u *)
Lemma away_le n alpha (d : list (key * R)) (x u : list R) (v : R) : convex_decomposition n alpha d x -> length u = n ->
  (forall k w, In (k, w) d -> v <= dot u (vertex n (alpha * fst k) (snd k))) -> v <= dot u x.
Proof.
  intros (_ & Hf & Hs & ->) Hu Hv.
  assert (H : v * Rsum (map snd d) <= dot u (wsum n alpha d)).
  { clear Hs. induction d as [|[k w] d IH]; cbn [map snd Rsum wsum].
    - rewrite dot_zeros_r. lra.
    - rewrite dot_lin_r by (rewrite ?vertex_length, ?wsum_length; lia).
      pose proof (Forall_inv Hf) as (F1 & _). cbn [snd] in F1.
      assert (IH' := IH (Forall_inv_tail Hf) (fun k' w' H' => Hv k' w' (or_intror H'))).
      pose proof (Hv k w (or_introl eq_refl)) as Hk.
      assert (w * v <= w * dot u (vertex n (alpha * fst k) (snd k))) by (apply Rmult_le_compat_l; assumption).
      lra. }
  rewrite Hs in H. lra.
Qed.

Section Pair.
Variables (n : nat) (alpha : R).
Variable fg : vec RN -> RN * vec RN.
Variable step : fw_strategy RN.
Variable lipschitz : option RN.
Variable tol : RN.
Variable cb : option (list (fw_event RN) -> bool).
Variable x0 : vec RN.
Hypothesis Ha : 0 <= alpha.
Hypothesis Hn : (0 < n)%nat.
Hypothesis Hg : grad_ok n fg.
Hypothesis Htol : 0 <= tol.
Hypothesis Hx0 : length x0 = n.
Hypothesis Hstep : step_hyp_pair fg x0 step lipschitz.
Notation lmo := (l1_pairwise_oracle (K:=RN) alpha).

Definition pair_good (x : list R) (a : option (active RN)) : Prop :=
  exists d, a = Some d /\ convex_decomposition n alpha d x.
Definition ev_good (e : fw_event RN) : Prop :=
  match e with FwCallback l | FwStep l => pair_good (fl_x l) (fl_active l) | FwEval _ => True end.
(** what is proved of each iteration *)
Definition pair_iter (i : fw_iter RN) : Prop :=
  length (fi_x i) = n /\ l1_ball alpha (fi_x i) /\ 0 < fi_cert i /\ 0 <= fi_step i /\
  (forall f gradf, fi_grad i = gradf (fi_x i) -> first_order n f gradf ->
     forall y, length y = n -> l1_ball alpha y -> f (fi_x i) - f y <= fi_cert i) /\
  (step = FSBacktracking -> fi_found i = true ->
     objective fg (fi_next i) <= objective fg (fi_x i) - / 2 * (fi_step i * fi_cert i) + EPS).
Definition pair_core (x : list R) (a : option (active RN)) (log : list (fw_event RN)) (iters : list (fw_iter RN)) : Prop :=
  length x = n /\ pair_good x a /\ Forall ev_good log /\ Forall pair_iter iters /\
  (step = FSBacktracking -> Forall (fun i : fw_iter RN => fi_found i = true) iters ->
     objective fg x <= objective fg x0 + INR (length iters) * EPS).
Definition pair_inv (s : fw_state RN) : Prop :=
  pair_core (fs_x s) (fs_active s) (fs_log s) (fs_iters s) /\ lip_inv step lipschitz x0 s.

(** the oracle in a state of the run *)
Lemma pair_lmo (s : fw_state RN) it : fw_inv fg lmo tol x0 it s -> pair_inv s ->
  exists (o : lmo_out RN) (fw away : key) d,
    call_lmo lmo (vopp (fs_grad s)) (fs_x s) (fs_active s) = Ok o /\
    fs_active s = Some d /\ convex_decomposition n alpha d (fs_x s) /\
    lmo_fw o = Some fw /\ lmo_away o = Some away /\ lmo_max_step o = weight d away /\ 0 <= weight d away /\
    (snd fw < n)%nat /\ Rabs (fst fw) <= 1 /\ (snd away < n)%nat /\ Rabs (fst away) <= 1 /\
    lmo_dir o = vminus (vertex n (alpha * fst fw) (snd fw)) (vertex n (alpha * fst away) (snd away)) /\
    length (lmo_dir o) = n /\
    forall y, length y = n -> l1_ball alpha y -> - dot (fs_grad s) y + dot (fs_grad s) (fs_x s) <= - dot (lmo_dir o) (fs_grad s).
Proof.
  intros Hv ((Hx & (d & Hd & Hdec) & _) & _).
  assert (Hgl : length (fs_grad s) = n).
  { replace (fs_grad s) with (snd (fg (fs_x s))) by (rewrite <- (proj1 Hv); reflexivity). apply Hg, Hx. }
  set (u := smul (-1) (fs_grad s)).
  assert (Hu : length u = n) by (unfold u; rewrite smul_length; exact Hgl).
  assert (Hune : u <> []) by (intros E; rewrite E in Hu; cbn in Hu; lia).
  destruct Hdec as (N & F & Sm & X). pose proof (conj N (conj F (conj Sm X))) as Hdec.
  assert (Hne : d <> []) by (intros ->; cbn in Sm; lra).
  assert (Hb : Forall (fun it : rep RN * R => (snd (fst it) < length u)%nat) d).
  { rewrite Hu. eapply Forall_impl; [|exact F]. intros kv (_ & H & _). exact H. }
  assert (Hxu : length (fs_x s) = length u) by (rewrite Hu; exact Hx).
  destruct (l1_lmo_pairwise_correct alpha u (fs_x s) d Ha Hune Hxu Hne Hb)
    as (o & sg & idx & asg & aidx & w & E & E1 & E2 & E3 & E4 & E5 & E6 & E7 & E8 & E9).
  rewrite Hu in *.
  exists o, (sg, idx), (asg, aidx), d.
  assert (Hin := E7). rewrite Forall_forall in F. apply F in Hin. cbn [fst snd] in Hin. destruct Hin as (I1 & I2 & I3).
  assert (Hw : weight d (asg, aidx) = w) by (apply weight_in; assumption).
  cbn [fst snd].
  assert (Hsg : Rabs sg <= 1).
  { destruct E9 as [->|[->|[-> _]]]; unfold Rabs; destruct (Rcase_abs _); lra. }
  assert (Hdl : length (lmo_dir o) = n) by (rewrite E5; unfold vminus; rewrite lin_length, !vertex_length; lia).
  split.
  { rewrite Hd, vopp_R. exact E. }
  rewrite Hw. repeat (split; [assumption|]).
  intros y Hy Hby. destruct E6 as (_ & _ & E6). rewrite Hu in E6. specialize (E6 y Hy Hby).
  assert (Haw : dot u (vertex n (alpha * asg) aidx) <= dot u (fs_x s)).
  { eapply away_le; [exact Hdec|exact Hu|]. intros [s' i'] w' Hin'. apply (E8 _ _ _ Hin'). }
  rewrite E5. rewrite (dot_comm _ (fs_grad s)). unfold vminus.
  assert (Hgl' : length (fs_grad s : list R) = n) by exact Hgl.
  rewrite dot_lin_r by (rewrite vertex_length; exact (eq_sym Hgl')).
  unfold u in E6, Haw. rewrite !dot_smul_l in E6, Haw. lra.
Qed.

Lemma pair_step it (s : fw_state RN) (o : lmo_out RN) ss lip' fgn found log1 stop log2 act :
  fw_inv fg lmo tol x0 it s -> pair_inv s ->
  call_lmo lmo (vopp (fs_grad s)) (fs_x s) (fs_active s) = Ok o ->
  tol < fw_cert (K:=RN) (lmo_dir o) (fs_grad s) ->
  fw_select fg step lipschitz (with_lip s (cur_lip fg s o)) it (fw_cert (lmo_dir o) (fs_grad s)) (cur_lip fg s o) (lmo_dir o)
       (nsq (vnorm (lmo_dir o))) (lmo_max_step o) = Ok (ss, lip', fgn, found, log1) ->
  cb_call cb log1 (mkFwL (fs_x s) (fs_f s) (fs_grad s) it (fw_cert (lmo_dir o) (fs_grad s)) (Some ss) (Some fgn) (fs_active s)) = (stop, log2) ->
  pair_core (fs_x s) (fs_active s) log2 (fs_iters s) /\
  (act_update s o ss = Ok act -> pair_inv (stepped s it o ss lip' fgn found log2 act)) /\
  (match step with FSBacktracking | FSDR => True | _ => False end -> exists a, act_update s o ss = Ok a).
Proof.
  intros Hv Hi Ho Hc Hs Hcb.
  destruct (pair_lmo s it Hv Hi) as (o' & fw & away & d & Ho' & Hd & Hdec & L1 & L2 & L3 & L4 & L5 & L6 & L7 & L8 & L9 & L10 & L11).
  rewrite Ho in Ho'. injection Ho' as <-.
  destruct Hi as ((Hx & Hpg & Hlog & Hits & Hdesc) & Hlip).
  rewrite fw_cert_R in *. rewrite norm_d_R, L3 in Hs.
  assert (Hcp : 0 < - dot (lmo_dir o) (fs_grad s)) by (rn; lra).
  pose proof (norm_d_pos _ _ Hcp) as Hnd.
  assert (Hlp : match step with FSBacktracking | FSDR => 0 < cur_lip fg s o | _ => True end).
  { assert (Hss : match step with FSCallable _ => True | _ => step_hyp fg x0 step lipschitz end).
    { unfold step_hyp_pair in Hstep. destruct step; auto. }
    destruct step as [f| | | |] eqn:Est; try exact I.
    - exact (cur_lip_pos n fg FSBacktracking lipschitz Hg x0 s o Hss Hlip Hx0 (proj1 Hv) Hx L10 Hcp).
    - exact (cur_lip_pos n fg FSDR lipschitz Hg x0 s o Hss Hlip Hx0 (proj1 Hv) Hx L10 Hcp). }
  pose proof (select_range fg step lipschitz _ _ _ _ _ _ _ _ _ _ _ _ Hcp Hnd L4 Hlp Hs) as Hr.
  assert (Hss : 0 <= ss).
  { unfold step_hyp_pair in Hstep. destruct step as [f| | | |].
    - destruct Hr as (log & ->). apply Hstep.
    - apply Hr. - apply Hr. - apply Hr. - destruct Hr. }
  assert (Hlog1 : Forall ev_good log1).
  { unfold fw_select in Hs. destruct step as [f| | | |].
    - injection Hs as _ _ _ _ <-. constructor; [exact I|]. constructor; [exact Hpg|exact Hlog].
    - injection Hs as _ _ _ _ <-. exact Hlog.
    - destruct lipschitz; [|discriminate Hs]. injection Hs as _ _ _ _ <-. constructor; [exact I|exact Hlog].
    - injection Hs as _ _ _ _ <-. constructor; [exact I|exact Hlog].
    - discriminate Hs. }
  assert (Hlog2 : Forall ev_good log2).
  { unfold cb_call in Hcb. destruct cb; injection Hcb as _ <-; [constructor; [exact Hpg|exact Hlog1]|exact Hlog1]. }
  split; [repeat (split; [assumption|]); assumption|]. split.
  - intros Hact. unfold act_update in Hact. rewrite Hd, L1, L2 in Hact.
    destruct (update_active_set d fw away ss) as [d'|] eqn:Eu; [|discriminate Hact]. cbn [bind] in Hact. injection Hact as <-.
    pose proof (update_decomposition n alpha d (fs_x s) fw away ss d' Hdec Hss L5 L6 L7 L8 Eu) as Hdec'.
    rewrite <- L9 in Hdec'.
    assert (Hxn : fs_x (stepped s it o ss lip' fgn found log2 (Some d')) = vplus (fs_x s) (smul ss (lmo_dir o))).
    { unfold stepped; cbn [fs_x]. rewrite vscale_R, vadd_R. reflexivity. }
    assert (Hball : l1_ball alpha (fs_x s)) by (eapply decomposition_ball; [exact Ha|exact Hdec]).
    assert (Hbt : step = FSBacktracking -> found = true ->
       objective fg (vplus (fs_x s) (smul ss (lmo_dir o))) <= objective fg (fs_x s) - / 2 * (ss * - dot (lmo_dir o) (fs_grad s)) + EPS).
    { intros Est Hfo. rewrite Est in Hr. destruct Hr as (R1 & R2 & R3). destruct (R3 Hfo) as (R4 & R5 & _).
      cbn [fs_f with_lip] in R4.
      assert (Hfs : fs_f s = objective fg (fs_x s)) by (unfold objective; rewrite <- (proj1 Hv); reflexivity).
      pose proof (fw_select_eval _ _ _ _ _ _ _ _ _ _ Hs) as Hev. cbn [fs_x with_lip] in Hev. rewrite vscale_R, vadd_R in Hev.
      rewrite <- Hfs. unfold objective. rewrite <- Hev. lra. }
    split.
    + split; [rewrite Hxn; lengr|]. split.
      { rewrite Hxn. exists d'. split; [reflexivity|exact Hdec']. }
      split; [exact Hlog2|]. split.
      * constructor; [|exact Hits]. unfold pair_iter; cbn [fi_x fi_cert fi_step fi_grad fi_found fi_next].
        rewrite fw_cert_R, vscale_R, vadd_R. repeat (split; [assumption|]). split; [|exact Hbt].
        intros f gradf Hgr Hf y Hy Hby. specialize (Hf (fs_x s) y Hx Hy). rewrite <- Hgr in Hf.
        specialize (L11 y Hy Hby).
        assert (Hgl : length (fs_grad s : list R) = n).
        { replace (fs_grad s) with (snd (fg (fs_x s))) by (rewrite <- (proj1 Hv); reflexivity). apply Hg, Hx. }
        unfold vminus in Hf. rewrite dot_lin_r in Hf by (first [exact (eq_trans Hx (eq_sym Hgl)) | exact (eq_trans Hy (eq_sym Hgl))]).
        rn. lra.
      * intros Est Hall. rewrite Hxn.
        change (fs_iters (stepped s it o ss lip' fgn found log2 (Some d'))) with
          (mkFwI (fs_x s) (fs_f s) (fs_grad s) o (fw_cert (lmo_dir o) (fs_grad s)) lip' ss (fs_x (stepped s it o ss lip' fgn found log2 (Some d'))) found it :: fs_iters s) in *.
        specialize (Hbt Est (Forall_inv Hall)). specialize (Hdesc Est (Forall_inv_tail Hall)).
        cbn [length]. rewrite S_INR. assert (0 <= ss * - dot (lmo_dir o) (fs_grad s)) by (apply Rmult_le_pos; lra).
        lra.
    + unfold lip_inv; cbn [fs_lip stepped]. destruct step as [f| | | |]; auto; [apply Hr|]. destruct Hr as (_ & _ & -> & _). exact Hlp.
  - intros Hst. unfold act_update. rewrite Hd, L1, L2.
    destruct Hdec as (N & _). destruct (update_spec d fw away ss N) as (_ & U2).
    destruct U2 as (d' & U & _).
    { assert (ss <= weight d away).
      { destruct step as [f| | | |]; try destruct Hst; [apply Hr|]. destruct Hr as (_ & R1 & _). apply R1. }
      destruct (keq away fw); lra. }
    rewrite U. eexists; reflexivity.
Qed.

Lemma pair_finish (s : fw_state RN) it cert (o : lmo_out RN) nxt ex : pair_core (fs_x s) (fs_active s) (fs_log s) (fs_iters s) ->
  pair_core (fr_x (fw_finish cb s it cert o nxt ex)) (fr_active (fw_finish cb s it cert o nxt ex)) (fr_log (fw_finish cb s it cert o nxt ex)) (fr_iters (fw_finish cb s it cert o nxt ex)).
Proof.
  intros (A & B & C & D). unfold fw_finish; cbn [fr_x fr_log fr_iters fr_active].
  split; [exact A|]. split; [exact B|]. split; [|exact D]. destruct cb; [constructor; [exact B|exact C]|exact C].
Qed.

Lemma pair_init (sg : R) (i0 : nat) : (i0 < n)%nat -> Rabs sg <= 1 -> x0 = vertex n (alpha * sg) i0 ->
  pair_inv (mkFwS x0 (fst (fg x0)) (snd (fg x0)) None lipschitz (Some [((sg, i0), n1)]) None [FwEval x0] []).
Proof.
  intros H1 H2 H3. split.
  - split; [exact Hx0|]. split; [|split; [repeat constructor|split; [constructor|]]].
    + cbn [fs_x fs_active]. exists [((sg, i0), 1)]. split; [reflexivity|]. split; [repeat constructor; intros []|].
      split; [constructor; [|constructor]; cbn [fst snd]; repeat split; [lra|exact H1|exact H2]|].
      split; [cbn; lra|]. cbn [wsum fst snd]. rewrite H3. apply list_ext with (d := 0).
      * rewrite lin_length, !vertex_length, zeros_length. lia.
      * intros j Hj. rewrite nth_lin by (rewrite vertex_length, zeros_length; reflexivity). rewrite nth_zeros. rn. lra.
    + intros _ _. cbn. lra.
  - unfold lip_inv; cbn [fs_lip fs_x]. unfold step_hyp_pair, step_hyp in Hstep. destruct step; auto; destruct lipschitz; auto.
Qed.

Lemma pair_run (sg : R) (i0 : nat) max_iter r : (i0 < n)%nat -> Rabs sg <= 1 -> x0 = vertex n (alpha * sg) i0 ->
  minimize_fw fg lmo step lipschitz tol max_iter cb (@Pairwise RN (sg, i0)) x0 = Ok r ->
  pair_core (fr_x r) (fr_active r) (fr_log r) (fr_iters r) /\
  (fr_exit r <> ExitMaxIter -> forall f gradf, gradf (fr_x r) = snd (fg (fr_x r)) -> first_order n f gradf ->
     forall y, length y = n -> l1_ball alpha y -> f (fr_x r) - f y <= fr_cert r) /\
  (fr_exit r = ExitGap -> fr_cert r <= tol).
Proof.
  intros H1 H2 H3 E. apply minimize_fw_loop in E as (_ & a & -> & E).
  refine (@fw_loop_ind RN fg lmo step lipschitz tol cb (fun it s => fw_inv fg lmo tol x0 it s /\ pair_inv s)
    (fun r => pair_core (fr_x r) (fr_active r) (fr_log r) (fr_iters r) /\
       (fr_exit r <> ExitMaxIter -> forall f gradf, gradf (fr_x r) = snd (fg (fr_x r)) -> first_order n f gradf ->
     forall y, length y = n -> l1_ball alpha y -> f (fr_x r) - f y <= fr_cert r) /\
  (fr_exit r = ExitGap -> fr_cert r <= tol)) max_iter _ max_iter 0 _ r _ _ E).
  2:{ lia. }
  2:{ split; [apply fw_inv_init|apply pair_init; assumption]. }
  intros it s o Hit (Hv & Hi) Ho. cbv zeta.
  destruct (pair_lmo s it Hv Hi) as (o' & fw & away & d & Ho' & Hd & Hdec & L1 & L2 & L3 & L4 & L5 & L6 & L7 & L8 & L9 & L10 & L11).
  rewrite Ho in Ho'. injection Ho' as <-.
  assert (Hx : length (fs_x s : list R) = n) by apply Hi.
  assert (Hgr : fs_grad s = snd (fg (fs_x s))) by (rewrite <- (proj1 Hv); reflexivity).
  assert (Hgl : length (fs_grad s : list R) = n) by (rewrite Hgr; apply Hg, Hx).
  assert (Hgap : forall f gradf, gradf (fs_x s) = snd (fg (fs_x s)) -> first_order n f gradf ->
     forall y, length y = n -> l1_ball alpha y -> f (fs_x s) - f y <= fw_cert (K:=RN) (lmo_dir o) (fs_grad s)).
  { intros f gradf Hgg Hf y Hy Hby. specialize (Hf (fs_x s) y Hx Hy). rewrite Hgg, <- Hgr in Hf.
    specialize (L11 y Hy Hby). rewrite fw_cert_R.
    unfold vminus in Hf. rewrite dot_lin_r in Hf by (first [exact (eq_trans Hx (eq_sym Hgl)) | exact (eq_trans Hy (eq_sym Hgl))]).
    rn. lra. }
  split.
  - intros Hc. apply Rleb_iff in Hc. split; [apply pair_finish; apply Hi|]. split; [|intros _; exact Hc].
    intros _. exact Hgap.
  - intros Hc ss lip' fgn found log1 Hs stop log2 Hcb.
    assert (Hc' : tol < fw_cert (K:=RN) (lmo_dir o) (fs_grad s)).
    { rn. destruct (Rleb_spec (fw_cert (K:=RN) (lmo_dir o) (fs_grad s)) tol); [discriminate Hc|assumption]. }
    split.
    + intros _. destruct (pair_step it s o ss lip' fgn found log1 stop log2 None Hv Hi Ho Hc' Hs Hcb) as (P1 & _).
      split; [apply pair_finish; exact P1|]. split; [intros _; exact Hgap|]. intros Hex; discriminate Hex.
    + intros _ act Hact.
      destruct (pair_step it s o ss lip' fgn found log1 stop log2 act Hv Hi Ho Hc' Hs Hcb) as (_ & P2 & _).
      specialize (P2 Hact). split.
      * split; [eapply fw_inv_step; eassumption|exact P2].
      * intros _. split; [apply pair_finish; apply P2|]. split; intros Hex; [exfalso; apply Hex; reflexivity|discriminate Hex].
Qed.

Lemma pair_total : match step with FSBacktracking => True | FSDR => lipschitz <> None | _ => False end ->
  forall k it (s : fw_state RN), pair_inv s -> fw_inv fg lmo tol x0 it s ->
  exists r, fw_loop fg lmo step lipschitz tol cb (Datatypes.S k) it s = Ok r.
Proof.
  intros Hst. induction k as [|k IH]; intros it s Hi Hv; rewrite fw_loop_unfold.
  all: destruct (pair_lmo s it Hv Hi) as (o & fw & away & d & Ho & _); rewrite Ho; cbn [bind]; cbv zeta;
    destruct (nleb RN _ tol) eqn:Hc; [eexists; reflexivity|].
  all: destruct (fw_select _ _ _ _ _ _ _ _ _ _) as [[[[[ss lip'] fgn] found] log1]|e] eqn:Es;
    [|exfalso; unfold fw_select in Es; destruct step; try discriminate Es; try exact Hst;
      destruct lipschitz; [discriminate Es|congruence]].
  all: cbn [bind]; destruct (cb_call _ _ _) as [stop log2] eqn:Ecb.
  all: assert (Hc' : tol < fw_cert (K:=RN) (lmo_dir o) (fs_grad s))
    by (rn; destruct (Rleb_spec (fw_cert (K:=RN) (lmo_dir o) (fs_grad s)) tol); [discriminate Hc|assumption]).
  all: destruct (pair_step it s o ss lip' fgn found log1 stop log2 None Hv Hi Ho Hc' Es Ecb) as (_ & _ & P3);
    destruct P3 as (act & Hact); [destruct step; tauto|].
  all: destruct stop; [eexists; reflexivity|]; rewrite Hact; cbn [bind].
  - eexists; reflexivity.
  - apply IH.
    + destruct (pair_step it s o ss lip' fgn found log1 false log2 act Hv Hi Ho Hc' Es Ecb) as (_ & P2 & _). auto.
    + eapply fw_inv_step; eauto.
Qed.
End Pair.
