(** * minimize_sfw, variants SAG, SAGA and MHK: runs as folds over batches, and means over all sequences of batches *)
From Coq Require Import Reals Lra Lia List Bool ZArith Permutation.
From Verif Require Import Num Vec Spec SpecSparse RVec ConvexFacts ModelConstraint ModelPenalty PenaltyFacts PenaltyFacts2 ModelUtilsArr UtilsMain
  ModelFrankWolfe FrankWolfeConv FrankWolfeMain ModelRandomized SpecFiniteSum RandomizedFacts RandomizedProx RandomizedSaga ModelSfw SpecSfw SpecSfwMean SfwFacts SfwStep SfwMain SfwMain2 SfwMain3 SfwRate SfwRate2 SfwMean.
Import ListNotations.
Local Open Scope R_scope.

Lemma seqs_in {A} (l : list A) : forall k w, In w (seqs l k) <-> length w = k /\ Forall (fun b => In b l) w.
Proof.
  induction k as [|k IH]; intros w; cbn [seqs].
  - split; [intros [<-|[]]; auto|]. intros [L _]. destruct w; [left; reflexivity|discriminate L].
  - rewrite in_flat_map. split.
    + intros (v & Hv & Hw). apply in_map_iff in Hw as (i & <- & Hi). apply IH in Hv as (L & F).
      rewrite app_length, L. cbn [length]. split; [lia|]. apply Forall_app. split; [exact F|]. constructor; [exact Hi|constructor].
    + intros (L & F). destruct (exists_last (l := w)) as (v & i & ->); [intros ->; discriminate L|].
      rewrite app_length in L. cbn [length] in L. apply Forall_app in F as (F & Fi). inversion Fi; subst.
      exists v. split; [apply IH; split; [lia|exact F]|]. apply in_map_iff. exists i. auto.
Qed.
Lemma seqs_length {A} (l : list A) k : length (seqs l k) = (length l ^ k)%nat.
Proof.
  induction k as [|k IH]; [reflexivity|]. cbn [seqs Nat.pow]. rewrite <- IH. generalize (seqs l k). intros u. induction u as [|w u IHl]; [cbn; lia|].
  cbn [flat_map length]. rewrite app_length, IHl, map_length. lia.
Qed.
Lemma seqs_sum {A} (l : list A) k (G : list A -> R) :
  Rsum (map G (seqs l (S k))) = Rsum (map (fun w => Rsum (map (fun b => G (w ++ [b])) l)) (seqs l k)).
Proof.
  cbn [seqs]. generalize (seqs l k). intros u. induction u as [|w u IHl]; [reflexivity|].
  cbn [flat_map map Rsum]. rewrite map_app, Rsum_app, IHl, map_map. reflexivity.
Qed.

Section Mean.
Variable pow23 : R -> R.
Variable P : problem RN.
Variable f : R -> R -> R.
Variable V : sfw_variant.
Variable lmo : lmo_fun RN.
Variable lipschitz : option RN.
Variable bs : nat.
Variable dom : list R -> Prop.
Variables C Dinf D1 L : R.
Hypothesis W : problem_wf P.
Hypothesis Hn : (1 <= p_n P)%nat.
Hypothesis HV : V = SAG \/ V = SAGA \/ V = MHK.
Hypothesis Hb : (1 <= bs <= p_n P)%nat.
Hypothesis Hc : convex_set (p_d P) dom.
Hypothesis Hl : lmo_exact (p_d P) dom lmo.
Hypothesis Hconv : convex_loss P f.
Hypothesis HC : curvature (p_d P) dom (mean_loss P f) (grad_list P) C.
Hypothesis HDinf : forall u v i, length u = p_d P -> length v = p_d P -> dom u -> dom v -> (i < p_n P)%nat -> Rabs (adot P i u - adot P i v) <= Dinf.
Hypothesis HD1 : forall u v, length u = p_d P -> length v = p_d P -> dom u -> dom v ->
  Rsum (map (fun i => Rabs (adot P i u - adot P i v)) (seq 0 (p_n P))) <= D1.
Hypothesis HL : forall p q b, Rabs (p_fd P p b - p_fd P q b) <= L * Rabs (p - q).
Hypothesis HL0 : 0 <= L.
Hypothesis Hrho : forall t, 0 <= rhoV V pow23 t <= 1.
Local Notation n := (p_n P).
Local Notation d := (p_d P).
Local Notation stepf := (sfw_step (K:=RN) pow23 P lmo V SSublinear lipschitz bs).
Local Notation Good := (goodV P V dom).
Local Notation gam := (gamV V).
Local Notation rho := (rhoV V pow23).
Local Notation kap := (kapV P V).
Definition nextV (s : sfw_state RN) (b : list nat) : sfw_state RN :=
  match stepf 0 b s with Ok r => sfw_tick (si_next r) | Err _ => s end.
Lemma HV0 : V <> OtherSfw.
Proof. intros Z. rewrite Z in HV. intuition discriminate. Qed.
Lemma nextV_ok it b s : Good s -> batch_ok n bs b -> exists r, stepf it b s = Ok r /\ nextV s b = sfw_tick (si_next r) /\ Good (nextV s b).
Proof.
  intros G Hbt. destruct (G) as ((Ws & Ha & Hx) & _). pose proof Hbt as (F & N & _).
  destruct (step_total pow23 P lmo V SSublinear lipschitz bs W 0 b s) as (r & E); auto.
  { left. split; [reflexivity|apply HV0]. }
  { apply (feasible_sized _ dom); [apply lmo_exact_feasible, Hl|apply Ws|exact Hx]. }
  destruct (good_stepV P V pow23 lmo lipschitz bs dom W Hn HV (proj1 Hb) Hc Hl 0 b s r G Hbt E) as (G' & _).
  eexists. split; [rewrite step_it, E; reflexivity|]. unfold nextV. rewrite E. cbn [si_next]. split; [reflexivity|exact G'].
Qed.
Lemma foldV_good : forall w s, Good s -> Forall (batch_ok n bs) w -> Good (fold_left nextV w s).
Proof.
  induction w as [|b w IH]; intros s G F; [exact G|]. inversion F; subst. cbn [fold_left]. apply IH; [|assumption].
  destruct (nextV_ok 0 b s G) as (r & _ & _ & H); auto.
Qed.
Section Run.
Variable tol : R.
Hypothesis Htol : tol <= 0.
(** one epoch: the index array is the concatenation of the batches *)
Lemma slice_batch (u : list nat) (b : list nat) (w : list (list nat)) : length b = bs -> (length u + bs <= n)%nat ->
  slice (u ++ b ++ concat w) (length u) (Nat.min (length u + bs) n) = b.
Proof.
  intros Lb Hu. unfold slice. rewrite Nat.min_l by exact Hu. replace (length u + bs - length u)%nat with bs by lia.
  rewrite skipn_app, skipn_all, Nat.sub_diag. cbn [skipn app]. rewrite firstn_app, Lb, Nat.sub_diag. cbn [firstn]. rewrite app_nil_r.
  rewrite <- Lb. apply firstn_all.
Qed.
Lemma whileV : forall w u it fuel s succ log, Forall (batch_ok n bs) w -> (length u + length (concat w) <= n)%nat -> (length w < fuel)%nat -> Good s ->
  exists log', sfw_while (K:=RN) pow23 P lmo V SSublinear lipschitz bs tol fuel (u ++ concat w) it (length u) s succ log
    = Ok (fold_left nextV w s, succ, log').
Proof.
  induction w as [|b w IH]; intros u it fuel s succ log F Hu Hf G.
  - destruct fuel as [|fuel]; [cbn in Hf; lia|]. cbn [sfw_while concat]. rewrite app_nil_r, Nat.ltb_irrefl. cbn [fold_left]. eauto.
  - inversion F as [|? ? Hbt F']; subst. destruct fuel as [|fuel]; [cbn in Hf; lia|]. cbn [sfw_while]. cbn [concat] in Hu |- *.
    pose proof Hbt as (_ & _ & Lb). rewrite app_length in Hu. rewrite !app_length.
    destruct (Nat.ltb_spec (length u) (length u + (length b + length (concat w)))) as [_|Hge]; [|lia].
    rewrite slice_batch by lia.
    destruct (nextV_ok it b s G Hbt) as (r & Er & Hr & G'). rewrite Er. cbn [bind].
    rewrite (never_quiet tol Htol). rewrite <- Hr. cbn [fold_left].
    replace (u ++ b ++ concat w) with ((u ++ b) ++ concat w) by (rewrite app_assoc; reflexivity).
    replace (length u + bs)%nat with (length (u ++ b)) by (rewrite app_length; lia).
    apply IH; [exact F'|rewrite app_length; lia|cbn [length] in Hf; lia|exact G'].
Qed.
Lemma epochsV nb (w : list (list nat)) : (nb * bs <= n)%nat -> Forall (batch_ok n bs) w -> forall k it s log, (1 <= k)%nat -> ((it + k) * nb <= length w)%nat -> Good s ->
  exists r, sfw_epochs (K:=RN) pow23 P lmo V SSublinear lipschitz bs tol (batch_draws nb w) k it s false log = Ok r /\
    sr_x r = sw_x (fold_left nextV (firstn (k * nb) (skipn (it * nb) w)) s) /\ sr_success r = false.
Proof.
  intros Hnb Fw. induction k as [|k IH]; intros it s log Hk Lw G; [lia|]. cbn [sfw_epochs].
  destruct (Nat.eqb_spec bs 0) as [Z|_]; [lia|].
  set (v := firstn nb (skipn (it * nb) w)).
  assert (Lv : length v = nb) by (unfold v; rewrite firstn_length, skipn_length; nia).
  assert (Fv : Forall (batch_ok n bs) v).
  { apply Forall_forall. intros b Hbi. rewrite Forall_forall in Fw. apply Fw. eapply skipn_in, firstn_in, Hbi. }
  assert (Lc : length (concat v) = (nb * bs)%nat).
  { rewrite <- Lv. clear - Fv. induction Fv as [|b v (_ & _ & Hbb) _ IH]; [reflexivity|]. cbn [concat length]. rewrite app_length, IH, Hbb. lia. }
  destruct (whileV v [] it (S (length (concat v))) s false log Fv ltac:(cbn [length]; lia) ltac:(nia) G) as (log' & Ew).
  cbn [app length] in Ew. unfold batch_draws. fold v. rewrite Ew. cbn [bind].
  pose proof (foldV_good v s G Fv) as G'.
  assert (Hs : firstn (S k * nb) (skipn (it * nb) w) = v ++ firstn (k * nb) (skipn (S it * nb) w)).
  { unfold v. cbn [Nat.mul].
    assert (H : forall m (x : list (list nat)), firstn nb x ++ firstn m (skipn nb x) = firstn (nb + m) x).
    { clear. intros m. induction nb as [|q IH]; intros x; [reflexivity|]. destruct x as [|a x]; [rewrite !firstn_nil; reflexivity|].
      cbn [firstn skipn app Nat.add]. rewrite IH. reflexivity. }
    rewrite <- H. f_equal. f_equal.
    assert (H2 : forall p (x : list (list nat)), skipn nb (skipn p x) = skipn (nb + p) x).
    { clear. intros p. induction p as [|p IH]; intros x; [rewrite Nat.add_0_r; reflexivity|]. destruct x as [|a x]; [rewrite !skipn_nil; reflexivity|].
      rewrite Nat.add_succ_r. cbn [skipn]. apply IH. }
    rewrite H2. reflexivity. }
  rewrite Hs, fold_left_app. destruct k as [|k].
  - eexists. split; [reflexivity|]. split; [|reflexivity]. cbn [Nat.mul firstn fold_left sr_x]. reflexivity.
  - apply IH; [lia|nia|exact G'].
Qed.
End Run.

(** ** means *)
Variable Bt : list (list nat).
Variable c : nat.
Variable y : list R.
Variable s0 : sfw_state RN.
Hypothesis HBt : balanced n bs c Bt.
Hypothesis HN : (1 <= length Bt)%nat.
Hypothesis Ly : length y = d.
Hypothesis Hy : dom y.
Hypothesis G0 : Good s0.
Hypothesis T0 : sw_t s0 = 0%nat.
Definition stV (w : list (list nat)) : sfw_state RN := fold_left nextV w s0.
Definition EV (w : list (list nat)) : R := errV P V (sw_dual (stV w)) (sw_x (stV w)).
Definition hV (w : list (list nat)) : R := mean_loss P f (sw_x (stV w)) - mean_loss P f y.
Lemma Bt_ok b : In b Bt -> batch_ok n bs b.
Proof. destruct HBt as (F & _). rewrite Forall_forall in F. intros Hi. destruct (F b Hi) as (F1 & N1 & L1). split; [exact F1|]. split; [exact N1|lia]. Qed.
Lemma Bt_oks w : Forall (fun b => In b Bt) w -> Forall (batch_ok n bs) w.
Proof. intros F. eapply Forall_impl; [|exact F]. intros b. apply Bt_ok. Qed.
Lemma stV_good w : Forall (fun b => In b Bt) w -> Good (stV w).
Proof. intros F. apply foldV_good; [exact G0|apply Bt_oks, F]. Qed.
Lemma stV_t : forall w, Forall (fun b => In b Bt) w -> sw_t (stV w) = length w.
Proof.
  intros w. induction w as [|b w IH] using rev_ind; intros F; [exact T0|].
  apply Forall_app in F as (F & Fi). inversion Fi; subst. unfold stV. rewrite fold_left_app, app_length. cbn [fold_left length].
  fold (stV w). pose proof (stV_good w F) as G. pose proof (Bt_ok b ltac:(assumption)) as Hbt.
  destruct (nextV_ok 0 b (stV w) G Hbt) as (r & Er & -> & _).
  destruct (good_stepV P V pow23 lmo lipschitz bs dom W Hn HV (proj1 Hb) Hc Hl 0 b (stV w) r G Hbt Er) as (_ & _ & Ht & _).
  cbn [sfw_tick sw_t]. rewrite Ht, (IH F). lia.
Qed.
Lemma one_stepV w b : Forall (fun b => In b Bt) w -> In b Bt ->
  let e := errB P V (sw_dual (stV w)) (sw_x (stV w)) b in
  let t := length w in
  EV (w ++ [b]) <= EV w - rho t * e + / INR n * (L * (gam t * D1)) /\
  hV (w ++ [b]) <= (1 - gam t) * hV w + gam t * ((EV w + (kap - rho t) * e) * Dinf) + gam t * gam t / 2 * C.
Proof.
  intros F Hi e t. pose proof (stV_good w F) as G. pose proof (Bt_ok b Hi) as Hbt.
  destruct (nextV_ok 0 b (stV w) G Hbt) as (r & Er & Hr & _).
  assert (Hs : stV (w ++ [b]) = sfw_tick (si_next r)).
  { unfold stV. rewrite fold_left_app. cbn [fold_left]. fold (stV w). exact Hr. }
  unfold EV at 1, hV at 1. rewrite Hs. cbn [sfw_tick sw_x sw_dual]. unfold t. rewrite <- (stV_t w F). split.
  - apply (err_stepV P V pow23 lmo lipschitz bs dom D1 L W Hn HV (proj1 Hb) Hc Hl HD1 HL HL0 0 b (stV w) r G Hbt Er (Hrho _)).
  - apply (value_stepV P f V pow23 lmo lipschitz bs dom C Dinf W Hn HV (proj1 Hb) Hc Hl Hconv HC HDinf 0 b (stV w) r y G Hbt Er Ly Hy (Hrho _)).
Qed.
Definition theta : R := INR bs / INR n.
Lemma sum_errB (dual x : list R) : Rsum (map (errB P V dual x) Bt) = INR (length Bt) * (theta * errV P V dual x).
Proof.
  destruct (balanced_sum n bs c Bt (fun i => Rabs (gap_i P V dual x i)) HBt) as (Hs & Hcnt).
  assert (Hp : 0 < INR n) by (apply lt_0_INR; lia).
  unfold errB. rewrite Hs. unfold errV, theta. apply (f_equal INR) in Hcnt. rewrite !mult_INR in Hcnt.
  assert (Hc2 : INR c = INR bs * INR (length Bt) / INR n) by (rewrite Hcnt; field; lra). rewrite Hc2. field. lra.
Qed.
Lemma theta_range : 0 < theta <= 1.
Proof.
  unfold theta. assert (Hp : 0 < INR n) by (apply lt_0_INR; lia). assert (0 < INR bs) by (apply lt_0_INR; lia).
  assert (INR bs <= INR n) by (apply le_INR; lia). split; [apply Rdiv_lt_0_compat; lra|].
  apply Rmult_le_reg_r with (INR n); [lra|]. unfold Rdiv. rewrite Rmult_assoc, Rinv_l by lra. lra.
Qed.
Lemma sum_EV w : Forall (fun b => In b Bt) w -> let t := length w in
  Rsum (map (fun b => EV (w ++ [b])) Bt) <= INR (length Bt) * ((1 - rho t * theta) * EV w + gam t * (L * D1 / INR n)).
Proof.
  intros F t. eapply Rle_trans.
  - apply (Rsum_le_map _ (fun b => (EV w + / INR n * (L * (gam t * D1))) - rho t * errB P V (sw_dual (stV w)) (sw_x (stV w)) b)).
    intros b Hi. pose proof (one_stepV w b F Hi) as (H & _). fold t in H. lra.
  - rewrite Rsum_map_minus, Rsum_const, Rsum_map_mult, sum_errB. fold (EV w). apply Req_le. unfold Rdiv. ring.
Qed.
Lemma sum_hV w : Forall (fun b => In b Bt) w -> let t := length w in
  Rsum (map (fun b => hV (w ++ [b])) Bt) <=
    INR (length Bt) * ((1 - gam t) * hV w + gam t * ((1 + (kap - rho t) * theta) * EV w * Dinf) + gam t * gam t / 2 * C).
Proof.
  intros F t. eapply Rle_trans.
  - apply (Rsum_le_map _ (fun b => ((1 - gam t) * hV w + gam t * (EV w * Dinf) + gam t * gam t / 2 * C) + (gam t * (kap - rho t) * Dinf) * errB P V (sw_dual (stV w)) (sw_x (stV w)) b)).
    intros b Hi. pose proof (one_stepV w b F Hi) as (_ & H). fold t in H. lra.
  - rewrite Rsum_map_plus, Rsum_const, Rsum_map_mult, sum_errB. fold (EV w). apply Req_le. ring.
Qed.
Lemma EV_nonneg w : 0 <= EV w.
Proof. apply errV_nonneg. Qed.
Lemma Dinf_pos : 0 <= Dinf.
Proof. specialize (HDinf y y 0%nat Ly Ly Hy Hy ltac:(lia)). rewrite Rminus_eq_0, Rabs_R0 in HDinf. exact HDinf. Qed.
Definition kappa : R := match V with SAGA => 1 + INR bs | _ => 1 end.
Lemma kappa_bound t : 1 + (kap - rho t) * theta <= kappa.
Proof.
  pose proof theta_range as Ht. pose proof (Hrho t) as Hr. unfold kapV, kappa. 
  assert (0 <= rho t * theta) by (apply Rmult_le_pos; lra).
  destruct HV as [-> | [-> | ->]]; try lra. clear H. cbn [rhoV].
  assert (Hp : 0 < INR n) by (apply lt_0_INR; lia). rewrite minus_INR by lia. cbn [INR].
  assert (INR n * theta = INR bs) by (unfold theta; field; lra). lra.
Qed.
(** the recursions for the means *)
Variables eb hb : nat -> R.
Hypothesis He0 : EV [] <= eb 0%nat.
Hypothesis Hes : forall t, (1 - rho t * theta) * eb t + gam t * (L * D1 / INR n) <= eb (S t).
Hypothesis Hh0 : hV [] <= hb 0%nat.
Hypothesis Hhs : forall t, (1 - gam t) * hb t + gam t * (Dinf * (kappa * eb t)) + gam t * gam t / 2 * C <= hb (S t).
Lemma powN_pos k : 0 < INR (length Bt ^ k).
Proof. apply lt_0_INR. pose proof (Nat.pow_nonzero (length Bt) k). lia. Qed.
Lemma mean_EV : forall k, Rsum (map EV (seqs Bt k)) <= INR (length Bt ^ k) * eb k.
Proof.
  induction k as [|k IH].
  - cbn [seqs map Rsum Nat.pow INR]. lra.
  - rewrite seqs_sum. pose proof (powN_pos k) as Hq. assert (HN0 : 0 < INR (length Bt)) by (apply lt_0_INR; lia).
    pose proof (Hrho k) as Hr. pose proof theta_range as Ht.
    assert (Hrt : 0 <= 1 - rho k * theta). { assert (rho k * theta <= 1 * 1); [|lra]. apply Rmult_le_compat; lra. }
    eapply Rle_trans.
    + apply (Rsum_le_map _ (fun w => INR (length Bt) * (1 - rho k * theta) * EV w + INR (length Bt) * (gam k * (L * D1 / INR n)))).
      intros w Hw. apply seqs_in in Hw as (Lw & F). pose proof (sum_EV w F) as H. cbn zeta in H. rewrite Lw in H. lra.
    + rewrite Rsum_map_plus, Rsum_map_mult, Rsum_const, seqs_length. cbn [Nat.pow]. rewrite mult_INR.
      assert (H1 : INR (length Bt) * (1 - rho k * theta) * Rsum (map EV (seqs Bt k)) <= INR (length Bt) * (1 - rho k * theta) * (INR (length Bt ^ k) * eb k)).
      { apply Rmult_le_compat_l; [apply Rmult_le_pos; lra|exact IH]. }
      assert (H2 : INR (length Bt) * INR (length Bt ^ k) * ((1 - rho k * theta) * eb k + gam k * (L * D1 / INR n)) <= INR (length Bt) * INR (length Bt ^ k) * eb (S k)).
      { apply Rmult_le_compat_l; [apply Rmult_le_pos; lra|apply Hes]. }
      lra.
Qed.
Lemma mean_hV : forall k, Rsum (map hV (seqs Bt k)) <= INR (length Bt ^ k) * hb k.
Proof.
  induction k as [|k IH].
  - cbn [seqs map Rsum Nat.pow INR]. lra.
  - rewrite seqs_sum. pose proof (powN_pos k) as Hq. assert (HN0 : 0 < INR (length Bt)) by (apply lt_0_INR; lia).
    pose proof (gamV_range V HV k) as Hg. pose proof Dinf_pos as HD. pose proof (kappa_bound k) as Hk.
    assert (Hk0 : 0 <= kappa) by (unfold kappa; pose proof (pos_INR bs); destruct V; lra).
    eapply Rle_trans.
    + apply (Rsum_le_map _ (fun w => INR (length Bt) * (1 - gam k) * hV w + INR (length Bt) * (gam k * Dinf * kappa) * EV w + INR (length Bt) * (gam k * gam k / 2 * C))).
      intros w Hw. apply seqs_in in Hw as (Lw & F). pose proof (sum_hV w F) as H. cbn zeta in H. rewrite Lw in H.
      eapply Rle_trans; [exact H|]. 
      assert (Hm : gam k * Dinf * ((1 + (kap - rho k) * theta) * EV w) <= gam k * Dinf * (kappa * EV w)).
      { apply Rmult_le_compat_l; [apply Rmult_le_pos; lra|]. apply Rmult_le_compat_r; [apply EV_nonneg|exact Hk]. }
      pose proof (Rmult_le_compat_l _ _ _ (Rlt_le _ _ HN0) Hm). lra.
    + rewrite !Rsum_map_plus, !Rsum_map_mult, Rsum_const, seqs_length. cbn [Nat.pow]. rewrite mult_INR.
      assert (H1 : INR (length Bt) * (1 - gam k) * Rsum (map hV (seqs Bt k)) <= INR (length Bt) * (1 - gam k) * (INR (length Bt ^ k) * hb k)).
      { apply Rmult_le_compat_l; [apply Rmult_le_pos; lra|exact IH]. }
      assert (H3 : INR (length Bt) * (gam k * Dinf * kappa) * Rsum (map EV (seqs Bt k)) <= INR (length Bt) * (gam k * Dinf * kappa) * (INR (length Bt ^ k) * eb k)).
      { apply Rmult_le_compat_l; [|apply mean_EV]. repeat apply Rmult_le_pos; lra. }
      assert (H2 : INR (length Bt) * INR (length Bt ^ k) * ((1 - gam k) * hb k + gam k * (Dinf * (kappa * eb k)) + gam k * gam k / 2 * C) <= INR (length Bt) * INR (length Bt ^ k) * hb (S k)).
      { apply Rmult_le_compat_l; [apply Rmult_le_pos; lra|apply Hhs]. }
      lra.
Qed.
End Mean.
