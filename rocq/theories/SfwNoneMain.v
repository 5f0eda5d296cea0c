(** * Proofs for None as a key of the active set of minimize_sfw (C133) *)
From Coq Require Import ZArith Bool List Reals Lra Lia.
From Verif Require Import Num Vec Spec SpecSparse RVec ModelConstraint ModelPenalty PenaltyFacts ModelUtilsArr UtilsMain ModelFrankWolfe ModelRandomized SpecFiniteSum RandomizedFacts ModelSfw SpecSfw SfwFacts ModelFwNone FwNoneMain ModelSfwNone.
Import ListNotations.

(** ** L1Ball.lmo: the weight of None goes down by the steps *)
Section K.
Context {K : Num}.
Lemma step_lmo pow23 (P : problem K) lmo variant rule lipschitz bs it batch s r :
  sfw_step pow23 P lmo variant rule lipschitz bs it batch s = Ok r -> exists u, call_lmo lmo u (sw_x s) (sw_active s) = Ok (si_lmo r).
Proof.
  intros E. unfold sfw_step in E. apply bind_ok in E as (sizes & _ & E). apply bind_ok in E as (prev & _ & E). apply bind_ok in E as ([[dual sigma] lf] & Ed & E).
  apply bind_ok in E as (new & _ & E). apply bind_ok in E as (u & _ & E). apply bind_ok in E as ([est o] & Eo & E).
  apply bind_ok in E as (act & _ & E). injection E as <-. cbn [si_lmo].
  destruct variant; [| | | |discriminate Ed].
  1, 2, 3: destruct lf; apply bind_ok in Eo as (o' & Ec & Eo); injection Eo as <- <-; eexists; exact Ec.
  destruct lf as [eo|].
  - injection Eo as ->. cbn [sfw_dual_update] in Ed. apply bind_ok in Ed as (o' & Ec & Ed). apply bind_ok in Ed as (old & _ & Ed).
    destruct (match sizes with Some (_, a) => a | None => None end); [|discriminate Ed].
    apply bind_ok in Ed as (p & _ & Ed). apply bind_ok in Ed as (sg & _ & Ed). apply bind_ok in Ed as (sg' & _ & Ed). apply bind_ok in Ed as (g & _ & Ed). apply bind_ok in Ed as (dl & _ & Ed).
    injection Ed as _ _ <- <-. eexists; exact Ec.
  - apply bind_ok in Eo as (o' & Ec & Eo); injection Eo as <- <-. eexists; exact Ec.
Qed.
Lemma weights_app (w : K) l1 l2 : weights_run w (l1 ++ l2) = match weights_run w l1 with Some w' => weights_run w' l2 | None => None end.
Proof. revert w. induction l1 as [|g l1 IH]; intros w; cbn [app weights_run]; [reflexivity|]. cbv zeta. destruct (nltb K (next_weight w g) n0); [reflexivity|apply IH]. Qed.

Section Run.
Variables (pow23 : K -> K) (P : problem K) (lm : vec K -> vec K -> result (lmo_out K)) (variant : sfw_variant) (rule : sfw_rule) (lipschitz : option K) (bs : nat) (tol : K).
Hypothesis HL : forall u x o, lm u x = Ok o -> lmo_away o = None /\ lmo_fw o <> None.
Local Notation lmoV := (Lmo3 (fun u x _ => lm u x)).
Local Notation lmoO := (fun (u x : vec K) (_ : oactive K) => lm u x).

Lemma while_none : forall fuel idx it i s a succ log s' b' log', one_none a ->
  sfw_while pow23 P lmoV variant rule lipschitz bs tol fuel idx it i s succ log = Ok (s', b', log') ->
  exists news, log' = news ++ log /\
    match weights_run (none_weight a) (rev (map (@si_gamma K) news)) with
    | Some w' => exists a', sfwo_while pow23 P lmoO variant rule lipschitz bs tol fuel idx it i s a succ log = Ok (s', a', b', log') /\ one_none a' /\ none_weight a' = w'
    | None => sfwo_while pow23 P lmoO variant rule lipschitz bs tol fuel idx it i s a succ log = Err ValueError
    end.
Proof.
  induction fuel as [|fuel IH]; intros idx it i s a succ log s' b' log' Ha; [discriminate|]. cbn [sfw_while sfwo_while].
  destruct (Nat.ltb i (length idx)).
  2:{ intros E. injection E as <- <- <-. exists []. split; [reflexivity|]. cbn [map rev weights_run]. eauto. }
  intros E. apply bind_ok in E as (r & Er & E). unfold sfwo_step at 1 2. rewrite Er. cbn [bind].
  destruct (step_lmo _ _ _ _ _ _ _ _ _ _ _ Er) as (u & Eu). cbn [call_lmo] in Eu. destruct (HL _ _ _ Eu) as (Aw & Fw).
  rewrite Aw. destruct (lmo_fw (si_lmo r)) as [f|]; [|congruence]. pose proof (update_none a f (si_gamma r) Ha) as U.
  destruct (nltb K (sfw_moved r) tol) eqn:Et.
  - injection E as <- <- <-. exists [r]. split; [reflexivity|]. cbn [map rev app weights_run]. cbv zeta.
    destruct (nltb K (next_weight (none_weight a) (si_gamma r)) n0); [rewrite U; reflexivity|]. destruct U as (a' & U1 & U2 & U3). rewrite U1. cbn [bind]. rewrite Et. eauto.
  - destruct (nltb K (next_weight (none_weight a) (si_gamma r)) n0) eqn:N.
    + destruct (IH _ _ _ _ [] _ _ _ _ _ I E) as (news & E1 & _). exists (news ++ [r]). split; [rewrite E1, <- app_assoc; reflexivity|].
      rewrite map_app, rev_app_distr. cbn [map rev app weights_run]. cbv zeta. rewrite N, U. reflexivity.
    + destruct U as (a' & U1 & U2 & U3). destruct (IH _ _ _ _ a' _ _ _ _ _ U2 E) as (news & E1 & E2). exists (news ++ [r]). split; [rewrite E1, <- app_assoc; reflexivity|].
      rewrite map_app, rev_app_distr. cbn [map rev app weights_run]. cbv zeta. rewrite N, <- U3, U1. cbn [bind]. rewrite Et. exact E2.
Qed.
Lemma epochs_none draws : forall k it s a succ log r, one_none a ->
  sfw_epochs pow23 P lmoV variant rule lipschitz bs tol draws k it s succ log = Ok r ->
  exists news, sr_log r = news ++ log /\
    match weights_run (none_weight a) (rev (map (@si_gamma K) news)) with
    | Some w' => exists a', sfwo_epochs pow23 P lmoO variant rule lipschitz bs tol draws k it s a succ log = Ok (r, a') /\ none_weight a' = w'
    | None => sfwo_epochs pow23 P lmoO variant rule lipschitz bs tol draws k it s a succ log = Err ValueError
    end.
Proof.
  induction k as [|k IH]; intros it s a succ log r Ha; [discriminate|]. cbn [sfw_epochs sfwo_epochs]. destruct (Nat.eqb bs 0); [discriminate|].
  intros E. apply bind_ok in E as ([[s' b'] log'] & Ew & E). destruct (while_none _ _ _ _ _ a _ _ _ _ _ Ha Ew) as (news & E1 & E2).
  destruct k as [|k].
  - injection E as <-. cbn [sr_log]. exists news. split; [exact E1|].
    destruct (weights_run _ _) as [w'|]; [|rewrite E2; reflexivity]. destruct E2 as (a' & E2 & _ & E3). rewrite E2. cbn [bind]. eauto.
  - destruct (weights_run (none_weight a) (rev (map (@si_gamma K) news))) as [w'|] eqn:Ewt.
    + destruct E2 as (a' & E2 & E3 & E4). destruct (IH _ _ a' _ _ _ E3 E) as (news2 & E5 & E6). exists (news2 ++ news). split; [rewrite E5, E1, app_assoc; reflexivity|].
      rewrite map_app, rev_app_distr, weights_app, Ewt, <- E4, E2. cbn [bind]. exact E6.
    + destruct (IH _ _ [] _ _ _ I E) as (news2 & E5 & _). exists (news2 ++ news). split; [rewrite E5, E1, app_assoc; reflexivity|].
      rewrite map_app, rev_app_distr, weights_app, Ewt, E2. reflexivity.
Qed.
End Run.
End K.

(** ** L1Ball.lmo_pairwise with the default x0_rep *)
Lemma scatter_any {A} : forall (g : list nat) (x vals : list A), Forall (fun i => (i < length x)%nat) g -> exists x', scatter x g vals = Ok x' /\ length x' = length x.
Proof.
  induction g as [|i g IH]; intros x vals F; [destruct vals; eexists; split; reflexivity|]. destruct vals as [|v vals]; [eexists; split; reflexivity|]. cbn [scatter].
  inversion F as [|? ? Hi F']; subst. rewrite set_ok by exact Hi. cbn [bind].
  assert (L : length (upd x i v) = length x) by apply upd_length. destruct (IH (upd x i v) vals) as (x' & E & Lx); [rewrite L; exact F'|]. exists x'. split; [exact E|]. rewrite Lx. exact L.
Qed.
Lemma rows_wf {K : Num} (P : problem K) batch : problem_wf P -> Forall (fun i => (i < p_n P)%nat) batch -> Forall (csr_row_wf (length (p_data P)) (p_indptr P) (p_indices P) (p_d P)) batch.
Proof.
  intros W. apply Forall_impl. intros i Hi. destruct W as (C & L & _). pose proof (csr_row_ok _ _ _ _ _ C Hi) as (A & B).
  repeat split; auto. apply Forall_forall. intros c Hc. apply (csr_row_in _ _ _ _ _ _ C Hi Hc).
Qed.
Lemma step_err {K : Num} pow23 (P : problem K) (lm : vec K -> vec K -> result (lmo_out K)) e variant rule lipschitz bs it batch s :
  problem_wf P -> Forall (fun i => (i < p_n P)%nat) batch -> length (sw_x s) = p_d P -> length (sw_dual s) = p_n P -> length (sw_agg s) = p_d P ->
  (forall u, length u = p_d P -> lm (vopp u) (sw_x s) = Err e) -> variant <> OtherSfw -> (rule = SSublinear \/ rule = SDR /\ variant <> MHK) ->
  sfw_step pow23 P (Lmo3 (fun u x _ => lm u x)) variant rule lipschitz bs it batch s = Err e.
Proof.
  intros W F Lx Ld La He Hv Hr. unfold sfw_step.
  assert (G : forall l : list K, length l = p_n P -> gather l batch = Ok (map (fun i => nth i l n0) batch)) by (intros l Hl; apply gather_ok; rewrite Hl; exact F).
  assert (Mv : exists p, fast_csr_mv (p_data P) (p_indptr P) (p_indices P) (sw_x s) batch = Ok p /\ length p = length batch).
  { apply (main_C30_in_bounds K _ _ _ (p_d P) batch (sw_x s) (map (fun _ => n0) batch)); [apply rows_wf; assumption|exact Lx|apply map_length]. }
  destruct Mv as (p & Ep & Lp).
  assert (Fd : exists g, sfw_fd P p batch = Ok g /\ length g = length batch).
  { unfold sfw_fd. rewrite (gather_ok (p_b P) batch n0). 2:{ destruct W as (_ & _ & Lb). eapply Forall_impl; [|exact F]. cbn beta. intros i Hi. lia. }
    cbn [bind]. eexists. split; [reflexivity|]. rewrite map2_length; rewrite map_length; lia. }
  destruct Fd as (g & Eg & Lg). assert (Fdu : Forall (fun i => (i < length (sw_dual s))%nat) batch) by (rewrite Ld; exact F).
  assert (Hsz : exists sizes, (match rule with SSublinear => Ok (Some (sfw_sizes pow23 variant bs (p_n P) (sw_t s))) | SDR => Ok None | SOther => Err UnboundLocalError end) = Ok sizes /\ (variant = MHK -> exists q, sizes = Some (fst (sfw_sizes pow23 variant bs (p_n P) (sw_t s)), Some q))).
  { destruct Hr as [->|(-> & Hm)]; eexists; (split; [reflexivity|]); [|congruence]. intros ->. cbn. eexists. reflexivity. }
  destruct Hsz as (sizes & -> & Hm). cbn [bind]. rewrite (G _ Ld). cbn [bind].
  destruct variant.
  - cbn [sfw_dual_update]. rewrite Ep. cbn [bind]. rewrite Eg. cbn [bind]. destruct (scatter_any batch (sw_dual s) (vscale (inv_n P) g) Fdu) as (du & -> & Lu). cbn [bind].
    rewrite (G _ (eq_trans Lu Ld)). cbn [bind].
    match goal with |- context [fast_csr_vm ?w _ _ _ _ _] => destruct (proj2 (main_C30_in_bounds K (p_data P) (p_indptr P) (p_indices P) (p_d P) batch (sw_x s) w (rows_wf P batch W F) Lx ltac:(unfold vsub; rewrite map2_length; rewrite !map_length; lia))) as (u & -> & Luu) end.
    cbn [bind call_lmo]. rewrite He; [reflexivity|]. unfold vadd. rewrite map2_length; lia.
  - cbn [sfw_dual_update]. rewrite Ep. cbn [bind]. rewrite Eg. cbn [bind]. destruct (scatter_any batch (sw_dual s) (vscale (inv_n P) g) Fdu) as (du & -> & Lu). cbn [bind].
    rewrite (G _ (eq_trans Lu Ld)). cbn [bind].
    match goal with |- context [fast_csr_vm ?w _ _ _ _ _] => destruct (proj2 (main_C30_in_bounds K (p_data P) (p_indptr P) (p_indices P) (p_d P) batch (sw_x s) w (rows_wf P batch W F) Lx ltac:(unfold vsub; rewrite map2_length; rewrite !map_length; lia))) as (u & -> & Luu) end.
    cbn [bind call_lmo]. rewrite He; [reflexivity|]. unfold vadd, vscale. rewrite !map2_length; rewrite ?map2_length; rewrite ?map_length; lia.
  - destruct (Hm eq_refl) as (q & ->). cbn [sfw_dual_update]. rewrite Ep. cbn [bind]. rewrite (G _ Ld). cbn [bind]. rewrite Eg. cbn [bind].
    match goal with |- context [scatter _ _ ?v] => destruct (scatter_any batch (sw_dual s) v Fdu) as (du & -> & Lu) end. cbn [bind].
    rewrite (G _ (eq_trans Lu Ld)). cbn [bind].
    match goal with |- context [fast_csr_vm ?w _ _ _ _ _] => destruct (proj2 (main_C30_in_bounds K (p_data P) (p_indptr P) (p_indices P) (p_d P) batch (sw_x s) w (rows_wf P batch W F) Lx ltac:(unfold vsub; rewrite map2_length; rewrite !map_length; lia))) as (u & -> & Luu) end.
    cbn [bind call_lmo]. rewrite He; [reflexivity|]. unfold vadd. rewrite map2_length; lia.
  - cbn [sfw_dual_update call_lmo]. rewrite (He _ La). reflexivity.
  - congruence.
Qed.

Lemma first_batch n bs draws : valid_draws n bs draws -> (1 <= bs <= n)%nat -> (0 < length (draws 0%nat))%nat /\ Forall (fun i => (i < n)%nat) (slice (draws 0%nat) 0 (Nat.min (0 + bs) n)).
Proof.
  intros V Hb. assert (L : (0 < length (draws 0%nat))%nat).
  { destruct (V 0%nat) as (_ & V1 & V2). destruct (Nat.eq_dec bs 1) as [E|N]; [rewrite (V1 E); lia|]. destruct (V2 N) as (-> & _).
    assert (1 <= n / bs)%nat by (apply Nat.div_le_lower_bound; lia). nia. }
  split; [exact L|]. apply (draw_batch n bs draws 0 0 V); lia.
Qed.
Lemma main_C133_refuted : forall (K : Num) (pow23 : K -> K) (P : problem K) (alpha : K) variant rule lipschitz bs tol max_iter draws (x0 : vec K),
  problem_wf P -> valid_draws (p_n P) bs draws -> (1 <= bs <= p_n P)%nat -> (0 < p_d P)%nat -> length x0 = p_d P -> (0 < max_iter)%nat ->
  variant <> OtherSfw -> (rule = SSublinear \/ rule = SDR /\ lipschitz <> None /\ variant <> MHK) ->
  minimize_sfw_pairwise pow23 P (l1_pairwise_o alpha) variant rule lipschitz bs tol None max_iter draws x0 = Err TypeError.
Proof.
  intros K pow23 P alpha variant rule lipschitz bs tol max_iter draws x0 W V Hb Hd L0 Hm Hv Hr.
  destruct (first_batch _ _ _ V Hb) as (Ld & Fb). unfold minimize_sfw_pairwise. rewrite L0, Nat.eqb_refl. cbn [negb].
  assert (Ei : exists s0, sfw_init P variant x0 None = Ok s0 /\ sw_x s0 = x0 /\ length (sw_dual s0) = p_n P /\ length (sw_agg s0) = p_d P).
  { unfold sfw_init. destruct variant; try (eexists; split; [reflexivity|cbn; repeat split; try apply repeat_length; reflexivity]).
    destruct (proj1 (main_C30_in_bounds K (p_data P) (p_indptr P) (p_indices P) (p_d P) (seq 0 (p_n P)) x0 (map (fun _ => n0) (seq 0 (p_n P))) (rows_wf P (seq 0 (p_n P)) W ltac:(apply Forall_forall; intros i Hi; apply in_seq in Hi; lia)) L0 (map_length _ _))) as (q & -> & _).
    eexists; split; [reflexivity|cbn; repeat split; apply repeat_length]. }
  destruct Ei as (s0 & Ei & Ex & Edu & Eag).
  assert (G : sfwo_epochs pow23 P (l1_pairwise_o alpha) variant rule lipschitz bs tol draws max_iter 0 s0 [(None, n1)] false [] = Err TypeError).
  { destruct max_iter as [|k]; [lia|]. cbn [sfwo_epochs]. destruct (Nat.eqb_spec bs 0); [lia|]. cbn [sfwo_while]. destruct (Nat.ltb_spec 0 (length (draws 0%nat))); [|lia].
    unfold sfwo_step at 1. rewrite (step_err pow23 P (fun u x => l1_pairwise_o alpha u x [(None, n1)]) TypeError variant rule lipschitz bs 0 _ s0 W Fb); [reflexivity|congruence|exact Edu|exact Eag| |exact Hv|].
    - intros u Lu. unfold l1_pairwise_o. cbn [strip]. destruct (l1_lmo_defined alpha u (sw_x s0)) as (o & ->); [|congruence|reflexivity].
      rewrite Ex. intros ->. cbn in L0. lia.
    - destruct Hr as [->|(-> & _ & Hm')]; auto. }
  destruct variant; try congruence; rewrite Ei; cbn [bind]; (destruct Hr as [->|(-> & Hl & _)]; [exact G|]); (destruct lipschitz; [exact G|congruence]).
Qed.

Lemma pairwise_unfold {K : Num} pow23 (P : problem K) lmo variant rule lipschitz bs tol x0_rep max_iter draws (x0 : vec K) s0 :
  variant <> OtherSfw -> length x0 = p_d P -> (rule = SDR -> lipschitz <> None) -> sfw_init P variant x0 None = Ok s0 ->
  minimize_sfw_pairwise pow23 P lmo variant rule lipschitz bs tol x0_rep max_iter draws x0 = sfwo_epochs pow23 P lmo variant rule lipschitz bs tol draws max_iter 0 s0 [(x0_rep, n1)] false [].
Proof.
  intros Hv L0 Hl Es. unfold minimize_sfw_pairwise. rewrite L0, Nat.eqb_refl. cbn [negb].
  destruct variant; try congruence; rewrite Es; cbn [bind]; destruct rule, lipschitz; try reflexivity; exfalso; apply Hl; reflexivity.
Qed.

Local Open Scope R_scope.
(** ** L1Ball.lmo in the pairwise variant *)
Lemma main_C133_vanilla_oracle_partial : forall (pow23 : R -> R) (P : problem RN) (alpha : R) variant rule lipschitz bs tol max_iter draws (x0_rep : okey RN) (x0 : list R) (r : sfw_result RN),
  minimize_sfw (K:=RN) pow23 P (l1_oracle (K:=RN) alpha) variant rule lipschitz bs tol Vanilla max_iter draws x0 = Ok r ->
  Forall (fun q : sfw_iter RN => 0 <= si_gamma q) (sr_log r) ->
  let w := match x0_rep with None => 1 | Some _ => 0 end in
  (Rsum (map (fun q : sfw_iter RN => si_gamma q : R) (sr_log r)) <= w ->
   exists a, minimize_sfw_pairwise (K:=RN) pow23 P (l1_lmo_o (K:=RN) alpha) variant rule lipschitz bs tol x0_rep max_iter draws x0 = Ok (r, a)) /\
  (w < Rsum (map (fun q : sfw_iter RN => si_gamma q : R) (sr_log r)) ->
   minimize_sfw_pairwise (K:=RN) pow23 P (l1_lmo_o (K:=RN) alpha) variant rule lipschitz bs tol x0_rep max_iter draws x0 = Err ValueError).
Proof.
  intros pow23 P alpha variant rule lipschitz bs tol max_iter draws x0_rep x0 r Hr Hs w.
  destruct (minimize_inv _ _ _ _ _ _ _ _ _ _ _ _ _ Hr) as (Hv & L0 & Hl & a0 & s0 & _ & Hna & Es & Ee). specialize (Hna eq_refl). subst a0.
  assert (E : minimize_sfw_pairwise (K:=RN) pow23 P (l1_lmo_o (K:=RN) alpha) variant rule lipschitz bs tol x0_rep max_iter draws x0 =
    sfwo_epochs (K:=RN) pow23 P (l1_lmo_o (K:=RN) alpha) variant rule lipschitz bs tol draws max_iter 0 s0 [(x0_rep, n1)] false []).
  { apply (pairwise_unfold (K:=RN)); assumption. }
  rewrite E.
  destruct (epochs_none (K:=RN) pow23 P (l1_lmo (K:=RN) alpha) variant rule lipschitz bs tol (l1_lmo_keys (K:=RN) alpha) draws max_iter 0%nat s0 [(x0_rep, 1 : RN)] false [] r ltac:(destruct x0_rep; cbn; auto) Ee) as (news & E1 & E2).
  rewrite app_nil_r in E1. subst news.
  assert (Ew : none_weight (K:=RN) [(x0_rep, 1 : RN)] = w) by (destruct x0_rep; reflexivity). rewrite Ew in E2.
  assert (Hw : 0 <= w) by (unfold w; destruct x0_rep; lra).
  set (gs := rev (map (fun q : sfw_iter RN => si_gamma q : R) (sr_log r)) : list R) in *.
  assert (Hg : Forall (fun g => 0 <= g) gs) by (apply Forall_rev, Forall_map; exact Hs).
  assert (ES : Rsum gs = Rsum (map (fun q : sfw_iter RN => si_gamma q : R) (sr_log r))) by apply Rsum_reverse.
  change (rev (map (@si_gamma RN) (sr_log r))) with gs in E2.
  rewrite <- ES. destruct (weights_R gs w Hg Hw) as [W1 W2]. split; intros H.
  - rewrite (W1 H) in E2. destruct E2 as (a' & E2 & _). exists a'. exact E2.
  - rewrite (W2 H) in E2. exact E2.
Qed.
