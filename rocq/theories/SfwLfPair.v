(** * SfwLfPair: C135, the running predictions of minimize_sfw, variant LF

    copt/randomized.py:897-903: [extr_point = update_direction + x], [agg[batch] += step_size_agg *
    (A[batch] extr_point - agg[batch])], [dual_var[batch] = f_deriv(agg[batch], b[batch]) / n_samples]. *)
From Coq Require Import Reals Lra Lia List Bool ZArith.
From Verif Require Import Num Vec Spec SpecSparse RVec ConvexFacts ModelConstraint ConstraintFacts ModelUtilsArr UtilsMain ModelPenalty PenaltyFacts PenaltyFacts2
  ModelFrankWolfe FrankWolfeConv FrankWolfePair FrankWolfePairRun ModelRandomized SpecFiniteSum RandomizedFacts ModelSfw SpecSfw SfwFacts SfwStep SfwMain SfwMain2 SfwRate
  SplittingRuns SfwRuns SfwPair.
Import ListNotations.
Local Open Scope R_scope.

(** every entry of agg is the prediction, for its sample, of some point of the set *)
Definition predictions_of (P : problem RN) (dom : list R -> Prop) (s : sfw_state RN) : Prop :=
  forall i, (i < p_n P)%nat -> exists p, length p = p_d P /\ dom p /\ nth i (sw_sigma s) 0 = adot P i p.

Section LfStep.
Variable pow23 : R -> R.
Variable P : problem RN.
Variable lmo : lmo_fun RN.
Variable lipschitz : option RN.
Variable bs : nat.
Variable rule : sfw_rule.
Hypothesis W : problem_wf P.
Hypothesis Hb : (1 <= bs)%nat.
Local Notation n := (p_n P).
Local Notation d := (p_d P).
Local Notation stepf := (sfw_step (K:=RN) pow23 P lmo LF rule lipschitz bs).
(** the weight of the newest prediction *)
Lemma agg_weight batch (t : nat) (a : R) : batch_ok n bs batch -> agg_size pow23 P LF rule bs t = Some a -> 0 <= a <= 1.
Proof.
  intros Hbt E. unfold agg_size in E. destruct rule; try discriminate E. cbn [sfw_sizes snd] in E. injection E as <-.
  rewrite <- !INR_IZR_INZ. pose proof (ratio_pos n bs Hb (batch_pos _ _ _ Hbt Hb)) as Hm. set (m := INR n / INR bs) in *.
  pose proof (pos_INR t) as Ht. assert (0 < 2 * m / (2 * m + INR t + 1) <= 1) by (apply frac_range; lra).
  lra.
Qed.
Lemma lf_step it batch s r : state_wf P LF s -> sized_at P lmo s -> batch_ok n bs batch -> stepf it batch s = Ok r ->
  state_wf P LF (si_next r) /\ si_batch r = batch /\
  (forall i, ~ In i batch -> nth i (sw_sigma (si_next r)) 0 = nth i (sw_sigma s) 0 /\ nth i (sw_dual (si_next r)) 0 = nth i (sw_dual s) 0) /\
  (forall i, In i batch -> nth i (sw_dual (si_next r)) 0 = / INR n * p_fd P (nth i (sw_sigma (si_next r)) 0) (nth i (p_b P) 0)) /\
  forall dom, convex_set d dom -> dom (vplus (sw_x s) (lmo_dir (si_lmo r))) -> predictions_of P dom s -> predictions_of P dom (si_next r).
Proof.
  intros Ws Hs Hbt E. pose proof Hbt as (F & N & _).
  destruct (step_inv pow23 P lmo LF rule lipschitz bs W it batch s r Ws Hs F N E)
    as (_ & Eb & _ & _ & Wn & _ & Hout & _ & (lf & Hdf) & (Lest & Hest) & Ec & Lo & _).
  assert (Ee : si_est r = sw_agg s).
  { destruct Ws as (_ & _ & La & _). apply list_ext with (d := 0). - exact (eq_trans Lest (eq_sym La)). - intros j Hj. apply Hest. rewrite <- Lest. exact Hj. }
  rewrite Ee in Ec. unfold dual_facts in Hdf. destruct Hdf as (a & o & Ea & _ & Eo & S1 & S2 & S3). rewrite Ec in Eo. injection Eo as <-.
  split; [exact Wn|]. split; [exact Eb|]. split; [intros i Hi; split; [exact (S1 i Hi)|exact (Hout i Hi)]|]. split; [exact S3|].
  intros dom Hc Hx Hp i Hi. destruct (Hp i Hi) as (p & Lp & Dp & Ep). destruct (in_dec Nat.eq_dec i batch) as [Hin|Hin].
  - set (e := vplus (sw_x s) (lmo_dir (si_lmo r))) in *. assert (Le : length e = d) by (apply vplus_len; [apply Ws|exact Lo]).
    exists (lin (1 - a) p a e). split; [rewrite lin_length, Lp, Le; apply Nat.min_id|]. split.
    + apply Hc; auto. apply (agg_weight batch (sw_t s) a Hbt Ea).
    + etransitivity; [exact (S2 i Hin)|]. rewrite adot_lin by exact (eq_trans Lp (eq_sym Le)). unfold e.
      apply (f_equal2 Rplus); [|reflexivity]. apply (f_equal2 Rmult eq_refl Ep).
  - exists p. split; [exact Lp|]. split; [exact Dp|]. etransitivity; [exact (S1 i Hin)|exact Ep].
Qed.
End LfStep.

(** the set the pairwise oracle stays in: a point of the ball plus the difference of two vertices *)
Lemma l1_set_convex k alpha : convex_set k (l1_ball alpha).
Proof.
  intros u v t Lu Lv Hu Hv Ht. unfold l1_ball in *. eapply Rle_trans; [apply l1_lin; congruence|].
  rewrite !Rabs_pos_eq by lra. pose proof (Rmult_le_compat_l (1 - t) _ _ ltac:(lra) Hu). pose proof (Rmult_le_compat_l t _ _ ltac:(lra) Hv). lra.
Qed.
Lemma l1_plus (u v : list R) : length u = length v -> l1 (vplus u v) <= l1 u + l1 v.
Proof. intros L. unfold vplus. eapply Rle_trans; [apply (l1_lin 1 1 u v L)|]. rewrite Rabs_R1. lra. Qed.
Lemma l1_minus (u v : list R) : length u = length v -> l1 (vminus u v) <= l1 u + l1 v.
Proof. intros L. unfold vminus. eapply Rle_trans; [apply (l1_lin 1 (-1) u v L)|]. rewrite Rabs_R1, (Rabs_left (-1)) by lra. lra. Qed.
Lemma init_predictions (P : problem RN) x0 a s0 (dom : list R -> Prop) : problem_wf P -> length x0 = p_d P -> dom x0 -> sfw_init P LF x0 a = Ok s0 -> predictions_of P dom s0.
Proof. intros W L Hx E i Hi. destruct (init_facts P LF x0 a s0 W L E) as (_ & _ & _ & _ & _ & _ & H). exists x0. split; [exact L|]. split; [exact Hx|exact (H eq_refl i Hi)]. Qed.

(** vanilla oracle *)
Lemma main_C135_feasible_partial : forall (pow23 : R -> R) (P : problem RN) lmo rule lipschitz bs tol max_iter draws x0 (dom : list R -> Prop) (r : sfw_result RN),
  problem_wf P -> valid_draws (p_n P) bs draws -> convex_set (p_d P) dom -> lmo_feasible (p_d P) dom lmo -> dom x0 ->
  minimize_sfw (K:=RN) pow23 P lmo LF rule lipschitz bs tol Vanilla max_iter draws x0 = Ok r ->
  forall s, s = sr_state r \/ In s (map si_next (sr_log r)) -> forall i, (i < p_n P)%nat ->
    exists p, length p = p_d P /\ dom p /\ nth i (sw_sigma s) 0 = adot P i p.
Proof.
  intros pow23 P lmo rule lipschitz bs tol max_iter draws x0 dom r W V Hc Hf Hx E.
  destruct (minimize_inv _ _ _ _ _ _ _ _ _ _ _ _ _ E) as (Hv & L0 & _ & a & s0 & _ & Ha & Es & Ee). specialize (Ha eq_refl). subst a.
  destruct (init_facts P LF x0 None s0 W L0 Es) as (Ex & _ & _ & Hact & _ & Ws & _).
  destruct (epochs_bs _ _ _ _ _ _ _ _ _ _ _ _ _ _ _ Ee) as (Hb & _).
  assert (H : (feas P LF dom (sr_state r) /\ predictions_of P dom (sr_state r)) /\ Forall (fun q : sfw_iter RN => predictions_of P dom (si_next q)) (sr_log r)).
  { refine (epochs_ind (K:=RN) pow23 P lmo LF rule lipschitz bs tol draws
      (fun (s : sfw_state RN) (log : list (sfw_iter RN)) => (feas P LF dom s /\ predictions_of P dom s) /\ Forall (fun q : sfw_iter RN => predictions_of P dom (si_next q)) log) V _ _ _ _ _ _ _ _ Ee _).
    - intros it batch s log q Hbt ((G & Gp) & Fl) Eq. pose proof Hbt as (F & N & _).
      pose proof (feas_sized P lmo LF dom Hf s G) as Hs.
      assert (Er : rule = SSublinear).
      { destruct (step_inv pow23 P lmo LF rule lipschitz bs W it batch s q (proj1 G) Hs F N Eq) as (_ & _ & _ & _ & _ & _ & _ & _ & (lf & a & o & Ea & _) & _).
        unfold agg_size in Ea. destruct rule; try discriminate Ea. reflexivity. }
      pose proof (sub_gamma pow23 P lmo LF rule lipschitz bs dom W Hb Hf it batch s q Er Hv G Hbt Eq) as Hg.
      pose proof (feas_step pow23 P lmo LF rule lipschitz bs dom W Hc Hf it batch s q G Hbt Eq ltac:(lra)) as G'.
      destruct (step_inv pow23 P lmo LF rule lipschitz bs W it batch s q (proj1 G) Hs F N Eq) as (_ & _ & _ & _ & _ & _ & _ & _ & _ & (Lest & _) & Ec & _).
      destruct (feas_at P lmo LF dom Hf s G _ _ (eq_trans (map_length _ _) Lest) Ec) as (_ & Hd & _).
      destruct (lf_step pow23 P lmo lipschitz bs rule W Hb it batch s q (proj1 G) Hs Hbt Eq) as (_ & _ & _ & _ & Hp).
      pose proof (Hp dom Hc Hd Gp) as Gp'. split; [split; [exact G'|exact Gp']|]. constructor; [exact Gp'|exact Fl].
    - intros s log (A & B). split; [exact A|exact B].
    - split; [|constructor]. split; [split; [exact Ws|]; split; [exact Hact|]; rewrite Ex; exact Hx|]. exact (init_predictions P x0 None s0 dom W L0 Hx Es). }
  destruct H as ((_ & Hp) & F). rewrite Forall_forall in F. intros s [->|Hs]; [exact Hp|]. apply in_map_iff in Hs as (q & <- & Hq). exact (F q Hq).
Qed.

(** pairwise oracle of the l1 ball *)
Lemma main_C135_pairwise_partial : forall (pow23 : R -> R) (P : problem RN) (alpha : R) rule lipschitz bs tol max_iter draws (sg : R) i0 (r : sfw_result RN),
  problem_wf P -> valid_draws (p_n P) bs draws -> 0 <= alpha -> (i0 < p_d P)%nat -> Rabs sg <= 1 ->
  minimize_sfw (K:=RN) pow23 P (l1_pairwise_oracle (K:=RN) alpha) LF rule lipschitz bs tol (@Pairwise RN (sg, i0)) max_iter draws (vertex (p_d P) (alpha * sg) i0) = Ok r ->
  forall s, s = sr_state r \/ In s (map si_next (sr_log r)) -> forall i, (i < p_n P)%nat ->
    exists p, length p = p_d P /\ l1_ball (3 * alpha) p /\ nth i (sw_sigma s) 0 = adot P i p.
Proof.
  intros pow23 P alpha rule lipschitz bs tol max_iter draws sg i0 r W V Ha Hi Hsg E.
  destruct (pair_start _ _ _ _ _ _ _ _ _ _ _ _ _ E) as (s0 & Es & Ee).
  assert (Hd : (0 < p_d P)%nat) by lia. assert (L0 : length (vertex (p_d P) (alpha * sg) i0) = p_d P) by apply vertex_length.
  destruct (init_facts P LF _ _ s0 W L0 Es) as (Ex & _ & _ & Hact & _ & Ws & _).
  destruct (epochs_bs _ _ _ _ _ _ _ _ _ _ _ _ _ _ _ Ee) as (Hb & _).
  set (dom := l1_ball (3 * alpha)).
  assert (Hv1 : forall (c : R) j, Rabs c <= 1 -> l1 (vertex (p_d P) (alpha * c) j) <= alpha).
  { intros c j Hc. eapply Rle_trans; [apply l1_vertex|]. rewrite Rabs_mult, (Rabs_pos_eq alpha Ha).
    pose proof (Rmult_le_compat_l alpha _ _ Ha Hc). lra. }
  assert (H : (inv P alpha LF (sr_state r) /\ predictions_of P dom (sr_state r)) /\ Forall (fun q : sfw_iter RN => predictions_of P dom (si_next q)) (sr_log r)).
  { refine (epochs_ind (K:=RN) pow23 P (l1_pairwise_oracle (K:=RN) alpha) LF rule lipschitz bs tol draws
      (fun (s : sfw_state RN) (log : list (sfw_iter RN)) => (inv P alpha LF s /\ predictions_of P dom s) /\ Forall (fun q : sfw_iter RN => predictions_of P dom (si_next q)) log) V _ _ _ _ _ _ _ _ Ee _).
    - intros it batch s log q Hbt ((G & Gp) & Fl) Eq. pose proof Hbt as (F & N & _).
      pose proof (inv_sized P alpha LF Ha Hd s G) as Hs.
      destruct (step_inv pow23 P (l1_pairwise_oracle (K:=RN) alpha) LF rule lipschitz bs W it batch s q (proj1 G) Hs F N Eq)
        as (_ & _ & _ & _ & _ & _ & _ & _ & (lf & a & o & Ea & _) & (Lest & _) & Ec & _ & Hg & _).
      assert (Er : rule = SSublinear) by (unfold agg_size in Ea; destruct rule; try discriminate Ea; reflexivity).
      assert (Hgam : 0 <= si_gamma q).
      { rewrite Hg. unfold gamma_of. rewrite Er. apply Rlt_le, (gamma_range pow23 LF bs (p_n P) (sw_t s) Hb (batch_pos _ _ _ Hbt Hb)). discriminate. }
      pose proof (inv_step pow23 P alpha LF rule lipschitz bs W Ha Hd it batch s q G Hbt Eq Hgam) as G'.
      destruct (oracle P alpha LF Ha Hd s (vopp (K:=RN) (si_est q)) G (eq_trans (map_length _ _) Lest))
        as (o' & fw & away & act & Eo & _ & Hdec & _ & _ & _ & _ & F1 & F2 & A1 & A2 & Ed & Ld & _).
      rewrite Ec in Eo. injection Eo as <-.
      assert (Hx : dom (vplus (sw_x s) (lmo_dir (si_lmo q)))).
      { unfold dom, l1_ball. destruct G as ((Lx & _) & _). eapply Rle_trans; [apply l1_plus; exact (eq_trans Lx (eq_sym Ld))|].
        rewrite Ed. pose proof (decomposition_ball _ _ _ _ Ha Hdec) as B1. unfold l1_ball in B1.
        pose proof (l1_minus (vertex (p_d P) (alpha * fst fw) (snd fw)) (vertex (p_d P) (alpha * fst away) (snd away)) (eq_trans (vertex_length _ _ _) (eq_sym (vertex_length _ _ _)))) as B2.
        pose proof (Hv1 (fst fw) (snd fw) F2). pose proof (Hv1 (fst away) (snd away) A2). lra. }
      destruct (lf_step pow23 P (l1_pairwise_oracle (K:=RN) alpha) lipschitz bs rule W Hb it batch s q (proj1 G) Hs Hbt Eq) as (_ & _ & _ & _ & Hp).
      pose proof (Hp dom (l1_set_convex _ _) Hx Gp) as Gp'. split; [split; [exact G'|exact Gp']|]. constructor; [exact Gp'|exact Fl].
    - intros s log (A & B). split; [exact A|exact B].
    - split; [|constructor]. split.
      + split; [exact Ws|]. exists [((sg, i0), 1)]. split; [exact Hact|]. rewrite Ex. apply vertex_decomposition; assumption.
      + refine (init_predictions P _ _ s0 dom W L0 _ Es). unfold dom, l1_ball. pose proof (Hv1 sg i0 Hsg). lra. }
  destruct H as ((_ & Hp) & F). rewrite Forall_forall in F. intros s [->|Hs]; [exact Hp|]. apply in_map_iff in Hs as (q & <- & Hq). exact (F q Hq).
Qed.

(** the dual variable of a visited sample is the derivative at its current prediction; the others are 0 *)
Lemma main_C135_dual : forall (pow23 : R -> R) (P : problem RN) lmo rule lipschitz bs tol lv max_iter draws x0 (r : sfw_result RN),
  problem_wf P -> valid_draws (p_n P) bs draws -> lmo_sized (p_d P) lmo ->
  minimize_sfw (K:=RN) pow23 P lmo LF rule lipschitz bs tol lv max_iter draws x0 = Ok r ->
  forall newer q older, sr_log r = newer ++ q :: older -> forall i, (i < p_n P)%nat ->
    ((exists q', In q' (q :: older) /\ In i (si_batch q')) ->
       nth i (sw_dual (si_next q)) 0 = / INR (p_n P) * p_fd P (nth i (sw_sigma (si_next q)) 0) (nth i (p_b P) 0)) /\
    ((forall q', In q' (q :: older) -> ~ In i (si_batch q')) ->
       nth i (sw_dual (si_next q)) 0 = 0 /\ nth i (sw_sigma (si_next q)) 0 = adot P i x0).
Proof.
  intros pow23 P lmo rule lipschitz bs tol lv max_iter draws x0 r W V Hl E.
  destruct (minimize_inv _ _ _ _ _ _ _ _ _ _ _ _ _ E) as (_ & L0 & _ & a & s0 & _ & _ & Es & Ee).
  destruct (init_facts P LF x0 a s0 W L0 Es) as (_ & Hd & _ & _ & _ & Ws & Hsg). specialize (Hsg eq_refl).
  destruct (epochs_bs _ _ _ _ _ _ _ _ _ _ _ _ _ _ _ Ee) as (Hb & _).
  set (ok := fun (s : sfw_state RN) (log : list (sfw_iter RN)) => forall i, (i < p_n P)%nat ->
    ((exists q', In q' log /\ In i (si_batch q')) -> nth i (sw_dual s) 0 = / INR (p_n P) * p_fd P (nth i (sw_sigma s) 0) (nth i (p_b P) 0)) /\
    ((forall q', In q' log -> ~ In i (si_batch q')) -> nth i (sw_dual s) 0 = 0 /\ nth i (sw_sigma s) 0 = adot P i x0)).
  set (all := fix all (log : list (sfw_iter RN)) := match log with [] => True | q :: older => ok (si_next q) (q :: older) /\ all older end).
  assert (H : state_wf P LF (sr_state r) /\ ok (sr_state r) (sr_log r) /\ all (sr_log r)).
  { refine (epochs_ind (K:=RN) pow23 P lmo LF rule lipschitz bs tol draws (fun s log => state_wf P LF s /\ ok s log /\ all log) V _ _ _ _ _ _ _ _ Ee _).
    - intros it batch s log q Hbt (Wq & G & Fl) Eq.
      destruct (lf_step pow23 P lmo lipschitz bs rule W Hb it batch s q Wq (lmo_sized_at _ _ _ _ Hl Wq) Hbt Eq) as (Wn & Eb & S1 & S2 & _).
      assert (Gn : ok (si_next q) (q :: log)).
      { intros i Hi. destruct (in_dec Nat.eq_dec i batch) as [Hin|Hin].
        - split; [intros _; exact (S2 i Hin)|]. intros Hno. exfalso. apply (Hno q (or_introl eq_refl)). rewrite Eb. exact Hin.
        - destruct (S1 i Hin) as (E1 & E2). destruct (G i Hi) as (G1 & G2). split.
          + intros (q' & [<-|Hq'] & Hiq); [rewrite Eb in Hiq; contradiction|].
            etransitivity; [exact E2|]. etransitivity; [apply G1; exists q'; split; assumption|].
            apply (f_equal (fun t : R => / INR (p_n P) * p_fd P t (nth i (p_b P) 0)) (eq_sym E1)).
          + intros Hno. destruct G2 as (G2 & G3); [intros q' Hq'; apply Hno; right; exact Hq'|].
            split; [exact (eq_trans E2 G2)|exact (eq_trans E1 G3)]. }
      split; [exact Wn|]. split; [exact Gn|]. split; [exact Gn|exact Fl].
    - intros s log (A & B & C). split; [exact A|]. split; [exact B|exact C].
    - split; [exact Ws|]. split; [|exact I]. intros i Hi. split; [intros (q' & [] & _)|]. intros _. split; [rewrite Hd; apply nth_zeros|exact (Hsg i Hi)]. }
  destruct H as (_ & _ & H). intros newer q older Hlog i Hi. rewrite Hlog in H. clear - H Hi.
  induction newer as [|q' newer IH]; cbn [all app] in H; [exact (proj1 H i Hi)|apply IH, H].
Qed.

(** ** the pairwise oracle: a prediction outside the range of the ball
    Two samples, A = [[1], [1]], b = [1, 1], squared loss, unit ball, started at the vertex 1. *)
Definition draw_lf (it : nat) : list nat := match it with O => [0; 0]%nat | _ => [1; 1]%nat end.
Lemma draw_lf_valid : valid_draws 2 1 draw_lf.
Proof. intros [|it]; (split; [repeat constructor|]; split; [reflexivity|intros H; congruence]). Qed.
Lemma main_C135_refuted : problem_wf (sfw_ex 1 1) /\ valid_draws 2 1 draw_lf /\
  match minimize_sfw id64 (sfw_ex 1 1) (l1_pairwise_oracle n1) LF SSublinear None 1 (nofZ F64 (-1)) (@Pairwise F64 (n1, 0%nat)) 2 draw_lf [n1] with
  | Ok r => Nat.eqb (length (sr_log r)) 4 && nleb F64 (vnorm1 (sr_x r)) n1 && existsb (fun q => existsb (fun t => nltb F64 n1 t) (sw_sigma (si_next q))) (sr_log r)
  | Err _ => false end = true.
Proof. split; [apply sfw_ex_wf|]. split; [exact draw_lf_valid|]. vm_compute. reflexivity. Qed.
