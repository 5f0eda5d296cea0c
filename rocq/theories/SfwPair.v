(** * SfwPair: C131, minimize_sfw with lmo_variant='pairwise' *)
From Coq Require Import Reals Lra Lia List Bool ZArith.
From Verif Require Import Num Vec Spec SpecSparse RVec ConvexFacts ModelConstraint ConstraintFacts ModelUtilsArr UtilsMain ModelPenalty PenaltyFacts PenaltyFacts2
  ModelFrankWolfe FrankWolfeConv FrankWolfePair FrankWolfePairRun ModelRandomized SpecFiniteSum RandomizedFacts ModelSfw SpecSfw SfwFacts SfwStep SfwMain SfwMain2.
Import ListNotations.
Local Open Scope R_scope.

(** what one iteration does to the active set, for every arithmetic *)
Lemma step_active {K : Num} pow23 (P : problem K) lmo variant rule lipschitz bs it batch s r a :
  sfw_step pow23 P lmo variant rule lipschitz bs it batch s = Ok r -> sw_active s = Some a ->
  exists fw away a', lmo_fw (si_lmo r) = Some fw /\ lmo_away (si_lmo r) = Some away /\ update_active_set a fw away (si_gamma r) = Ok a' /\ sw_active (si_next r) = Some a'.
Proof.
  intros E Ha. unfold sfw_step in E. apply bind_ok in E as (sizes & _ & E). apply bind_ok in E as (prev & _ & E). apply bind_ok in E as ([[dual sigma] lf] & _ & E).
  apply bind_ok in E as (new & _ & E). apply bind_ok in E as (u & _ & E). apply bind_ok in E as ([est o] & _ & E). rewrite Ha in E.
  apply bind_ok in E as (act & Eact & E). injection E as <-. cbn [si_lmo si_gamma si_next sw_active].
  destruct (lmo_fw o) as [fw|]; [|discriminate Eact]. destruct (lmo_away o) as [away|]; [|discriminate Eact].
  apply bind_ok in Eact as (a' & Eu & Eact). injection Eact as <-. exists fw, away, a'. auto.
Qed.
Lemma dr_range_ms (agg d : list R) (L ms : R) : 0 < L -> 0 <= ms -> 0 <= - dot agg d -> 0 <= sfw_DR (K:=RN) (- dot agg d) d L ms <= ms.
Proof.
  intros HL Hm Hg. pose proof (dr_range agg d L HL Hg) as H. unfold sfw_DR in *. rewrite nminpy_R in *. rn. set (q := _ / _) in *. assert (0 <= q) by (pose proof (Rmin_l q 1); lra).
  split; [apply Rmin_glb; lra|apply Rmin_r].
Qed.

Section Pair.
Variable pow23 : R -> R.
Variable P : problem RN.
Variable alpha : R.
Variable variant : sfw_variant.
Variable rule : sfw_rule.
Variable lipschitz : option RN.
Variable bs : nat.
Hypothesis W : problem_wf P.
Hypothesis Ha : 0 <= alpha.
Hypothesis Hd : (0 < p_d P)%nat.
Local Notation d := (p_d P).
Local Notation lmo := (l1_pairwise_oracle (K:=RN) alpha).
Local Notation stepf := (sfw_step (K:=RN) pow23 P lmo variant rule lipschitz bs).

Definition good (s : sfw_state RN) : Prop := exists a, sw_active s = Some a /\ convex_decomposition d alpha a (sw_x s).
Definition inv (s : sfw_state RN) : Prop := state_wf P variant s /\ good s.

(** the oracle at a state of the run *)
Lemma oracle (s : sfw_state RN) (u : list R) : inv s -> length u = d ->
  exists (o : lmo_out RN) (fw away : key) a, call_lmo lmo u (sw_x s) (sw_active s) = Ok o /\ sw_active s = Some a /\ convex_decomposition d alpha a (sw_x s) /\
    lmo_fw o = Some fw /\ lmo_away o = Some away /\ lmo_max_step o = weight a away /\ 0 <= weight a away /\
    (snd fw < d)%nat /\ Rabs (fst fw) <= 1 /\ (snd away < d)%nat /\ Rabs (fst away) <= 1 /\
    lmo_dir o = vminus (vertex d (alpha * fst fw) (snd fw)) (vertex d (alpha * fst away) (snd away)) /\
    length (lmo_dir o) = d /\ 0 <= dot u (lmo_dir o).
Proof.
  intros ((Lx & _) & (a & Eact & Hdec)) Hu.
  assert (Hune : u <> []) by (intros E; rewrite E in Hu; cbn in Hu; lia).
  destruct Hdec as (N & F & Sm & X). pose proof (conj N (conj F (conj Sm X))) as Hdec.
  assert (Hne : a <> []) by (intros ->; cbn in Sm; lra).
  assert (Hb : Forall (fun it : rep RN * R => (snd (fst it) < length u)%nat) a).
  { rewrite Hu. eapply Forall_impl; [|exact F]. intros kv (_ & H & _). exact H. }
  assert (Hxu : length (sw_x s) = length u) by (rewrite Hu; exact Lx).
  destruct (l1_lmo_pairwise_correct alpha u (sw_x s) a Ha Hune Hxu Hne Hb)
    as (o & sg & idx & asg & aidx & w & E & E1 & E2 & E3 & E4 & E5 & E6 & E7 & E8 & E9).
  rewrite Hu in *. exists o, (sg, idx), (asg, aidx), a.
  assert (Hin := E7). rewrite Forall_forall in F. apply F in Hin. cbn [fst snd] in Hin. destruct Hin as (I1 & I2 & I3).
  assert (Hw : weight a (asg, aidx) = w) by (apply weight_in; assumption). cbn [fst snd].
  assert (Hsg : Rabs sg <= 1) by (destruct E9 as [->|[->|[-> _]]]; unfold Rabs; destruct (Rcase_abs _); lra).
  assert (Hdl : length (lmo_dir o) = d) by (rewrite E5; unfold vminus; rewrite lin_length, !vertex_length; lia).
  split; [rewrite Eact; exact E|]. split; [exact Eact|]. rewrite Hw. repeat (split; [assumption|]).
  destruct E6 as (_ & _ & E6). rewrite Hu in E6. specialize (E6 (sw_x s) Lx (decomposition_ball _ _ _ _ Ha Hdec)).
  assert (Haw : dot u (vertex d (alpha * asg) aidx) <= dot u (sw_x s)).
  { eapply away_le; [exact Hdec|exact Hu|]. intros [s' i'] w' Hin'. apply (E8 _ _ _ Hin'). }
  rewrite E5. unfold vminus. rewrite dot_lin_r by (rewrite vertex_length; exact (eq_sym Hu)). lra.
Qed.
Lemma inv_sized s : inv s -> sized_at P lmo s.
Proof. intros H u o Lu E. destruct (oracle s u H Lu) as (o' & fw & away & a & E' & _ & _ & _ & _ & _ & _ & _ & _ & _ & _ & _ & L & _). rewrite E in E'. injection E' as <-. exact L. Qed.
Lemma inv_step it batch s r : inv s -> batch_ok (p_n P) bs batch -> stepf it batch s = Ok r -> 0 <= si_gamma r -> inv (si_next r).
Proof.
  intros H (F & N & _) E Hg.
  destruct (step_inv pow23 P lmo variant rule lipschitz bs W it batch s r (proj1 H) (inv_sized s H) F N E)
    as (_ & _ & _ & _ & Wn & _ & _ & _ & _ & (Lest & _) & Ec & Lo & _ & Hx & _).
  destruct (oracle s (vopp (K:=RN) (si_est r)) H (eq_trans (map_length _ _) Lest)) as (o & fw & away & a & Eo & Eact & Hdec & E1 & E2 & E3 & E4 & F1 & F2 & A1 & A2 & Ed & _).
  rewrite Ec in Eo. injection Eo as <-.
  destruct (step_active _ _ _ _ _ _ _ _ _ _ _ _ E Eact) as (fw' & away' & a' & E1' & E2' & Eu & En). rewrite E1 in E1'. rewrite E2 in E2'. injection E1' as <-. injection E2' as <-.
  split; [exact Wn|]. exists a'. split; [exact En|]. rewrite Hx, Ed. apply (update_decomposition d alpha a (sw_x s) fw away (si_gamma r) a' Hdec Hg F1 F2 A1 A2 Eu).
Qed.
(** the DR step of SAG *)
Lemma dr_gamma L it batch s r : variant = SAG -> rule = SDR -> lipschitz = Some L -> 0 < L -> inv s -> batch_ok (p_n P) bs batch -> stepf it batch s = Ok r -> 0 <= si_gamma r.
Proof.
  intros Ev Er El HL H (F & N & _) E.
  destruct (step_inv pow23 P lmo variant rule lipschitz bs W it batch s r (proj1 H) (inv_sized s H) F N E)
    as (_ & _ & _ & _ & (_ & _ & Lan & _) & _ & _ & _ & _ & (Lest & Hest) & Ec & Lo & Hg & _).
  assert (He : si_est r = sw_agg (si_next r)).
  { apply list_ext with (d := 0); [exact (eq_trans Lest (eq_sym Lan))|]. intros j Hj. rewrite Hest by (rewrite <- Lest; exact Hj). rewrite Ev. reflexivity. }
  destruct (oracle s (vopp (K:=RN) (si_est r)) H (eq_trans (map_length _ _) Lest)) as (o & fw & away & a & Eo & _ & _ & _ & _ & E3 & E4 & _ & _ & _ & _ & _ & _ & G).
  rewrite Ec in Eo. injection Eo as <-. rewrite He, vopp_R, dot_smul_l in G.
  rewrite Hg. unfold gamma_of. rewrite Er, El. apply dr_range_ms; [exact HL|rewrite E3; exact E4|lra].
Qed.
(** the DR step of SAG never raises *)
Lemma dr_total L it batch s : variant = SAG -> rule = SDR -> lipschitz = Some L -> 0 < L -> inv s -> batch_ok (p_n P) bs batch -> exists r, stepf it batch s = Ok r.
Proof.
  intros Ev Er El HL H (F & N & _). pose proof H as (Ws & _). destruct (Ws) as (Lx & Ld & La & _).
  assert (Hex : exists r, stepf it batch s = Ok r /\ True); [|destruct Hex as (r & E & _); eauto].
  unfold sfw_step. rewrite Er.
  assert (Fd : Forall (fun i => (i < length (sw_dual s))%nat) batch) by (rewrite Ld; exact F).
  cbn [bind]. eapply bind_ex; [apply (gather_ok _ _ 0 Fd)|].
  destruct (dual_update_total P lmo variant W None batch s Ws F N) as ([[dual sigma] lf] & Eu & Ldu & Hlf); auto.
  { intros u Lu. destruct (oracle s u H Lu) as (o & fw & away & a & E' & _ & _ & _ & _ & _ & _ & _ & _ & _ & _ & _ & L' & _). eauto. }
  { rewrite Ev; discriminate. } { rewrite Ev; intros [|]; discriminate. }
  eapply bind_ex; [exact Eu|]. cbn [fst snd] in Ldu, Hlf. cbv beta iota.
  assert (Fd' : Forall (fun i => (i < length dual)%nat) batch) by (rewrite Ldu; exact F).
  eapply bind_ex; [apply (gather_ok _ _ 0 Fd')|]. unfold vsub at 1. rewrite map2_map_same.
  destruct (vm_R P W (fun i => nsub RN (nth i dual 0) (nth i (sw_dual s) 0)) batch F) as (u & Evm & Lu & _).
  eapply bind_ex; [exact Evm|].
  set (agg := vadd (K:=RN) (sw_agg s) u). assert (Lagg : length agg = d) by (apply vadd_len; assumption).
  destruct (oracle s (vopp (K:=RN) agg) H (eq_trans (map_length _ _) Lagg)) as (o & fw & away & a & Eo & Eact & (Na & _) & E1 & E2 & E3 & E4 & _ & _ & _ & _ & _ & _ & G).
  eapply bind_ex. { rewrite Ev. rewrite Eo. cbn [bind]. reflexivity. }
  cbv beta iota. rewrite Eact, E1, E2, El. rewrite vopp_R, dot_smul_l in G.
  set (gm := sfw_DR (K:=RN) _ _ _ _).
  assert (Hg : 0 <= gm <= weight a away).
  { unfold gm. rewrite vdot_R, vopp_R, dot_smul_l, E3. replace (-1 * dot agg (lmo_dir o)) with (- dot agg (lmo_dir o)) by ring. apply dr_range_ms; [exact HL|exact E4|lra]. }
  destruct (update_spec a fw away gm Na) as (_ & U). destruct U as (a' & Ea' & _). { destruct (keq away fw); lra. }
  eapply bind_ex. { rewrite Ea'. cbn [bind]. reflexivity. }
  eexists. split; [reflexivity|exact I].
Qed.
End Pair.

Lemma vertex_decomposition n alpha (sg : R) i0 : (i0 < n)%nat -> Rabs sg <= 1 -> convex_decomposition n alpha [((sg, i0), 1)] (vertex n (alpha * sg) i0).
Proof.
  intros Hi Hs. split; [repeat constructor; intros []|]. split; [constructor; [cbn; repeat split; lra || assumption|constructor]|]. split; [cbn; lra|].
  cbn [wsum fst snd]. apply list_ext with (d := 0); [rewrite lin_length, vertex_length, zeros_length; lia|]. intros j Hj. rewrite vertex_length in Hj.
  rewrite nth_lin by (rewrite vertex_length, zeros_length; reflexivity). rewrite nth_zeros. ring.
Qed.
Lemma pair_start pow23 (P : problem RN) lmo variant rule lipschitz bs tol max_iter draws (rp : rep RN) x0 r :
  minimize_sfw (K:=RN) pow23 P lmo variant rule lipschitz bs tol (@Pairwise RN rp) max_iter draws x0 = Ok r ->
  exists s0, sfw_init P variant x0 (Some [(rp, n1)]) = Ok s0 /\ sfw_epochs (K:=RN) pow23 P lmo variant rule lipschitz bs tol draws max_iter 0 s0 false [] = Ok r.
Proof.
  intros E. unfold minimize_sfw in E. cbn [bind] in E. destruct (negb _); [destruct variant; discriminate E|].
  assert (G : (s <- sfw_init P variant x0 (Some [(rp, n1)]) ;; match rule, lipschitz with SDR, None => Err ValueError | _, _ => sfw_epochs (K:=RN) pow23 P lmo variant rule lipschitz bs tol draws max_iter 0 s false [] end) = Ok r) by (destruct variant; try discriminate E; exact E).
  apply bind_ok in G as (s0 & Es & G). exists s0. split; [exact Es|]. destruct rule, lipschitz; try exact G. discriminate G.
Qed.
(** what the theorems say of a run *)
Definition pair_ok (P : problem RN) (alpha : R) (s : sfw_state RN) : Prop :=
  exists a, sw_active s = Some a /\ convex_decomposition (p_d P) alpha a (sw_x s) /\ l1_ball alpha (sw_x s).
Lemma run_pair pow23 (P : problem RN) (alpha : R) variant rule lipschitz bs tol max_iter draws (sg : R) i0 (r : sfw_result RN) :
  problem_wf P -> valid_draws (p_n P) bs draws -> 0 <= alpha -> (i0 < p_d P)%nat -> Rabs sg <= 1 ->
  minimize_sfw (K:=RN) pow23 P (l1_pairwise_oracle (K:=RN) alpha) variant rule lipschitz bs tol (@Pairwise RN (sg, i0)) max_iter draws (vertex (p_d P) (alpha * sg) i0) = Ok r ->
  (forall it batch s q, (1 <= bs)%nat -> inv P alpha variant s -> batch_ok (p_n P) bs batch -> sfw_step (K:=RN) pow23 P (l1_pairwise_oracle (K:=RN) alpha) variant rule lipschitz bs it batch s = Ok q -> 0 <= si_gamma q) ->
  pair_ok P alpha (sr_state r) /\ sr_x r = sw_x (sr_state r) /\ forall q, In q (sr_log r) -> pair_ok P alpha (si_prev q) /\ pair_ok P alpha (si_next q) /\ 0 <= si_gamma q.
Proof.
  intros W V Ha Hi Hsg E Hg. destruct (pair_start _ _ _ _ _ _ _ _ _ _ _ _ _ E) as (s0 & Es & Ee).
  assert (Hd : (0 < p_d P)%nat) by lia. assert (L0 : length (vertex (p_d P) (alpha * sg) i0) = p_d P) by apply vertex_length.
  destruct (init_facts P variant _ _ s0 W L0 Es) as (Ex & _ & _ & Hact & _ & Ws & _).
  destruct (epochs_bs _ _ _ _ _ _ _ _ _ _ _ _ _ _ _ Ee) as (Hb & _).
  assert (Ok' : forall s, inv P alpha variant s -> pair_ok P alpha s) by (intros s (_ & a & A & B); exists a; split; [exact A|]; split; [exact B|apply (decomposition_ball _ _ _ _ Ha B)]).
  assert (H : inv P alpha variant (sr_state r) /\ Forall (fun q : sfw_iter RN => pair_ok P alpha (si_prev q) /\ pair_ok P alpha (si_next q) /\ 0 <= si_gamma q) (sr_log r)).
  { refine (epochs_ind (K:=RN) pow23 P (l1_pairwise_oracle (K:=RN) alpha) variant rule lipschitz bs tol draws
      (fun (s : sfw_state RN) (log : list (sfw_iter RN)) => inv P alpha variant s /\ Forall (fun q : sfw_iter RN => pair_ok P alpha (si_prev q) /\ pair_ok P alpha (si_next q) /\ 0 <= si_gamma q) log) V _ _ _ _ _ _ _ _ Ee _).
    - intros it batch s log q Hbt (G & Fl) Eq. pose proof (Hg it batch s q Hb G Hbt Eq) as Hq.
      pose proof (inv_step pow23 P alpha variant rule lipschitz bs W Ha Hd it batch s q G Hbt Eq Hq) as G'.
      destruct (step_inv pow23 P (l1_pairwise_oracle (K:=RN) alpha) variant rule lipschitz bs W it batch s q (proj1 G) (inv_sized P alpha variant Ha Hd s G) (proj1 Hbt) (proj1 (proj2 Hbt)) Eq) as (Hp & _).
      split; [exact G'|]. constructor; [|exact Fl]. rewrite Hp. auto.
    - intros s log (A & B). split; [exact A|exact B].
    - split; [|constructor]. split; [exact Ws|]. exists [((sg, i0), 1)]. rewrite Hact, Ex. split; [reflexivity|apply vertex_decomposition; assumption]. }
  destruct H as (H & F). split; [apply Ok', H|]. split; [apply (result_x _ _ _ _ _ _ _ _ _ _ _ _ _ _ _ Ee)|]. rewrite Forall_forall in F. exact F.
Qed.
Lemma main_C131_sublinear_partial : forall (pow23 : R -> R) (P : problem RN) (alpha : R) variant lipschitz bs tol max_iter draws (sg : R) i0 (r : sfw_result RN),
  problem_wf P -> valid_draws (p_n P) bs draws -> 0 <= alpha -> (i0 < p_d P)%nat -> Rabs sg <= 1 ->
  minimize_sfw (K:=RN) pow23 P (l1_pairwise_oracle (K:=RN) alpha) variant SSublinear lipschitz bs tol (@Pairwise RN (sg, i0)) max_iter draws (vertex (p_d P) (alpha * sg) i0) = Ok r ->
  pair_ok P alpha (sr_state r) /\ sr_x r = sw_x (sr_state r) /\ forall q, In q (sr_log r) -> pair_ok P alpha (si_prev q) /\ pair_ok P alpha (si_next q) /\ 0 <= si_gamma q.
Proof.
  intros pow23 P alpha variant lipschitz bs tol max_iter draws sg i0 r W V Ha Hi Hsg E. apply (run_pair _ _ _ _ _ _ _ _ _ _ _ _ _ W V Ha Hi Hsg E).
  destruct (minimize_inv _ _ _ _ _ _ _ _ _ _ _ _ _ E) as (Hv & _).
  intros it batch s q Hb H Hbt Eq. destruct (step_inv pow23 P (l1_pairwise_oracle (K:=RN) alpha) variant SSublinear lipschitz bs W it batch s q (proj1 H) (inv_sized P alpha variant Ha ltac:(lia) s H) (proj1 Hbt) (proj1 (proj2 Hbt)) Eq)
    as (_ & _ & _ & _ & _ & _ & _ & _ & _ & _ & _ & _ & Hg & _).
  rewrite Hg. unfold gamma_of. pose proof (gamma_range pow23 variant bs (p_n P) (sw_t s) Hb (batch_pos _ _ _ Hbt Hb) Hv). lra.
Qed.
Lemma main_C131_DR_partial : forall (pow23 : R -> R) (P : problem RN) (alpha L : R) bs tol max_iter draws (sg : R) i0,
  problem_wf P -> valid_draws (p_n P) bs draws -> 0 <= alpha -> (i0 < p_d P)%nat -> Rabs sg <= 1 -> 0 < L -> (1 <= bs)%nat -> (1 <= max_iter)%nat ->
  exists r : sfw_result RN,
  minimize_sfw (K:=RN) pow23 P (l1_pairwise_oracle (K:=RN) alpha) SAG SDR (Some L) bs tol (@Pairwise RN (sg, i0)) max_iter draws (vertex (p_d P) (alpha * sg) i0) = Ok r /\
  (* no direction vanishes: the code divides by its squared norm *)
  ((forall q, In q (sr_log r) -> lmo_dir (si_lmo q) <> zeros (p_d P)) ->
  pair_ok P alpha (sr_state r) /\ sr_x r = sw_x (sr_state r) /\ forall q, In q (sr_log r) -> pair_ok P alpha (si_prev q) /\ pair_ok P alpha (si_next q) /\ 0 <= si_gamma q).
Proof.
  intros pow23 P alpha L bs tol max_iter draws sg i0 W V Ha Hi Hsg HL Hb Hm. set (x0 := vertex (p_d P) (alpha * sg) i0). assert (Hd : (0 < p_d P)%nat) by lia.
  assert (L0 : length x0 = p_d P) by apply vertex_length.
  assert (Hi0 : exists s0, sfw_init (K:=RN) P SAG x0 (Some [((sg, i0) : rep RN, n1)]) = Ok s0) by (eexists; reflexivity).
  destruct Hi0 as (s0 & Es). destruct (init_facts P SAG x0 _ s0 W L0 Es) as (Ex & _ & _ & Hact & _ & Ws & _).
  destruct (epochs_total (K:=RN) pow23 P (l1_pairwise_oracle (K:=RN) alpha) SAG SDR (Some (L : carrier RN)) bs tol draws (inv P alpha SAG) Hb V) with (k := max_iter) (it := 0%nat) (s := s0) (succ := false) (log := @nil (sfw_iter RN)) as (r & Er); auto.
  - intros it batch s Hbt G. destruct (dr_total pow23 P alpha SAG SDR (Some (L : carrier RN)) bs W Ha Hd L it batch s eq_refl eq_refl eq_refl HL G Hbt) as (q & Eq). exists q. split; [exact Eq|].
    apply (inv_step pow23 P alpha SAG SDR (Some (L : carrier RN)) bs W Ha Hd it batch s q G Hbt Eq). apply (dr_gamma pow23 P alpha SAG SDR (Some (L : carrier RN)) bs W Ha Hd L it batch s q eq_refl eq_refl eq_refl HL G Hbt Eq).
  - split; [exact Ws|]. exists [((sg, i0), 1)]. rewrite Hact, Ex. split; [reflexivity|apply vertex_decomposition; assumption].
  - assert (E : minimize_sfw (K:=RN) pow23 P (l1_pairwise_oracle (K:=RN) alpha) SAG SDR (Some (L : carrier RN)) bs tol (@Pairwise RN (sg, i0)) max_iter draws x0 = Ok r).
    { unfold minimize_sfw. cbn [bind]. change (@length (carrier RN) x0) with (length x0). rewrite L0, Nat.eqb_refl. cbn [negb]. exact (bind_use _ _ _ _ Es Er). }
    exists r. split; [exact E|]. intros _. apply (run_pair _ _ _ _ _ _ _ _ _ _ _ _ _ W V Ha Hi Hsg E).
    intros it batch s q _ G Hbt Eq. apply (dr_gamma pow23 P alpha SAG SDR (Some (L : carrier RN)) bs W Ha Hd L it batch s q eq_refl eq_refl eq_refl HL G Hbt Eq).
Qed.
