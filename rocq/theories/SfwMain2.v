(** * Theorems about minimize_sfw: step sizes, feasibility, totality, substitute gradients *)
From Coq Require Import Reals Rpower Lra Lia List Bool ZArith Permutation.
From Verif Require Import Num Vec Spec SpecSparse RVec ConvexFacts ModelConstraint ModelPenalty PenaltyFacts PenaltyFacts2 ModelUtilsArr UtilsMain
  ModelFrankWolfe FrankWolfeConv ModelRandomized SpecFiniteSum RandomizedFacts ModelSfw SpecSfw SfwFacts SfwStep SfwMain.
Import ListNotations.
Local Open Scope R_scope.

(** ** C67 *)
Lemma frac_range (a b : R) : 0 < a -> a <= b -> 0 < a / b <= 1.
Proof.
  intros Ha Hb. split; [apply Rdiv_lt_0_compat; lra|]. apply Rmult_le_reg_r with b; [lra|]. unfold Rdiv.
  rewrite Rmult_assoc, Rinv_l by lra. lra.
Qed.
Lemma lf_size (m t : R) : 0 < m -> (t = 0 \/ 1 <= t) -> 0 < 2 * (2 * m + t) / ((t + 1) * (4 * m + t)) <= 1.
Proof. intros Hm Ht. apply frac_range; destruct Ht as [->|Ht]; nra. Qed.
Lemma INR_0_or_1 t : INR t = 0 \/ 1 <= INR t.
Proof. destruct t; [left; reflexivity|right]. rewrite S_INR. pose proof (pos_INR t). lra. Qed.
Lemma ratio_pos n bs : (1 <= bs)%nat -> (1 <= n)%nat -> 0 < INR n / INR bs.
Proof. intros A B. apply Rdiv_lt_0_compat; apply lt_0_INR; lia. Qed.
Lemma gamma_range (pow23 : R -> R) variant bs n t : (1 <= bs)%nat -> (1 <= n)%nat -> variant <> OtherSfw ->
  0 < fst (sfw_sizes (K:=RN) pow23 variant bs n t) <= 1.
Proof.
  intros Hb Hn Hv. pose proof (pos_INR t) as Ht. destruct variant; cbn [sfw_sizes fst]; try congruence.
  1,2,3: rewrite nofnat_R, plus_INR; rn; apply frac_range; cbn [INR]; lra.
  rewrite !nofnat_R. rn. apply lf_size; [apply ratio_pos; assumption|apply INR_0_or_1].
Qed.
Lemma main_C67_step_sizes : forall variant bs n t, (1 <= bs)%nat -> (bs <= n)%nat -> variant <> OtherSfw ->
  let '(sx, sagg) := sfw_sizes (K:=RN) (fun x => Rpower x (2 / 3)) variant bs n t in
  0 < sx <= 1 /\ match variant, sagg with
                 | MHK, Some a | LF, Some a => 0 < a <= 1
                 | SAG, None | SAGA, None => True
                 | _, _ => False
                 end.
Proof.
  intros variant bs n t Hb Hn Hv.
  pose proof (gamma_range (fun x => Rpower x (2 / 3)) variant bs n t Hb ltac:(lia) Hv) as G.
  pose proof (pos_INR t) as Ht.
  destruct variant; cbn [sfw_sizes fst] in G |- *; (split; [exact G|]); try exact I; try congruence.
  - split; [apply exp_pos|]. unfold Rpower.
    rewrite nofnat_R in *. rn. set (x := 2 / INR (t + 8)) in *.
    rewrite <- exp_0.
    assert (ln x <= 0). { rewrite <- ln_1. destruct (Rle_lt_or_eq_dec x 1 (proj2 G)) as [Hl| ->]; [left; apply ln_increasing; [apply G|exact Hl]|lra]. }
    assert (H2 : 2 / 3 * ln x <= 0) by lra.
    destruct (Rle_lt_or_eq_dec _ _ H2) as [Hl|Heq]; [left; apply exp_increasing; exact Hl|rewrite Heq; lra].
  - rewrite !nofnat_R. rn. pose proof (ratio_pos n bs Hb ltac:(lia)). apply frac_range; lra.
Qed.

(** ** C65 *)
Section Total.
Variable pow23 : R -> R.
Variable P : problem RN.
Variable lmo : lmo_fun RN.
Variable variant : sfw_variant.
Variable rule : sfw_rule.
Variable lipschitz : option RN.
Variable bs : nat.
Hypothesis W : problem_wf P.
Definition rule_ok : Prop :=
  (rule = SSublinear /\ variant <> OtherSfw) \/ (rule = SDR /\ (variant = SAG \/ variant = SAGA)).
Lemma scatter_total {A} (x : list A) g (h : nat -> A) : NoDup g -> Forall (fun i => (i < length x)%nat) g ->
  exists x', scatter x g (map h g) = Ok x' /\ length x' = length x.
Proof. intros N F. destruct (scatter_ok h g x N F) as (x' & E & L & _). eauto. Qed.
(** the goal is [exists r, (v <- m ;; k v) = Ok r] and m is known *)
Lemma bind_ex {A B} (m : result A) (v : A) (k : A -> result B) (Q : B -> Prop) :
  m = Ok v -> (exists r, k v = Ok r /\ Q r) -> exists r, bind m k = Ok r /\ Q r.
Proof. intros -> H. exact H. Qed.
Lemma dual_update_total asz batch (s : sfw_state RN) : state_wf P variant s -> Forall (fun i => (i < p_n P)%nat) batch -> NoDup batch ->
  (forall u, length u = p_d P -> exists o, call_lmo lmo u (sw_x s) (sw_active s) = Ok o /\ length (lmo_dir o) = p_d P) ->
  variant <> OtherSfw -> (variant = MHK \/ variant = LF -> asz <> None) ->
  exists q, sfw_dual_update (K:=RN) P lmo variant asz batch s = Ok q /\ length (fst (fst q)) = p_n P /\ (variant = LF -> snd q <> None).
Proof.
  intros (Lx & Ld & La & Ls) F N Hl Hv Ha. unfold sfw_dual_update.
  assert (Fd : Forall (fun i => (i < length (sw_dual s))%nat) batch) by (rewrite Ld; exact F).
  destruct variant; try congruence.
  1, 2: eapply bind_ex; [apply (mv_R P W _ _ Lx F)|]; eapply bind_ex; [apply (fd_R P W _ _ F)|];
    unfold vscale; rewrite map_map;
    match goal with |- context [scatter _ ?g9 (map ?f9 ?g9)] => destruct (scatter_total (sw_dual s) g9 f9 N Fd) as (u & Eu & Lu) end;
    (eapply bind_ex; [exact Eu|]); eexists; (split; [reflexivity|]); (split; [exact (eq_trans Lu Ld)|discriminate]).
  - eapply bind_ex; [apply (mv_R P W _ _ Lx F)|]. eapply bind_ex; [apply (gather_ok _ _ 0 Fd)|].
    destruct asz as [a|]; [|exfalso; apply Ha; auto]. eapply bind_ex; [apply (fd_R P W _ _ F)|].
    unfold vadd, vscale, vsub. rewrite map2_map_same, map_map, map2_map_same.
    match goal with |- context [scatter _ ?g9 (map ?f9 ?g9)] => destruct (scatter_total (sw_dual s) g9 f9 N Fd) as (u & Eu & Lu) end.
    eapply bind_ex; [exact Eu|]. eexists. split; [reflexivity|]. (split; [exact (eq_trans Lu Ld)|discriminate]).
  - specialize (Ls eq_refl). destruct (Hl (vopp (K:=RN) (sw_agg s)) (eq_trans (map_length _ _) La)) as (o & Eo & Lo).
    assert (Fs : Forall (fun i => (i < length (sw_sigma s))%nat) batch) by (rewrite Ls; exact F).
    eapply bind_ex; [exact Eo|]. eapply bind_ex; [apply (gather_ok _ _ 0 Fs)|].
    destruct asz as [a|]; [|exfalso; apply Ha; auto].
    eapply bind_ex; [apply (mv_R P W _ _ (vadd_len _ _ _ Lo Lx) F)|].
    unfold vscale, vsub. unfold vadd at 1. rewrite map2_map_same, map_map, map2_map_same.
    match goal with |- context [scatter _ ?g9 (map ?f9 ?g9)] => destruct (scatter_total (sw_sigma s) g9 f9 N Fs) as (sg & Esg & Lsg) end.
    eapply bind_ex; [exact Esg|].
    assert (Fs' : Forall (fun i => (i < length sg)%nat) batch) by (rewrite Lsg; exact Fs).
    eapply bind_ex; [apply (gather_ok _ _ 0 Fs')|]. eapply bind_ex; [apply (fd_R P W _ _ F)|]. rewrite map_map.
    match goal with |- context [scatter _ ?g9 (map ?f9 ?g9)] => destruct (scatter_total (sw_dual s) g9 f9 N Fd) as (u & Eu & Lu) end.
    eapply bind_ex; [exact Eu|]. eexists. split; [reflexivity|]. (split; [exact (eq_trans Lu Ld)|discriminate]).
Qed.
Lemma sizes_agg t : variant = MHK \/ variant = LF -> snd (sfw_sizes (K:=RN) pow23 variant bs (p_n P) t) <> None.
Proof. intros [-> | ->]; discriminate. Qed.
Lemma step_total it batch (s : sfw_state RN) : rule_ok -> state_wf P variant s -> Forall (fun i => (i < p_n P)%nat) batch -> NoDup batch ->
  sw_active s = None ->
  (forall u, length u = p_d P -> exists o, call_lmo lmo u (sw_x s) None = Ok o /\ length (lmo_dir o) = p_d P) ->
  exists r, sfw_step (K:=RN) pow23 P lmo variant rule lipschitz bs it batch s = Ok r.
Proof.
  intros Hr Ws F N Hact Hl. destruct (Ws) as (Lx & Ld & La & Ls).
  assert (Hex : exists r, sfw_step (K:=RN) pow23 P lmo variant rule lipschitz bs it batch s = Ok r /\ True); [|destruct Hex as (r & E & _); eauto].
  unfold sfw_step. rewrite Hact in *.
  assert (Fd : Forall (fun i => (i < length (sw_dual s))%nat) batch) by (rewrite Ld; exact F).
  assert (Hsz : exists sizes, match rule with SSublinear => Ok (Some (sfw_sizes (K:=RN) pow23 variant bs (p_n P) (sw_t s))) | SDR => Ok None | SOther => Err UnboundLocalError end = Ok sizes
    /\ variant <> OtherSfw /\ (variant = MHK \/ variant = LF -> match sizes with Some (_, a) => a | None => None end <> None)).
  { destruct Hr as [[-> Hv]|[-> Hv]]; eexists; (split; [reflexivity|]); split.
    - exact Hv.
    - intros Hm. pose proof (sizes_agg (sw_t s) Hm). destruct (sfw_sizes (K:=RN) pow23 variant bs (p_n P) (sw_t s)). assumption.
    - destruct Hv; congruence.
    - intros Hm. destruct Hv, Hm; congruence. }
  destruct Hsz as (sizes & Esz & Hv & Ha). eapply bind_ex; [exact Esz|].
  eapply bind_ex; [apply (gather_ok _ _ 0 Fd)|].
  destruct (dual_update_total (match sizes with Some (_, a) => a | None => None end) batch s Ws F N) as ([[dual sigma] lf] & Eu & Ldu & Hlf); auto.
  { rewrite Hact. exact Hl. }
  eapply bind_ex; [exact Eu|]. cbn [fst snd] in Ldu, Hlf. cbv beta iota.
  assert (Fd' : Forall (fun i => (i < length dual)%nat) batch) by (rewrite Ldu; exact F).
  eapply bind_ex; [apply (gather_ok _ _ 0 Fd')|]. unfold vsub at 1. rewrite map2_map_same.
  destruct (vm_R P W (fun i => nsub RN (nth i dual 0) (nth i (sw_dual s) 0)) batch F) as (u & Evm & Lu & _).
  eapply bind_ex; [exact Evm|].
  set (agg := vadd (K:=RN) (sw_agg s) u). assert (Lagg : length agg = p_d P) by (apply vadd_len; assumption).
  assert (Ho : exists est o, match variant, lf with
               | LF, Some eo => Ok eo
               | SAGA, _ => o <- call_lmo lmo (vopp (vadd (K:=RN) agg (vscale (K:=RN) (nofnat (p_n P - 1)) u))) (sw_x s) None ;; Ok (vadd (K:=RN) agg (vscale (K:=RN) (nofnat (p_n P - 1)) u), o)
               | _, _ => o <- call_lmo lmo (vopp agg) (sw_x s) None ;; Ok (agg, o) end = Ok (est, o)).
  { destruct (Hl (vopp (K:=RN) agg) (eq_trans (map_length _ _) Lagg)) as (o & Eo & _).
    assert (Le : length (vadd (K:=RN) agg (vscale (K:=RN) (nofnat (p_n P - 1)) u)) = p_d P) by (apply vadd_len; [exact Lagg|]; exact (eq_trans (map_length _ _) Lu)).
    destruct (Hl (vopp (K:=RN) (vadd (K:=RN) agg (vscale (K:=RN) (nofnat (p_n P - 1)) u))) (eq_trans (map_length _ _) Le)) as (o' & Eo' & _).
    destruct variant; try congruence.
    - rewrite Eo. cbn [bind]. eauto.
    - rewrite Eo'. cbn [bind]. eauto.
    - rewrite Eo. cbn [bind]. eauto.
    - destruct lf as [[e9 o9]|]; [eauto|exfalso; apply Hlf; reflexivity]. }
  destruct Ho as (est & o & Eo). eapply bind_ex; [exact Eo|]. cbv beta iota.
  eapply bind_ex; [reflexivity|]. eexists. split; [reflexivity|exact I].
Qed.
End Total.

(** the invariant of feasible runs *)
Definition feas (P : problem RN) variant (dom : list R -> Prop) (s : sfw_state RN) : Prop :=
  state_wf P variant s /\ sw_active s = None /\ dom (sw_x s).
Lemma feasible_sized d dom lmo : lmo_feasible d dom lmo -> forall x, length x = d -> dom x ->
  forall u, length u = d -> exists o, call_lmo lmo u x None = Ok o /\ length (lmo_dir o) = d.
Proof. intros H x Lx Hx u Lu. destruct (H u x None Lu Lx Hx) as (o & E & L & _). eauto. Qed.
Lemma batch_pos n bs batch : batch_ok n bs batch -> (1 <= bs)%nat -> (1 <= n)%nat.
Proof. intros (F & _ & L) Hb. destruct batch as [|i b]; [cbn in L; lia|]. inversion F; subst. lia. Qed.

Section Feas.
Variable pow23 : R -> R.
Variable P : problem RN.
Variable lmo : lmo_fun RN.
Variable variant : sfw_variant.
Variable rule : sfw_rule.
Variable lipschitz : option RN.
Variable bs : nat.
Variable dom : list R -> Prop.
Hypothesis W : problem_wf P.
Hypothesis Hb : (1 <= bs)%nat.
Hypothesis Hc : convex_set (p_d P) dom.
Hypothesis Hf : lmo_feasible (p_d P) dom lmo.
Lemma feas_at (s : sfw_state RN) : feas P variant dom s -> forall u o, length u = p_d P -> call_lmo lmo u (sw_x s) (sw_active s) = Ok o ->
  length (lmo_dir o) = p_d P /\ dom (vplus (sw_x s) (lmo_dir o)) /\ lmo_max_step o = 1.
Proof.
  intros ((Lx & _) & Ha & Hx) u o Lu E. destruct (Hf u (sw_x s) (sw_active s) Lu Lx Hx) as (o' & E' & H).
  rewrite E in E'. injection E' as <-. exact H.
Qed.
Lemma feas_sized (s : sfw_state RN) : feas P variant dom s -> sized_at P lmo s.
Proof. intros H u o Lu E. apply (feas_at s H u o Lu E). Qed.
Lemma feas_step it batch s r : feas P variant dom s -> batch_ok (p_n P) bs batch ->
  sfw_step (K:=RN) pow23 P lmo variant rule lipschitz bs it batch s = Ok r -> 0 <= si_gamma r <= 1 -> feas P variant dom (si_next r).
Proof.
  intros H (F & N & _) E Hg. pose proof (feas_sized s H) as Hs. destruct (H) as (Ws & Ha & Hx).
  destruct (step_inv pow23 P lmo variant rule lipschitz bs W it batch s r Ws Hs F N E)
    as (_ & _ & _ & _ & Wn & _ & _ & _ & _ & (Lest & _) & Ec & Lo & _ & Hxn & Hact).
  split; [exact Wn|]. split; [apply Hact, Ha|].
  destruct (feas_at s H _ _ (eq_trans (map_length _ _) Lest) Ec) as (_ & Hd & _).
  rewrite Hxn. destruct Ws as (Lx & _). rewrite lin_step by (exact (eq_trans Lx (eq_sym Lo))).
  apply Hc; auto. apply vplus_len; assumption.
Qed.
Lemma sub_gamma it batch s r : rule = SSublinear -> variant <> OtherSfw -> feas P variant dom s -> batch_ok (p_n P) bs batch ->
  sfw_step (K:=RN) pow23 P lmo variant rule lipschitz bs it batch s = Ok r -> 0 < si_gamma r <= 1.
Proof.
  intros Hr Hv H Hbt E. pose proof Hbt as (F & N & _).
  destruct (step_inv pow23 P lmo variant rule lipschitz bs W it batch s r (proj1 H) (feas_sized s H) F N E)
    as (_ & _ & _ & _ & _ & _ & _ & _ & _ & _ & _ & _ & Hg & _).
  rewrite Hg. unfold gamma_of. rewrite Hr. apply gamma_range; auto. apply (batch_pos _ _ _ Hbt Hb).
Qed.
End Feas.

Lemma main_C65_feasible_sublinear_partial : forall (pow23 : R -> R) (P : problem RN) lmo variant lipschitz bs tol max_iter draws x0 (dom : list R -> Prop) (r : sfw_result RN),
  problem_wf P -> valid_draws (p_n P) bs draws -> convex_set (p_d P) dom -> lmo_feasible (p_d P) dom lmo -> dom x0 ->
  minimize_sfw (K:=RN) pow23 P lmo variant SSublinear lipschitz bs tol Vanilla max_iter draws x0 = Ok r ->
  dom (sr_x r) /\ forall q, In q (sr_log r) -> dom (sw_x (si_next q)) /\ 0 < si_gamma q <= 1.
Proof.
  intros pow23 P lmo variant lipschitz bs tol max_iter draws x0 dom r W V Hc Hf Hx E.
  destruct (minimize_inv _ _ _ _ _ _ _ _ _ _ _ _ _ E) as (Hv & L0 & _ & a & s0 & _ & Ha & Es & Ee). specialize (Ha eq_refl). subst a.
  destruct (init_facts P variant x0 None s0 W L0 Es) as (Ex & _ & _ & Hact & _ & Ws & _).
  assert (Hb : (1 <= bs)%nat).
  { destruct max_iter; [discriminate Ee|]. cbn [sfw_epochs] in Ee. destruct (Nat.eqb_spec bs 0); [discriminate Ee|lia]. }
  assert (H : feas P variant dom (sr_state r) /\ Forall (fun q : sfw_iter RN => dom (sw_x (si_next q)) /\ 0 < si_gamma q <= 1) (sr_log r)).
  { refine (epochs_ind (K:=RN) pow23 P lmo variant SSublinear lipschitz bs tol draws
      (fun (s : sfw_state RN) (log : list (sfw_iter RN)) => feas P variant dom s /\ Forall (fun q : sfw_iter RN => dom (sw_x (si_next q)) /\ 0 < si_gamma q <= 1) log) V _ _ _ _ _ _ _ _ Ee _).
    - intros it batch s log q Hbt (G & Fl) Eq.
      pose proof (sub_gamma pow23 P lmo variant SSublinear lipschitz bs dom W Hb Hf it batch s q eq_refl Hv G Hbt Eq) as Hg.
      pose proof (feas_step pow23 P lmo variant SSublinear lipschitz bs dom W Hc Hf it batch s q G Hbt Eq ltac:(lra)) as G'.
      split; [exact G'|]. constructor; [|exact Fl]. split; [apply G'|exact Hg].
    - intros s log (A & B). split; [exact A|exact B].
    - split; [|constructor]. split; [exact Ws|]. split; [exact Hact|]. rewrite Ex. exact Hx. }
  destruct H as ((_ & _ & Hd) & F). rewrite Forall_forall in F. split; [|exact F].
  rewrite (result_x _ _ _ _ _ _ _ _ _ _ _ _ _ _ _ Ee). exact Hd.
Qed.

(** the Demyanov-Rubinov step of the SAG variant *)
Lemma dr_range (agg d : list R) (L : R) : 0 < L -> 0 <= - dot agg d -> 0 <= sfw_DR (K:=RN) (- dot agg d) d L 1 <= 1.
Proof.
  intros HL Hg. unfold sfw_DR. rewrite nminpy_R, vsum_R.
  assert (Hq : Rsum (map (nsq (K:=RN)) d) = dot d d).
  { clear. induction d as [|t d IH]; [reflexivity|]. cbn [map Rsum dot]. rewrite IH. reflexivity. }
  rewrite Hq. rn. pose proof (dot_self_nonneg d) as Hn.
  assert (Hr : 0 <= - dot agg d / (dot d d * L)).
  { destruct (Req_dec (dot d d) 0) as [Z|NZ].
    - rewrite Z, Rmult_0_l. unfold Rdiv. rewrite Rinv_0, Rmult_0_r. lra.
    - apply Rmult_le_pos; [exact Hg|]. left. apply Rinv_0_lt_compat. apply Rmult_lt_0_compat; lra. }
  split; [apply Rmin_glb; lra|apply Rmin_r].
Qed.
Lemma exact_gap d dom lmo (est x : list R) a o : lmo_exact d dom lmo -> length est = d -> length x = d -> dom x ->
  call_lmo lmo (vopp (K:=RN) est) x a = Ok o -> 0 <= - dot est (lmo_dir o).
Proof.
  intros Hl Le Lx Hx E. destruct (Hl (vopp (K:=RN) est) x a (eq_trans (map_length _ _) Le) Lx Hx) as (o' & E' & Lo & (Lm & Hm & Hmax) & _).
  rewrite E in E'. injection E' as <-. specialize (Hmax x (eq_trans (eq_trans Lx (eq_sym Le)) (eq_sym (map_length _ est))) Hx).
  rewrite vopp_R, !dot_smul_l in Hmax. unfold vplus in Hmax. rewrite dot_lin_r in Hmax.
  2:{ rewrite Lx, Le. reflexivity. } 2:{ exact (eq_trans Lo (eq_sym Le)). }
  lra.
Qed.
Lemma main_C65_feasible_DR_partial : forall (pow23 : R -> R) (P : problem RN) lmo (L : R) bs tol max_iter draws x0 (dom : list R -> Prop) (r : sfw_result RN),
  problem_wf P -> valid_draws (p_n P) bs draws -> convex_set (p_d P) dom -> lmo_exact (p_d P) dom lmo -> dom x0 -> 0 < L ->
  minimize_sfw (K:=RN) pow23 P lmo SAG SDR (Some L) bs tol Vanilla max_iter draws x0 = Ok r ->
  (* no direction vanishes: the code divides by its squared norm *)
  (forall q, In q (sr_log r) -> lmo_dir (si_lmo q) <> zeros (p_d P)) ->
  dom (sr_x r) /\ forall q, In q (sr_log r) -> dom (sw_x (si_next q)) /\ 0 <= si_gamma q <= 1.
Proof.
  intros pow23 P lmo L bs tol max_iter draws x0 dom r W V Hc Hl Hx HL E _. pose proof (lmo_exact_feasible _ _ _ Hl) as Hf.
  destruct (minimize_inv _ _ _ _ _ _ _ _ _ _ _ _ _ E) as (Hv & L0 & _ & a & s0 & _ & Ha & Es & Ee). specialize (Ha eq_refl). subst a.
  destruct (init_facts P SAG x0 None s0 W L0 Es) as (Ex & _ & _ & Hact & _ & Ws & _).
  destruct (epochs_bs _ _ _ _ _ _ _ _ _ _ _ _ _ _ _ Ee) as (Hb & _).
  assert (H : feas P SAG dom (sr_state r) /\ Forall (fun q : sfw_iter RN => dom (sw_x (si_next q)) /\ 0 <= si_gamma q <= 1) (sr_log r)).
  { refine (epochs_ind (K:=RN) pow23 P lmo SAG SDR (Some (L : carrier RN)) bs tol draws
      (fun (s : sfw_state RN) (log : list (sfw_iter RN)) => feas P SAG dom s /\ Forall (fun q : sfw_iter RN => dom (sw_x (si_next q)) /\ 0 <= si_gamma q <= 1) log) V _ _ _ _ _ _ _ _ Ee _).
    - intros it batch s log q Hbt (G & Fl) Eq. pose proof Hbt as (F & N & _).
      assert (Hg : 0 <= si_gamma q <= 1).
      { destruct (step_inv pow23 P lmo SAG SDR (Some (L : carrier RN)) bs W it batch s q (proj1 G) (feas_sized P lmo SAG dom Hf s G) F N Eq)
          as (_ & _ & _ & _ & (_ & _ & Lan & _) & _ & _ & _ & _ & (Lest & Hest) & Ec & Lo & Hg & _).
        destruct (G) as ((Lx & _) & _ & Hxs).
        destruct (feas_at P lmo SAG dom Hf s G _ _ (eq_trans (map_length _ _) Lest) Ec) as (_ & _ & Hms).
        assert (He : si_est q = sw_agg (si_next q)).
        { apply list_ext with (d := 0); [exact (eq_trans Lest (eq_sym Lan))|]. intros j Hj. apply Hest. rewrite <- Lest. exact Hj. }
        rewrite Hg. unfold gamma_of. rewrite Hms. apply dr_range; [exact HL|].
        rewrite <- He. apply (exact_gap (p_d P) dom lmo _ _ _ _ Hl Lest Lx Hxs Ec). }
      pose proof (feas_step pow23 P lmo SAG SDR (Some (L : carrier RN)) bs dom W Hc Hf it batch s q G Hbt Eq Hg) as G'.
      split; [exact G'|]. constructor; [|exact Fl]. split; [apply G'|exact Hg].
    - intros s log (A & B). split; [exact A|exact B].
    - split; [|constructor]. split; [exact Ws|]. split; [exact Hact|]. rewrite Ex. exact Hx. }
  destruct H as ((_ & _ & Hd) & F). rewrite Forall_forall in F. split; [|exact F].
  rewrite (result_x _ _ _ _ _ _ _ _ _ _ _ _ _ _ _ Ee). exact Hd.
Qed.

(** the run returns *)
Lemma bind_use {A B} (m : result A) (f : A -> result B) v w : m = Ok v -> f v = Ok w -> bind m f = Ok w.
Proof. intros -> E. exact E. Qed.
Lemma main_C65_returns : forall (pow23 : R -> R) (P : problem RN) lmo variant lipschitz bs tol max_iter draws x0 (dom : list R -> Prop),
  problem_wf P -> valid_draws (p_n P) bs draws -> convex_set (p_d P) dom -> lmo_feasible (p_d P) dom lmo -> dom x0 ->
  length x0 = p_d P -> variant <> OtherSfw -> (1 <= bs)%nat -> (1 <= max_iter)%nat ->
  exists r, minimize_sfw (K:=RN) pow23 P lmo variant SSublinear lipschitz bs tol Vanilla max_iter draws x0 = Ok r.
Proof.
  intros pow23 P lmo variant lipschitz bs tol max_iter draws x0 dom W V Hc Hf Hx L0 Hv Hb Hm.
  assert (Hi : exists s0, sfw_init (K:=RN) P variant x0 None = Ok s0).
  { unfold sfw_init. destruct variant; try (eexists; reflexivity).
    rewrite (mv_R P W x0 (seq 0 (p_n P)) L0) by (apply seq_lt; lia). eexists; reflexivity. }
  destruct Hi as (s0 & Es). destruct (init_facts P variant x0 None s0 W L0 Es) as (Ex & _ & _ & Hact & _ & Ws & _).
  destruct (epochs_total (K:=RN) pow23 P lmo variant SSublinear lipschitz bs tol draws (feas P variant dom) Hb V) with (k := max_iter) (it := 0%nat) (s := s0) (succ := false) (log := @nil (sfw_iter RN)) as (r & Er); auto.
  - intros it batch s Hbt G. pose proof Hbt as (F & N & _). destruct (G) as (Wq & Ha & Hxs).
    destruct (step_total pow23 P lmo variant SSublinear lipschitz bs W it batch s) as (q & Eq); auto.
    + left; auto.
    + apply (feasible_sized _ dom); [exact Hf|apply Wq|exact Hxs].
    + exists q. split; [exact Eq|].
      pose proof (sub_gamma pow23 P lmo variant SSublinear lipschitz bs dom W Hb Hf it batch s q eq_refl Hv G Hbt Eq) as Hg.
      apply (feas_step pow23 P lmo variant SSublinear lipschitz bs dom W Hc Hf it batch s q G Hbt Eq ltac:(lra)).
  - split; [exact Ws|]. split; [exact Hact|]. rewrite Ex. exact Hx.
  - exists r. unfold minimize_sfw. cbn [bind]. change (@length (carrier RN) x0) with (length x0). rewrite L0, Nat.eqb_refl. cbn [negb].
    destruct variant; try congruence; exact (bind_use _ _ _ _ Es Er).
Qed.
