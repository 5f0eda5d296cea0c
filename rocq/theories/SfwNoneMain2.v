(** * minimize_sfw: the default steps with L1Ball.lmo in the pairwise variant, and the pairs of L1Ball.lmo_pairwise (C133) *)
From Coq Require Import ZArith Bool List Reals Lra Lia.
From Verif Require Import Num Vec Spec SpecSparse RVec ModelConstraint ModelPenalty ModelUtilsArr ModelFrankWolfe ModelRandomized SpecFiniteSum ModelSfw SpecSfw SfwFacts SfwMain2 FloatSfw ModelFwNone FwNoneMain ModelSfwNone SfwNoneMain.
Import ListNotations.
Local Open Scope R_scope.

Lemma first_step (pow23 : R -> R) variant bs n : (1 <= bs)%nat -> (1 <= n)%nat -> variant = SAG \/ variant = SAGA \/ variant = LF ->
  @eq R (fst (sfw_sizes (K:=RN) pow23 variant bs n 0)) 1.
Proof.
  intros Hb Hn. assert (Hb' : 1 <= INR bs) by (apply (le_INR 1); exact Hb). assert (Hn' : 1 <= INR n) by (apply (le_INR 1); exact Hn).
  intros [->|[->| ->]]; unfold sfw_sizes; cbn [fst]; unfold nofnat; rn; try (cbn; lra).
  rewrite <- !INR_IZR_INZ. cbn [INR]. change (Z.of_nat 0) with 0%Z. cbn [Z.of_nat]. set (m := INR n / INR bs). assert (0 < m) by (apply Rdiv_lt_0_compat; lra). field. lra.
Qed.
Section Sub.
Variables (pow23 : R -> R) (P : problem RN) (lmo : lmo_fun RN) (variant : sfw_variant) (lipschitz : option RN) (bs : nat) (tol : R) (draws : nat -> list nat).
Hypotheses (Hv : valid_draws (p_n P) bs draws) (Hb : (1 <= bs)%nat) (Hvar : variant = SAG \/ variant = SAGA \/ variant = LF).
Definition gsum (log : list (sfw_iter RN)) : R := Rsum (map (fun q : sfw_iter RN => si_gamma q : R) log).
Definition Jg (s : sfw_state RN) (log : list (sfw_iter RN)) : Prop :=
  length (sw_agg s) = p_d P /\ Forall (fun q : sfw_iter RN => 0 <= si_gamma q) log /\ (log = [] -> sw_t s = 0%nat) /\ (log <> [] -> 1 <= gsum log) /\ ((2 <= length log)%nat -> 1 < gsum log).
Lemma Jg_run k r s0 : Jg s0 [] -> sfw_epochs (K:=RN) pow23 P lmo variant SSublinear lipschitz bs tol draws k 0 s0 false [] = Ok r -> Jg (sr_state r) (sr_log r).
Proof.
  intros H0 E. refine (epochs_ind2 (K:=RN) pow23 P lmo variant SSublinear lipschitz bs tol draws Jg (fun s log => log <> [] /\ Jg s log) Hv _ _ _ _ _ _ _ _ _ E H0).
  - intros it batch s log q Hbt (La & Hg & Ht & H1 & H2) Eq. destruct (sfw_shape _ _ _ _ _ _ _ _ _ _ _ Eq La) as (_ & _ & _ & _ & La' & Et & _ & Hq). specialize (Hq eq_refl).
    pose proof (batch_pos _ _ _ Hbt Hb) as Hn.
    assert (Hv' : variant <> OtherSfw) by (destruct Hvar as [->|[->| ->]]; discriminate).
    pose proof (gamma_range pow23 variant bs (p_n P) (sw_t s) Hb Hn Hv') as Hr. rewrite <- Hq in Hr.
    split; [discriminate|]. split; [exact La'|]. split; [constructor; [apply Rlt_le, Hr|exact Hg]|]. split; [discriminate|].
    unfold gsum. cbn [map Rsum]. fold (gsum log). destruct log as [|q0 log].
    + rewrite (Ht eq_refl) in Hq. split; [|cbn [length]; lia]. intros _. rewrite Hq, (first_step pow23 variant bs (p_n P) Hb Hn Hvar). cbn. lra.
    + specialize (H1 ltac:(discriminate)). split; intros _; change (0 < (si_gamma q : R) <= 1) in Hr; lra.
  - intros s log (_ & H). exact H.
  - intros s log (Hne & A & B & C & D). split; [exact A|]. split; [exact B|]. split; [intros ->; congruence|exact D].
Qed.
End Sub.
Lemma main_C133_sublinear_partial : forall (pow23 : R -> R) (P : problem RN) (alpha : R) variant lipschitz bs tol max_iter draws (x0_rep : okey RN) (x0 : list R) (r : sfw_result RN),
  valid_draws (p_n P) bs draws -> variant = SAG \/ variant = SAGA \/ variant = LF ->
  minimize_sfw (K:=RN) pow23 P (l1_oracle (K:=RN) alpha) variant SSublinear lipschitz bs tol Vanilla max_iter draws x0 = Ok r ->
  (match x0_rep with None => 2 | Some _ => 1 end <= length (sr_log r))%nat ->
  minimize_sfw_pairwise (K:=RN) pow23 P (l1_lmo_o (K:=RN) alpha) variant SSublinear lipschitz bs tol x0_rep max_iter draws x0 = Err ValueError.
Proof.
  intros pow23 P alpha variant lipschitz bs tol max_iter draws x0_rep x0 r V Hvar Hr Hl.
  destruct (minimize_inv _ _ _ _ _ _ _ _ _ _ _ _ _ Hr) as (_ & L0 & _ & a0 & s0 & _ & Hna & Es & Ee).
  destruct (epochs_bs _ _ _ _ _ _ _ _ _ _ _ _ _ _ _ Ee) as (Hb & _).
  assert (H0 : Jg P s0 []).
  { unfold sfw_init in Es. apply bind_ok in Es as (sg & _ & Es). injection Es as <-. split; [apply repeat_length|]. split; [constructor|]. split; [reflexivity|]. split; [congruence|cbn; lia]. }
  destruct (Jg_run pow23 P _ variant lipschitz bs tol draws V Hb Hvar _ _ _ H0 Ee) as (_ & Hg & _ & H1 & H2).
  destruct (main_C133_vanilla_oracle_partial pow23 P alpha variant SSublinear lipschitz bs tol max_iter draws x0_rep x0 r Hr Hg) as (_ & H). apply H.
  destruct x0_rep; [|apply H2, Hl]. apply Rlt_le_trans with 1; [lra|]. apply H1. intros E. rewrite E in Hl. cbn in Hl. lia.
Qed.

(** ** L1Ball.lmo_pairwise with a vertex representation: the keys are pairs throughout *)
Section Pairs.
Context {K : Num}.
Definition lift (a : option (active K)) (s : sfw_state K) : sfw_state K := mkSfw (sw_x s) (sw_dual s) (sw_agg s) (sw_sigma s) a (sw_t s).
Variables (pow23 : K -> K) (P : problem K) (alpha : K) (variant : sfw_variant) (rule : sfw_rule) (lipschitz : option K) (bs : nat) (tol : K).
Local Notation lmoP := (l1_pairwise_oracle alpha).
Local Notation lmoO := (l1_pairwise_o alpha).
Local Notation closed a := (Lmo3 (fun u x _ => l1_pairwise_o alpha u x (embed a))).
Lemma call_close a u x : call_lmo lmoP u x (Some a) = call_lmo (closed a) u x None.
Proof. cbn [call_lmo l1_pairwise_oracle]. rewrite pairwise_embed. reflexivity. Qed.
Lemma dual_close asz batch s a : sw_active s = None ->
  sfw_dual_update P lmoP variant asz batch (lift (Some a) s) = sfw_dual_update P (closed a) variant asz batch s.
Proof. intros Hs. unfold sfw_dual_update. cbn [lift sw_x sw_dual sw_agg sw_sigma sw_active]. rewrite Hs, call_close. reflexivity. Qed.
Lemma step_close it batch s a : sw_active s = None ->
  sfw_step pow23 P lmoP variant rule lipschitz bs it batch (lift (Some a) s) =
  match sfw_step pow23 P (closed a) variant rule lipschitz bs it batch s with
  | Err e => Err e
  | Ok r => match lmo_fw (si_lmo r), lmo_away (si_lmo r) with
            | Some fw, Some aw => a' <- update_active_set a fw aw (si_gamma r) ;;
                Ok (mkSfwI it batch (lift (Some a) s) (si_est r) (si_lmo r) (si_gamma r) (lift (Some a') (si_next r)))
            | _, _ => Err TypeError end
  end.
Proof.
  intros Hs. unfold sfw_step. change (sw_t (lift (Some a) s)) with (sw_t s). change (sw_dual (lift (Some a) s)) with (sw_dual s).
  destruct (match rule with SSublinear => _ | SDR => _ | SOther => _ end) as [sizes|e]; [|reflexivity]. cbn [bind].
  destruct (gather (sw_dual s) batch) as [prev|e]; [|reflexivity]. cbn [bind].
  rewrite (dual_close _ batch s a Hs). cbn [lift sw_x sw_dual sw_agg sw_sigma sw_active sw_t]. rewrite Hs.
  destruct (sfw_dual_update P (closed a) variant _ batch s) as [[[dual sigma] lf]|e]; [|reflexivity]. cbn [bind].
  destruct (gather dual batch) as [new|e]; [|reflexivity]. cbn [bind].
  destruct (fast_csr_vm _ _ _ _ _ batch) as [u|e]; [|reflexivity]. cbn [bind]. rewrite !call_close.
  match goal with |- context [bind ?m _] => destruct m as [[est o]|e] end; [|reflexivity]. cbn [bind si_lmo].
  destruct (lmo_fw o) as [fw|]; [|reflexivity]. destruct (lmo_away o) as [aw|]; [|reflexivity]. cbn [si_gamma si_est si_next].
  match goal with |- bind (bind (update_active_set a fw aw ?g) _) _ = _ => destruct (update_active_set a fw aw g) as [a'|e] end; reflexivity.
Qed.
Definition same (l1 l2 : list (sfw_iter K)) : Prop := map (fun q => (si_gamma q, si_est q, sw_x (si_next q))) l1 = map (fun q => (si_gamma q, si_est q, sw_x (si_next q))) l2.
Lemma closed_keys it batch s a r : sfw_step pow23 P (closed a) variant rule lipschitz bs it batch s = Ok r -> exists f w, lmo_fw (si_lmo r) = Some f /\ lmo_away (si_lmo r) = Some w.
Proof. intros E. destruct (step_lmo _ _ _ _ _ _ _ _ _ _ _ E) as (u & Eu). cbn [call_lmo] in Eu. rewrite pairwise_embed in Eu. apply (pairwise_keys _ _ _ _ _ Eu). Qed.
Lemma step_none it batch s a r : sfw_step pow23 P (closed a) variant rule lipschitz bs it batch s = Ok r -> sw_active s = None -> si_prev r = s /\ sw_active (si_next r) = None.
Proof.
  intros E Hs. unfold sfw_step in E. apply bind_ok in E as (sizes & _ & E). apply bind_ok in E as (prev & _ & E). apply bind_ok in E as ([[dual sigma] lf] & _ & E).
  apply bind_ok in E as (new & _ & E). apply bind_ok in E as (u & _ & E). apply bind_ok in E as ([est o] & _ & E). rewrite Hs in E. cbn [bind] in E. injection E as <-. split; reflexivity.
Qed.
Lemma while_pairs : forall fuel idx it i s a succ log1 log, sw_active s = None -> same log1 log ->
  match sfw_while pow23 P lmoP variant rule lipschitz bs tol fuel idx it i (lift (Some a) s) succ log1 with
  | Ok (s1, b, log1') => exists s' a' log', s1 = lift (Some a') s' /\ sw_active s' = None /\ same log1' log' /\
      sfwo_while pow23 P lmoO variant rule lipschitz bs tol fuel idx it i s (embed a) succ log = Ok (s', embed a', b, log')
  | Err e => sfwo_while pow23 P lmoO variant rule lipschitz bs tol fuel idx it i s (embed a) succ log = Err e
  end.
Proof.
  induction fuel as [|fuel IH]; intros idx it i s a succ log1 log Hs Hl; [reflexivity|]. cbn [sfw_while sfwo_while].
  destruct (Nat.ltb i (length idx)); [|exists s, a, log; auto].
  rewrite (step_close _ _ s a Hs). unfold sfwo_step at 1. 
  assert (U0 : sfwo_step pow23 P lmoO variant rule lipschitz bs it (slice idx i (Nat.min (i + bs) (p_n P))) s (embed a) =
     match sfw_step pow23 P (closed a) variant rule lipschitz bs it (slice idx i (Nat.min (i + bs) (p_n P))) s with
     | Ok r => a' <- update_active_set_o (embed a) (lmo_fw (si_lmo r)) (lmo_away (si_lmo r)) (si_gamma r) ;; Ok (r, a') | Err e => Err e end) by (unfold sfwo_step; destruct (sfw_step _ _ _ _ _ _ _ _ _ _); reflexivity).
  unfold sfwo_step. destruct (sfw_step pow23 P (closed a) variant rule lipschitz bs it (slice idx i (Nat.min (i + bs) (p_n P))) s) as [r|e] eqn:Er; [|reflexivity]. cbn [bind].
  destruct (closed_keys _ _ _ _ _ Er) as (f & w & -> & ->). destruct (step_none _ _ _ _ _ Er Hs) as (Hp & Hn). rewrite update_embed.
  destruct (update_active_set a f w (si_gamma r)) as [a'|e]; [|reflexivity]. cbn [bind].
  set (r1 := mkSfwI _ _ _ _ _ _ _). assert (Em : sfw_moved r1 = sfw_moved r) by (unfold sfw_moved, r1; cbn [si_next si_prev lift sw_x]; rewrite Hp; reflexivity). rewrite Em.
  assert (Hl' : same (r1 :: log1) (r :: log)) by (unfold same in *; cbn [map]; f_equal; exact Hl).
  destruct (nltb K (sfw_moved r) tol).
  - exists (si_next r), a', (r :: log). auto.
  - apply (IH idx it (i + bs)%nat (sfw_tick (si_next r)) a' succ (r1 :: log1) (r :: log)); [exact Hn|exact Hl'].
Qed.
Lemma epochs_pairs draws : forall k it s a succ log1 log, sw_active s = None -> same log1 log ->
  match sfw_epochs pow23 P lmoP variant rule lipschitz bs tol draws k it (lift (Some a) s) succ log1 with
  | Ok r => exists r' a', sw_active (sr_state r) = Some a' /\ sr_x r' = sr_x r /\ sr_success r' = sr_success r /\ sr_nit r' = sr_nit r /\ same (sr_log r) (sr_log r') /\
      sfwo_epochs pow23 P lmoO variant rule lipschitz bs tol draws k it s (embed a) succ log = Ok (r', embed a')
  | Err e => sfwo_epochs pow23 P lmoO variant rule lipschitz bs tol draws k it s (embed a) succ log = Err e
  end.
Proof.
  induction k as [|k IH]; intros it s a succ log1 log Hs Hl; [reflexivity|]. cbn [sfw_epochs sfwo_epochs]. destruct (Nat.eqb bs 0); [reflexivity|].
  pose proof (while_pairs (Datatypes.S (length (draws it))) (draws it) it 0%nat s a succ log1 log Hs Hl) as H.
  destruct (sfw_while _ _ _ _ _ _ _ _ _ _ _ _ _ _ _) as [[[s1 b] log1']|e]; [|rewrite H; reflexivity]. destruct H as (s' & a' & log' & -> & Hs' & Hl' & ->). cbn [bind].
  destruct k as [|k].
  - exists (mkSfwR (sw_x s') b it log' s'), a'. split; [reflexivity|]. repeat (split; [reflexivity|]). split; [exact Hl'|reflexivity].
  - apply (IH (Datatypes.S it) s' a' b log1' log' Hs' Hl').
Qed.
End Pairs.
Lemma epochs_pairs' {K : Num} pow23 (P : problem K) alpha variant rule lipschitz bs tol draws max_iter r0 s : sw_active s = None ->
  match sfw_epochs pow23 P (l1_pairwise_oracle alpha) variant rule lipschitz bs tol draws max_iter 0 (lift (Some [(r0, n1)]) s) false [] with
  | Ok r => exists (r' : sfw_result K) a', sw_active (sr_state r) = Some a' /\
      sfwo_epochs pow23 P (l1_pairwise_o alpha) variant rule lipschitz bs tol draws max_iter 0 s [(Some r0, n1)] false [] = Ok (r', map (fun kv => (Some (fst kv), snd kv)) a') /\
      sr_x r' = sr_x r /\ sr_success r' = sr_success r /\ sr_nit r' = sr_nit r /\
      map (fun q => (si_gamma q, si_est q, sw_x (si_next q))) (sr_log r) = map (fun q => (si_gamma q, si_est q, sw_x (si_next q))) (sr_log r')
  | Err e => sfwo_epochs pow23 P (l1_pairwise_o alpha) variant rule lipschitz bs tol draws max_iter 0 s [(Some r0, n1)] false [] = Err e
  end.
Proof.
  intros Hn. pose proof (epochs_pairs pow23 P alpha variant rule lipschitz bs tol draws max_iter 0%nat s [(r0, n1)] false [] [] Hn eq_refl) as H.
  destruct (sfw_epochs _ _ _ _ _ _ _ _ _ _ _ _ _ _) as [r|e]; [|exact H].
  destruct H as (r' & a' & H1 & H2 & H3 & H4 & H5 & H6). exists r', a'. split; [exact H1|]. split; [exact H6|]. auto.
Qed.
Lemma main_C133_pairs_partial : forall (K : Num) (pow23 : K -> K) (P : problem K) (alpha : K) variant rule lipschitz bs tol (r0 : rep K) max_iter draws (x0 : vec K),
  match minimize_sfw pow23 P (l1_pairwise_oracle alpha) variant rule lipschitz bs tol (Pairwise r0) max_iter draws x0 with
  | Ok r => exists (r' : sfw_result K) a', sw_active (sr_state r) = Some a' /\
      minimize_sfw_pairwise pow23 P (l1_pairwise_o alpha) variant rule lipschitz bs tol (Some r0) max_iter draws x0 = Ok (r', map (fun kv => (Some (fst kv), snd kv)) a') /\
      sr_x r' = sr_x r /\ sr_success r' = sr_success r /\ sr_nit r' = sr_nit r /\
      map (fun q => (si_gamma q, si_est q, sw_x (si_next q))) (sr_log r) = map (fun q => (si_gamma q, si_est q, sw_x (si_next q))) (sr_log r')
  | Err e => minimize_sfw_pairwise pow23 P (l1_pairwise_o alpha) variant rule lipschitz bs tol (Some r0) max_iter draws x0 = Err e
  end.
Proof.
  intros K pow23 P alpha variant rule lipschitz bs tol r0 max_iter draws x0. unfold minimize_sfw, minimize_sfw_pairwise. cbn [bind].
  destruct variant eqn:Ev; try reflexivity; rewrite <- Ev; (destruct (negb _); [reflexivity|]).
  all: assert (Ei : sfw_init P variant x0 (Some [(r0, n1)]) = match sfw_init P variant x0 None with Ok s => Ok (lift (Some [(r0, n1)]) s) | Err e => Err e end)
    by (unfold sfw_init; destruct (match variant with LF => _ | _ => _ end); reflexivity).
  all: assert (Hn : forall s, sfw_init P variant x0 None = Ok s -> sw_active s = None) by (unfold sfw_init; intros s E; apply bind_ok in E as (sg & _ & E); injection E as <-; reflexivity).
  all: rewrite Ei; destruct (sfw_init P variant x0 None) as [s|e]; [|reflexivity]; cbn [bind]; specialize (Hn s eq_refl).
  all: pose proof (epochs_pairs' pow23 P alpha variant rule lipschitz bs tol draws max_iter r0 s Hn) as H.
  all: destruct rule, lipschitz; try reflexivity; exact H.
Qed.
