(** * The randomized solvers: closed statements (C57-C61, C85) *)
From Coq Require Import ZArith Bool List Lia Permutation Reals Lra.
From Verif Require Import Num Vec Spec SpecSparse RVec ConvexFacts ModelPenalty PenaltyFacts PenaltyFacts2 PenaltyFacts3 UtilsMain ProxGradMain SplittingRuns ModelRandomized SpecFiniteSum RandomizedFacts RandomizedBlocks RandomizedSaga RandomizedSvrg RandomizedVrtos RandomizedFix RandomizedProx RandomizedPen RandomizedMain.
Import ListNotations.
Local Open Scope R_scope.

(** ** C57 *)
Lemma main_C57_saga_memory : forall (P : problem RN) (ptr : list nat) (B : blocks RN) (prox : sprox RN) (step : R) (x0 : list R) (hist : list nat) (s : saga_state RN),
  problem_wf P -> partitions ptr (p_d P) -> make_blocks P ptr = Ok B -> in_place prox -> length x0 = p_d P ->
  Forall (fun i => (i < p_n P)%nat) hist -> saga_epoch P B prox step hist (saga_init P x0) = Ok s ->
  (forall j, (j < p_d P)%nat -> nth j (sa_avg s) 0 = / INR (p_n P) * Rsum (map (fun i => nth i (sa_mem s) 0 * ent P i j) (seq 0 (p_n P)))) /\
  sa_tmp s = repeat 0 (p_d P) /\
  (forall i, (i < p_n P)%nat -> ~ In i hist -> nth i (sa_mem s) 0 = 0) /\
  (forall i h1 h2, (i < p_n P)%nat -> hist = h1 ++ i :: h2 -> ~ In i h2 ->
     exists s1, saga_epoch P B prox step h1 (saga_init P x0) = Ok s1 /\ nth i (sa_mem s) 0 = p_fd P (adot P i (sa_x s1)) (nth i (p_b P) 0)).
Proof.
  intros P ptr B prox step x0 hist s HP Hq EB Hpl Lx F E.
  pose proof (saga_init_len P x0 Lx) as L0. pose proof (in_place_len B prox Hpl) as Hl.
  destruct (saga_epoch_inv P HP ptr Hq B EB prox step hist Hl F (saga_init P x0) s L0 (saga_init_inv P x0) E) as (I1 & I2).
  split; [exact I1|]. split; [exact I2|]. split.
  - intros i Hi N. destruct (saga_mem_hist P HP ptr Hq B EB prox step Hl hist (saga_init P x0) s L0 F E i Hi) as (A & _). eapply eq_trans; [exact (A N)|].
    cbn [saga_init sa_mem]. rewrite (vzeros_R (p_n P)). apply nth_zeros.
  - intros i h1 h2 Hi Eh N. destruct (saga_mem_hist P HP ptr Hq B EB prox step Hl hist (saga_init P x0) s L0 F E i Hi) as (_ & A).
    destruct (A h1 h2 Eh N) as (s1 & p & E1 & Ep & Em). exists s1. split; [exact E1|].
    assert (L1 : saga_len P s1). { eapply (saga_epoch_len P HP ptr Hq B EB); [exact Hl| |exact L0|exact E1]. subst hist. apply Forall_app in F. apply F. }
    rewrite row_dot_R in Ep by (try assumption; apply L1). apply Ok_inj in Ep. subst p. exact Em.
Qed.
Lemma saga_epochs_concat {K : Num} (P : problem K) B prox step (perms : nat -> list nat) (S0 : nat -> saga_state K) m :
  (forall k, (k <= m)%nat -> saga_epoch P B prox step (perms k) (S0 k) = Ok (S0 (S k))) ->
  forall k, (k <= S m)%nat -> saga_epoch P B prox step (concat (map perms (seq 0 k))) (S0 0%nat) = Ok (S0 k).
Proof.
  intros H. induction k as [|k IH]; intros Hk; [reflexivity|]. rewrite seq_S, map_app, concat_app. cbn [map concat Nat.add]. rewrite app_nil_r.
  unfold saga_epoch in *. rewrite forM_app, IH by lia. cbn [bind]. apply H. lia.
Qed.
(** every state of a run (the states seen by the callback) is a state of C57 *)
Lemma main_C57_saga_runs : forall (K : Num) (P : problem K) (x0 : vec K) (step : K) (prox : option (sprox K)) (ptr : option (list nat))
  (max_iter : nat) (tol : K) (perms : nat -> list nat) (r : epoch_result K (saga_state K)) (s : saga_state K),
  minimize_saga P x0 (Some step) prox ptr max_iter tol perms = Ok r -> In s (er_log r) ->
  exists (B : blocks K) (k : nat), make_blocks P (match ptr with Some q => q | None => eye_ptr (p_d P) end) = Ok B /\
    saga_epoch P B (match prox with Some q => q | None => no_prox end) step (concat (map perms (seq 0 k))) (saga_init P x0) = Ok s.
Proof.
  intros K P x0 step prox ptr max_iter tol perms r s E Hs.
  destruct (main_C69_saga_contract K P x0 (Some step) prox ptr max_iter tol perms r E) as (st & B & S0 & Es & EB & E0 & Ek & _ & _ & El & _).
  injection Es as <-. rewrite El in Hs. apply in_rev, in_map_iff in Hs as (k & <- & Hk). apply in_seq in Hk. exists B, k. split; [exact EB|].
  pose proof (saga_epochs_concat P B _ step perms S0 (er_nit r) Ek k ltac:(lia)) as H. rewrite E0 in H. exact H.
Qed.

(** ** C58 *)
(** the gradient step of a sample does not depend on the proximal operator, which is applied after it *)
Lemma main_C58_saga_step_then_prox : forall (K : Num) (P : problem K) (B : blocks K) (prox : sprox K) (step : K) (i : nat) (s s1 : saga_state K),
  saga_sample P B no_prox step i s = Ok s1 ->
  saga_sample P B prox step i s = (x2 <- prox (sa_x s1) i (k_bsi B) (k_bsp B) (k_d B) step ;; Ok (mkSaga x2 (sa_mem s1) (sa_avg s1) (sa_tmp s1))).
Proof.
  intros K P B prox step i s s1 E. unfold saga_sample in *. destruct (row_dot P (sa_x s) i) as [p|]; cbn [bind] in *; [|discriminate].
  destruct (get (p_b P) i) as [bi|]; cbn [bind] in *; [|discriminate]. destruct (get (sa_mem s) i) as [m|]; cbn [bind] in *; [|discriminate].
  destruct (set_tmp P i _ (sa_tmp s)) as [t|]; cbn [bind] in *; [|discriminate]. destruct (coef_update P B step (sa_avg s) t i (sa_x s)) as [x1|]; cbn [bind no_prox] in *; [|discriminate].
  destruct (saga_memory P i _ (sa_avg s) t) as [[a t']|]; cbn [bind] in *; [|discriminate]. destruct (set (sa_mem s) i _) as [m'|]; cbn [bind] in *; [|discriminate].
  injection E as <-. cbn [sa_x sa_mem sa_avg sa_tmp]. destruct (prox x1 i _ _ _ step); reflexivity.
Qed.
Lemma main_C58_saga_unbiased_partial : forall (P : problem RN) (ptr : list nat) (B : blocks RN) (prox : sprox RN) (step : R) (x0 : list R) (hist : list nat) (s : saga_state RN) (j : nat),
  problem_wf P -> canonical P -> partitions ptr (p_d P) -> make_blocks P ptr = Ok B -> in_place prox -> length x0 = p_d P ->
  Forall (fun i => (i < p_n P)%nat) hist -> saga_epoch P B prox step hist (saga_init P x0) = Ok s -> touched P ptr j ->
  exists dir : nat -> list R,
    (forall i, (i < p_n P)%nat -> exists s1, saga_sample P B no_prox step i s = Ok s1 /\ length (sa_x s1) = p_d P /\
       forall c, (c < p_d P)%nat -> nth c (sa_x s1) 0 = nth c (sa_x s) 0 - step * nth c (dir i) 0) /\
    / INR (p_n P) * Rsum (map (fun i => nth j (dir i) 0) (seq 0 (p_n P))) =
      / INR (p_n P) * Rsum (map (fun i => p_fd P (adot P i (sa_x s)) (nth i (p_b P) 0) * ent P i j) (seq 0 (p_n P))) + p_alpha P * nth j (sa_x s) 0.
Proof.
  intros P ptr B prox step x0 hist s j HP HC Hq EB Hpl Lx F E Ht. set (n := p_n P). set (d := p_d P).
  pose proof (saga_init_len P x0 Lx) as L0. pose proof (in_place_len B prox Hpl) as Hl. pose proof (in_place_len B no_prox no_prox_in_place) as Hl0.
  pose proof (saga_epoch_inv P HP ptr Hq B EB prox step hist Hl F (saga_init P x0) s L0 (saga_init_inv P x0) E) as I.
  pose proof (saga_epoch_len P HP ptr Hq B EB prox step hist Hl F (saga_init P x0) s L0 E) as L.
  (* the direction does not depend on the step: compute it at step 1 *)
  assert (Samp : forall st i, (i < n)%nat -> exists s1, saga_sample P B no_prox st i s = Ok s1 /\ length (sa_x s1) = d).
  { intros st i Hi. destruct (saga_sample_eq P HP ptr Hq B EB no_prox st i s Hi L) as (p & x1 & avg' & tmp' & _ & Lx1 & _ & _ & _ & _ & _ & _ & E').
    cbn [no_prox bind] in E'. eexists. split; [exact E'|]. exact Lx1. }
  set (one := fun i => match saga_sample P B no_prox 1 i s with Ok s1 => s1 | Err _ => s end).
  assert (Hone : forall i, (i < n)%nat -> saga_sample P B no_prox 1 i s = Ok (one i)).
  { intros i Hi. unfold one. destruct (Samp 1 i Hi) as (s1 & -> & _). reflexivity. }
  exists (fun i => map (fun c => nth c (sa_x s) 0 - nth c (sa_x (one i)) 0) (seq 0 d)). split.
  - intros i Hi. destruct (Samp step i Hi) as (s1 & E1 & L1). exists s1. split; [exact E1|]. split; [exact L1|]. intros c Hc. rewrite nth_mapseq by exact Hc.
    destruct (saga_sample_eq P HP ptr Hq B EB no_prox step i s Hi L) as (p & x1 & avg' & tmp' & Ep & _ & _ & _ & X1 & X2 & _ & _ & E').
    destruct (saga_sample_eq P HP ptr Hq B EB no_prox 1 i s Hi L) as (p' & x1' & avg'' & tmp'' & Ep' & _ & _ & _ & X1' & X2' & _ & _ & E'').
    rewrite E1 in E'. cbn [no_prox bind] in E'. apply Ok_inj in E'. rewrite E'. cbn [sa_x].
    rewrite (Hone i Hi) in E''. cbn [no_prox bind] in E''. apply Ok_inj in E''. rewrite E''. cbn [sa_x].
    rewrite Ep in Ep'. apply Ok_inj in Ep'. subst p'. destruct (ext_dec P ptr i c) as [D|D].
    + specialize (X1 c D). specialize (X1' c D). rn. rewrite X1, X1'. ring.
    + specialize (X2 c D). specialize (X2' c D). rn. rewrite X2, X2'. ring.
  - assert (Hn : (0 < n)%nat) by (destruct Ht as (i & Hi & _); unfold n; lia).
    destruct (touched_facts P HP ptr Hq B EB j Ht) as (_ & _ & _ & _ & Hj & _).
    pose proof (saga_unbiased P HP ptr Hq B EB 1 s one j HC L I Hone Ht Hn) as U. fold n in U. rewrite Rmult_1_l in U. eapply eq_trans; [|exact U].
    apply f_equal. apply Rsum_map_ext. intros i Hi. rewrite nth_mapseq by exact Hj. reflexivity.
Qed.

(** ** C59 *)
Lemma main_C59_saga_local_partial : forall (K : Num) (P : problem K) (ptr : list nat) (B : blocks K) (prox : sprox K) (step : K) (x0 : vec K) (hist : list nat) (s : saga_state K) (j : nat),
  problem_wf P -> partitions ptr (p_d P) -> make_blocks P ptr = Ok B -> in_place prox -> local_prox P ptr B (fun x i a b c _ => prox x i a b c step) -> length x0 = p_d P ->
  Forall (fun i => (i < p_n P)%nat) hist -> saga_epoch P B prox step hist (saga_init P x0) = Ok s ->
  (forall i, In i hist -> ~ sample_block P ptr i j) -> nth j (sa_x s) n0 = nth j x0 n0.
Proof.
  intros K P ptr B prox step x0 hist s j HP Hq EB Hpl Hloc Lx F E N. pose proof (saga_init_len P x0 Lx) as L0.
  set (px := fun x i a b c (_ : K) => prox x i a b c step) in *.
  assert (Hl : prox_len B px) by (intros x i st x' E'; eapply Hpl; exact E').
  apply (saga_untouched P HP ptr Hq B EB px step j Hl (local_prox_iff P ptr B px HP Hq Hloc) hist (saga_init P x0) s L0 F E).
  intros i Hi Hx. apply (N i Hi). rewrite Forall_forall in F. apply (ext_spec P HP ptr Hq i j (F i Hi)), Hx.
Qed.
Lemma main_C59_svrg_local_partial : forall (K : Num) (P : problem K) (ptr : list nat) (B : blocks K) (prox : sprox K) (step : K) (snap gavg : vec K) (hist : list nat) (x tmp x' tmp' : vec K) (j : nat),
  problem_wf P -> partitions ptr (p_d P) -> make_blocks P ptr = Ok B -> in_place prox -> local_prox P ptr B (fun x i a b c _ => prox x i a b c step) ->
  length snap = p_d P -> length x = p_d P -> length tmp = p_d P -> full_grad P snap = Ok gavg ->
  Forall (fun i => (i < p_n P)%nat) hist -> svrg_epoch P B prox step snap gavg hist (x, tmp) = Ok (x', tmp') ->
  (forall i, In i hist -> ~ sample_block P ptr i j) -> nth j x' n0 = nth j x n0.
Proof.
  intros K P ptr B prox step snap gavg hist x tmp x' tmp' j HP Hq EB Hpl Hloc Ls Lx Lt Eg F E N.
  destruct (full_grad_eq P HP snap Ls) as (g & Eg' & Lg). rewrite Eg in Eg'. apply Ok_inj in Eg'. subst g.
  set (px := fun x i a b c (_ : K) => prox x i a b c step) in *.
  assert (Hl : prox_len B px) by (intros y i st y' E'; eapply Hpl; exact E').
  apply (svrg_untouched P HP ptr Hq B EB px step snap gavg j Hl (local_prox_iff P ptr B px HP Hq Hloc) Ls Lg hist F (x, tmp) (x', tmp') Lx Lt E).
  intros i Hi Hx. apply (N i Hi). rewrite Forall_forall in F. apply (ext_spec P HP ptr Hq i j (F i Hi)), Hx.
Qed.
(** the operators of prox_factory satisfy the hypothesis: anything with their contract does *)
Lemma main_C59_factory_local : forall (P : problem RN) (ptr : list nat) (B : blocks RN) (g : nat -> list R -> R) (prox : sprox RN) (step : R),
  problem_wf P -> partitions ptr (p_d P) -> make_blocks P ptr = Ok B -> sparse_prox_of P ptr B g prox -> 0 <= step ->
  local_prox P ptr B (fun x i a b c _ => prox x i a b c step).
Proof.
  intros P ptr B g prox step HP Hq EB Hs Hst x i st x' Hi Lx E j N. exact (sparse_prox_local P HP ptr B g prox Hq EB Hs x i step x' Hi Lx Hst E j N).
Qed.
