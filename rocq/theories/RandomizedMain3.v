(** * The randomized solvers: closed statements (C60-C62, C83-C86) *)
From Coq Require Import ZArith Bool List Lia Permutation Reals Lra.
From Verif Require Import Num Vec Spec SpecSparse RVec ConvexFacts ModelPenalty PenaltyFacts PenaltyFacts2 PenaltyFacts3 UtilsMain ProxGradMain SplittingRuns ModelRandomized SpecFiniteSum RandomizedFacts RandomizedBlocks RandomizedSaga RandomizedSvrg RandomizedVrtos RandomizedFix RandomizedProx RandomizedPen RandomizedMain RandomizedMain2.
Import ListNotations.
Local Open Scope R_scope.

(** ** C60 *)
(** separable blocks (no penalty, l1): the extended support of a sample is its support *)
Lemma ext_eye {K : Num} (P : problem K) i j : problem_wf P -> (i < p_n P)%nat -> ext P (eye_ptr (p_d P)) i j -> In j (prow P i).
Proof.
  intros HP Hi D. apply (ext_spec P HP _ (partitions_eye (p_d P)) i j Hi) in D as (h & c & Hh & Hj & Hc & Hr).
  unfold eye_ptr in Hh. rewrite seq_length in Hh. rewrite blk_eye in Hj, Hc by lia. destruct Hj as [<-|[]]. destruct Hc as [<-|[]]. exact Hr.
Qed.
Lemma main_C60_svrg_bias_partial : forall (P : problem RN) (ptr : list nat) (B : blocks RN) (step : R) (snap gavg x tmp : list R) (xs : nat -> vec RN * vec RN) (j : nat),
  problem_wf P -> canonical P -> partitions ptr (p_d P) -> make_blocks P ptr = Ok B ->
  length snap = p_d P -> length x = p_d P -> length tmp = p_d P -> full_grad P snap = Ok gavg ->
  (forall i, (i < p_n P)%nat -> svrg_sample P B no_prox step snap gavg i (x, tmp) = Ok (xs i)) -> touched P ptr j ->
  exists share, 0 <= share <= 1 /\
    ((forall i, (i < p_n P)%nat -> sample_block P ptr i j -> In j (csr_row (p_indices P) (p_indptr P) i)) -> share = 0) /\
    / INR (p_n P) * Rsum (map (fun i => nth j x 0 - nth j (fst (xs i)) 0) (seq 0 (p_n P))) =
    step * (/ INR (p_n P) * Rsum (map (fun i => p_fd P (adot P i x) (nth i (p_b P) 0) * ent P i j) (seq 0 (p_n P))) + p_alpha P * nth j x 0 + share * nth j tmp 0).
Proof.
  intros P ptr B step snap gavg x tmp xs j HP HC Hq EB Ls Lx Lt Eg Hxs Ht.
  set (st := fun i => if ext_dec P ptr i j then if in_dec Nat.eq_dec j (prow P i) then 0 else 1 else 0).
  assert (Hn : 0 < INR (p_n P)) by (apply lt_0_INR; destruct Ht as (i & Hi & _); lia).
  assert (Hr : forall l, 0 <= Rsum (map st l) <= INR (length l)).
  { induction l as [|i l IH]; [cbn; lra|]. cbn [map Rsum length]. rewrite S_INR. unfold st at 1 3. destruct (ext_dec P ptr i j); [destruct (in_dec Nat.eq_dec j (prow P i))|]; lra. }
  exists (/ INR (p_n P) * Rsum (map st (seq 0 (p_n P)))). split.
  { specialize (Hr (seq 0 (p_n P))). rewrite seq_length in Hr. split.
    - apply Rmult_le_pos; [left; apply Rinv_0_lt_compat, Hn|apply Hr].
    - apply (Rmult_le_reg_l (INR (p_n P))); [exact Hn|]. rewrite <- Rmult_assoc, Rinv_r by lra. lra. }
  split. { intros H. rewrite (Rsum_zero st); [ring|]. intros i Hi. apply in_seq in Hi. unfold st. destruct (ext_dec P ptr i j) as [D|D]; [|reflexivity].
    destruct (in_dec Nat.eq_dec j (prow P i)) as [|N]; [reflexivity|]. exfalso. apply N, H; [lia|]. apply (ext_spec P HP ptr Hq i j ltac:(lia)), D. }
  pose proof (svrg_average P HP ptr Hq B EB step snap gavg x tmp xs j HC Ls Lx Lt Eg Hxs Ht) as A. eapply eq_trans; [exact A|]. unfold grad_F, mean_row, loss_deriv. fold st. apply f_equal, f_equal. apply Rmult_comm.
Qed.
Lemma main_C60_svrg_unbiased_separable_partial : forall (P : problem RN) (B : blocks RN) (step : R) (snap gavg x tmp : list R) (hist : list nat) (xs : nat -> vec RN * vec RN) (prox : sprox RN) (j : nat),
  problem_wf P -> canonical P -> make_blocks P (eye_ptr (p_d P)) = Ok B -> in_place prox ->
  length snap = p_d P -> full_grad P snap = Ok gavg -> Forall (fun i => (i < p_n P)%nat) hist ->
  (exists t0 : list R, length t0 = p_d P /\ svrg_epoch P B prox step snap gavg hist (snap, t0) = Ok (x, tmp)) ->
  (forall i, (i < p_n P)%nat -> svrg_sample P B no_prox step snap gavg i (x, tmp) = Ok (xs i)) -> touched P (eye_ptr (p_d P)) j ->
  / INR (p_n P) * Rsum (map (fun i => nth j x 0 - nth j (fst (xs i)) 0) (seq 0 (p_n P))) =
  step * (/ INR (p_n P) * Rsum (map (fun i => p_fd P (adot P i x) (nth i (p_b P) 0) * ent P i j) (seq 0 (p_n P))) + p_alpha P * nth j x 0).
Proof.
  intros P B step snap gavg x tmp hist xs prox j HP HC EB Hpl Ls Eg F (t0 & Lt0 & E) Hxs Ht. pose proof (partitions_eye (p_d P)) as Hq.
  destruct (full_grad_eq P HP snap Ls) as (g & Eg' & Lg). rewrite Eg in Eg'. apply Ok_inj in Eg'. subst g.
  destruct (svrg_epoch_len P HP _ Hq B EB prox step snap gavg (in_place_len B prox Hpl) Ls Lg hist F (snap, t0) (x, tmp) Ls Lt0 E) as (Lx & Lt). cbn [fst snd] in Lx, Lt.
  destruct (main_C60_svrg_bias_partial P _ B step snap gavg x tmp xs j HP HC Hq EB Ls Lx Lt Eg Hxs Ht) as (share & _ & Hz & A).
  rewrite A, Hz; [ring|]. intros i Hi D. apply (ext_eye P i j HP Hi). apply (ext_spec P HP _ Hq i j Hi), D.
Qed.

(** ** C61 *)
Lemma main_C61_vrtos_memory : forall (P : problem RN) (ptr1 ptr2 : list nat) (B1 B2 : blocks RN) (prox1 prox2 : sprox RN) (step : R) (x0 : list R) (hist : list nat) (s : vr_state RN),
  problem_wf P -> partitions ptr1 (p_d P) -> partitions ptr2 (p_d P) -> make_blocks P ptr1 = Ok B1 -> make_blocks P ptr2 = Ok B2 ->
  in_place prox1 -> in_place prox2 -> length x0 = p_d P -> Forall (fun i => (i < p_n P)%nat) hist ->
  vr_epoch P B1 B2 prox1 prox2 step hist (vr_init P x0) = Ok s ->
  (forall j, (j < p_d P)%nat -> nth j (vr_avg s) 0 = / INR (p_n P) * Rsum (map (fun i => nth i (vr_mem s) 0 * ent P i j) (seq 0 (p_n P)))) /\
  vr_tmp s = repeat 0 (p_d P) /\
  (forall i, (i < p_n P)%nat -> ~ In i hist -> nth i (vr_mem s) 0 = 0) /\
  (forall i h1 h2, (i < p_n P)%nat -> hist = h1 ++ i :: h2 -> ~ In i h2 ->
     exists s1, vr_epoch P B1 B2 prox1 prox2 step h1 (vr_init P x0) = Ok s1 /\ nth i (vr_mem s) 0 = p_fd P (adot P i (vr_z s1)) (nth i (p_b P) 0)).
Proof.
  intros P ptr1 ptr2 B1 B2 prox1 prox2 step x0 hist s HP Hq1 Hq2 EB1 EB2 Hp1 Hp2 Lx F E.
  pose proof (vr_init_len P x0 Lx) as L0. pose proof (in_place_len B1 prox1 Hp1) as H1. pose proof (in_place_len B2 prox2 Hp2) as H2.
  destruct (vr_epoch_minv P HP ptr1 ptr2 Hq1 Hq2 B1 B2 EB1 EB2 prox1 prox2 step H1 H2 hist F (vr_init P x0) s L0 (vr_init_inv P x0) E) as (I1 & I2).
  split; [exact I1|]. split; [exact I2|]. split.
  - intros i Hi N. destruct (vr_mem_hist P HP ptr1 ptr2 Hq1 Hq2 B1 B2 EB1 EB2 prox1 prox2 step H1 H2 hist (vr_init P x0) s L0 F E i Hi) as (A & _). eapply eq_trans; [exact (A N)|].
    cbn [vr_init vr_mem]. rewrite (vzeros_R (p_n P)). apply nth_zeros.
  - intros i h1 h2 Hi Eh N. destruct (vr_mem_hist P HP ptr1 ptr2 Hq1 Hq2 B1 B2 EB1 EB2 prox1 prox2 step H1 H2 hist (vr_init P x0) s L0 F E i Hi) as (_ & A).
    destruct (A h1 h2 Eh N) as (s1 & p & E1 & Ep & Em). exists s1. split; [exact E1|].
    assert (L1 : vr_len P s1). { eapply (vr_epoch_len P HP ptr1 ptr2 Hq1 Hq2 B1 B2 EB1 EB2); [exact H1|exact H2| |exact L0|exact E1]. subst hist. apply Forall_app in F. apply F. }
    rewrite row_dot_R in Ep by (try assumption; apply L1). apply Ok_inj in Ep. subst p. exact Em.
Qed.
(** [w1], [w2]: the reweighting of the block of feature j in each structure *)
Lemma main_C61_vrtos_average : forall (K : Num) (P : problem K) (ptr1 ptr2 : list nat) (B1 B2 : blocks K) (prox1 prox2 : sprox K) (step : K) (x0 : vec K) (hist : list nat) (s : vr_state K) (j h1 h2 : nat),
  problem_wf P -> partitions ptr1 (p_d P) -> partitions ptr2 (p_d P) -> make_blocks P ptr1 = Ok B1 -> make_blocks P ptr2 = Ok B2 ->
  in_place prox1 -> in_place prox2 -> length x0 = p_d P -> Forall (fun i => (i < p_n P)%nat) hist ->
  vr_epoch P B1 B2 prox1 prox2 step hist (vr_init P x0) = Ok s ->
  (S h1 < length ptr1)%nat -> In j (blk ptr1 h1) -> (S h2 < length ptr2)%nat -> In j (blk ptr2 h2) ->
  ((exists i, In i hist /\ (sample_block P ptr1 i j \/ sample_block P ptr2 i j)) ->
   let w1 := nth h1 (k_d B1) n0 in let w2 := nth h2 (k_d B2) n0 in
   nth j (vr_z s) n0 = ndiv K (nadd K (nmul K (ndiv K n1 w1) (nth j (vr_y0 s) n0)) (nmul K (ndiv K n1 w2) (nth j (vr_y1 s) n0))) (nadd K (ndiv K n1 w1) (ndiv K n1 w2))) /\
  ((forall i, In i hist -> ~ sample_block P ptr1 i j /\ ~ sample_block P ptr2 i j) ->
   nth j (vr_z s) n0 = nth j x0 n0 /\ nth j (vr_y0 s) n0 = n0 /\ nth j (vr_y1 s) n0 = n0).
Proof.
  intros K P ptr1 ptr2 B1 B2 prox1 prox2 step x0 hist s j h1 h2 HP Hq1 Hq2 EB1 EB2 Hp1 Hp2 Lx F E A1 A2 A3 A4.
  pose proof (vr_init_len P x0 Lx) as L0. pose proof (in_place_len B1 prox1 Hp1) as H1. pose proof (in_place_len B2 prox2 Hp2) as H2.
  destruct (vr_z_avg P HP ptr1 ptr2 Hq1 Hq2 B1 B2 EB1 EB2 prox1 prox2 step H1 H2 hist F (vr_init P x0) s L0 E j) as (Z1 & Z2).
  rewrite Forall_forall in F. split.
  - intros (i & Hi & D). cbv zeta. rewrite Z1.
    + unfold wavg. rewrite (rblocks_in _ _ _ _ Hq1 A1 A2), (rblocks_in _ _ _ _ Hq2 A3 A4). reflexivity.
    + exists i. split; [exact Hi|]. destruct D as [D|D]; [left; apply (ext_spec P HP ptr1 Hq1 i j (F i Hi)), D|right; apply (ext_spec P HP ptr2 Hq2 i j (F i Hi)), D].
  - intros N. destruct Z2 as (B1' & B2' & B3').
    + intros i Hi. destruct (N i Hi) as (N1 & N2). split; intros D; [apply N1, (ext_spec P HP ptr1 Hq1 i j (F i Hi)), D|apply N2, (ext_spec P HP ptr2 Hq2 i j (F i Hi)), D].
    + split; [exact B1'|]. assert (Z : forall m k, nth k (vzeros (K:=K) m) n0 = n0) by (intros; unfold vzeros; apply nth_repeat).
      split; [rewrite B2'; apply Z|rewrite B3'; apply Z].
Qed.

(** ** C62, C85: runs that never raise *)
Definition total_prox {K : Num} (P : problem K) (B : blocks K) (prox : sprox K) (step : K) : Prop :=
  forall x i, length x = p_d P -> (i < p_n P)%nat -> exists x', prox x i (k_bsi B) (k_bsp B) (k_d B) step = Ok x'.
Lemma stored_touched {K : Num} (P : problem K) ptr : problem_wf P -> partitions ptr (p_d P) ->
  (forall j, (j < p_d P)%nat -> exists i, (i < p_n P)%nat /\ In j (csr_row (p_indices P) (p_indptr P) i)) -> forall j, (j < p_d P)%nat -> touched P ptr j.
Proof.
  intros HP Hq H j Hj. destruct (H j Hj) as (i & Hi & Hr). destruct (rblocks_spec ptr (p_d P) j Hq Hj) as (A & B). exists i. split; [exact Hi|]. exists (nth j (rblocks ptr) 0%nat), j. auto.
Qed.
Lemma main_C62_vrtos_safe_partial : forall (K : Num) (P : problem K) (ptr1 ptr2 : list nat) (B1 B2 : blocks K) (prox1 prox2 : sprox K) (step tol : K) (x0 : vec K) (max_iter : nat) (perms : nat -> list nat),
  problem_wf P -> length (p_b P) = p_n P -> partitions ptr1 (p_d P) -> partitions ptr2 (p_d P) -> make_blocks P ptr1 = Ok B1 -> make_blocks P ptr2 = Ok B2 ->
  in_place prox1 -> in_place prox2 -> total_prox P B1 prox1 step -> total_prox P B2 prox2 step ->
  (forall j, (j < p_d P)%nat -> exists i, (i < p_n P)%nat /\ In j (csr_row (p_indices P) (p_indptr P) i)) ->
  nltb K step n0 = false -> length x0 = p_d P -> (0 < p_n P)%nat -> (0 < max_iter)%nat -> (forall k, Forall (fun i => (i < p_n P)%nat) (perms k)) ->
  exists r, minimize_vrtos P x0 step (Some prox1) (Some prox2) (Some ptr1) (Some ptr2) max_iter tol perms = Ok r.
Proof.
  intros K P ptr1 ptr2 B1 B2 prox1 prox2 step tol x0 max_iter perms HP Lb Hq1 Hq2 EB1 EB2 Hp1 Hp2 T1 T2 Hall Hst Lx Hn Hm Hperm.
  set (q1 := fun x i a b c (_ : K) => prox1 x i a b c step). set (q2 := fun x i a b c (_ : K) => prox2 x i a b c step).
  assert (H1 : prox_len B1 q1) by (intros x i st x' E'; eapply Hp1; exact E'). assert (H2 : prox_len B2 q2) by (intros x i st x' E'; eapply Hp2; exact E').
  assert (Hr : forall j, (j < p_d P)%nat -> in_range_d (K:=K) ptr1 ptr2 B1 B2 j = true).
  { intros j Hj. unfold in_range_d. apply andb_true_iff. split; apply Nat.ltb_lt.
    - apply (touched_range P HP ptr1 B1 j Hq1 EB1). apply stored_touched; auto.
    - apply (touched_range P HP ptr2 B2 j Hq2 EB2). apply stored_touched; auto. }
  assert (Tot : forall l, Forall (fun i => (i < p_n P)%nat) l -> forall s, vr_len P s -> exists s', vr_epoch P B1 B2 prox1 prox2 step l s = Ok s' /\ vr_len P s').
  { intros l Fl s Ls. apply (vr_epoch_total P HP ptr1 ptr2 Hq1 Hq2 B1 B2 EB1 EB2 q1 q2 step H1 H2); auto.
    - intros x i st Lx' Hi. apply T1; auto.
    - intros x i st Lx' Hi. apply T2; auto. }
  unfold minimize_vrtos. rewrite Lb, Nat.eqb_refl. cbn [negb]. rewrite Hst, EB1, EB2. cbn [bind].
  destruct (Tot [0%nat] ltac:(repeat constructor; exact Hn) (vr_init P x0) (vr_init_len P x0 Lx)) as (s & Es & Ls). rewrite Es. cbn [bind].
  clear Es. generalize [s] at 1. generalize 0%nat at 1. revert s Ls. induction max_iter as [|k IH]; [lia|]. intros s Ls it log. cbn [vr_loop].
  destruct (Tot (perms it) (Hperm it) s Ls) as (s' & Es & Ls'). rewrite Es. cbn [bind]. destruct k; [eauto|]. apply IH; [lia|exact Ls'].
Qed.
Lemma main_C85_saga_total : forall (K : Num) (P : problem K) (ptr : list nat) (B : blocks K) (prox : sprox K) (step tol : K) (x0 : vec K) (max_iter : nat) (perms : nat -> list nat),
  problem_wf P -> partitions ptr (p_d P) -> make_blocks P ptr = Ok B -> in_place prox -> total_prox P B prox step ->
  length x0 = p_d P -> (0 < max_iter)%nat -> (forall k, Forall (fun i => (i < p_n P)%nat) (perms k)) ->
  exists r, minimize_saga P x0 (Some step) (Some prox) (Some ptr) max_iter tol perms = Ok r.
Proof.
  intros K P ptr B prox step tol x0 max_iter perms HP Hq EB Hp T Lx Hm Hperm. unfold minimize_saga. rewrite EB. cbn [bind]. rewrite saga_loop_gen.
  apply (gen_loop_total_inv _ _ _ (saga_len P)); [|exact Hm|apply saga_init_len, Lx]. intros j t Lt.
  set (q := fun x i a b c (_ : K) => prox x i a b c step). assert (H1 : prox_len B q) by (intros x i st x' E'; eapply Hp; exact E').
  apply (saga_epoch_total P HP ptr Hq B EB q step (perms j) H1); auto. intros x i st Lx' Hi. apply T; auto.
Qed.
Lemma svrg_epoch_total {K : Num} (P : problem K) ptr B prox step (snap gavg : vec K) : problem_wf P -> partitions ptr (p_d P) -> make_blocks P ptr = Ok B -> in_place prox -> total_prox P B prox step ->
  length snap = p_d P -> length gavg = p_d P -> forall idx, Forall (fun i => (i < p_n P)%nat) idx -> forall s : vec K * vec K, length (fst s) = p_d P -> length (snd s) = p_d P ->
  exists s', svrg_epoch P B prox step snap gavg idx s = Ok s' /\ length (fst s') = p_d P /\ length (snd s') = p_d P.
Proof.
  intros HP Hq EB Hp T Ls Lg. unfold svrg_epoch. induction idx as [|i idx IH]; intros F s L1 L2; cbn [forM]; [eauto|].
  inversion F; subst. destruct s as [x tmp]. cbn [fst snd] in L1, L2.
  destruct (svrg_sample_eq P HP ptr Hq B EB prox step snap gavg i x tmp H1 Ls Lg L1 L2) as (p & q & x1 & tmp' & _ & _ & Lx & Lt & _ & _ & _ & E').
  destruct (T x1 i Lx H1) as (x2 & E2). assert (E3 := E'). rewrite E2 in E3. cbn [bind] in E3. rewrite E3. cbn [bind]. apply IH; cbn [fst snd]; auto.
  rewrite (Hp _ _ _ _ _ _ _ E2). exact Lx.
Qed.
Lemma main_C85_svrg_total : forall (K : Num) (P : problem K) (ptr : list nat) (B : blocks K) (prox : sprox K) (step tol : K) (x0 : vec K) (max_iter : nat) (perms : nat -> list nat),
  problem_wf P -> partitions ptr (p_d P) -> make_blocks P ptr = Ok B -> in_place prox -> total_prox P B prox step ->
  length x0 = p_d P -> (0 < max_iter)%nat -> (forall k, Forall (fun i => (i < p_n P)%nat) (perms k)) ->
  exists r, minimize_svrg P x0 (Some step) (Some prox) (Some ptr) max_iter tol perms = Ok r.
Proof.
  intros K P ptr B prox step tol x0 max_iter perms HP Hq EB Hp T Lx Hm Hperm. unfold minimize_svrg. rewrite EB. cbn [bind]. rewrite svrg_loop_gen.
  apply (gen_loop_total_inv _ _ _ (fun s : vec K * vec K => length (fst s) = p_d P /\ length (snd s) = p_d P)); [|exact Hm|cbn; unfold vzeros; rewrite repeat_length; auto].
  intros j t (L1 & L2). unfold svrg_ep. destruct (full_grad_eq P HP (fst t) L1) as (g & Eg & Lg). rewrite Eg. cbn [bind]. eapply svrg_epoch_total; eauto.
Qed.
(** the operators of prox_factory, and the default, never raise on the blocks built by the solver *)
Lemma main_C85_factory_total : forall (P : problem RN) (ptr : list nat) (B : blocks RN) (g : nat -> list R -> R) (prox : sprox RN) (step : R),
  sparse_prox_of P ptr B g prox -> 0 <= step -> total_prox P B prox step.
Proof. intros P ptr B g prox step H Hst x i Lx Hi. destruct (H x i step Hi Lx Hst) as (x' & E & _). exists x'. exact E. Qed.
