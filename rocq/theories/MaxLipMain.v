(** * get_max_lipschitz *)
From Coq Require Import ZArith Reals List Bool Lra Lia.
From Verif Require Import Num Vec Spec RVec SpecLoss ModelTv ModelLoss ModelMaxLip LossMain2.
Import ListNotations.
Open Scope R_scope.

Lemma main_C121_unimplemented_refuted : forall (K : Num) (A : matrix K) (loss : loss_name) (alpha : K),
  loss <> NLogloss -> exists e, get_max_lipschitz A loss alpha = Err e /\ (m_rows A <> [] -> e = NotImplementedError).
Proof.
  intros K A loss alpha Hl. unfold get_max_lipschitz.
  assert (Hm : m_rows A <> [] -> exists v, npmax (map (fun r => vdot (K:=K) r r) (m_rows A)) = Ok v).
  { intros Hr. destruct (m_rows A) as [|r l]; [congruence|]. cbn [map npmax]. eexists. reflexivity. }
  destruct (npmax _) as [m|e] eqn:E; cbn [bind].
  - destruct loss; [congruence| | |]; exists NotImplementedError; auto.
  - exists e. split; [reflexivity|]. intros Hr. destruct (Hm Hr) as (v & Hv). discriminate Hv.
Qed.

Lemma main_C121_logloss_partial : forall (A0 : option (matrix RN)) (A : matrix RN) (b : list R) (alpha : R),
  log_init (K:=RN) A0 b = Ok A -> rect (m_cols A) (m_rows A) -> 0 <= alpha -> (0 < m_cols A)%nat ->
  exists M : R, get_max_lipschitz (K:=RN) A NLogloss alpha = Ok M /\
  (forall (i : nat) (r : list R) (bi : R), nth_error (m_rows A) i = Some r -> nth_error b i = Some bi ->
   forall x y gx gy, length x = m_cols A -> length y = m_cols A ->
    is_gradient (m_cols A) (ridge alpha (fun w => log_term bi (dot r w))) x gx ->
    is_gradient (m_cols A) (ridge alpha (fun w => log_term bi (dot r w))) y gy ->
    norm2 (vminus gx gy) <= M * norm2 (vminus x y)) /\
  exists (i : nat) (r : list R) (bi : R), nth_error (m_rows A) i = Some r /\ nth_error b i = Some bi /\
  forall M' : R, (forall x y gx gy, length x = m_cols A -> length y = m_cols A ->
    is_gradient (m_cols A) (ridge alpha (fun w => log_term bi (dot r w))) x gx ->
    is_gradient (m_cols A) (ridge alpha (fun w => log_term bi (dot r w))) y gy ->
    norm2 (vminus gx gy) <= M' * norm2 (vminus x y)) -> M <= M'.
Proof.
  intros A0 A b alpha Hi HA Ha Hc. destruct (main_C23_max_log A0 A b alpha Hi HA Ha) as (M & E & H).
  exists M. split; [exact E|]. split; [exact H|]. exact (main_C23_max_log_tight A0 A b alpha M Hi HA Hc E).
Qed.
