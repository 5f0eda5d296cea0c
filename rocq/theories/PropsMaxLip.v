(** * Property C121: utils.get_max_lipschitz *)
From Coq Require Import ZArith Reals List Bool Lra Lia.
From Verif Require Import Num Vec Spec RVec SpecLoss ModelTv ModelLoss ModelMaxLip LossLink LossMain LossMain2 MaxLipMain.
Import ListNotations.
Open Scope R_scope.

(** C121.  Full property (false): for each loss the documentation lists ("logloss", "square", "huber"),
    get_max_lipschitz returns a Lipschitz constant of the gradient of every sample's loss.  For "square"
    and "huber" it raises NotImplementedError.  For "logloss" it returns the best such constant. *)
Theorem C121_unimplemented_refuted : forall (K : Num) (A : matrix K) (loss : loss_name) (alpha : K),
  loss <> NLogloss -> exists e, get_max_lipschitz A loss alpha = Err e /\ (m_rows A <> [] -> e = NotImplementedError).
Proof. exact main_C121_unimplemented_refuted. Qed.
Print Assumptions C121_unimplemented_refuted.
Theorem C121_logloss_partial : forall (A0 : option (matrix RN)) (A : matrix RN) (b : list R) (alpha : R),
  log_init (K:=RN) A0 b = Ok A -> rect (m_cols A) (m_rows A) -> 0 <= alpha -> (0 < m_cols A)%nat ->
  exists M : R, get_max_lipschitz (K:=RN) A NLogloss alpha = Ok M /\
  (forall (i : nat) (r : list R) (bi : R), nth_error (m_rows A) i = Some r -> nth_error b i = Some bi ->
   forall x y gx gy, length x = m_cols A -> length y = m_cols A ->
    is_gradient (m_cols A) (ridge alpha (fun w => log_term bi (dot r w))) x gx ->
    is_gradient (m_cols A) (ridge alpha (fun w => log_term bi (dot r w))) y gy ->
    norm2 (vminus gx gy) <= M * norm2 (vminus x y)) /\
  exists (i : nat) (r : list R) (bi : R), nth_error (m_rows A) i = Some r /\ nth_error b i = Some bi /\
  forall M' : R, (forall x y gx gy, length x = m_cols A -> length y = m_cols A ->
    is_gradient (m_cols A) (ridge alpha (fun w => log_term bi (dot r w))) x gx ->
    is_gradient (m_cols A) (ridge alpha (fun w => log_term bi (dot r w))) y gy ->
    norm2 (vminus gx gy) <= M' * norm2 (vminus x y)) -> M <= M'.
Proof. exact main_C121_logloss_partial. Qed.
Print Assumptions C121_logloss_partial.
Example C121_nonvacuous : let A := mkMat (K:=RN) [[3; 4]; [0; 0]] 2 in
  rect (m_cols A) (m_rows A) /\ log_init (K:=RN) (Some A) [0; 1] = Ok A /\ get_max_lipschitz (K:=RN) A NLogloss 1 = Ok (29 / 4) /\
  get_max_lipschitz (K:=RN) A NSquare 1 = Err NotImplementedError.
Proof.
  cbv zeta. split; [repeat constructor|]. split; [apply log_init_R; split; [discriminate|]; split; [repeat constructor; lra|reflexivity]|].
  destruct (row_max [[3; 4]; [0; 0]]) as (m & E & U & i & r & Er & Em); [discriminate|]. unfold get_max_lipschitz. cbn [m_rows]. rewrite E. cbn [bind].
  split; [|reflexivity]. f_equal. rewrite nlit_R.
  pose proof (U [3; 4] (or_introl eq_refl)) as U1. apply nth_error_In in Er. cbn in U1. destruct Er as [<-|[<-|[]]]; cbn in Em; rn; lra.
Qed.
