(** * The randomized solvers: points that do not move are minimizers (C83, C84, C86) *)
From Coq Require Import ZArith Bool List Lia Permutation Reals Lra.
From Verif Require Import Num Vec Spec SpecSparse RVec ConvexFacts ModelPenalty PenaltyFacts PenaltyFacts2 PenaltyFacts3 UtilsMain ProxGradMain SplittingRuns ModelRandomized SpecFiniteSum RandomizedFacts RandomizedBlocks RandomizedSaga RandomizedSvrg RandomizedVrtos RandomizedFix RandomizedProx RandomizedPen RandomizedMain RandomizedMain2 RandomizedMain3.
Import ListNotations.
Local Open Scope R_scope.

Lemma last_split (l : list nat) i : In i l -> exists h1 h2, l = h1 ++ i :: h2 /\ ~ In i h2.
Proof.
  induction l as [|a l IH]; [intros []|]. intros H. destruct (in_dec Nat.eq_dec i l) as [Hi|Hi].
  - destruct (IH Hi) as (h1 & h2 & -> & N). exists (a :: h1), h2. auto.
  - destruct H as [->|H]; [|contradiction]. exists [], l. auto.
Qed.
Section Saga.
Variable P : problem RN.
Hypothesis HP : problem_wf P.
Let n := p_n P.
Let d := p_d P.
Variables (ptr : list nat) (B : blocks RN) (prox : sprox RN) (step : R).
Hypothesis Hq : partitions ptr d.
Hypothesis EB : make_blocks P ptr = Ok B.
Hypothesis Hl : prox_len B prox.
Variable s : saga_state RN.
Hypothesis Ls : saga_len P s.
Hypothesis Is : saga_inv P s.
(** after a pass over all samples during which x does not move, the memory is current *)
Lemma still_memory h t : Forall (fun i => (i < n)%nat) h -> (forall i, (i < n)%nat -> In i h) -> saga_epoch P B prox step h s = Ok t ->
  (forall h1 h2 s1, h = h1 ++ h2 -> saga_epoch P B prox step h1 s = Ok s1 -> sa_x s1 = sa_x s) ->
  saga_len P t /\ saga_inv P t /\ sa_x t = sa_x s /\ sa_mem t = map (loss_deriv P (sa_x s)) (seq 0 n).
Proof.
  intros F C E St. assert (Lt : saga_len P t) by (eapply (saga_epoch_len P HP ptr Hq B EB); eauto).
  split; [exact Lt|]. split; [eapply (saga_epoch_inv P HP ptr Hq B EB); [exact Hl|exact F|exact Ls|exact Is|exact E]|]. split; [apply (St h [] t); [rewrite app_nil_r; reflexivity|exact E]|].
  apply (list_ext _ _ 0); [rewrite map_length, seq_length; apply Lt|]. intros i Hi. assert (Hi' : (i < n)%nat) by (unfold n; destruct Lt as (_ & <- & _); exact Hi).
  rewrite nth_mapseq by exact Hi'. destruct (last_split h i (C i Hi')) as (h1 & h2 & Eh & N).
  destruct (saga_mem_hist P HP ptr Hq B EB prox step Hl h s t Ls F E i Hi') as (_ & A). destruct (A h1 h2 Eh N) as (s1 & p & E1 & Ep & Em).
  assert (L1 : saga_len P s1). { eapply (saga_epoch_len P HP ptr Hq B EB); [exact Hl| |exact Ls|exact E1]. rewrite Eh in F. apply Forall_app in F. apply F. }
  rewrite row_dot_R in Ep by (try assumption; apply L1). apply Ok_inj in Ep. subst p. eapply eq_trans; [exact Em|]. rewrite (St h1 (i :: h2) s1 Eh E1). reflexivity.
Qed.
Lemma still_state h t h' t' : Forall (fun i => (i < n)%nat) h -> (forall i, (i < n)%nat -> In i h) -> saga_epoch P B prox step h s = Ok t ->
  (forall h1 h2 s1, h = h1 ++ h2 -> saga_epoch P B prox step h1 s = Ok s1 -> sa_x s1 = sa_x s) ->
  Forall (fun i => (i < n)%nat) h' -> (forall i, (i < n)%nat -> In i h') -> saga_epoch P B prox step h' s = Ok t' ->
  (forall h1 h2 s1, h' = h1 ++ h2 -> saga_epoch P B prox step h1 s = Ok s1 -> sa_x s1 = sa_x s) -> t = t'.
Proof.
  intros F C E St F' C' E' St'. destruct (still_memory h t F C E St) as (L1 & (I1 & I2) & X1 & M1). destruct (still_memory h' t' F' C' E' St') as (L1' & (I1' & I2') & X1' & M1').
  destruct t as [x m a tm], t' as [x' m' a' tm']. cbn [sa_x sa_mem sa_avg sa_tmp] in *. f_equal; try congruence.
  apply (list_ext a a' 0). { destruct L1 as (_ & _ & A & _), L1' as (_ & _ & A' & _). cbn in A, A'. eqR. congruence. }
  intros j Hj. assert (Hd : (j < d)%nat) by (destruct L1 as (_ & _ & A & _); cbn in A; unfold d; rewrite <- A; exact Hj).
  rewrite (I1 j Hd), (I1' j Hd), M1, M1'. reflexivity.
Qed.
End Saga.

Lemma main_C83_saga_fixed_points : forall (P : problem RN) (ptr : list nat) (B : blocks RN) (g : nat -> list R -> R) (prox : sprox RN) (step : R) (f : R -> R -> R) (x0 : list R)
  (hist pass1 pass2 : list nat) (s s' : saga_state RN),
  problem_wf P -> partitions ptr (p_d P) -> make_blocks P ptr = Ok B -> in_place prox ->
  (forall h, (S h < length ptr)%nat -> convex_on (length (blk ptr h)) (fun _ => True) (g h)) ->
  sparse_prox_of P ptr B g prox -> 0 < step -> (forall p q b, f q b >= f p b + p_fd P p b * (q - p)) -> 0 <= p_alpha P -> (0 < p_n P)%nat -> length x0 = p_d P ->
  Forall (fun i => (i < p_n P)%nat) hist -> saga_epoch P B prox step hist (saga_init P x0) = Ok s ->
  Permutation pass1 (seq 0 (p_n P)) -> Permutation pass2 (seq 0 (p_n P)) ->
  saga_epoch P B prox step (pass1 ++ pass2) s = Ok s' ->
  (forall h1 h2 s1, pass1 ++ pass2 = h1 ++ h2 -> saga_epoch P B prox step h1 s = Ok s1 -> sa_x s1 = sa_x s) ->
  forall y : list R, length y = p_d P -> (forall j, (j < p_d P)%nat -> ~ touched P ptr j -> nth j y 0 = nth j (sa_x s) 0) ->
  finite_sum P f (sa_x s) + block_penalty ptr g (sa_x s) <= finite_sum P f y + block_penalty ptr g y.
Proof.
  intros P ptr B g prox step f x0 hist pass1 pass2 s s' HP Hq EB Hpl Hcg Hsp Hst Hf Ha Hn Lx F E P1 P2 Ep St y Ly Hy.
  pose proof (saga_init_len P x0 Lx) as L0. pose proof (in_place_len B prox Hpl) as Hl.
  pose proof (saga_epoch_inv P HP ptr Hq B EB prox step hist Hl F (saga_init P x0) s L0 (saga_init_inv P x0) E) as Is.
  pose proof (saga_epoch_len P HP ptr Hq B EB prox step hist Hl F (saga_init P x0) s L0 E) as Ls.
  assert (C : forall q, Permutation q (seq 0 (p_n P)) -> Forall (fun i => (i < p_n P)%nat) q /\ forall i, (i < p_n P)%nat -> In i q).
  { intros q Pq. split; [apply Forall_forall; intros i Hi; apply (Permutation_in _ Pq) in Hi; apply in_seq in Hi; lia|].
    intros i Hi. apply (Permutation_in _ (Permutation_sym Pq)), in_seq. lia. }
  destruct (C pass1 P1) as (F1 & C1). destruct (C pass2 P2) as (F2 & C2).
  apply saga_epoch_app in Ep as (t & Et & Et').
  assert (St1 : forall h1 h2 s1, pass1 = h1 ++ h2 -> saga_epoch P B prox step h1 s = Ok s1 -> sa_x s1 = sa_x s).
  { intros h1 h2 s1 Eh. apply (St h1 (h2 ++ pass2)). rewrite Eh, app_assoc. reflexivity. }
  destruct (still_memory P HP ptr B prox step Hq EB Hl s Ls Is pass1 t F1 C1 Et St1) as (Lt & It & Xt & Mt).
  rewrite <- Xt. apply (saga_fixed P HP ptr B g prox step t f); auto.
  - intros i Hi. rewrite Mt. rewrite nth_mapseq by exact Hi. rewrite Xt. reflexivity.
  - intros i Hi. destruct (in_split i pass2 (C2 i Hi)) as (h1 & h2 & Eh).
    assert (Eh' : pass2 = (h1 ++ [i]) ++ h2) by (rewrite <- app_assoc; exact Eh).
    rewrite Eh' in Et'. apply saga_epoch_app in Et' as (t2 & Et2 & _). apply saga_epoch_app in Et2 as (t1 & Et1 & Et2).
    assert (Fh : Forall (fun i => (i < p_n P)%nat) (pass1 ++ h1)).
    { apply Forall_app. split; [exact F1|]. rewrite Eh in F2. apply Forall_app in F2. apply F2. }
    assert (Er : saga_epoch P B prox step (pass1 ++ h1) s = Ok t1) by (apply saga_epoch_app; exists t; auto).
    assert (t1 = t).
    { apply (still_state P HP ptr B prox step Hq EB Hl s Ls Is (pass1 ++ h1) t1 pass1 t); auto.
      - intros k Hk. apply in_or_app. left. auto.
      - intros a b s1 Eab. apply (St a (b ++ i :: h2)). rewrite app_assoc, <- Eab, Eh, app_assoc. reflexivity. }
    subst t1. unfold saga_epoch in Et2. cbn [forM] in Et2. apply bind_ok in Et2 as (t3 & E3 & E4). injection E4 as ->.
    exists t2. split; [exact E3|]. rewrite Xt. apply (St (pass1 ++ h1 ++ [i]) h2).
    + rewrite Eh', <- !app_assoc. reflexivity.
    + rewrite app_assoc. apply saga_epoch_app. exists t. split; [exact Er|]. unfold saga_epoch. cbn [forM]. rewrite E3. reflexivity.
  - rewrite Xt. exact Hy.
Qed.
