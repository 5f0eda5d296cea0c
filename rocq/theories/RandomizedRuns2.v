(** * The randomized solvers: concrete problems meeting the hypotheses of the theorems *)
From Coq Require Import ZArith Bool List Lia Permutation Reals Lra.
From Verif Require Import Num Vec Spec SpecSparse RVec ConvexFacts ModelPenalty PenaltyFacts PenaltyFacts2 PenaltyFacts3 UtilsMain ProxGradMain SplittingRuns ModelRandomized SpecFiniteSum RandomizedFacts RandomizedBlocks RandomizedSaga RandomizedSvrg RandomizedVrtos RandomizedFix RandomizedProx RandomizedPen RandomizedMain RandomizedRuns.
Import ListNotations.
Local Open Scope R_scope.

(** min (x-2)^2/2 + |x|, solution 1 *)
Definition lasso1 : problem RN := mkP (K:=RN) [1] [0]%nat [0; 1]%nat 1 1 [2] (fun p b => p - b) 0.
Definition lasso1_B : blocks RN := mkB (K:=RN) [0; 1]%nat [0]%nat [0; 1]%nat [1 / 1].
Definition half_sq (p b : R) : R := (p - b) * (p - b) / 2.
Lemma half_sq_convex p q b : half_sq q b >= half_sq p b + (p - b) * (q - p).
Proof. unfold half_sq. pose proof (Rle_0_sqr (q - p)). unfold Rsqr in *. nra. Qed.
Lemma lasso1_wf : problem_wf lasso1 /\ canonical lasso1 /\ make_blocks lasso1 (eye_ptr 1) = Ok lasso1_B.
Proof.
  split. { unfold problem_wf, csr_wf. cbn [lasso1 p_n p_d p_indices p_indptr p_data p_b]. wf_solve. }
  split. { intros i Hi. cbn in Hi. destruct i; [|lia]. cbn. repeat constructor. intros []. }
  rcomp. reflexivity.
Qed.
Lemma lasso1_prox (v : R) : v = 2 -> l1norm_sparse_prox (K:=RN) 1 [v] 0 [0]%nat [0;1]%nat [1/1] 1 = Ok [1].
Proof.
  intros ->. unfold l1norm_sparse_prox. cbn [get nth_error bind range seq Nat.sub forM]. unfold set. cbn [get nth_error bind Nat.ltb Nat.leb length upd].
  rewrite !nfmax_R. rn. rewrite Rmax_left, Rmax_right by lra. repeat f_equal. field.
Qed.
Lemma lasso1_saga m a : m = 0 /\ a = 0 \/ m = -1 /\ a = -1 ->
  saga_sample lasso1 lasso1_B (l1norm_sparse_prox (K:=RN) 1) 1 0 (mkSaga (K:=RN) [1] [m] [a] [0]) = Ok (mkSaga (K:=RN) [1] [-1] [-1] [0]).
Proof.
  intros H. set (px := l1norm_sparse_prox (K:=RN) 1).
  assert (Hpx : forall v : R, v = 2 -> px [v] 0%nat [0]%nat [0;1]%nat [1/1] 1 = Ok [1]) by (intros; apply lasso1_prox; assumption). clearbody px.
  cbv -[Rplus Rmult Rminus Ropp Rdiv Rinv IZR]. rewrite Hpx.
  - cbv -[Rplus Rmult Rminus Ropp Rdiv Rinv IZR]. repeat f_equal; destruct H as [(-> & ->)|(-> & ->)]; field.
  - destruct H as [(-> & ->)|(-> & ->)]; field.
Qed.
Lemma lasso1_svrg : full_grad lasso1 [1] = Ok [-1] /\
  svrg_sample lasso1 lasso1_B (l1norm_sparse_prox (K:=RN) 1) 1 [1] [-1] 0 ([1], [0]) = Ok ([1], [0]).
Proof.
  split; [rcomp; repeat f_equal; field|]. set (px := l1norm_sparse_prox (K:=RN) 1).
  assert (Hpx : forall v : R, v = 2 -> px [v] 0%nat [0]%nat [0;1]%nat [1/1] 1 = Ok [1]) by (intros; apply lasso1_prox; assumption). clearbody px.
  cbv -[Rplus Rmult Rminus Ropp Rdiv Rinv IZR]. rewrite Hpx; [|field].
  cbv -[Rplus Rmult Rminus Ropp Rdiv Rinv IZR]. repeat f_equal; field.
Qed.
Lemma prefix2 (h1 h2 : list nat) : [0; 0]%nat = h1 ++ h2 -> h1 = [] \/ h1 = [0%nat] \/ h1 = [0; 0]%nat.
Proof. intros E. destruct h1 as [|a [|b [|c h1]]]; cbn in E; [auto| | |]; [injection E as <- _; auto|injection E as <- <- _; auto|discriminate]. Qed.
(** hypotheses of C57, C58, C59, C83 *)
Lemma ex_saga : exists s, problem_wf lasso1 /\ canonical lasso1 /\ make_blocks lasso1 (eye_ptr 1) = Ok lasso1_B /\ touched lasso1 (eye_ptr 1) 0 /\
  (forall p q b, half_sq q b >= half_sq p b + p_fd lasso1 p b * (q - p)) /\
  saga_epoch lasso1 lasso1_B (l1norm_sparse_prox (K:=RN) 1) 1 [] (saga_init lasso1 [1]) = Ok (saga_init lasso1 [1]) /\
  saga_epoch lasso1 lasso1_B (l1norm_sparse_prox (K:=RN) 1) 1 ([0] ++ [0])%nat (saga_init lasso1 [1]) = Ok s /\
  (forall h1 h2 s1, ([0] ++ [0])%nat = h1 ++ h2 -> saga_epoch lasso1 lasso1_B (l1norm_sparse_prox (K:=RN) 1) 1 h1 (saga_init lasso1 [1]) = Ok s1 -> sa_x s1 = sa_x (saga_init lasso1 [1])) /\
  (forall j, (j < p_d lasso1)%nat -> exists i, (i < p_n lasso1)%nat /\ In j (csr_row (p_indices lasso1) (p_indptr lasso1) i)).
Proof.
  destruct lasso1_wf as (W & C & EB). eexists. split; [exact W|]. split; [exact C|]. split; [exact EB|].
  split. { exists 0%nat. split; [cbn; lia|]. exists 0%nat, 0%nat. cbn. auto. }
  split; [intros; apply half_sq_convex|]. split; [reflexivity|].
  assert (E1 : saga_sample lasso1 lasso1_B (l1norm_sparse_prox (K:=RN) 1) 1 0 (saga_init lasso1 [1]) = Ok (mkSaga (K:=RN) [1] [-1] [-1] [0])) by (apply (lasso1_saga 0 0); auto).
  assert (E2 := lasso1_saga (-1) (-1) (or_intror (conj eq_refl eq_refl))).
  split; [unfold saga_epoch; cbn [app forM]; rewrite E1; cbn [bind]; rewrite E2; cbn [bind]; reflexivity|].
  split. { intros h1 h2 s1 Eh. cbn [app] in Eh. unfold saga_epoch. destruct (prefix2 h1 h2 Eh) as [->|[->| ->]]; cbn [forM]; [intros E; injection E as <-; reflexivity| |]; rewrite E1; cbn [bind]; rewrite ?E2; cbn [bind]; intros E; injection E as <-; reflexivity. }
  intros j Hj. exists 0%nat. cbn in *. split; [lia|]. left. lia.
Qed.
(** hypotheses of C60 (separable), C86 *)
Lemma ex_svrg : problem_wf lasso1 /\ canonical lasso1 /\ make_blocks lasso1 (eye_ptr 1) = Ok lasso1_B /\ full_grad lasso1 [1] = Ok [-1] /\
  svrg_epoch lasso1 lasso1_B (l1norm_sparse_prox (K:=RN) 1) 1 [1] [-1] ([0] ++ [0])%nat ([1], zeros 1) = Ok ([1], [0]) /\
  (forall h1 h2 s1, ([0] ++ [0])%nat = h1 ++ h2 -> svrg_epoch lasso1 lasso1_B (l1norm_sparse_prox (K:=RN) 1) 1 [1] [-1] h1 ([1], zeros 1) = Ok s1 -> fst s1 = [1]).
Proof.
  destruct lasso1_wf as (W & C & EB). destruct lasso1_svrg as (Ef & E1). split; [exact W|]. split; [exact C|]. split; [exact EB|]. split; [exact Ef|].
  change (zeros 1) with [0]. split; [unfold svrg_epoch; cbn [app forM]; rewrite E1; cbn [bind]; rewrite E1; cbn [bind]; reflexivity|].
  intros h1 h2 s1 Eh. cbn [app] in Eh. unfold svrg_epoch. destruct (prefix2 h1 h2 Eh) as [->|[->| ->]]; cbn [forM]; [intros E; injection E as <-; reflexivity| |]; rewrite E1; cbn [bind]; rewrite ?E1; cbn [bind]; intros E; injection E as <-; reflexivity.
Qed.
(** VRTOS: min (x-1)^2/2 from 1 *)
Definition vr1 : problem RN := mkP (K:=RN) [1] [0]%nat [0; 1]%nat 1 1 [1] (fun p b => p - b) 0.
Lemma ex_vrtos : exists s : vr_state RN, problem_wf vr1 /\ make_blocks vr1 (eye_ptr 1) = Ok lasso1_B /\
  vr_epoch vr1 lasso1_B lasso1_B no_prox no_prox (1/2) [0%nat] (vr_init vr1 [1]) = Ok s /\ nth 0 (vr_y0 s) 0 = 1 /\
  nth 0 (vr_mem s) 0 = p_fd vr1 (adot vr1 0 (vr_z s)) (nth 0 (p_b vr1) 0) /\
  exists s', vr_sample vr1 lasso1_B lasso1_B no_prox no_prox (1/2) 0 s = Ok s' /\ vr_z s' = vr_z s /\ vr_y0 s' = vr_y0 s /\ vr_y1 s' = vr_y1 s.
Proof.
  exists (mkVr (K:=RN) [1] [1] [2] [2] [1] [0] [0] [0]).
  split. { unfold problem_wf, csr_wf. cbn [vr1 p_n p_d p_indices p_indptr p_data p_b]. wf_solve. }
  split; [rcomp; reflexivity|]. split; [rcomp; repeat f_equal; field|]. split; [reflexivity|]. split; [unfold adot, ent; rcomp; field|].
  exists (mkVr (K:=RN) [1] [1] [1] [1] [1] [0] [0] [0]). split; [rcomp; repeat f_equal; field|]. auto.
Qed.
