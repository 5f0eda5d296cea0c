(** * Fixed points of SVRG and VRTOS; instances for the penalties of copt/penalty.py (C83, C84, C86) *)
From Coq Require Import ZArith Bool List Lia Permutation Reals Lra.
From Verif Require Import Num Vec Spec SpecSparse RVec ConvexFacts ModelPenalty PenaltyFacts PenaltyFacts2 PenaltyFacts3 UtilsMain ProxGradMain SplittingRuns ModelRandomized SpecFiniteSum RandomizedFacts RandomizedBlocks RandomizedSaga RandomizedSvrg RandomizedVrtos RandomizedFix RandomizedProx RandomizedPen RandomizedMain RandomizedMain2 RandomizedMain3 RandomizedMain4.
Import ListNotations.
Local Open Scope R_scope.

(** ** SAGA with the penalties *)
Lemma main_C83_saga_lasso : forall (P : problem RN) (B : blocks RN) (lam step : R) (f : R -> R -> R) (x0 : list R) (hist pass1 pass2 : list nat) (s s' : saga_state RN),
  problem_wf P -> make_blocks P (eye_ptr (p_d P)) = Ok B -> 0 <= lam ->
  0 < step -> (forall p q b, f q b >= f p b + p_fd P p b * (q - p)) -> 0 <= p_alpha P -> (0 < p_n P)%nat -> length x0 = p_d P ->
  let prox := l1norm_sparse_prox (K:=RN) lam in
  Forall (fun i => (i < p_n P)%nat) hist -> saga_epoch P B prox step hist (saga_init P x0) = Ok s ->
  Permutation pass1 (seq 0 (p_n P)) -> Permutation pass2 (seq 0 (p_n P)) ->
  saga_epoch P B prox step (pass1 ++ pass2) s = Ok s' ->
  (forall h1 h2 s1, pass1 ++ pass2 = h1 ++ h2 -> saga_epoch P B prox step h1 s = Ok s1 -> sa_x s1 = sa_x s) ->
  (forall j, (j < p_d P)%nat -> exists i, (i < p_n P)%nat /\ In j (csr_row (p_indices P) (p_indptr P) i)) ->
  forall y : list R, length y = p_d P ->
  finite_sum P f (sa_x s) + lam * l1 (sa_x s) <= finite_sum P f y + lam * l1 y.
Proof.
  intros P B lam step f x0 hist pass1 pass2 s s' HP EB Hlam Hst Hf Ha Hn Lx prox F E P1 P2 Ep St Hall y Ly. pose proof (partitions_eye (p_d P)) as Hq.
  assert (Ls : length (sa_x s) = p_d P).
  { apply (saga_epoch_len P HP _ Hq B EB prox step hist (in_place_len B prox (l1_in_place (K:=RN) lam)) F (saga_init P x0) s (saga_init_len P x0 Lx) E). }
  rewrite <- (l1_blocks (p_d P) lam (sa_x s) Ls), <- (l1_blocks (p_d P) lam y Ly).
  apply (main_C83_saga_fixed_points P (eye_ptr (p_d P)) B (fun _ v => lam * l1 v) prox step f x0 hist pass1 pass2 s s'); auto.
  - apply (l1_in_place (K:=RN)).
  - intros h Hh. apply l1_convexR, Hlam.
  - apply l1_sparse; auto.
  - intros j Hj N. exfalso. apply N. apply stored_touched; auto.
Qed.
(** group lasso: sum over the groups of alpha * ||x_G|| *)
Lemma main_C83_saga_group : forall (P : problem RN) (B : blocks RN) (lam step : R) (groups : list (list Z)) (data : list Z) (ptr : list nat) (f : R -> R -> R) (x0 : list R) (hist pass1 pass2 : list nat) (s s' : saga_state RN),
  problem_wf P -> group_init groups = Ok groups -> groups_within (p_d P) groups -> group_blocks groups (p_d P) = Ok (data, ptr) ->
  make_blocks P ptr = Ok B -> 0 <= lam ->
  0 < step -> (forall p q b, f q b >= f p b + p_fd P p b * (q - p)) -> 0 <= p_alpha P -> (0 < p_n P)%nat -> length x0 = p_d P ->
  let prox := group_sparse_prox (K:=RN) lam data ptr in
  let pen := block_penalty ptr (fun h v => if existsb (fun g => if list_eq_dec Nat.eq_dec (map Z.to_nat g) (blk ptr h) then true else false) groups then lam * norm2 v else 0) in
  Forall (fun i => (i < p_n P)%nat) hist -> saga_epoch P B prox step hist (saga_init P x0) = Ok s ->
  Permutation pass1 (seq 0 (p_n P)) -> Permutation pass2 (seq 0 (p_n P)) ->
  saga_epoch P B prox step (pass1 ++ pass2) s = Ok s' ->
  (forall h1 h2 s1, pass1 ++ pass2 = h1 ++ h2 -> saga_epoch P B prox step h1 s = Ok s1 -> sa_x s1 = sa_x s) ->
  forall y : list R, length y = p_d P -> (forall j, (j < p_d P)%nat -> ~ touched P ptr j -> nth j y 0 = nth j (sa_x s) 0) ->
  finite_sum P f (sa_x s) + pen (sa_x s) <= finite_sum P f y + pen y.
Proof.
  intros P B lam step groups data ptr f x0 hist pass1 pass2 s s' HP Hg Hw Hb EB Hlam Hst Hf Ha Hn Lx prox pen F E P1 P2 Ep St y Ly Hy.
  assert (Hq : partitions ptr (p_d P)).
  { destruct (group_blocks_spec _ groups Hg Hw) as (data' & ptr' & Hb' & _ & Hp & _). rewrite Hb in Hb'. injection Hb' as <- <-. exact Hp. }
  apply (main_C83_saga_fixed_points P ptr B _ prox step f x0 hist pass1 pass2 s s' HP Hq EB (group_in_place (K:=RN) lam data ptr)
    (fun h _ => group_convex ptr lam groups h Hlam) (group_sparse P HP lam groups data ptr B Hg Hw Hb Hlam EB) Hst Hf Ha Hn Lx F E P1 P2 Ep St y Ly Hy).
Qed.

(** ** SVRG *)
Section Svrg.
Variable P : problem RN.
Hypothesis HP : problem_wf P.
Let n := p_n P.
Let d := p_d P.
Variables (ptr : list nat) (B : blocks RN) (prox : sprox RN) (step : R).
Hypothesis Hq : partitions ptr d.
Hypothesis EB : make_blocks P ptr = Ok B.
Hypothesis Hl : prox_len B prox.
(** the scratch vector stays zero on the features stored in no sample *)
Definition unstored (j : nat) : Prop := forall i, (i < n)%nat -> ~ In j (prow P i).
Lemma svrg_unstored (snap gavg : list R) j : length snap = d -> length gavg = d -> unstored j -> forall h, Forall (fun i => (i < n)%nat) h ->
  forall s s' : vec RN * vec RN, length (fst s) = d -> length (snd s) = d -> svrg_epoch P B prox step snap gavg h s = Ok s' -> nth j (snd s') 0 = nth j (snd s) 0.
Proof.
  intros Lsn Lg U. unfold svrg_epoch. induction h as [|i h IH]; intros F s s' L1 L2 E; cbn [forM] in E; [injection E as <-; reflexivity|].
  inversion F; subst. apply bind_ok in E as (s1 & E1 & E2). destruct s as [x tmp]. cbn [fst snd] in *.
  destruct (svrg_sample_eq P HP ptr Hq B EB prox step snap gavg i x tmp H1 Lsn Lg L1 L2) as (p & q & x1 & tmp' & _ & _ & Lx & Lt & TV & _ & _ & E').
  assert (E3 := eq_trans (eq_sym E') E1). apply bind_ok in E3 as (x2 & Ex2 & E3). apply Ok_inj in E3. subst s1.
  eapply eq_trans; [apply (IH H2 (x2, tmp') s'); cbn [fst snd]; auto; rewrite (Hl _ _ _ _ Ex2); exact Lx|]. cbn [snd].
  eapply eq_trans; [apply TV|]. unfold tmp_val. apply (kfold_out P i j). apply U, H1.
Qed.
Definition svrg_epochs (eps : list (list nat)) (s : vec RN * vec RN) : result (vec RN * vec RN) :=
  forM eps (fun idx s => gavg <- full_grad P (fst s) ;; svrg_epoch P B prox step (fst s) gavg idx s) s.
Lemma svrg_epochs_inv eps : Forall (Forall (fun i => (i < n)%nat)) eps -> forall s s' : vec RN * vec RN, length (fst s) = d -> length (snd s) = d ->
  (forall j, unstored j -> nth j (snd s) 0 = 0) -> svrg_epochs eps s = Ok s' ->
  length (fst s') = d /\ length (snd s') = d /\ (forall j, unstored j -> nth j (snd s') 0 = 0).
Proof.
  unfold svrg_epochs. induction eps as [|e eps IH]; intros F s s' L1 L2 U E; cbn [forM] in E; [injection E as <-; auto|].
  inversion F; subst. apply bind_ok in E as (s1 & E1 & E2). apply bind_ok in E1 as (g & Eg & E1).
  destruct (full_grad_eq P HP (fst s) L1) as (g' & Eg' & Lg). rewrite Eg in Eg'. apply Ok_inj in Eg'. subst g'.
  destruct (svrg_epoch_len P HP ptr Hq B EB prox step (fst s) g Hl L1 Lg e H1 s s1 L1 L2 E1) as (M1 & M2).
  eapply (IH H2 s1 s'); auto. intros j Uj. eapply eq_trans; [apply (svrg_unstored (fst s) g j L1 Lg Uj e H1 s s1 L1 L2 E1)|apply U, Uj].
Qed.
(** passes during which x does not move clear the scratch vector *)
Lemma still_tmp (x gavg : list R) : length x = d -> length gavg = d -> forall h, Forall (fun i => (i < n)%nat) h -> forall (t : list R) (s' : vec RN * vec RN), length t = d ->
  svrg_epoch P B prox step x gavg h (x, t) = Ok s' ->
  (forall h1 h2 s1, h = h1 ++ h2 -> svrg_epoch P B prox step x gavg h1 (x, t) = Ok s1 -> fst s1 = x) ->
  fst s' = x /\ length (snd s') = d /\ forall j, ((exists i, In i h /\ In j (prow P i)) -> nth j (snd s') 0 = 0) /\ ((forall i, In i h -> ~ In j (prow P i)) -> nth j (snd s') 0 = nth j t 0).
Proof.
  intros Lx Lg. induction h as [|i h IH]; intros F t s' Lt E St.
  - unfold svrg_epoch in E. cbn [forM] in E. injection E as <-. cbn [fst snd]. split; [reflexivity|]. split; [exact Lt|]. intros j. split; [intros (i & [] & _)|reflexivity].
  - inversion F; subst. assert (Eall := E). unfold svrg_epoch in E. cbn [forM] in E. apply bind_ok in E as (s1 & E1 & E2).
    assert (X1 : fst s1 = x). { apply (St [i] h s1); [reflexivity|]. unfold svrg_epoch. cbn [forM]. rewrite E1. reflexivity. }
    destruct (svrg_sample_eq P HP ptr Hq B EB prox step x gavg i x t H1 Lx Lg Lx Lt) as (p & q & x1 & tmp' & Ep & Eq & Lx1 & Lt' & TV & _ & _ & E').
    assert (p = q) by (apply Ok_inj; eapply eq_trans; [symmetry; exact Ep|exact Eq]). subst q.
    assert (E3 := eq_trans (eq_sym E') E1). apply bind_ok in E3 as (x2 & Ex2 & E3). apply Ok_inj in E3. subst s1. cbn [fst] in X1. subst x2.
    destruct (IH H2 tmp' s' Lt' E2) as (R1 & R2 & R3).
    { intros h1 h2 s1 Eh Er. apply (St (i :: h1) h2 s1); [rewrite Eh; reflexivity|]. unfold svrg_epoch. cbn [forM]. rewrite E1. cbn [bind]. exact Er. }
    split; [exact R1|]. split; [exact R2|]. intros j. destruct (R3 j) as (A1 & A2).
    assert (T : (In j (prow P i) -> nth j tmp' 0 = 0) /\ (~ In j (prow P i) -> nth j tmp' 0 = nth j t 0)).
    { split; intros Hj; (eapply eq_trans; [apply TV|]); unfold tmp_val; [apply kfold_const; [exact Hj|intros; rn; ring]|apply (kfold_out P i j _ _ Hj)]. }
    split.
    + intros (k & [->|Hk] & Hj); [|apply A1; eauto].
      destruct (Exists_dec (fun i0 => In j (prow P i0)) h (fun i0 => in_dec Nat.eq_dec j (prow P i0))) as [Ex|Ex].
      * apply Exists_exists in Ex as (k2 & B1 & B2). apply A1. eauto.
      * rewrite A2; [apply T, Hj|]. intros i0 Hi0 Hj0. apply Ex. apply Exists_exists. eauto.
    + intros N. rewrite A2 by (intros; apply N; right; assumption). apply T, N. left; reflexivity.
Qed.
End Svrg.

Lemma main_C86_svrg_fixed_points : forall (P : problem RN) (ptr : list nat) (B : blocks RN) (g : nat -> list R -> R) (prox : sprox RN) (step : R) (f : R -> R -> R) (x0 : list R)
  (epochs : list (list nat)) (pass1 pass2 : list nat) (x t gavg : list R) (s' : vec RN * vec RN),
  problem_wf P -> partitions ptr (p_d P) -> make_blocks P ptr = Ok B -> in_place prox ->
  (forall h, (S h < length ptr)%nat -> convex_on (length (blk ptr h)) (fun _ => True) (g h)) ->
  sparse_prox_of P ptr B g prox -> 0 < step -> (forall p q b, f q b >= f p b + p_fd P p b * (q - p)) -> 0 <= p_alpha P -> (0 < p_n P)%nat -> length x0 = p_d P ->
  Forall (Forall (fun i => (i < p_n P)%nat)) epochs ->
  forM epochs (fun idx s => gavg <- full_grad P (fst s) ;; svrg_epoch P B prox step (fst s) gavg idx s) (x0, zeros (p_d P)) = Ok (x, t) ->
  Permutation pass1 (seq 0 (p_n P)) -> Permutation pass2 (seq 0 (p_n P)) ->
  full_grad P x = Ok gavg -> svrg_epoch P B prox step x gavg (pass1 ++ pass2) (x, t) = Ok s' ->
  (forall h1 h2 s1, pass1 ++ pass2 = h1 ++ h2 -> svrg_epoch P B prox step x gavg h1 (x, t) = Ok s1 -> fst s1 = x) ->
  forall y : list R, length y = p_d P -> (forall j, (j < p_d P)%nat -> ~ touched P ptr j -> nth j y 0 = nth j x 0) ->
  finite_sum P f x + block_penalty ptr g x <= finite_sum P f y + block_penalty ptr g y.
Proof.
  intros P ptr B g prox step f x0 epochs pass1 pass2 x t gavg s' HP Hq EB Hpl Hcg Hsp Hst Hf Ha Hn Lx0 Fe Ee P1 P2 Eg Ep St y Ly Hy.
  pose proof (in_place_len B prox Hpl) as Hl.
  destruct (svrg_epochs_inv P HP ptr B prox step Hq EB Hl epochs Fe (x0, zeros (p_d P)) (x, t) Lx0 (zeros_length _)) as (Lx & Lt & Ut).
  { intros j _. cbn [snd]. apply nth_zeros. } { exact Ee. } cbn [fst snd] in Lx, Lt, Ut.
  destruct (full_grad_eq P HP x Lx) as (g' & Eg' & Lg). rewrite Eg in Eg'. apply Ok_inj in Eg'. subst g'.
  assert (C : forall q, Permutation q (seq 0 (p_n P)) -> Forall (fun i => (i < p_n P)%nat) q /\ forall i, (i < p_n P)%nat -> In i q).
  { intros q Pq. split; [apply Forall_forall; intros i Hi; apply (Permutation_in _ Pq) in Hi; apply in_seq in Hi; lia|].
    intros i Hi. apply (Permutation_in _ (Permutation_sym Pq)), in_seq. lia. }
  destruct (C pass1 P1) as (F1 & C1). destruct (C pass2 P2) as (F2 & C2).
  assert (Eapp : forall a b s r, svrg_epoch P B prox step x gavg (a ++ b) s = Ok r <-> exists r1, svrg_epoch P B prox step x gavg a s = Ok r1 /\ svrg_epoch P B prox step x gavg b r1 = Ok r).
  { intros a b s r. unfold svrg_epoch. rewrite forM_app. destruct (forM a _ s) as [s1|e]; cbn [bind]; split.
    - intros H. exists s1. auto. - intros (r1 & H1 & H2). injection H1 as <-. exact H2. - discriminate. - intros (r1 & H1 & _). discriminate. }
  (* after the first pass the state is (x, 0) *)
  assert (Z : forall h r, Forall (fun i => (i < p_n P)%nat) h -> (forall i, (i < p_n P)%nat -> In i h) -> svrg_epoch P B prox step x gavg h (x, t) = Ok r ->
     (forall h1 h2 s1, h = h1 ++ h2 -> svrg_epoch P B prox step x gavg h1 (x, t) = Ok s1 -> fst s1 = x) -> r = (x, zeros (p_d P))).
  { intros h r Fh Ch Er Sh. destruct (still_tmp P HP ptr B prox step Hq EB x gavg Lx Lg h Fh t r Lt Er Sh) as (R1 & R2 & R3). destruct r as [xr tr]. cbn [fst snd] in *. subst xr. f_equal.
    apply (list_ext tr (zeros (p_d P)) 0); [rewrite zeros_length; exact R2|]. intros j _. rewrite nth_zeros. destruct (R3 j) as (A1 & A2).
    destruct (Exists_dec (fun i0 => In j (prow P i0)) h (fun i0 => in_dec Nat.eq_dec j (prow P i0))) as [Ex|Ex].
    - apply Exists_exists in Ex as (k & B1 & B2). apply A1. eauto.
    - rewrite A2 by (intros i0 Hi0 Hj0; apply Ex, Exists_exists; eauto). apply Ut. intros i Hi Hj. apply Ex, Exists_exists. eauto. }
  apply (svrg_fixed P HP ptr B g prox step x (zeros (p_d P)) gavg f); auto.
  - apply zeros_length.
  - intros. apply nth_zeros.
  - intros i Hi. destruct (in_split i pass2 (C2 i Hi)) as (h1 & h2 & Eh).
    assert (Eh' : pass1 ++ pass2 = ((pass1 ++ h1) ++ [i]) ++ h2) by (rewrite Eh, <- !app_assoc; reflexivity).
    rewrite Eh' in Ep. apply Eapp in Ep as (r2 & Er2 & _). assert (Er2' := Er2). apply Eapp in Er2 as (r1 & Er1 & Er2).
    assert (Er : r1 = (x, zeros (p_d P))).
    { apply (Z (pass1 ++ h1)); auto.
      - apply Forall_app. split; [exact F1|]. rewrite Eh in F2. apply Forall_app in F2. apply F2.
      - intros k Hk. apply in_or_app. left. auto.
      - intros a b s1 Eab. apply (St a (b ++ i :: h2)). rewrite Eh. rewrite !app_assoc, <- Eab. reflexivity. }
    subst r1. unfold svrg_epoch in Er2. cbn [forM] in Er2. apply bind_ok in Er2 as (r3 & E3 & E4). injection E4 as ->. exists r2. split; [exact E3|].
    apply (St ((pass1 ++ h1) ++ [i]) h2); [exact Eh'|exact Er2'].
Qed.

(** ** VRTOS *)
Lemma main_C84_vrtos_fixed_points : forall (P : problem RN) (ptr1 ptr2 : list nat) (B1 B2 : blocks RN) (g1 g2 : nat -> list R -> R) (prox1 prox2 : sprox RN) (step : R) (f : R -> R -> R) (x0 : list R)
  (hist : list nat) (s : vr_state RN),
  problem_wf P -> partitions ptr1 (p_d P) -> partitions ptr2 (p_d P) -> make_blocks P ptr1 = Ok B1 -> make_blocks P ptr2 = Ok B2 -> in_place prox1 -> in_place prox2 ->
  (forall h, (S h < length ptr1)%nat -> convex_on (length (blk ptr1 h)) (fun _ => True) (g1 h)) ->
  (forall h, (S h < length ptr2)%nat -> convex_on (length (blk ptr2 h)) (fun _ => True) (g2 h)) ->
  sparse_prox_of P ptr1 B1 g1 prox1 -> sparse_prox_of P ptr2 B2 g2 prox2 ->
  0 < step -> (forall p q b, f q b >= f p b + p_fd P p b * (q - p)) -> 0 <= p_alpha P -> (0 < p_n P)%nat -> length x0 = p_d P ->
  Forall (fun i => (i < p_n P)%nat) hist -> vr_epoch P B1 B2 prox1 prox2 step hist (vr_init P x0) = Ok s ->
  (forall i, (i < p_n P)%nat -> nth i (vr_mem s) 0 = p_fd P (adot P i (vr_z s)) (nth i (p_b P) 0)) ->
  (forall i, (i < p_n P)%nat -> exists s', vr_sample P B1 B2 prox1 prox2 step i s = Ok s' /\ vr_z s' = vr_z s /\ vr_y0 s' = vr_y0 s /\ vr_y1 s' = vr_y1 s) ->
  forall y : list R, length y = p_d P -> (forall j, (j < p_d P)%nat -> ~ (touched P ptr1 j /\ touched P ptr2 j) -> nth j y 0 = nth j (vr_z s) 0) ->
  finite_sum P f (vr_z s) + block_penalty ptr1 g1 (vr_z s) + block_penalty ptr2 g2 (vr_z s) <= finite_sum P f y + block_penalty ptr1 g1 y + block_penalty ptr2 g2 y.
Proof.
  intros P ptr1 ptr2 B1 B2 g1 g2 prox1 prox2 step f x0 hist s HP Hq1 Hq2 EB1 EB2 Hp1 Hp2 Hc1 Hc2 Hs1 Hs2 Hst Hf Ha Hn Lx F E Hm Hfix y Ly Hy.
  pose proof (vr_init_len P x0 Lx) as L0. pose proof (in_place_len B1 prox1 Hp1) as H1. pose proof (in_place_len B2 prox2 Hp2) as H2.
  apply (vr_fixed P HP ptr1 ptr2 B1 B2 g1 g2 prox1 prox2 step s f); auto.
  - eapply (vr_epoch_len P HP ptr1 ptr2 Hq1 Hq2 B1 B2 EB1 EB2); eauto.
  - eapply (vr_epoch_minv P HP ptr1 ptr2 Hq1 Hq2 B1 B2 EB1 EB2); [exact H1|exact H2|exact F|exact L0|apply vr_init_inv|exact E].
Qed.
(** FusedLasso.prox_1_factory and prox_2_factory: the total-variation penalty *)
Lemma main_C84_vrtos_fused_lasso : forall (P : problem RN) (lam : R) (data1 data2 : list Z) (ptr1 ptr2 : list nat) (B1 B2 : blocks RN) (step : R) (f : R -> R -> R) (x0 : list R)
  (hist : list nat) (s : vr_state RN),
  problem_wf P -> (1 <= p_d P)%nat -> fused_blocks_1 (p_d P) = Ok (data1, ptr1) -> fused_blocks_2 (p_d P) = Ok (data2, ptr2) -> 0 <= lam ->
  make_blocks P ptr1 = Ok B1 -> make_blocks P ptr2 = Ok B2 ->
  0 < step -> (forall p q b, f q b >= f p b + p_fd P p b * (q - p)) -> 0 <= p_alpha P -> (0 < p_n P)%nat -> length x0 = p_d P ->
  let prox1 := fused_sparse_prox (K:=RN) lam data1 ptr1 in let prox2 := fused_sparse_prox (K:=RN) lam data2 ptr2 in
  Forall (fun i => (i < p_n P)%nat) hist -> vr_epoch P B1 B2 prox1 prox2 step hist (vr_init P x0) = Ok s ->
  (forall i, (i < p_n P)%nat -> nth i (vr_mem s) 0 = p_fd P (adot P i (vr_z s)) (nth i (p_b P) 0)) ->
  (forall i, (i < p_n P)%nat -> exists s', vr_sample P B1 B2 prox1 prox2 step i s = Ok s' /\ vr_z s' = vr_z s /\ vr_y0 s' = vr_y0 s /\ vr_y1 s' = vr_y1 s) ->
  (forall j, (j < p_d P)%nat -> exists i, (i < p_n P)%nat /\ In j (csr_row (p_indices P) (p_indptr P) i)) ->
  forall y : list R, length y = p_d P -> finite_sum P f (vr_z s) + lam * tv (vr_z s) <= finite_sum P f y + lam * tv y.
Proof.
  intros P lam data1 data2 ptr1 ptr2 B1 B2 step f x0 hist s HP Hd Fb1 Fb2 Hlam EB1 EB2 Hst Hf Ha Hn Lx prox1 prox2 F E Hm Hfix Hall y Ly.
  assert (Hq : partitions ptr1 (p_d P) /\ partitions ptr2 (p_d P)).
  { destruct (fused_structs (p_d P) Hd) as (d1 & p1 & d2 & p2 & E1 & E2 & L1 & L2 & _ & _ & A1 & A2 & _). rewrite E1 in Fb1. rewrite E2 in Fb2. injection Fb1 as <- <-. injection Fb2 as <- <-. auto. }
  destruct Hq as (Hq1 & Hq2).
  assert (Lz : length (vr_z s) = p_d P).
  { apply (vr_epoch_len P HP ptr1 ptr2 Hq1 Hq2 B1 B2 EB1 EB2 prox1 prox2 step (in_place_len B1 prox1 (fused_in_place (K:=RN) lam data1 ptr1)) (in_place_len B2 prox2 (fused_in_place (K:=RN) lam data2 ptr2)) hist F (vr_init P x0) s (vr_init_len P x0 Lx) E). }
  rewrite <- (fused_blocks_tv (p_d P) data1 ptr1 data2 ptr2 lam (vr_z s) Fb1 Fb2 Hd Lz), <- (fused_blocks_tv (p_d P) data1 ptr1 data2 ptr2 lam y Fb1 Fb2 Hd Ly), <- !Rplus_assoc.
  apply (main_C84_vrtos_fixed_points P ptr1 ptr2 B1 B2 (fun _ v => lam * tv v) (fun _ v => lam * tv v) prox1 prox2 step f x0 hist s); auto.
  - apply (fused_in_place (K:=RN)).
  - apply (fused_in_place (K:=RN)).
  - intros h Hh. apply tv_convex, Hlam.
  - intros h Hh. apply tv_convex, Hlam.
  - apply (fused_sparse P HP true lam data1 ptr1 B1); auto.
  - apply (fused_sparse P HP false lam data2 ptr2 B2); auto.
  - intros j Hj N. exfalso. apply N. split; apply stored_touched; auto.
Qed.
