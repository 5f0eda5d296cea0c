(** * The sparse proximal operators of copt/penalty.py in the randomized solvers *)
From Coq Require Import ZArith Bool List Lia Reals Lra FunctionalExtensionality.
From Verif Require Import Num Vec Spec SpecSparse RVec ConvexFacts ModelPenalty PenaltyFacts PenaltyFacts2 PenaltyFacts3 UtilsMain ModelRandomized SpecFiniteSum RandomizedFacts RandomizedBlocks RandomizedSaga RandomizedSvrg RandomizedVrtos RandomizedFix.
Import ListNotations.
Local Open Scope R_scope.

Lemma forM_len {K : Num} {A} (l : list A) (f : A -> vec K -> result (vec K)) : (forall a x x', f a x = Ok x' -> length x' = length x) ->
  forall x x', forM l f x = Ok x' -> length x' = length x.
Proof.
  intros Hf. induction l as [|a l IH]; intros x x' E; cbn [forM] in E; [injection E as <-; reflexivity|].
  apply bind_ok in E as (x1 & E1 & E2). apply IH in E2. apply Hf in E1. congruence.
Qed.
Lemma set_len {A} (l : list A) i v l' : set l i v = Ok l' -> length l' = length l.
Proof. unfold set. destruct (Nat.ltb i (length l)); [|discriminate]. intros E. injection E as <-. apply upd_length. Qed.

Lemma Rsum_le_map {A} (f g : A -> R) l : (forall a, In a l -> f a <= g a) -> Rsum (map f l) <= Rsum (map g l).
Proof.
  induction l as [|a l IH]; intros H; cbn [map Rsum]; [lra|]. specialize (IH (fun b Hb => H b (or_intror Hb))). specialize (H a (or_introl eq_refl)). lra.
Qed.
Lemma no_prox_in_place {K : Num} : in_place (@no_prox K).
Proof. intros x i a b c st x' E. injection E as <-. reflexivity. Qed.
Lemma l1_in_place {K : Num} (alpha : K) : in_place (l1norm_sparse_prox alpha).
Proof.
  intros x i a b c st x' E. unfold l1norm_sparse_prox in E. apply bind_ok in E as (lo & _ & E). apply bind_ok in E as (hi & _ & E).
  eapply forM_len; [|exact E]. intros j y y' E'. apply bind_ok in E' as (k & _ & E'). apply bind_ok in E' as (xj & _ & E'). apply bind_ok in E' as (dj & _ & E').
  eapply set_len; exact E'.
Qed.
Lemma group_in_place {K : Num} (alpha : K) bdata bptr : in_place (group_sparse_prox alpha bdata bptr).
Proof.
  intros x i a b c st x' E. unfold group_sparse_prox in E. apply bind_ok in E as (lo & _ & E). apply bind_ok in E as (hi & _ & E).
  eapply forM_len; [|exact E]. intros j y y' E'. apply bind_ok in E' as (h & _ & E'). unfold gl_block in E'.
  apply bind_ok in E' as (l0 & _ & E'). apply bind_ok in E' as (fl & _ & E'). destruct (fl <=? 0)%Z; [injection E' as <-; reflexivity|].
  apply bind_ok in E' as (dh & _ & E'). apply bind_ok in E' as (h0 & _ & E'). apply bind_ok in E' as (sq & _ & E').
  destruct (nltb K _ _).
  - eapply forM_len; [|exact E']. intros k z z' E2. apply bind_ok in E2 as (xk & _ & E2). eapply set_len; exact E2.
  - eapply forM_len; [|exact E']. intros k z z' E2. eapply set_len; exact E2.
Qed.
Lemma fused_in_place {K : Num} (alpha : K) bdata bptr : in_place (fused_sparse_prox alpha bdata bptr).
Proof.
  intros x i a b c st x' E. unfold fused_sparse_prox in E. apply bind_ok in E as (lo & _ & E). apply bind_ok in E as (hi & _ & E).
  eapply forM_len; [|exact E]. intros j y y' E'. apply bind_ok in E' as (h & _ & E'). unfold fl_block in E'.
  apply bind_ok in E' as (l0 & _ & E'). apply bind_ok in E' as (fl & _ & E'). destruct (fl <=? 0)%Z; [injection E' as <-; reflexivity|].
  apply bind_ok in E' as (dh & _ & E'). apply bind_ok in E' as (xj & _ & E'). apply bind_ok in E' as (xk & _ & E').
  destruct (nleb K _ _); [|destruct (nleb K _ _)]; apply bind_ok in E' as (z & E1 & E2); apply set_len in E1; apply set_len in E2; congruence.
Qed.
Lemma in_place_len {K : Num} (B : blocks K) prox : in_place prox -> prox_len B prox.
Proof. intros H x i st x' E. eapply H; exact E. Qed.
Lemma local_prox_iff {K : Num} (P : problem K) ptr B prox : problem_wf P -> partitions ptr (p_d P) -> local_prox P ptr B prox -> prox_local P ptr B prox.
Proof. intros HP Hq H x i st x' Hi L E j N. eapply H; eauto. intros Hs. apply N. apply ext_spec; auto. Qed.

Section S.
Variable P : problem RN.
Hypothesis HP : problem_wf P.
Let n := p_n P.
Let d := p_d P.
(** a sparse prox is local, because changing a feature outside its blocks would not be optimal *)
Lemma sparse_prox_local ptr B g prox : partitions ptr d -> make_blocks P ptr = Ok B -> sparse_prox_of P ptr B g prox ->
  forall x i st x', (i < n)%nat -> length x = d -> 0 <= st -> prox x i (k_bsi B) (k_bsp B) (k_d B) st = Ok x' ->
  forall j, ~ sample_block P ptr i j -> nth j x' 0 = nth j x 0.
Proof.
  intros Hq EB Hp x i st x' Hi Lx Hst E j Nj. destruct (Hp x i st Hi Lx Hst) as (x1 & E1 & L1 & Hpr). rewrite E in E1. apply Ok_inj in E1. subst x1.
  rewrite (bs_row P HP ptr B i Hq EB Hi) in Hpr.
  assert (Nj' : ~ ext P ptr i j) by (intros D; apply Nj; apply ext_spec; auto).
  destruct (Nat.lt_ge_cases j d) as [Hj|Hj]; [|rewrite !nth_overflow; [reflexivity|unfold vec, RN in *; cbn [carrier] in *; lia|unfold vec, RN in *; cbn [carrier] in *; lia]].
  destruct Hpr as (Lp & _ & Hmin & Huniq). set (y := patch [j] x x').
  assert (Ly : length y = length x) by (unfold y; rewrite patch_length; exact Lp).
  assert (Ey : y = x').
  { apply Huniq; auto. unfold prox_obj.
    assert (Eg : map (fun h => nth h (k_d B) 0 * g h (sub y (blk ptr h))) (pblocks P ptr i) = map (fun h => nth h (k_d B) 0 * g h (sub x' (blk ptr h))) (pblocks P ptr i)).
    { apply map_ext_in. intros h Hh. unfold y. rewrite sub_patch_out; [reflexivity|]. intros k Hk. split.
      - apply (pblocks_in P HP ptr Hq i h Hi) in Hh as (Hh & _). assert (k < d)%nat by (eapply blk_in_lt; eauto). rewrite Lp. unfold vec, RN in *; cbn [carrier] in *. lia.
      - intros [<-|[]]. apply Nj'. exists h. auto. }
    change (vec RN) with (list R) in *. change (carrier RN) with R in *. rewrite Eg. apply Rplus_le_compat_l. apply Rmult_le_compat_l; [lra|].
    rewrite !dist2_dot by congruence. rewrite !(dot_seq _ _ d) by (unfold vminus; rewrite lin_length; fold d in Lx; lia).
    apply Rsum_le_map. intros k Hk. apply in_seq in Hk. rewrite !nth_vminus by congruence. unfold y. rewrite nth_patch by (fold d in Lx; lia).
    destruct (in_dec Nat.eq_dec k [j]) as [[->|[]]|N]; [|lra]. pose proof (Rle_0_sqr (nth k x' 0 - nth k x 0)). unfold Rsqr in *. lra. }
  rewrite <- Ey. change (vec RN) with (list R) in *. change (carrier RN) with R in *. unfold y. rewrite nth_patch by (fold d in Lx; lia).
  destruct (in_dec Nat.eq_dec j [j]) as [_|N]; [reflexivity|]. exfalso. apply N. left; reflexivity.
Qed.

Lemma kd_nonneg ptr B : partitions ptr d -> make_blocks P ptr = Ok B -> Forall (fun t : R => 0 <= t) (k_d B).
Proof.
  intros Hq EB. destruct (make_blocks_spec P HP ptr Hq B EB) as (_ & E2 & _ & _ & E5). rewrite E2 in E5.
  destruct (weights_spec P ptr (k_d B) E5) as (_ & W & W1). apply Forall_forall. intros t Ht. apply (In_nth _ _ 0) in Ht as (h & Hh & <-).
  destruct (Nat.eq_dec (length (touching P ptr h)) 0) as [E|N].
  - pose proof (W1 h Hh E) as X. cbn in X. rewrite X. lra.
  - pose proof (W h Hh ltac:(lia)) as X. rewrite !nofnat_R in X. cbn in X. rewrite X. unfold Rdiv; apply Rmult_le_pos; [apply pos_INR|left; apply Rinv_0_lt_compat, lt_0_INR; lia].
Qed.
Lemma row_facts ptr B i : partitions ptr d -> make_blocks P ptr = Ok B -> (i < n)%nat ->
  row_ok (k_bsi B) (k_bsp B) i /\ NoDup (csr_row (k_bsi B) (k_bsp B) i) /\
  Forall (fun h => (S h < length ptr)%nat /\ (h < length (k_d B))%nat) (csr_row (k_bsi B) (k_bsp B) i).
Proof.
  intros Hq EB Hi. destruct (make_blocks_spec P HP ptr Hq B EB) as (_ & _ & _ & R & _). destruct (R i Hi) as (R1 & R2). split; [exact R1|]. rewrite R2.
  split; [apply pblocks_NoDup|]. apply Forall_forall. intros h Hh. split; [apply (pblocks_in P HP ptr Hq i h Hi), Hh|eapply bw_in; eauto].
Qed.
Lemma is_prox_ext (f g : list R -> R) st x p : (forall y, length y = length x -> f y = g y) -> is_prox f st x p -> is_prox g st x p.
Proof.
  intros E (L & _ & M & U). assert (Eo : forall y, length y = length x -> prox_obj g st x y = prox_obj f st x y) by (intros y Ly; unfold prox_obj; rewrite E by exact Ly; reflexivity).
  split; [exact L|]. split; [exact I|]. split.
  - intros y Ly _. rewrite !Eo by assumption. apply M; auto.
  - intros y Ly _ H. rewrite !Eo in H by assumption. apply U; auto.
Qed.
Lemma no_prox_sparse ptr B : sparse_prox_of P ptr B (fun _ _ => 0) no_prox.
Proof.
  intros x i st Hi Lx Hst. exists x. split; [reflexivity|]. split; [reflexivity|].
  apply (is_prox_ext (fun _ => 0)).
  - intros y _. rewrite Rsum_zero; [reflexivity|]. intros; ring.
  - split; [reflexivity|]. split; [exact I|]. unfold prox_obj. split.
    + intros y Ly _. rewrite dist2_refl. pose proof (dist2_nonneg y x). lra.
    + intros y Ly _ H. rewrite dist2_refl in H. apply dist2_zero; [exact Ly|lra].
Qed.
Lemma l1_sparse lam B : make_blocks P (eye_ptr d) = Ok B -> 0 <= lam -> sparse_prox_of P (eye_ptr d) B (fun _ v => lam * l1 v) (l1norm_sparse_prox (K:=RN) lam).
Proof.
  intros EB Hl x i st Hi Lx Hst. pose proof (partitions_eye d) as Hq. destruct (row_facts (eye_ptr d) B i Hq EB Hi) as ((R1 & R2) & R3 & R4).
  assert (Hd : forall h, In h (csr_row (k_bsi B) (k_bsp B) i) -> (h < d)%nat).
  { intros h Hh. rewrite Forall_forall in R4. destruct (R4 h Hh) as (A & _). unfold eye_ptr in A. rewrite seq_length in A. lia. }
  assert (F : Forall (fun j => (j < length x)%nat /\ (j < length (k_d B))%nat) (csr_row (k_bsi B) (k_bsp B) i)).
  { apply Forall_forall. intros h Hh. split; [unfold d in *; rewrite Lx; apply Hd, Hh|]. rewrite Forall_forall in R4. apply R4, Hh. }
  destruct (l1norm_sparse_prox_correct lam st x i (k_bsi B) (k_bsp B) (k_d B) R1 R2 R3 F) as (x' & E & Hp).
  { intros j. destruct (Nat.lt_ge_cases j (length (k_d B))) as [H|H].
    - pose proof (kd_nonneg (eye_ptr d) B Hq EB) as K0. rewrite Forall_forall in K0. specialize (K0 _ (nth_In (k_d B) 0 H)). apply Rmult_le_pos; [|exact Hst]. apply Rmult_le_pos; assumption.
    - rewrite nth_overflow by exact H. nra. }
  exists x'. split; [exact E|]. split; [apply Hp|]. eapply is_prox_ext; [|exact Hp].
  intros y Ly. apply Rsum_map_ext. intros h Hh. rewrite blk_eye by (apply Hd, Hh). cbn [sub map l1]. eqR. ring.
Qed.
(** the penalty of block h of the group lasso, of the fused lasso *)
Lemma group_sparse alpha groups data ptr B : group_init groups = Ok groups -> groups_within d groups -> group_blocks groups d = Ok (data, ptr) -> 0 <= alpha ->
  make_blocks P ptr = Ok B ->
  sparse_prox_of P ptr B (fun h v => if existsb (fun g => if list_eq_dec Nat.eq_dec (map Z.to_nat g) (blk ptr h) then true else false) groups then alpha * norm2 v else 0) (group_sparse_prox (K:=RN) alpha data ptr).
Proof.
  intros Hg Hw Hb Ha EB x i st Hi Lx Hst.
  assert (Hq : partitions ptr d).
  { destruct (group_blocks_spec _ groups Hg Hw) as (data' & ptr' & Hb' & _ & Hp & _). rewrite Hb in Hb'. injection Hb' as <- <-. exact Hp. }
  destruct (row_facts ptr B i Hq EB Hi) as (R1 & R3 & R4). fold d in Lx.
  destruct (group_sparse_accepted alpha st groups data ptr x i (k_bsi B) (k_bsp B) (k_d B)) as (x' & E & L & _ & Hp); auto; try (rewrite Lx; assumption).
  { apply (kd_nonneg ptr B Hq EB). }
  exists x'. split; [exact E|]. split; [exact L|]. eapply is_prox_ext; [|exact Hp].
  intros y Ly. apply Rsum_map_ext. intros h Hh. unfold group_block_pen. destruct (existsb _ groups); eqR; ring.
Qed.
Lemma fused_sparse (which : bool) alpha data ptr B : (if which then fused_blocks_1 d else fused_blocks_2 d) = Ok (data, ptr) -> (1 <= d)%nat -> 0 <= alpha ->
  make_blocks P ptr = Ok B -> sparse_prox_of P ptr B (fun _ v => alpha * tv v) (fused_sparse_prox (K:=RN) alpha data ptr).
Proof.
  intros Hb Hd Ha EB x i st Hi Lx Hst. fold d in Lx.
  assert (Hq : partitions ptr d).
  { destruct (fused_structs d Hd) as (d1 & p1 & d2 & p2 & E1 & E2 & L1 & L2 & _ & _ & A1 & A2 & _). destruct which; rewrite ?E1, ?E2 in Hb; injection Hb as <- <-; assumption. }
  destruct (row_facts ptr B i Hq EB Hi) as (R1 & R3 & R4).
  destruct (fused_sparse_both which alpha st data ptr x i (k_bsi B) (k_bsp B) (k_d B)) as (x' & E & L & _ & Hp); auto; try (rewrite Lx; assumption).
  { apply (kd_nonneg ptr B Hq EB). }
  exists x'. split; [exact E|]. split; [exact L|]. eapply is_prox_ext; [|exact Hp].
  intros y Ly. apply Rsum_map_ext. intros h Hh. eqR. ring.
Qed.
End S.
