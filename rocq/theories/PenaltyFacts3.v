(** * Statements about GroupL1 / FusedLasso in terms of the constructor's arguments *)
From Coq Require Import ZArith Reals Lra Lia List Bool Permutation.
From Verif Require Import Num Vec Spec SpecSparse RVec ModelPenalty PenaltyFacts PenaltyFacts2.
Import ListNotations.
Open Scope nat_scope.

(** group lists accepted by the constructor, non-empty, with indices in [0, n) *)
Definition groups_within (n : nat) (groups : list (list Z)) : Prop :=
  Forall (fun g => g <> [] /\ Forall (fun z => (0 <= z < Z.of_nat n)%Z) g) groups.

Lemma seg_group_nat s : map Z.to_nat (seg_group s) = seg_idx s.
Proof.
  unfold seg_group, seg_idx. rewrite map_map. rewrite <- (map_id (seq (fst s) (snd s))) at 2.
  apply map_ext. intros; apply Nat2Z.id.
Qed.

Lemma within_segs n groups : group_init groups = Ok groups -> groups_within n groups ->
  exists segs, groups = map seg_group segs /\ segs_ok 0 segs /\
    (forall s, In s segs -> fst s + snd s <= n).
Proof.
  intros Hi Hw. unfold groups_within in Hw. rewrite Forall_forall in Hw.
  destruct (accepted_segs groups Hi) as (segs & He & Hs).
  - apply Forall_forall. intros g Hg. apply Hw, Hg.
  - apply Forall_forall. intros g Hg. destruct (Hw g Hg) as [_ H]. eapply Forall_impl; [|exact H]. simpl; lia.
  - exists segs. split; [exact He|]. split; [exact Hs|]. intros s Hin.
    assert (Hg : In (seg_group s) groups) by (rewrite He; apply in_map, Hin).
    destruct (Hw _ Hg) as [_ H]. rewrite Forall_forall in H.
    destruct (segs_ok_in _ _ _ Hs Hin) as [_ Hl].
    specialize (H (Z.of_nat (fst s + snd s - 1))).
    assert (In (Z.of_nat (fst s + snd s - 1)) (seg_group s)).
    { unfold seg_group. apply in_map. apply in_seq. lia. }
    specialize (H H0). lia.
Qed.

Lemma seq_range a l : range a (a + l) = seq a l.
Proof. unfold range. f_equal. lia. Qed.

Lemma group_blocks_spec n groups : group_init groups = Ok groups -> groups_within n groups ->
  exists data ptr, group_blocks groups n = Ok (data, ptr) /\
    length data = n /\ partitions ptr n /\
    length ptr + length (concat groups) = S (length groups + n) /\
    (forall g, In g groups -> exists h, S h < length ptr /\ blk ptr h = map Z.to_nat g /\
        (forall j, In j (blk ptr h) -> nth j data 0%Z = 1%Z)) /\
    (forall j, j < n -> (forall g, In g groups -> ~ In (Z.of_nat j) g) ->
        exists h, S h < length ptr /\ blk ptr h = [j] /\ nth j data 0%Z = (-1)%Z).
Proof.
  intros Hi Hw. destruct (within_segs n groups Hi Hw) as (segs & -> & Hs & Hn).
  rewrite (group_blocks_rows segs n Hs Hn). eexists _, _. split; [reflexivity|].
  pose proof (rows_of_total segs 0 n Hs ltac:(lia) Hn) as Ht. rewrite Nat.sub_0_r in Ht.
  pose proof (rows_of_pos segs 0 n Hs) as Hp.
  set (rows := rows_of 0 n segs) in *.
  rewrite data_of_length. split; [exact Ht|]. split.
  { unfold partitions. rewrite ptr_of_head, ptr_of_length. split; [reflexivity|]. split; [lia|].
    split; [replace (S (length rows) - 1) with (length rows) by lia; rewrite ptr_of_last; lia|].
    intros h Hh. apply ptr_of_incr; [exact Hp|lia]. }
  split.
  { rewrite ptr_of_length, map_length. pose proof (rows_of_count segs 0 n Hs ltac:(lia) Hn) as Hc. fold rows in Hc.
    assert (Hcl : length (concat (map seg_group segs)) = fold_right (fun s acc => snd s + acc) 0 segs).
    { clear. induction segs as [|s segs IH]; simpl; [reflexivity|]. rewrite app_length, IH. unfold seg_group.
      rewrite map_length, seq_length. reflexivity. }
    lia. }
  split.
  - intros g Hg. apply in_map_iff in Hg as (s & <- & Hin).
    destruct (rows_of_group segs 0 n s Hs Hn ltac:(lia) Hin) as (r1 & r2 & Hr & Hl). fold rows in Hr.
    exists (length r1). destruct (ptr_of_split 0 r1 1%Z (snd s) r2 0) as [H1 H2]. rewrite <- Hr in H1, H2.
    rewrite ptr_of_length. split; [rewrite Hr, app_length; simpl; lia|].
    unfold blk. rewrite H1, H2, Hl, seq_range. split; [rewrite seg_group_nat; reflexivity|].
    intros j Hj. apply in_seq in Hj. rewrite Hr. apply data_of_split. lia.
  - intros j Hj Hu. 
    destruct (rows_of_uncovered segs 0 n j Hs Hn ltac:(lia)) as (r1 & r2 & Hr & Hl).
    { intros s Hin Hjs. apply (Hu (seg_group s)); [apply in_map, Hin|]. unfold seg_group. apply in_map. exact Hjs. }
    fold rows in Hr. exists (length r1). destruct (ptr_of_split 0 r1 (-1)%Z 1 r2 0) as [H1 H2]. rewrite <- Hr in H1, H2.
    rewrite ptr_of_length. split; [rewrite Hr, app_length; simpl; lia|].
    unfold blk. rewrite H1, H2, Hl, seq_range. split; [reflexivity|].
    rewrite Hr. apply data_of_split. lia.
Qed.

Lemma partitions_mono ptr n : partitions ptr n ->
  forall i j, i <= j -> j < length ptr -> nth i ptr 0 <= nth j ptr 0.
Proof.
  intros (_ & _ & _ & Hi) i j Hij. induction Hij as [|j Hij IH]; intros Hl; [lia|].
  specialize (IH ltac:(lia)). specialize (Hi j Hl). lia.
Qed.
Lemma partitions_bound ptr n h : partitions ptr n -> S h < length ptr ->
  nth h ptr 0 < n /\ nth (S h) ptr 0 <= n.
Proof.
  intros Hp Hh. pose proof (partitions_mono ptr n Hp) as Hm. destruct Hp as (H0 & H1 & H2 & H3).
  specialize (H3 h Hh). specialize (Hm (S h) (length ptr - 1) ltac:(lia) ltac:(lia)). lia.
Qed.
Lemma partitions_cover ptr n j : partitions ptr n -> j < n -> exists h, S h < length ptr /\ In j (blk ptr h).
Proof.
  intros (H0 & H1 & H2 & H3) Hj.
  assert (Hk : forall k, k < length ptr -> j < nth k ptr 0 -> exists h, S h < length ptr /\ In j (blk ptr h)).
  { induction k as [|k IH]; intros Hk Hlt; [lia|].
    destruct (Nat.lt_ge_cases j (nth k ptr 0)) as [Hc|Hc]; [apply IH; [lia|exact Hc]|].
    exists k. split; [exact Hk|]. unfold blk. rewrite in_range. lia. }
  apply (Hk (length ptr - 1)); lia.
Qed.

(** in a block structure two blocks sharing a feature are the same block *)
Lemma partitions_inj ptr n h h' j : partitions ptr n -> S h < length ptr -> S h' < length ptr ->
  In j (blk ptr h) -> In j (blk ptr h') -> h = h'.
Proof.
  intros Hp Hh Hh' Hj Hj'. destruct (Nat.eq_dec h h') as [E|E]; [exact E|exfalso].
  exact (blk_disjoint ptr (partitions_mono ptr n Hp) h h' j Hh Hh' E Hj Hj').
Qed.

Section Group.
Local Open Scope R_scope.

(** penalty of block h in the reweighted objective: only blocks that are groups count *)
Definition group_block_pen (alpha : R) (groups : list (list Z)) (ptr : list nat) (d : list R) (h : nat) (y : list R) : R :=
  if existsb (fun g => if list_eq_dec Nat.eq_dec (map Z.to_nat g) (blk ptr h) then true else false) groups
  then alpha * nth h d 0 * norm2 (sub y (blk ptr h)) else 0.

Lemma group_flag n groups data ptr h : group_init groups = Ok groups -> groups_within n groups ->
  group_blocks groups n = Ok (data, ptr) -> (S h < length ptr)%nat ->
  (nth (nth h ptr 0%nat) data 0 <=? 0)%Z =
  negb (existsb (fun g => if list_eq_dec Nat.eq_dec (map Z.to_nat g) (blk ptr h) then true else false) groups).
Proof.
  intros Hi Hw Hb Hh. destruct (group_blocks_spec n groups Hi Hw) as (data' & ptr' & Hb' & Hl & Hp & _ & Hg & Hu).
  rewrite Hb in Hb'. injection Hb' as <- <-.
  set (j0 := nth h ptr 0%nat).
  assert (Hj0 : In j0 (blk ptr h)).
  { unfold blk. rewrite in_range. destruct Hp as (_ & _ & _ & H3). specialize (H3 h Hh). unfold j0. lia. }
  destruct (existsb _ groups) eqn:E.
  - apply existsb_exists in E as (g & Hin & Hd). destruct (list_eq_dec _ _ _) as [Heq|]; [|discriminate].
    destruct (Hg g Hin) as (h' & Hh' & Hbl & Hd').
    assert (h' = h). { eapply (partitions_inj ptr n); eauto. rewrite Hbl, Heq. exact Hj0. }
    subst h'. rewrite (Hd' j0 Hj0). reflexivity.
  - destruct (partitions_bound ptr n h Hp Hh) as [Hlt _]. fold j0 in Hlt.
    destruct (Hu j0 Hlt) as (h' & Hh' & Hbl & Hd).
    { intros g Hin Hjg. destruct (Hg g Hin) as (h' & Hh' & Hbl & Hd').
      assert (h' = h).
      { eapply (partitions_inj ptr n) with (j := j0); eauto. rewrite Hbl.
        replace j0 with (Z.to_nat (Z.of_nat j0)) by apply Nat2Z.id. apply in_map, Hjg. }
      subst h'. assert (Hex : existsb (fun g => if list_eq_dec Nat.eq_dec (map Z.to_nat g) (blk ptr h) then true else false) groups = true).
      { apply existsb_exists. exists g. split; [exact Hin|]. destruct (list_eq_dec _ _ _); [reflexivity|congruence]. }
      congruence. }
    rewrite Hd. reflexivity.
Qed.

Lemma group_prox_accepted (alpha step : R) groups (x : list R) :
  group_init groups = Ok groups -> groups_within (length x) groups -> 0 <= alpha * step ->
  exists out pen, @group_prox RN alpha groups x step = Ok out /\
    (forall y : list R, length y = length x -> @group_call RN alpha groups y = Ok (pen y)) /\
    is_prox pen step x out /\
    (forall k, (forall g, In g groups -> ~ In (Z.of_nat k) g) -> nth k out 0 = nth k x 0).
Proof.
  intros Hi Hw Ha. destruct (within_segs _ groups Hi Hw) as (segs & -> & Hs & Hn).
  destruct (group_prox_correct alpha segs x step Ha Hs Hn) as (out & He & Hp & Hu).
  exists out, (fun y => alpha * gl_pen (map seg_idx segs) y). split; [exact He|]. split.
  - intros y Hy. apply group_call_R. rewrite Hy. exact Hn.
  - split; [exact Hp|]. intros k Hk. apply Hu. intros s Hin Hks.
    apply (Hk (seg_group s)); [apply in_map, Hin|]. unfold seg_group. apply in_map, Hks.
Qed.

Lemma group_sparse_accepted (alpha step : R) groups data ptr (x : list R) i indices indptr (d : list R) :
  group_init groups = Ok groups -> groups_within (length x) groups ->
  group_blocks groups (length x) = Ok (data, ptr) ->
  row_ok indices indptr i -> NoDup (csr_row indices indptr i) ->
  Forall (fun h => (S h < length ptr)%nat /\ (h < length d)%nat) (csr_row indices indptr i) ->
  0 <= alpha -> 0 <= step -> Forall (fun t => 0 <= t) d ->
  exists x', @group_sparse_prox RN alpha data ptr x i indices indptr d step = Ok x' /\ length x' = length x /\
    (forall j, (forall h, In h (csr_row indices indptr i) -> ~ In j (blk ptr h)) -> nth j x' 0 = nth j x 0) /\
    is_prox (fun y => Rsum (map (fun h => group_block_pen alpha groups ptr d h y) (csr_row indices indptr i))) step x x'.
Proof.
  intros Hi Hw Hb [Hr1 Hr2] Hnd Hf Ha Hs Hd.
  destruct (group_blocks_spec _ groups Hi Hw) as (data' & ptr' & Hb' & Hl & Hp & _ & Hg & Hu).
  rewrite Hb in Hb'. injection Hb' as <- <-.
  assert (Hf' : Forall (fun h => (S h < length ptr)%nat /\ (nth h ptr 0 < length data)%nat /\ (nth (S h) ptr 0 <= length x)%nat /\ (h < length d)%nat)
     (csr_row indices indptr i)).
  { eapply Forall_impl; [|exact Hf]. intros h [H1 H2]. destruct (partitions_bound ptr _ h Hp H1). rewrite Hl. auto. }
  pose proof (partitions_mono _ _ Hp) as Hm.
  destruct (group_sparse_ok alpha step data ptr x i indices indptr d Hm Hr1 Hr2 Hnd Hf') as (p & He & Hlp & _ & Hout).
  destruct (group_sparse_prox_correct alpha step data ptr x i indices indptr d Hm Hr1 Hr2 Hnd Hf') as (p' & He' & Hprox).
  { intros h. destruct (Nat.lt_ge_cases h (length d)) as [Hh|Hh].
    - rewrite Forall_forall in Hd. specialize (Hd _ (nth_In d 0 Hh)). apply Rmult_le_pos; [exact Ha|]. apply Rmult_le_pos; assumption.
    - rewrite nth_overflow by lia. nra. }
  rewrite He in He'. injection He' as <-. exists p. split; [exact He|]. split; [exact Hlp|]. split; [exact Hout|].
  replace (fun y => Rsum (map (fun h => group_block_pen alpha groups ptr d h y) (csr_row indices indptr i))) with
     (fun y => Rsum (map (fun h => gl_block_pen alpha data ptr d h y) (csr_row indices indptr i))); [exact Hprox|].
  apply FunctionalExtensionality.functional_extensionality. intros y. apply f_equal, map_ext_in. intros h Hh.
  unfold gl_block_pen, group_block_pen. rewrite Forall_forall in Hf. rewrite (group_flag _ groups data ptr h Hi Hw Hb) by apply Hf, Hh.
  destruct (existsb _ groups); reflexivity.
Qed.

Lemma nth_ones h n : (h < n)%nat -> nth h (repeat 1 n) 0 = 1.
Proof. intros Hh. apply nth_repeat_in, Hh. Qed.

Lemma group_sparse_dense (alpha step : R) groups data ptr (x : list R) i indices indptr :
  group_init groups = Ok groups -> groups_within (length x) groups ->
  group_blocks groups (length x) = Ok (data, ptr) ->
  row_ok indices indptr i -> NoDup (csr_row indices indptr i) ->
  (forall h, In h (csr_row indices indptr i) <-> (S h < length ptr)%nat) ->
  0 <= alpha * step ->
  @group_sparse_prox RN alpha data ptr x i indices indptr (repeat 1 (length ptr)) step = @group_prox RN alpha groups x step.
Proof.
  intros Hi Hw Hb [Hr1 Hr2] Hnd Hall Ha.
  destruct (group_blocks_spec _ groups Hi Hw) as (data' & ptr' & Hb' & Hl & Hp & _ & Hg & Hu).
  rewrite Hb in Hb'. injection Hb' as <- <-.
  destruct (group_sparse_ok alpha step data ptr x i indices indptr (repeat 1 (length ptr)) (partitions_mono _ _ Hp) Hr1 Hr2 Hnd)
    as (p & He & Hlp & Hin & _).
  { apply Forall_forall. intros h Hh. apply Hall in Hh. destruct (partitions_bound ptr _ h Hp Hh).
    rewrite repeat_length, Hl. repeat split; lia || assumption. }
  rn. rewrite He.
  destruct (within_segs _ groups Hi Hw) as (segs & Hseg & Hs & Hn).
  assert (Hgp := group_prox_ok alpha x step segs 0 x Hs Hn eq_refl (fun k _ => eq_refl)).
  destruct Hgp as (out & Heo & Hlo & Hio & Huo). unfold group_prox. rewrite Hseg.
  unfold vec in *. rewrite Heo. apply f_equal. rn. apply (list_ext p out 0); [congruence|].
  intros j Hj. destruct (partitions_cover ptr _ j Hp ltac:(rewrite Hlp in Hj; exact Hj)) as (h & Hh & Hjh).
  rewrite (Hin h j (proj2 (Hall h) Hh) Hjh). unfold gl_value.
  rewrite (group_flag _ groups data ptr h Hi Hw Hb Hh).
  destruct (existsb _ groups) eqn:E; cbn [negb].
  - apply existsb_exists in E as (g & Hgin & Hd). destruct (list_eq_dec _ _ _) as [Heq|]; [|discriminate].
    assert (Hgin' : In g (map seg_group segs)) by (rewrite <- Hseg; exact Hgin). apply in_map_iff in Hgin' as (s & <- & Hsin). rewrite seg_group_nat in Heq.
    rewrite <- Heq in Hjh. rewrite (Hio s j Hsin Hjh). rewrite <- Heq. rewrite nth_ones by lia. rewrite Rmult_1_r. reflexivity.
  - symmetry. apply Huo. intros s Hsin Hjs.
    assert (Hgs : In (seg_group s) groups) by (rewrite Hseg; apply in_map, Hsin).
    destruct (Hg _ Hgs) as (h' & Hh' & Hbl & _).
    assert (h' = h). { eapply (partitions_inj ptr (length x)) with (j := j); eauto. rewrite Hbl, seg_group_nat. exact Hjs. }
    subst h'. assert (Hex : existsb (fun g => if list_eq_dec Nat.eq_dec (map Z.to_nat g) (blk ptr h) then true else false) groups = true).
    { apply existsb_exists. exists (seg_group s). split; [exact Hgs|]. destruct (list_eq_dec _ _ _); [reflexivity|congruence]. }
    congruence.
Qed.

(** what the constructor accepts, for arbitrary integers *)
Lemma accepted_contiguous groups : group_init groups = Ok groups ->
  forall g, In g groups -> forall k, (S k < length g)%nat -> nth (S k) g 0%Z = (nth k g 0 + 1)%Z.
Proof.
  unfold group_init. destruct (check_groups None groups) as [[]|e] eqn:E; [|discriminate]. intros _.
  destruct (check_groups_sound _ _ E) as (H1 & _ & _). intros g Hg k Hk.
  destruct g as [|a g]; [simpl in Hk; lia|]. specialize (H1 _ Hg a eq_refl). set (l := length (a :: g)) in *.
  rewrite H1.
  assert (Hn : forall j, (j < l)%nat -> nth j (map (fun k => (a + Z.of_nat k)%Z) (seq 0 l)) 0%Z = (a + Z.of_nat j)%Z).
  { intros j Hj. rewrite nth_indep with (d' := (a + Z.of_nat 0)%Z) by (rewrite map_length, seq_length; exact Hj).
    rewrite (map_nth (fun k => (a + Z.of_nat k)%Z)), seq_nth by exact Hj. reflexivity. }
  rewrite !Hn by lia. lia.
Qed.
Lemma check_groups_pairwise : forall groups prev, check_groups prev groups = Ok tt ->
  (forall p pl, prev = Some p -> last_opt p = Ok pl -> forall g y, In g groups -> In y g -> (pl < y)%Z) /\
  (forall i j g h, (i < j)%nat -> nth_error groups i = Some g -> nth_error groups j = Some h ->
      forall x y, In x g -> In y h -> (x < y)%Z).
Proof.
  induction groups as [|g rest IH]; intros prev E; [split; [intros; contradiction|]; intros i j g h _ H; destruct i; discriminate|].
  pose proof (check_groups_sound _ _ E) as (Hc & Hadj & Hprev).
  assert (E2 : check_groups (Some g) rest = Ok tt).
  { simpl in E. destruct (negb (diff_all_one g)); [discriminate|]. destruct prev as [p|].
    - destruct (last_opt p); [|discriminate]. destruct (head_opt g); [|discriminate]. simpl in E. destruct (negb _); [exact E|discriminate].
    - exact E. }
  destruct (IH _ E2) as [IH1 IH2].
  assert (Hlast : forall x, In x g -> exists pl, last_opt g = Ok pl /\ (x <= pl)%Z).
  { intros x Hx. destruct g as [|a g']; [contradiction|]. specialize (Hc _ (or_introl eq_refl) a eq_refl).
    set (l := length (a :: g')) in *. exists (a + Z.of_nat l - 1)%Z. rewrite Hc. split; [apply last_opt_seq; unfold l; simpl; lia|].
    rewrite Hc in Hx. apply in_map_iff in Hx as (k & <- & Hk). apply in_seq in Hk. lia. }
  split.
  - intros p pl -> Hpl g0 y [<-|Hg0] Hy.
    + destruct Hprev as (pl' & Hpl' & _ & Hlt). rewrite Hpl in Hpl'. injection Hpl' as <-. apply Hlt, Hy.
    + destruct Hprev as (pl' & Hpl' & Hne & Hlt). rewrite Hpl in Hpl'. injection Hpl' as <-.
      destruct g as [|a g']; [congruence|]. destruct (Hlast a (or_introl eq_refl)) as (ql & Hql & Hle).
      specialize (IH1 _ ql eq_refl Hql g0 y Hg0 Hy). specialize (Hlt a (or_introl eq_refl)). lia.
  - intros [|i] [|j] g0 h Hij Hi Hj x y Hx Hy; try lia; simpl in Hi, Hj.
    + injection Hi as ->. destruct (Hlast x Hx) as (pl & Hpl & Hle).
      specialize (IH1 _ pl eq_refl Hpl h y (nth_error_In _ _ Hj) Hy). lia.
    + eapply (IH2 i j); eauto; lia.
Qed.
Lemma accepted_increasing groups : group_init groups = Ok groups ->
  forall i j g h, (i < j)%nat -> nth_error groups i = Some g -> nth_error groups j = Some h ->
      forall x y, In x g -> In y h -> (x < y)%Z.
Proof.
  unfold group_init. destruct (check_groups None groups) as [[]|e] eqn:E; [|discriminate]. intros _.
  apply (check_groups_pairwise _ _ E).
Qed.
End Group.

(** ** FusedLasso *)
Section Fused.
Local Open Scope R_scope.

Definition is_pair (ptr : list nat) (j : nat) : Prop :=
  exists h, (S h < length ptr)%nat /\ blk ptr h = [j; S j].

Lemma fused_struct (p : nat -> nat) n nb data ptr :
  (1 <= nb)%nat -> length ptr = S nb -> p 0%nat = 0%nat -> p nb = n ->
  (forall h, (h < nb)%nat -> (p h < p (S h) <= p h + 2)%nat) ->
  (forall h, (h <= nb)%nat -> nth h ptr 0%nat = p h) ->
  (forall h, (h < nb)%nat -> nth (p h) data 0%Z = if Nat.eqb (p (S h)) (p h + 2) then 1%Z else (-1)%Z) ->
  partitions ptr n /\
  (forall h, (S h < length ptr)%nat -> exists j, 
     (blk ptr h = [j] /\ nth j data 0%Z = (-1)%Z) \/ (blk ptr h = [j; S j] /\ nth j data 0%Z = 1%Z)).
Proof.
  intros Hnb Hl H0 Hend Hstep Hp Hd. split.
  - unfold partitions. rewrite Hl. split; [rewrite Hp by lia; exact H0|]. split; [lia|]. split.
    + replace (S nb - 1)%nat with nb by lia. rewrite Hp by lia. exact Hend.
    + intros h Hh. rewrite !Hp by lia. apply Hstep. lia.
  - intros h Hh. rewrite Hl in Hh. exists (p h). unfold blk. rewrite !Hp by lia.
    specialize (Hstep h ltac:(lia)). rewrite Hd by lia.
    destruct (Nat.eqb_spec (p (S h)) (p h + 2)) as [E|E].
    + right. rewrite E, seq_range. split; reflexivity.
    + left. replace (p (S h)) with (p h + 1)%nat by lia. rewrite seq_range. split; reflexivity.
Qed.

Lemma blk_first ptr h j l : blk ptr h = j :: l -> nth h ptr 0%nat = j.
Proof. unfold blk, range. destruct (nth (S h) ptr 0 - nth h ptr 0)%nat; [discriminate|]. intros E; injection E as E _; exact E. Qed.

Lemma fused_structs n : (1 <= n)%nat ->
  exists data1 ptr1 data2 ptr2,
    fused_blocks_1 n = Ok (data1, ptr1) /\ fused_blocks_2 n = Ok (data2, ptr2) /\
    length data1 = n /\ length data2 = n /\ length ptr1 = S ((n + 1) / 2) /\ length ptr2 = S (n / 2 + 1) /\
    partitions ptr1 n /\ partitions ptr2 n /\
    (forall h, (S h < length ptr1)%nat -> exists j, 
     (blk ptr1 h = [j] /\ nth j data1 0%Z = (-1)%Z) \/ (blk ptr1 h = [j; S j] /\ nth j data1 0%Z = 1%Z)) /\
    (forall h, (S h < length ptr2)%nat -> exists j, 
     (blk ptr2 h = [j] /\ nth j data2 0%Z = (-1)%Z) \/ (blk ptr2 h = [j; S j] /\ nth j data2 0%Z = 1%Z)) /\
    (forall j, (S j < n)%nat -> (is_pair ptr1 j /\ ~ is_pair ptr2 j) \/ (~ is_pair ptr1 j /\ is_pair ptr2 j)).
Proof.
  intros Hn. destruct (fused_blocks_1_spec n) as (d1 & p1 & E1 & Hd1 & Hp1 & Hn1 & Hf1).
  destruct (fused_blocks_2_spec n Hn) as (d2 & p2 & E2 & Hd2 & Hp2 & Hn2 & Hf2).
  exists d1, p1, d2, p2.
  pose proof (Nat.div_mod n 2 ltac:(lia)) as Hdm. pose proof (Nat.mod_upper_bound n 2 ltac:(lia)) as Hmu.
  assert (Hdm1 := Nat.div_mod (n + 1) 2 ltac:(lia)). assert (Hmu1 := Nat.mod_upper_bound (n + 1) 2 ltac:(lia)).
  destruct (fused_struct (fun h => Nat.min (2 * h) n) n ((n + 1) / 2) d1 p1) as [A1 B1]; try assumption; try lia.
  { intros h Hh. replace (Nat.min (2 * h) n) with (2 * h)%nat by lia. rewrite Hf1 by exact Hh.
    destruct (Nat.ltb_spec (S (2 * h)) n); destruct (Nat.eqb_spec (Nat.min (2 * S h) n) (2 * h + 2)); lia || reflexivity. }
  destruct (fused_struct (fun h => Nat.min (2 * h - 1) n) n (n / 2 + 1) d2 p2) as [A2 B2]; try assumption; try lia.
  { intros h Hh. replace (Nat.min (2 * h - 1) n) with (2 * h - 1)%nat by lia. rewrite Hf2 by exact Hh.
    destruct (Nat.leb_spec 1 h); destruct (Nat.ltb_spec (2 * h) n); destruct (Nat.eqb_spec (Nat.min (2 * S h - 1) n) (2 * h - 1 + 2)); cbn [andb]; lia || reflexivity. }
  repeat (split; [assumption|]).
  intros j Hj.
  assert (P1 : is_pair p1 j -> Nat.even j = true).
  { intros (h & Hh & Hb). pose proof (blk_first _ _ _ _ Hb) as Hj0. rewrite Hn1 in Hj0 by lia.
    replace j with (2 * h)%nat by lia. rewrite Nat.even_mul. reflexivity. }
  assert (P2 : is_pair p2 j -> Nat.even j = false).
  { intros (h & Hh & Hb). pose proof (blk_first _ _ _ _ Hb) as Hj0. rewrite Hn2 in Hj0 by lia.
    destruct h as [|h].
    { exfalso. unfold blk in Hb. rewrite !Hn2 in Hb by lia. apply (f_equal (@length nat)) in Hb.
      unfold range in Hb. rewrite seq_length in Hb. simpl length in Hb. lia. }
    replace j with (1 + 2 * h)%nat by lia. rewrite Nat.even_add, Nat.even_mul. reflexivity. }
  destruct (Nat.Even_or_Odd j) as [[m Hm]|[m Hm]].
  - left. split.
    + exists m. split; [rewrite Hp1; lia|]. unfold blk. rewrite !Hn1 by lia.
      replace (Nat.min (2 * m) n) with j by lia. replace (Nat.min (2 * S m) n) with (j + 2)%nat by lia. rewrite seq_range. reflexivity.
    + intros H. apply P2 in H. rewrite Hm, Nat.even_mul in H. discriminate.
  - right. split.
    + intros H. apply P1 in H. rewrite Hm, Nat.even_add, Nat.even_mul in H. discriminate.
    + exists (S m). split; [rewrite Hp2; lia|]. unfold blk. rewrite !Hn2 by lia.
      replace (Nat.min (2 * S m - 1) n) with j by lia. replace (Nat.min (2 * S (S m) - 1) n) with (j + 2)%nat by lia. rewrite seq_range. reflexivity.
Qed.

Lemma fused_sparse_struct (alpha step : R) data ptr (x : list R) i indices indptr (d : list R) :
  partitions ptr (length x) -> length data = length x ->
  (forall h, (S h < length ptr)%nat -> exists j, 
     (blk ptr h = [j] /\ nth j data 0%Z = (-1)%Z) \/ (blk ptr h = [j; S j] /\ nth j data 0%Z = 1%Z)) ->
  row_ok indices indptr i -> NoDup (csr_row indices indptr i) ->
  Forall (fun h => (S h < length ptr)%nat /\ (h < length d)%nat) (csr_row indices indptr i) ->
  0 <= alpha -> 0 <= step -> Forall (fun t => 0 <= t) d ->
  exists x', @fused_sparse_prox RN alpha data ptr x i indices indptr d step = Ok x' /\ length x' = length x /\
    (forall j, (forall h, In h (csr_row indices indptr i) -> ~ In j (blk ptr h)) -> nth j x' 0 = nth j x 0) /\
    is_prox (fun y => Rsum (map (fun h => alpha * nth h d 0 * tv (sub y (blk ptr h))) (csr_row indices indptr i))) step x x'.
Proof.
  intros Hp Hl Hb [Hr1 Hr2] Hnd Hf Ha Hs Hd. rewrite Forall_forall in Hf, Hd.
  destruct (fused_sparse_prox_correct alpha step data ptr x i indices indptr d (partitions_mono _ _ Hp) Hr1 Hr2 Hnd)
    as (p & He & Hlp & _ & Hout & Hprox).
  - apply Forall_forall. intros h Hh. destruct (Hf h Hh) as [H1 H2]. destruct (partitions_bound ptr _ h Hp H1).
    repeat (split; [try lia; assumption|]). destruct (Hb h H1) as (j & [[E F]|[E F]]); pose proof (blk_first _ _ _ _ E) as Ej; rewrite Ej.
    + left. rewrite F. lia.
    + right. apply (f_equal (@length nat)) in E. unfold blk, range in E. rewrite seq_length in E. simpl in E. lia.
  - intros h. destruct (Nat.lt_ge_cases h (length d)) as [Hh|Hh].
    + specialize (Hd _ (nth_In d 0 Hh)). apply Rmult_le_pos; [|exact Ha]. apply Rmult_le_pos; assumption.
    + rewrite nth_overflow by lia. nra.
  - exists p. split; [exact He|]. split; [exact Hlp|]. split; [exact Hout|].
    replace (fun y => Rsum (map (fun h => alpha * nth h d 0 * tv (sub y (blk ptr h))) (csr_row indices indptr i))) with
     (fun y => Rsum (map (fun h => fl_block_pen alpha data ptr d h y) (csr_row indices indptr i))); [exact Hprox|].
    apply FunctionalExtensionality.functional_extensionality. intros y. apply f_equal, map_ext_in. intros h Hh.
    unfold fl_block_pen. destruct (Hf h Hh) as [H1 H2]. destruct (Hb h H1) as (j & [[E F]|[E F]]); rewrite (blk_first _ _ _ _ E), E, F; simpl; ring.
Qed.

Lemma fused_blocks_2_empty : fused_blocks_2 0 = Err IndexError.
Proof. reflexivity. Qed.
End Fused.

(** ** Refutation: negative indices (C10) *)
Section Neg.
Local Open Scope R_scope.
Lemma sqrt_9 : sqrt (0 + 3 * 3) = 3.
Proof. replace (0 + 3 * 3) with (3 * 3) by ring. apply sqrt_square; lra. Qed.
Lemma sqrt_09 : sqrt (0 + 3 * 3 + 0 * 0) = 3.
Proof. replace (0 + 3 * 3 + 0 * 0) with (3 * 3) by ring. apply sqrt_square; lra. Qed.

Definition neg_groups : list (list Z) := [[-1; 0]; [1]]%Z.
Lemma neg_groups_call (a b : R) : @group_call RN 1 neg_groups [a; b] =
   Ok (1 * (0 + sqrt (0 + b * b + a * a) + sqrt (0 + b * b))).
Proof. reflexivity. Qed.

Lemma neg_groups_prox : @group_prox RN 1 neg_groups [0; 3] 1 = Ok [0; 4 / 3].
Proof.
  unfold group_prox, neg_groups. cbn [forM]. unfold group_prox_one.
  cbn [length group_idx mapM pyidx bind gather get nth_error andb].
  change (pyidx 2 (-1)) with (@Ok nat 1%nat). change (pyidx 2 0) with (@Ok nat 0%nat). change (pyidx 2 1) with (@Ok nat 1%nat).
  cbn [bind gather mapM get nth_error].
  unfold vnorm, vdot, vsum, vmul. cbn [map2 fold_left]. rn. rewrite sqrt_09, sqrt_9.
  rewrite (Rltb_true (1 * 1) 3) by lra. cbn [scatter set length Nat.ltb Nat.leb upd bind map get nth_error].
  cbn. f_equal. f_equal; [field|f_equal; field].
Qed.
End Neg.

Section Final.
Local Open Scope R_scope.
Lemma l1norm_prox_call (alpha step : R) (x : list R) :
  0 <= alpha * step -> is_prox (@l1norm_call RN alpha) step x (@l1norm_prox RN alpha x step).
Proof.
  intros H. replace (@l1norm_call RN alpha) with (fun y => alpha * l1 y).
  - apply l1norm_prox_correct, H.
  - apply FunctionalExtensionality.functional_extensionality. intros y. symmetry. apply l1norm_call_R.
Qed.
Lemma accepted_groups groups : group_init groups = Ok groups ->
  (forall g, In g groups -> forall k, (S k < length g)%nat -> nth (S k) g 0%Z = (nth k g 0 + 1)%Z) /\
  (forall i j g h, (i < j)%nat -> nth_error groups i = Some g -> nth_error groups j = Some h ->
      forall x y, In x g -> In y h -> (x < y)%Z).
Proof. intros H. split; [apply accepted_contiguous, H|apply accepted_increasing, H]. Qed.
Lemma group_prox_negative :
  exists (groups : list (list Z)) (x out : list R) (pen : list R -> R),
    group_init groups = Ok groups /\
    (forall y : list R, length y = length x -> @group_call RN 1 groups y = Ok (pen y)) /\
    @group_prox RN 1 groups x 1 = Ok out /\ ~ is_prox pen 1 x out.
Proof.
  exists neg_groups, [0; 3], [0; 4 / 3],
    (fun y => 1 * (0 + sqrt (0 + nth 1 y 0 * nth 1 y 0 + nth 0 y 0 * nth 0 y 0) + sqrt (0 + nth 1 y 0 * nth 1 y 0))).
  split; [reflexivity|]. split; [|split; [exact neg_groups_prox|]].
  - intros [|a [|b [|c y]]] Hy; simpl in Hy; try discriminate. apply neg_groups_call.
  - intros (_ & _ & H & _). specialize (H [0; 1] eq_refl I). unfold prox_obj in H. cbn [nth dist2] in H.
    replace (0 + 4 / 3 * (4 / 3) + 0 * 0) with ((4/3) * (4/3)) in H by field.
    replace (0 + 4 / 3 * (4 / 3)) with ((4/3) * (4/3)) in H by field.
    replace (0 + 1 * 1 + 0 * 0) with (1 * 1) in H by ring. replace (0 + 1 * 1) with (1 * 1) in H by ring.
    rewrite !sqrt_square in H by lra. lra.
Qed.
Lemma fused_sparse_both (which : bool) (alpha step : R) data ptr (x : list R) i indices indptr (d : list R) :
  (if which then fused_blocks_1 (length x) else fused_blocks_2 (length x)) = Ok (data, ptr) ->
  (1 <= length x)%nat ->
  row_ok indices indptr i -> NoDup (csr_row indices indptr i) ->
  Forall (fun h => (S h < length ptr)%nat /\ (h < length d)%nat) (csr_row indices indptr i) ->
  0 <= alpha -> 0 <= step -> Forall (fun t => 0 <= t) d ->
  exists x', @fused_sparse_prox RN alpha data ptr x i indices indptr d step = Ok x' /\ length x' = length x /\
    (forall j, (forall h, In h (csr_row indices indptr i) -> ~ In j (blk ptr h)) -> nth j x' 0 = nth j x 0) /\
    is_prox (fun y => Rsum (map (fun h => alpha * nth h d 0 * tv (sub y (blk ptr h))) (csr_row indices indptr i))) step x x'.
Proof.
  intros Hb Hn. destruct (fused_structs (length x) Hn) as (d1 & p1 & d2 & p2 & E1 & E2 & L1 & L2 & _ & _ & A1 & A2 & B1 & B2 & _).
  destruct which; rewrite ?E1, ?E2 in Hb; injection Hb as <- <-; apply fused_sparse_struct; assumption.
Qed.
End Final.
