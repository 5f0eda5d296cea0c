(** * Proofs about copt/penalty.py *)
From Coq Require Import ZArith Reals Lra Lia List Bool Permutation.
From Verif Require Import Num Vec Spec SpecSparse RVec ModelPenalty.
Import ListNotations.
Open Scope R_scope.

(** ** Generic array-loop lemmas *)
Lemma forM_upd_each {A} (js : list nat) (body : nat -> list A -> result (list A)) (f : nat -> A -> A) (P : list A -> Prop) :
  NoDup js ->
  (forall j x, In j js -> P x -> forall d, (j < length x)%nat -> body j x = Ok (upd x j (f j (nth j x d)))
      /\ P (upd x j (f j (nth j x d)))) ->
  forall x, P x -> Forall (fun j => (j < length x)%nat) js ->
  exists x', forM js body x = Ok x' /\ length x' = length x /\ P x' /\
    (forall k d, In k js -> nth k x' d = f k (nth k x d)) /\
    (forall k d, ~ In k js -> nth k x' d = nth k x d).
Proof.
  intros Hnd. induction Hnd as [|j js Hj Hnd IH]; intros Hb x HP Hf; cbn [forM].
  - exists x; repeat split; auto; intros k d [].
  - inversion Hf as [|? ? Hlt Hf']; subst.
    destruct x as [|a0 x0] eqn:Ex; [simpl in Hlt; lia|]. rewrite <- Ex in *. 
    destruct (Hb j x ltac:(left; reflexivity) HP a0 Hlt) as [Hbj HPj].
    rewrite Hbj. cbn [bind].
    destruct (IH (fun j' x' Hin => Hb j' x' (or_intror Hin)) (upd x j (f j (nth j x a0))) HPj) as (x' & He & Hl & HP' & Hi & Ho).
    { eapply Forall_impl; [|exact Hf']. intros; rewrite upd_length; assumption. }
    rewrite upd_length in Hl.
    exists x'. repeat split; auto.
    + intros k d [<-|Hk].
      * rewrite Ho by exact Hj. rewrite nth_upd_eq by exact Hlt.
        f_equal. apply nth_indep; exact Hlt.
      * rewrite Hi by exact Hk. rewrite nth_upd_neq; [reflexivity|]. intros ->; contradiction.
    + intros k d Hk. rewrite Ho by (intro; apply Hk; right; assumption).
      apply nth_upd_neq. intros ->; apply Hk; left; reflexivity.
Qed.

Lemma range_NoDup lo hi : NoDup (range lo hi).
Proof. apply seq_NoDup. Qed.
Lemma in_range k lo hi : In k (range lo hi) <-> (lo <= k < hi)%nat.
Proof. unfold range. rewrite in_seq. lia. Qed.

(** ** L1Norm *)
Lemma soft_thr_R t x : 0 <= t ->
  @soft_thr RN t x = if Rltb t x then x - t else if Rltb x (-t) then x + t else 0.
Proof.
  intros Ht. unfold soft_thr. rewrite !nfmax_R. rn. unfold Rmax.
  repeat (rcase || destruct (Rle_dec _ _)); lra.
Qed.

(** scalar variational inequality: t|p| + (x-p)(y-p) <= t|y| *)
Lemma soft_thr_vi t x y : 0 <= t ->
  t * Rabs (@soft_thr RN t x) + (x - @soft_thr RN t x) * (y - @soft_thr RN t x) <= t * Rabs y.
Proof.
  intros Ht. rewrite soft_thr_R by exact Ht. rn.
  destruct (Rltb_spec t x); [|destruct (Rltb_spec x (-t))].
  - rewrite (Rabs_right (x - t)) by lra. pose proof (Rle_abs y). nra.
  - rewrite (Rabs_left (x + t)) by lra. pose proof (Rle_abs (- y)). rewrite Rabs_Ropp in *. nra.
  - rewrite Rabs_R0. rewrite !Rminus_0_r.
    assert (Rabs (x * y) <= t * Rabs y).
    { rewrite Rabs_mult. apply Rmult_le_compat_r; [apply Rabs_pos|]. apply Rabs_le; lra. }
    pose proof (Rle_abs (x * y)). lra.
Qed.

Lemma l1norm_prox_correct (alpha : R) (x : list R) (step : R) : 0 <= alpha * step ->
  is_prox (fun y => alpha * l1 y) step x (@l1norm_prox RN alpha x step).
Proof.
  intros Ht. apply prox_intro.
  - unfold l1norm_prox; apply map_length.
  - unfold l1norm_prox; rn. intros y Hl. revert y Hl.
    induction x as [|a x IH]; intros [|b y] Hl; simpl in Hl; try lia.
    + simpl; lra.
    + specialize (IH y ltac:(lia)). unfold vminus in *. cbn [map l1 lin dot].
      pose proof (soft_thr_vi (alpha * step) a b Ht). rn.
      lra.
Qed.

Lemma l1norm_call_R alpha x : @l1norm_call RN alpha x = alpha * l1 x.
Proof. unfold l1norm_call. fold (@vnorm1 RN x). rewrite vnorm1_R. reflexivity. Qed.

(** the sparse prox, for every arithmetic *)
(** run a loop over positions lo..hi of [indices] as a loop over the entries *)
Lemma forM_indices {S} (indices : list nat) lo hi (body : nat -> S -> result S) s :
  (hi <= length indices)%nat ->
  forM (range lo hi) (fun j s => i <- get indices j ;; body i s) s =
  forM (map (fun j => nth j indices 0%nat) (range lo hi)) body s.
Proof.
  intros Hl. unfold range.
  assert (Hall : forall n lo s, (lo + n <= length indices)%nat ->
    forM (seq lo n) (fun j s => i <- get indices j ;; body i s) s =
    forM (map (fun j => nth j indices 0%nat) (seq lo n)) body s).
  { clear. induction n as [|n IH]; intros lo s Hn; cbn [seq forM map]; [reflexivity|].
    rewrite (get_ok _ _ 0%nat) by lia. cbn [bind]. destruct (body _ s); cbn [bind]; [|reflexivity].
    apply IH; lia. }
  destruct (Nat.le_gt_cases hi lo) as [Hle|Hgt].
  - replace (hi - lo)%nat with 0%nat by lia. reflexivity.
  - apply Hall; lia.
Qed.

(** ** CSR rows *)

Lemma csr_loop {St} (indices indptr : list nat) i (body : nat -> St -> result St) (s : St) :
  (S i < length indptr)%nat -> (nth (S i) indptr 0 <= length indices)%nat ->
  (lo <- get indptr i ;; hi <- get indptr (S i) ;;
   forM (range lo hi) (fun j s => k <- get indices j ;; body k s) s)
  = forM (csr_row indices indptr i) body s.
Proof.
  intros Hi Hn. rewrite (get_ok _ i 0%nat), (get_ok _ (S i) 0%nat) by lia. cbn [bind].
  rewrite forM_indices by exact Hn. reflexivity.
Qed.

Lemma l1norm_sparse_correct (K : Num) (alpha : K) x i indices indptr d step :
  (S i < length indptr)%nat -> (nth (S i) indptr 0 <= length indices)%nat ->
  NoDup (csr_row indices indptr i) ->
  Forall (fun j => (j < length x)%nat /\ (j < length d)%nat) (csr_row indices indptr i) ->
  exists x', l1norm_sparse_prox alpha x i indices indptr d step = Ok x' /\ length x' = length x /\
    (forall j, In j (csr_row indices indptr i) ->
       nth j x' n0 = soft_thr (nmul K (nmul K alpha (nth j d n0)) step) (nth j x n0)) /\
    (forall j, ~ In j (csr_row indices indptr i) -> nth j x' n0 = nth j x n0).
Proof.
  intros Hi Hn Hnd Hf. unfold l1norm_sparse_prox.
  set (body := fun (j_idx : nat) (x : vec K) => xj <- get x j_idx ;; dj <- get d j_idx ;;
     set x j_idx (nsub K (nfmax (nsub K xj (nmul K (nmul K alpha dj) step)) n0)
           (nfmax (nsub K (nopp K xj) (nmul K (nmul K alpha dj) step)) n0))).
  change (exists x', (lo <- get indptr i ;; hi <- get indptr (S i) ;;
     forM (range lo hi) (fun j s => k <- get indices j ;; body k s) x) = Ok x' /\ length x' = length x /\
    (forall j, In j (csr_row indices indptr i) ->
       nth j x' n0 = soft_thr (nmul K (nmul K alpha (nth j d n0)) step) (nth j x n0)) /\
    (forall j, ~ In j (csr_row indices indptr i) -> nth j x' n0 = nth j x n0)).
  rewrite csr_loop by assumption.
  destruct (forM_upd_each (csr_row indices indptr i) body
     (fun j t => soft_thr (nmul K (nmul K alpha (nth j d n0)) step) t) (fun _ => True) Hnd) with (x := x)
   as (x' & He & Hl & _ & H1 & H2).
  - intros j y Hj _ dd Hlt. split; [|exact I]. unfold body.
    rewrite (get_ok y j dd) by exact Hlt. cbn [bind].
    rewrite Forall_forall in Hf. destruct (Hf j Hj) as [_ Hd].
    rewrite (get_ok d j n0) by exact Hd. cbn [bind].
    rewrite set_ok by exact Hlt. reflexivity.
  - exact I.
  - eapply Forall_impl; [|exact Hf]. simpl; tauto.
  - exists x'. repeat split; auto.
Qed.

(** ** GroupL1: what the constructor accepts *)
Lemma diff_all_one_seq g : diff_all_one g = true ->
  forall a, head_opt g = Ok a -> g = map (fun k => (a + Z.of_nat k)%Z) (seq 0 (length g)).
Proof.
  induction g as [|b g IH]; intros Hd a Ha; [discriminate|].
  injection Ha as <-. simpl length. cbn [seq map]. rewrite Z.add_0_r. f_equal.
  destruct g as [|c g]; [reflexivity|].
  cbn [diff_all_one] in Hd. apply andb_true_iff in Hd as [Hc Hd]. apply Z.eqb_eq in Hc.
  rewrite (IH Hd c eq_refl) at 1. rewrite <- seq_shift, map_map.
  apply map_ext. intros k. lia.
Qed.

(** segments (start, length) in increasing order *)
Fixpoint segs_ok (lo : nat) (segs : list (nat * nat)) : Prop :=
  match segs with
  | [] => True
  | (a, l) :: rest => (lo <= a)%nat /\ (1 <= l)%nat /\ segs_ok (a + l) rest
  end.
Definition seg_group (s : nat * nat) : list Z := map Z.of_nat (seq (fst s) (snd s)).

Lemma last_opt_seq a l : (1 <= l)%nat ->
  last_opt (map (fun k => (a + Z.of_nat k)%Z) (seq 0 l)) = Ok (a + Z.of_nat l - 1)%Z.
Proof.
  intros Hl. destruct l as [|l]; [lia|]. unfold last_opt.
  rewrite seq_S, map_app, rev_app_distr. simpl. f_equal. lia.
Qed.

Lemma seg_group_shift a l : map Z.of_nat (seq a l) = map (fun k => (Z.of_nat a + Z.of_nat k)%Z) (seq 0 l).
Proof.
  revert a; induction l as [|l IH]; intros a; [reflexivity|].
  cbn [seq map]. f_equal; [lia|]. rewrite IH, <- seq_shift, map_map. apply map_ext; intros; lia.
Qed.

Lemma accepted_segs_from : forall groups prev lo,
  check_groups prev groups = Ok tt ->
  Forall (fun g => g <> []) groups ->
  match prev with
  | Some p => last_opt p = Ok (Z.of_nat lo - 1)%Z
  | None => match groups with g :: _ => exists a, head_opt g = Ok a /\ (Z.of_nat lo <= a)%Z | [] => True end
  end ->
  exists segs, groups = map seg_group segs /\ segs_ok lo segs.
Proof.
  induction groups as [|g groups IH]; intros prev lo Hc Hne Hp.
  - exists []. split; [reflexivity|exact I].
  - inversion Hne as [|? ? Hg Hne']; subst. cbn [check_groups] in Hc.
    destruct (diff_all_one g) eqn:Hd; cbn [negb] in Hc; [|discriminate].
    destruct g as [|a g]; [congruence|].
    assert (Ha : (Z.of_nat lo <= a)%Z /\ check_groups (Some (a :: g)) groups = Ok tt).
    { destruct prev as [p|].
      - rewrite Hp in Hc. cbn [bind head_opt] in Hc.
        destruct (Z.leb_spec a (Z.of_nat lo - 1)); cbn [negb] in Hc; [discriminate|].
        split; [lia|exact Hc].
      - cbn [bind] in Hc. destruct Hp as (a' & Ha' & Hle). injection Ha' as <-. auto. }
    destruct Ha as [Hle Hc'].
    pose proof (diff_all_one_seq _ Hd a eq_refl) as Hseq.
    set (l := length (a :: g)) in *.
    destruct (IH (Some (a :: g)) (Z.to_nat a + l)%nat Hc' Hne') as (segs & He & Hok).
    { rewrite Hseq. rewrite last_opt_seq by (unfold l; simpl; lia). f_equal. lia. }
    exists ((Z.to_nat a, l) :: segs). split.
    + cbn [map]. rewrite <- He. f_equal. unfold seg_group; cbn [fst snd].
      rewrite seg_group_shift, Z2Nat.id by lia. exact Hseq.
    + cbn [segs_ok]. repeat split; [lia|unfold l; simpl; lia|exact Hok].
Qed.

Lemma accepted_segs groups :
  group_init groups = Ok groups -> Forall (fun g => g <> []) groups ->
  Forall (fun g => Forall (fun z => (0 <= z)%Z) g) groups ->
  exists segs, groups = map seg_group segs /\ segs_ok 0 segs.
Proof.
  intros Hi Hne Hnn. unfold group_init in Hi.
  destruct (check_groups None groups) as [[]|] eqn:Hc; [|discriminate].
  apply (accepted_segs_from groups None 0%nat Hc Hne).
  destruct groups as [|g gs]; [exact I|].
  inversion Hne; inversion Hnn as [|? ? Hg]; subst. destruct g as [|a g]; [congruence|].
  exists a; split; [reflexivity|]. inversion Hg; subst. simpl; lia.
Qed.

(** every accepted list: contiguous, pairwise disjoint, increasing (over the integers) *)
Lemma check_groups_sound : forall groups prev,
  check_groups prev groups = Ok tt ->
  (forall g, In g groups -> forall a, head_opt g = Ok a ->
      g = map (fun k => (a + Z.of_nat k)%Z) (seq 0 (length g))) /\
  (forall i g h, nth_error groups i = Some g -> nth_error groups (S i) = Some h ->
      forall x y, In x g -> In y h -> (x < y)%Z) /\
  (match prev, groups with Some p, g :: _ => exists pl, last_opt p = Ok pl /\ g <> [] /\ forall y, In y g -> (pl < y)%Z | _, _ => True end).
Proof.
  induction groups as [|g groups IH]; intros prev Hc.
  - split; [intros ? []|]. split; [intros [|i] ? ? H; discriminate|]. destruct prev; exact I.
  - cbn [check_groups] in Hc. destruct (diff_all_one g) eqn:Hd; cbn [negb] in Hc; [|discriminate].
    assert (Hc' : check_groups (Some g) groups = Ok tt /\
       match prev with Some p => exists pl a, last_opt p = Ok pl /\ head_opt g = Ok a /\ (pl < a)%Z | None => True end).
    { destruct prev as [p|]; [|cbn [bind] in Hc; auto].
      destruct (last_opt p) as [pl|] eqn:Hpl; cbn [bind] in Hc; [|discriminate].
      destruct (head_opt g) as [a|] eqn:Ha; cbn [bind] in Hc; [|discriminate].
      destruct (Z.leb_spec a pl); cbn [negb] in Hc; [discriminate|]. eauto 6. }
    destruct Hc' as [Hc' Hprev]. destruct (IH _ Hc') as (H1 & H2 & H3).
    assert (Hin : forall a, head_opt g = Ok a -> forall y, In y g -> (a <= y <= a + Z.of_nat (length g) - 1)%Z).
    { intros a Ha y Hy. rewrite (diff_all_one_seq _ Hd a Ha) in Hy.
      apply in_map_iff in Hy as (k & <- & Hk). apply in_seq in Hk. lia. }
    split; [|split].
    + intros g' [<-|Hg']; [intros a Ha; apply diff_all_one_seq; assumption|apply H1, Hg'].
    + intros [|i] g' h Hg' Hh x y Hx Hy.
      * simpl in Hg', Hh. injection Hg' as <-. destruct groups as [|h' gs]; [discriminate|].
        simpl in Hh; injection Hh as <-. destruct H3 as (pl & Hpl & _ & Hall).
        assert (x <= pl)%Z; [|specialize (Hall y Hy); lia].
        destruct g as [|a g]; [destruct Hx|].
        pose proof (Hin a eq_refl x Hx) as Hb.
        rewrite (diff_all_one_seq _ Hd a eq_refl), last_opt_seq in Hpl by (simpl; lia).
        injection Hpl as <-. cbn [length] in Hb. lia.
      * simpl in Hg', Hh. eapply H2; eauto.
    + destruct prev as [p|]; [|exact I]. destruct Hprev as (pl & a & Hpl & Ha & Hlt).
      exists pl. split; [exact Hpl|]. split; [destruct g; [discriminate|congruence]|].
      intros y Hy. pose proof (Hin a Ha y Hy). lia.
Qed.

(** ** GroupL1.prox *)
Lemma mapM_ok {A B} (f : A -> result B) (h : A -> B) l :
  (forall a, In a l -> f a = Ok (h a)) -> mapM f l = Ok (map h l).
Proof.
  induction l as [|a l IH]; intros H; cbn [mapM map]; [reflexivity|].
  rewrite H by (left; reflexivity). cbn [bind]. rewrite IH by (intros; apply H; right; assumption). reflexivity.
Qed.
Lemma group_idx_ok n a l : (a + l <= n)%nat -> group_idx n (map Z.of_nat (seq a l)) = Ok (seq a l).
Proof.
  intros Hn. unfold group_idx.
  rewrite (mapM_ok _ Z.to_nat).
  - rewrite map_map. f_equal. rewrite <- (map_id (seq a l)) at 2. apply map_ext; intros; apply Nat2Z.id.
  - intros z Hz. apply in_map_iff in Hz as (k & <- & Hk). apply in_seq in Hk. unfold pyidx.
    destruct (Z.leb_spec 0 (Z.of_nat k)); [|lia]. destruct (Z.ltb_spec (Z.of_nat k) (Z.of_nat n)); [|lia]. reflexivity.
Qed.
Lemma gather_ok {A} (x : list A) g d : Forall (fun i => (i < length x)%nat) g ->
  gather x g = Ok (map (fun i => nth i x d) g).
Proof.
  intros Hf. unfold gather. apply mapM_ok. intros i Hi. rewrite Forall_forall in Hf. apply get_ok, Hf, Hi.
Qed.
Lemma scatter_ok {A} (h : nat -> A) g : forall x, NoDup g -> Forall (fun i => (i < length x)%nat) g ->
  exists x', scatter x g (map h g) = Ok x' /\ length x' = length x /\
   (forall k d, In k g -> nth k x' d = h k) /\ (forall k d, ~ In k g -> nth k x' d = nth k x d).
Proof.
  induction g as [|i g IH]; intros x Hnd Hf; cbn [scatter map].
  - exists x. repeat split; auto. intros k d [].
  - inversion Hnd as [|? ? Hi Hnd']; inversion Hf as [|? ? Hlt Hf']; subst.
    rewrite set_ok by exact Hlt. cbn [bind].
    destruct (IH (upd x i (h i)) Hnd') as (x' & He & Hl & H1 & H2).
    { eapply Forall_impl; [|exact Hf']. intros; rewrite upd_length; assumption. }
    rewrite upd_length in Hl. exists x'. repeat split; auto.
    + intros k d [<-|Hk]; [|apply H1, Hk]. rewrite H2 by exact Hi. apply nth_upd_eq, Hlt.
    + intros k d Hk. rewrite H2 by (intro; apply Hk; right; assumption). apply nth_upd_neq.
      intros ->; apply Hk; left; reflexivity.
Qed.

(** group soft threshold of coordinate k inside group g *)
Definition gshrink (t : R) (x : list R) (g : list nat) (k : nat) : R :=
  if Rltb t (norm2 (sub x g)) then (1 - t / norm2 (sub x g)) * nth k x 0 else 0.

Lemma seq_lt a l n : (a + l <= n)%nat -> Forall (fun i => (i < n)%nat) (seq a l).
Proof. intros H. apply Forall_forall. intros i Hi. apply in_seq in Hi. lia. Qed.

Lemma group_prox_one_ok (alpha : R) (x : list R) (step : R) a l (out : list R) :
  (a + l <= length x)%nat -> length out = length x ->
  (forall k, In k (seq a l) -> nth k out 0 = nth k x 0) ->
  exists out', @group_prox_one RN alpha x step (map Z.of_nat (seq a l)) out = Ok out' /\
    length out' = length x /\
    (forall k, In k (seq a l) -> nth k out' 0 = gshrink (alpha * step) x (seq a l) k) /\
    (forall k, ~ In k (seq a l) -> nth k out' 0 = nth k out 0).
Proof.
  intros Hn Hlo Hsame. unfold group_prox_one.
  rewrite group_idx_ok by exact Hn. cbn [bind].
  rewrite (gather_ok x _ 0) by (apply seq_lt, Hn). cbn [bind]. rewrite vnorm_R. fold (sub x (seq a l)).
  rn. unfold gshrink. destruct (Rltb_spec (alpha * step) (norm2 (sub x (seq a l)))) as [Hlt|Hge].
  - rewrite (gather_ok out _ 0) by (apply seq_lt; lia). cbn [bind]. rewrite map_map.
    destruct (scatter_ok (fun k => nth k out 0 - step * alpha * nth k out 0 / norm2 (sub x (seq a l))) (seq a l) out)
      as (o & He & Hl & H1 & H2).
    { apply seq_NoDup. } { apply seq_lt; lia. }
    exists o. rn. split; [exact He|]. split; [lia|]. split.
    + intros k Hk. rewrite H1 by exact Hk. rewrite Hsame by exact Hk. unfold Rdiv. ring.
    + intros k Hk. apply H2, Hk.
  - destruct (scatter_ok (fun _ => 0) (seq a l) out) as (o & He & Hl & H1 & H2).
    { apply seq_NoDup. } { apply seq_lt; lia. }
    exists o. split; [exact He|]. split; [lia|]. split; intros k Hk; auto.
Qed.

Lemma segs_ok_weaken segs : forall lo lo', (lo' <= lo)%nat -> segs_ok lo segs -> segs_ok lo' segs.
Proof. destruct segs as [|[a l] segs]; simpl; intros; [exact I|]. intuition lia. Qed.
Lemma segs_ok_in segs : forall lo s, segs_ok lo segs -> In s segs -> (lo <= fst s)%nat /\ (1 <= snd s)%nat.
Proof.
  induction segs as [|[a l] segs IH]; intros lo s Hok Hin; [destruct Hin|].
  destruct Hok as (H1 & H2 & H3). destruct Hin as [<-|Hin]; [simpl; auto|].
  destruct (IH _ _ H3 Hin). lia.
Qed.
Definition segs_end (lo : nat) (segs : list (nat * nat)) : nat := fold_left (fun _ s => (fst s + snd s)%nat) segs lo.
Lemma segs_end_le segs : forall lo n, segs_ok lo segs -> (lo <= n)%nat ->
  (forall s, In s segs -> (fst s + snd s <= n)%nat) -> (segs_end lo segs <= n)%nat.
Proof.
  unfold segs_end. induction segs as [|[a l] segs IH]; intros lo n Hok Hlo Hb; simpl; [exact Hlo|].
  destruct Hok as (H1 & H2 & H3). apply IH; [exact H3|apply (Hb (a, l)); left; reflexivity|].
  intros s Hs; apply Hb; right; exact Hs.
Qed.

Lemma group_prox_ok (alpha : R) (x : list R) (step : R) : forall segs lo (out : list R),
  segs_ok lo segs -> (forall s, In s segs -> (fst s + snd s <= length x)%nat) ->
  length out = length x ->
  (forall k, (lo <= k)%nat -> nth k out 0 = nth k x 0) ->
  exists out', forM (map seg_group segs) (@group_prox_one RN alpha x step) out = Ok out' /\
    length out' = length x /\
    (forall s k, In s segs -> In k (seq (fst s) (snd s)) ->
        nth k out' 0 = gshrink (alpha * step) x (seq (fst s) (snd s)) k) /\
    (forall k, (forall s, In s segs -> ~ In k (seq (fst s) (snd s))) -> nth k out' 0 = nth k out 0).
Proof.
  induction segs as [|[a l] segs IH]; intros lo out Hok Hb Hl Hs; cbn [map forM].
  - exists out. repeat split; auto. intros s k [].
  - destruct Hok as (H1 & H2 & H3).
    destruct (group_prox_one_ok alpha x step a l out) as (o & He & Hlo & Hi & Ho).
    { apply (Hb (a, l)); left; reflexivity. } { exact Hl. }
    { intros k Hk. apply in_seq in Hk. apply Hs. lia. }
    unfold seg_group at 1; cbn [fst snd]. rewrite He. cbn [bind].
    destruct (IH (a + l)%nat o H3) as (o' & He' & Hl' & Hi' & Ho').
    { intros s Hin; apply Hb; right; exact Hin. } { exact Hlo. }
    { intros k Hk. rewrite Ho by (rewrite in_seq; lia). apply Hs; lia. }
    exists o'. split; [exact He'|]. split; [exact Hl'|]. split.
    + intros s k [<-|Hin] Hk; [|apply Hi'; assumption]. cbn [fst snd] in *.
      rewrite Ho'; [apply Hi, Hk|]. intros s Hin Hk'.
      destruct (segs_ok_in _ _ _ H3 Hin). apply in_seq in Hk. apply in_seq in Hk'. lia.
    + intros k Hk. rewrite Ho' by (intros s Hin; apply Hk; right; exact Hin).
      apply Ho. apply (Hk (a, l)). left; reflexivity.
Qed.

Definition gl_pen (gs : list (list nat)) (y : list R) : R := Rsum (map (fun g => norm2 (sub y g)) gs).
Definition seg_idx (s : nat * nat) : list nat := seq (fst s) (snd s).

Lemma group_call_R (alpha : R) segs (y : list R) :
  (forall s, In s segs -> (fst s + snd s <= length y)%nat) ->
  @group_call RN alpha (map seg_group segs) y = Ok (alpha * gl_pen (map seg_idx segs) y).
Proof.
  intros Hb. unfold group_call.
  assert (Hm : mapM (fun g => gi <- group_idx (length y) g ;; xs <- gather y gi ;; Ok (@vnorm RN xs)) (map seg_group segs)
     = Ok (map (fun g => norm2 (sub y g)) (map seg_idx segs))).
  { rewrite map_map. induction segs as [|s segs IH]; [reflexivity|].
    cbn [map mapM]. unfold seg_group at 1. rewrite group_idx_ok by (apply Hb; left; reflexivity).
    cbn [bind]. rewrite (gather_ok y _ 0) by (apply seq_lt, Hb; left; reflexivity). cbn [bind].
    rewrite vnorm_R, IH by (intros; apply Hb; right; assumption). reflexivity. }
  rn. rewrite Hm. cbn [bind]. rewrite vsum_R. reflexivity.
Qed.

(** vector shrinkage inequality *)
Lemma shrink_vi t u y p : 0 <= t -> length y = length u ->
  p = (if Rltb t (norm2 u) then smul (1 - t / norm2 u) u else zeros (length u)) ->
  t * norm2 p + dot (vminus u p) (vminus y p) <= t * norm2 y.
Proof.
  intros Ht Hl Hp. pose proof (norm2_nonneg u) as Hn. pose proof (dot_le_norm u y) as Hcs.
  destruct (Rltb_spec t (norm2 u)) as [Hlt|Hge].
  - set (c := t / norm2 u) in *.
    assert (Hcn : c * norm2 u = t) by (unfold c; field; lra).
    assert (Hc : 0 <= c <= 1).
    { unfold c; split.
      - apply Rmult_le_pos; [lra|]. left; apply Rinv_0_lt_compat; lra.
      - apply Rmult_le_reg_r with (norm2 u); [lra|]. unfold Rdiv. rewrite Rmult_assoc, Rinv_l by lra. lra. }
    subst p. rewrite norm2_smul, Rabs_right by lra.
    replace (vminus u (smul (1 - c) u)) with (smul c u) by veq.
    rewrite dot_smul_l. unfold vminus. rewrite dot_lin_r by len. rewrite dot_smul_r, <- norm2_sq.
    replace (t * ((1 - c) * norm2 u) + c * (1 * dot u y + -1 * ((1 - c) * (norm2 u * norm2 u)))) with (c * dot u y)
      by (rewrite <- Hcn; ring).
    apply Rle_trans with (c * (norm2 u * norm2 y)); [apply Rmult_le_compat_l; lra|].
    rewrite <- Rmult_assoc, Hcn. lra.
  - subst p. replace (norm2 (zeros (length u))) with 0.
    2:{ unfold norm2. rewrite dot_zeros_l, sqrt_0. reflexivity. }
    replace (vminus u (zeros (length u))) with u by veq.
    replace (vminus y (zeros (length u))) with y by veq.
    pose proof (norm2_nonneg y). nra.
Qed.

Lemma dot_seq u v n : length u = n -> length v = n ->
  dot u v = Rsum (map (fun i => nth i u 0 * nth i v 0) (seq 0 n)).
Proof.
  revert u v; induction n as [|n IH]; intros [|a u] [|b v]; simpl; try lia; try reflexivity.
  intros Hu Hv. rewrite (IH u v) by lia. rewrite <- seq_shift, map_map. reflexivity.
Qed.
Lemma dot_sub u v g : dot (sub u g) (sub v g) = Rsum (map (fun i => nth i u 0 * nth i v 0) g).
Proof. induction g as [|i g IH]; simpl; [reflexivity|]. rewrite IH; reflexivity. Qed.
Lemma Rsum_zero {A} (f : A -> R) l : (forall a, In a l -> f a = 0) -> Rsum (map f l) = 0.
Proof.
  induction l as [|a l IH]; intros H; simpl; [reflexivity|].
  rewrite H by (left; reflexivity). rewrite IH by (intros; apply H; right; assumption). lra.
Qed.

Lemma sum_segs (f : nat -> R) n : forall segs lo, segs_ok lo segs -> (lo <= n)%nat ->
  (forall s, In s segs -> (fst s + snd s <= n)%nat) ->
  (forall k, (lo <= k)%nat -> (forall s, In s segs -> ~ In k (seg_idx s)) -> f k = 0) ->
  Rsum (map f (seq lo (n - lo))) = Rsum (map (fun s => Rsum (map f (seg_idx s))) segs).
Proof.
  induction segs as [|[a l] segs IH]; intros lo Hok Hlo Hb Hz; cbn [map Rsum].
  - apply Rsum_zero. intros k Hk. apply in_seq in Hk. apply Hz; [lia|]. intros s [].
  - destruct Hok as (H1 & H2 & H3).
    pose proof (Hb (a, l) (or_introl eq_refl)) as Hal; cbn [fst snd] in Hal.
    replace (n - lo)%nat with ((a - lo) + (l + (n - (a + l))))%nat by lia.
    rewrite seq_app, map_app, Rsum_app. rewrite seq_app, map_app, Rsum_app.
    replace (lo + (a - lo))%nat with a by lia.
    unfold seg_idx at 1; cbn [fst snd].
    rewrite Rsum_zero.
    2:{ intros k Hk. apply in_seq in Hk. apply Hz; [lia|]. intros s Hs Hin. unfold seg_idx in Hin. apply in_seq in Hin.
        destruct Hs as [<-|Hs]; [cbn [fst snd] in Hin; lia|].
        destruct (segs_ok_in _ _ _ H3 Hs). lia. }
    rewrite (IH (a + l)%nat H3 Hal).
    + lra.
    + intros s Hs; apply Hb; right; exact Hs.
    + intros k Hk Hns. apply Hz; [lia|]. intros s [<-|Hs]; [|apply Hns, Hs].
      unfold seg_idx; cbn [fst snd]. rewrite in_seq. lia.
Qed.

Lemma sub_length v g : length (sub v g) = length g.
Proof. apply map_length. Qed.
Lemma nth_sub v g j : (j < length g)%nat -> nth j (sub v g) 0 = nth (nth j g 0%nat) v 0.
Proof.
  intros Hj. unfold sub.
  transitivity (nth j (map (fun i => nth i v 0) g) (nth 0 v 0)).
  - apply nth_indep. rewrite map_length; exact Hj.
  - apply (map_nth (fun i => nth i v 0)).
Qed.
Lemma sub_vminus u v g : length u = length v -> sub (vminus u v) g = vminus (sub u g) (sub v g).
Proof.
  intros Hl. induction g as [|i g IH]; [reflexivity|]. unfold sub in *; cbn [map]. rewrite IH.
  rewrite nth_vminus by exact Hl. unfold vminus at 2; cbn [lin]. f_equal. ring.
Qed.

Lemma group_prox_correct (alpha : R) segs (x : list R) (step : R) :
  0 <= alpha * step -> segs_ok 0 segs -> (forall s, In s segs -> (fst s + snd s <= length x)%nat) ->
  exists out, @group_prox RN alpha (map seg_group segs) x step = Ok out /\
    is_prox (fun y => alpha * gl_pen (map seg_idx segs) y) step x out /\
    (forall k, (forall s, In s segs -> ~ In k (seg_idx s)) -> nth k out 0 = nth k x 0).
Proof.
  intros Ht Hok Hb.
  destruct (group_prox_ok alpha x step segs 0 x Hok Hb eq_refl (fun _ _ => eq_refl)) as (p & He & Hl & Hi & Ho).
  exists p. split; [exact He|]. split; [|exact Ho]. rn.
  apply prox_intro; [exact Hl|]. intros y Hly.
  rewrite (dot_seq _ _ (length x)) by len.
  replace (length x) with (length x - 0)%nat at 1 by lia.
  rewrite (sum_segs _ (length x) segs 0 Hok ltac:(lia) Hb).
  2:{ intros k _ Hk. rewrite nth_vminus by lia. rewrite Ho by exact Hk. ring. }
  unfold gl_pen. rewrite !map_map.
  set (t := alpha * step) in *.
  assert (Hall : forall s, In s segs ->
     t * norm2 (sub p (seg_idx s)) + Rsum (map (fun i => nth i (vminus x p) 0 * nth i (vminus y p) 0) (seg_idx s))
     <= t * norm2 (sub y (seg_idx s))).
  { intros s Hs. rewrite <- dot_sub, !sub_vminus by lia.
    apply shrink_vi; [exact Ht|rewrite !sub_length; reflexivity|].
    apply list_ext with (d := 0).
    - destruct (Rltb _ _); rewrite ?smul_length, ?zeros_length, !sub_length; reflexivity.
    - intros j Hj. rewrite sub_length in Hj. rewrite nth_sub by exact Hj.
      assert (Hin : In (nth j (seg_idx s) 0%nat) (seg_idx s)) by (apply nth_In; exact Hj).
      rewrite (Hi s _ Hs Hin). fold (seg_idx s).
      unfold gshrink. fold (seg_idx s). destruct (Rltb t (norm2 (sub x (seg_idx s)))).
      + rewrite nth_smul, nth_sub by exact Hj. reflexivity.
      + rewrite nth_zeros; reflexivity. }
  assert (Hsum : forall l, (forall s, In s l -> In s segs) ->
     t * Rsum (map (fun s => norm2 (sub p (seg_idx s))) l) +
     Rsum (map (fun s => Rsum (map (fun i => nth i (vminus x p) 0 * nth i (vminus y p) 0) (seg_idx s))) l)
     <= t * Rsum (map (fun s => norm2 (sub y (seg_idx s))) l)).
  { induction l as [|s l IH]; intros Hl'; cbn [map Rsum]; [lra|].
    pose proof (Hall s (Hl' s (or_introl eq_refl))). specialize (IH (fun s' H' => Hl' s' (or_intror H'))). lra. }
  specialize (Hsum segs (fun s H => H)). unfold t in Hsum.
  replace (step * (alpha * Rsum (map (fun s => norm2 (sub p (seg_idx s))) segs))) with
     (alpha * step * Rsum (map (fun s => norm2 (sub p (seg_idx s))) segs)) by ring.
  replace (step * (alpha * Rsum (map (fun s => norm2 (sub y (seg_idx s))) segs))) with
     (alpha * step * Rsum (map (fun s => norm2 (sub y (seg_idx s))) segs)) by ring.
  exact Hsum.
Qed.
