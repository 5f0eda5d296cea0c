(** * Block structure and elementwise loops of copt/randomized.py, for every arithmetic *)
From Coq Require Import ZArith Bool List Lia Permutation.
From Verif Require Import Num Vec Spec SpecSparse RVec ModelPenalty PenaltyFacts PenaltyFacts2 PenaltyFacts3 UtilsMain ModelRandomized SpecFiniteSum RandomizedFacts.
Import ListNotations.
Local Open Scope nat_scope.

Lemma Ok_inj {A} (a b : A) : Ok a = Ok b -> a = b.
Proof. congruence. Qed.
(** ** block of a feature *)
Lemma rblocks_prefix ptr n : partitions ptr n -> forall h, h < length ptr ->
  length (flat_map (fun h => map (fun _ => h) (blk ptr h)) (seq 0 h)) = nth h ptr 0.
Proof.
  intros (Z & _ & _ & M). induction h as [|h IH]; intros Hh; [simpl; auto|].
  rewrite seq_S, flat_map_app, app_length, IH by lia. cbn [flat_map]. rewrite app_nil_r, map_length. cbn [Nat.add].
  specialize (M h Hh). unfold blk, range. rewrite seq_length. lia.
Qed.
Lemma rblocks_length ptr n : partitions ptr n -> length (rblocks ptr) = n.
Proof.
  intros Hp. unfold rblocks. rewrite (rblocks_prefix _ _ Hp) by (destruct Hp as (_ & L & _); lia). apply Hp.
Qed.
Lemma rblocks_in ptr n h c : partitions ptr n -> S h < length ptr -> In c (blk ptr h) -> nth c (rblocks ptr) 0 = h.
Proof.
  intros Hp Hh Hc. unfold blk in Hc. apply in_range in Hc. unfold rblocks.
  replace (length ptr - 1) with (h + (1 + (length ptr - 2 - h))) by lia. rewrite seq_app, flat_map_app.
  pose proof (rblocks_prefix _ _ Hp h ltac:(lia)) as E. rewrite app_nth2; rewrite E; [|lia]. cbn [seq Nat.add flat_map].
  rewrite app_nth1 by (rewrite map_length; unfold blk, range; rewrite seq_length; lia).
  rewrite (nth_indep _ 0 h) by (rewrite map_length; unfold blk, range; rewrite seq_length; lia).
  apply (map_nth (fun _ : nat => h) _ 0).
Qed.
Lemma rblocks_spec ptr n c : partitions ptr n -> c < n ->
  S (nth c (rblocks ptr) 0) < length ptr /\ In c (blk ptr (nth c (rblocks ptr) 0)).
Proof.
  intros Hp Hc. destruct (partitions_cover _ _ _ Hp Hc) as (h & Hh & Hin). rewrite (rblocks_in _ _ _ _ Hp Hh Hin). auto.
Qed.
Lemma partitions_eye n : partitions (eye_ptr n) n.
Proof.
  unfold eye_ptr. split; [reflexivity|]. split; [rewrite seq_length; lia|]. split.
  - rewrite seq_length, seq_nth by lia. lia.
  - intros h Hh. rewrite seq_length in Hh. rewrite !seq_nth by lia. lia.
Qed.
Lemma blk_eye n h : h < n -> blk (eye_ptr n) h = [h].
Proof.
  intros Hh. unfold blk, eye_ptr, range. rewrite !seq_nth by lia. replace (0 + S h - (0 + h)) with 1 by lia. reflexivity.
Qed.
Lemma blk_in_lt ptr n h j : partitions ptr n -> S h < length ptr -> In j (blk ptr h) -> j < n.
Proof.
  intros Hp Hh Hj. apply in_range in Hj. pose proof (partitions_bound _ _ (S h) Hp) as B || idtac.
  destruct Hp as (Z & L & E & M).
  assert (Mono : forall a b, a <= b -> b < length ptr -> nth a ptr 0 <= nth b ptr 0).
  { intros a b Hab. induction Hab; intros; [lia|]. specialize (M m ltac:(lia)). specialize (IHHab ltac:(lia)). lia. }
  specialize (Mono (S h) (length ptr - 1) ltac:(lia) ltac:(lia)). lia.
Qed.

Lemma forM_ext_in {A S} (l : list A) (f g : A -> S -> result S) : (forall a s, In a l -> f a s = g a s) -> forall s, forM l f s = forM l g s.
Proof.
  induction l as [|a l IH]; intros H s; cbn [forM]; [reflexivity|]. rewrite (H a s) by (left; reflexivity).
  destruct (g a s); cbn [bind]; [|reflexivity]. apply IH. intros; apply H; right; assumption.
Qed.
Lemma forM_map {A B S} (h : A -> B) (l : list A) (f : B -> S -> result S) : forall s, forM (map h l) f s = forM l (fun a => f (h a)) s.
Proof. induction l as [|a l IH]; intros s; cbn [map forM]; [reflexivity|]. destruct (f (h a) s); cbn [bind]; auto. Qed.
Lemma forM_pair {A S T} (l : list A) (F : A -> S -> result S) (G : A -> T -> result T) (H : A -> S * T -> result (S * T)) :
  (forall a s t s' t', F a s = Ok s' -> G a t = Ok t' -> H a (s, t) = Ok (s', t')) ->
  forall s t s' t', forM l F s = Ok s' -> forM l G t = Ok t' -> forM l H (s, t) = Ok (s', t').
Proof.
  intros Hp. induction l as [|a l IH]; intros s t s' t' E1 E2; cbn [forM] in *.
  - congruence.
  - apply bind_ok in E1 as (s1 & E1 & E1'). apply bind_ok in E2 as (t1 & E2 & E2'). rewrite (Hp _ _ _ _ _ E1 E2). cbn [bind]. auto.
Qed.

Definition prow {K : Num} (P : problem K) (i : nat) : list nat := csr_row (p_indices P) (p_indptr P) i.
(** positions of the stored entries of row i *)
Definition rowpos {K : Num} (P : problem K) (i : nat) : list nat := range (nth i (p_indptr P) 0) (nth (S i) (p_indptr P) 0).
(** the entries of column c in row i, applied in storage order *)
Definition kfold {K : Num} (P : problem K) (i c : nat) (f : K -> K -> K) (z : K) : K :=
  fold_left (fun acc k => if Nat.eqb (nth k (p_indices P) 0) c then f (nth k (p_data P) n0) acc else acc) (rowpos P i) z.
Lemma kfold_out {K : Num} (P : problem K) i c f z : ~ In c (prow P i) -> kfold P i c f z = z.
Proof.
  unfold prow, csr_row, kfold. fold (rowpos P i). induction (rowpos P i) as [|k l IH]; intros H; [reflexivity|]. cbn [fold_left map] in *.
  destruct (Nat.eqb_spec (nth k (p_indices P) 0) c) as [E|N]; [exfalso; apply H; left; exact E|]. apply IH. intros Hin. apply H. right. exact Hin.
Qed.
Lemma kfold_const {K : Num} (P : problem K) i c f v z : In c (prow P i) -> (forall a z, f a z = v) -> kfold P i c f z = v.
Proof.
  unfold prow, csr_row, kfold. fold (rowpos P i). intros Hin Hf. revert z Hin. induction (rowpos P i) as [|k l IH]; intros z Hin; [destruct Hin|]. cbn [fold_left map] in *.
  destruct (Nat.eqb_spec (nth k (p_indices P) 0) c) as [E|N].
  - rewrite Hf. destruct (in_dec Nat.eq_dec c (map (fun j => nth j (p_indices P) 0) l)) as [Y|N]; [apply IH, Y|]. clear -N. revert N.
    generalize v. induction l as [|k l IH]; intros w N; [reflexivity|]. cbn [fold_left map] in *. destruct (Nat.eqb_spec (nth k (p_indices P) 0) c) as [E|N']; [exfalso; apply N; left; exact E|].
    apply IH. intros H. apply N. right. exact H.
  - apply IH. destruct Hin as [E|H]; [contradiction|exact H].
Qed.
(** the blocks of sample i: those with a feature in its row *)
Definition pblocks {K : Num} (P : problem K) (ptr : list nat) (i : nat) : list nat := rowb (p_indices P) (p_indptr P) (rblocks ptr) i.

Section K.
Context {K : Num}.
Variable P : problem K.
Hypothesis HP : problem_wf P.
Let n := p_n P.
Let d := p_d P.

Lemma prow_lt i c : i < n -> In c (prow P i) -> c < d.
Proof. intros Hi Hc. destruct HP as (W & _). eapply csr_row_in; eauto. Qed.
Lemma row_loop_eq {St} i (body : nat -> K -> St -> result St) s : i < n ->
  row_loop P i body s = forM (rowpos P i) (fun k => body (nth k (p_indices P) 0) (nth k (p_data P) n0)) s.
Proof.
  intros Hi. destruct HP as (W & Ld & _). destruct (csr_row_ok _ _ _ _ _ W Hi) as (B1 & B2). unfold row_loop.
  rewrite (get_ok _ i 0), (get_ok _ (S i) 0) by lia. cbn [bind].
  apply forM_ext_in. intros k s' Hk. apply in_range in Hk.
  rewrite (get_ok (p_indices P) k 0) by lia. cbn [bind]. rewrite (get_ok (p_data P) k n0) by lia. reflexivity.
Qed.
Lemma rowpos_in i k : In k (rowpos P i) -> In (nth k (p_indices P) 0) (prow P i).
Proof. intros Hk. unfold prow, csr_row. apply in_map_iff. exists k. auto. Qed.
(** a row loop that updates the entry of each stored column *)
Lemma row_loop_upd i (body : nat -> K -> vec K -> result (vec K)) (f : nat -> K -> K -> K) (x : vec K) : i < n -> length x = d ->
  (forall c a x, In c (prow P i) -> length x = d -> body c a x = Ok (upd x c (f c a (nth c x n0)))) ->
  exists x', row_loop P i body x = Ok x' /\ length x' = d /\ (forall c, nth c x' n0 = kfold P i c (f c) (nth c x n0)).
Proof.
  intros Hi Lx Hb. rewrite row_loop_eq by exact Hi. unfold kfold.
  assert (Hl : forall k, In k (rowpos P i) -> In (nth k (p_indices P) 0) (prow P i)) by (intros; apply rowpos_in; assumption).
  revert x Lx Hl. induction (rowpos P i) as [|k l IH]; intros x Lx Hl; cbn [forM fold_left]; [exists x; auto|].
  assert (Hc := Hl k (or_introl eq_refl)). set (c := nth k (p_indices P) 0) in *. rewrite Hb by assumption. cbn [bind].
  destruct (IH (upd x c (f c (nth k (p_data P) n0) (nth c x n0)))) as (x' & E & L & V); [rewrite upd_length; exact Lx|intros; apply Hl; right; assumption|].
  exists x'. split; [exact E|]. split; [exact L|]. intros c'. rewrite V. destruct (Nat.eqb_spec c c') as [<-|N].
  - rewrite nth_upd_eq by (rewrite Lx; eapply prow_lt; eauto). reflexivity.
  - rewrite nth_upd_neq by congruence. reflexivity.
Qed.

Lemma row_dot_ok i (x : vec K) : i < n -> length x = d -> exists p, row_dot P x i = Ok p /\
  p = fold_left (fun p k => nadd K p (nmul K (nth (nth k (p_indices P) 0) x n0) (nth k (p_data P) n0))) (rowpos P i) n0.
Proof.
  intros Hi Lx. unfold row_dot. rewrite row_loop_eq by exact Hi.
  assert (Hl : forall k, In k (rowpos P i) -> In (nth k (p_indices P) 0) (prow P i)) by (intros; apply rowpos_in; assumption).
  generalize (@n0 K) at 2 5. induction (rowpos P i) as [|k l IH]; intros a; cbn [forM fold_left]; [eexists; split; reflexivity|].
  rewrite (get_ok x _ n0) by (rewrite Lx; eapply prow_lt; [exact Hi|apply Hl; left; reflexivity]). cbn [bind]. apply IH. intros; apply Hl; right; assumption.
Qed.
Lemma set_tmp_ok i diff (g : vec K) : i < n -> length g = d -> exists g', set_tmp P i diff g = Ok g' /\ length g' = d /\
  (forall c, nth c g' n0 = kfold P i c (fun a _ => nmul K diff a) (nth c g n0)).
Proof.
  intros Hi Lg. apply (row_loop_upd i _ (fun _ a _ => nmul K diff a)); auto.
  intros c a x Hc Lx. apply set_ok. rewrite Lx. eapply prow_lt; eauto.
Qed.
Lemma saga_memory_ok i diff (avg tmp : vec K) : i < n -> length avg = d -> length tmp = d ->
  exists avg' tmp', saga_memory P i diff avg tmp = Ok (avg', tmp') /\ length avg' = d /\ length tmp' = d /\
  (forall c, nth c avg' n0 = kfold P i c (fun a g => nadd K g (ndiv K (nmul K diff a) (nofnat n))) (nth c avg n0)) /\
  (forall c, In c (prow P i) -> nth c tmp' n0 = n0) /\
  (forall c, ~ In c (prow P i) -> nth c tmp' n0 = nth c tmp n0).
Proof.
  intros Hi La Lt.
  destruct (row_loop_upd i (fun c a avg => g <- get avg c ;; set avg c (nadd K g (ndiv K (nmul K diff a) (nofnat n))))
     (fun c a g => nadd K g (ndiv K (nmul K diff a) (nofnat n))) avg Hi La) as (avg' & E1 & L1 & A1).
  { intros c a x Hc Lx. assert (c < length x) by (rewrite Lx; eapply prow_lt; eauto). rewrite (get_ok x c n0) by assumption. cbn [bind]. apply set_ok; assumption. }
  destruct (row_loop_upd i (fun c a tmp => set tmp c n0) (fun c a g => n0) tmp Hi Lt) as (tmp' & E2 & L2 & B1).
  { intros c a x Hc Lx. apply set_ok. rewrite Lx; eapply prow_lt; eauto. }
  exists avg', tmp'. split.
  2:{ split; [exact L1|]. split; [exact L2|]. split; [exact A1|]. split; intros c Hc; rewrite B1; [apply kfold_const; auto|apply kfold_out; auto]. }
  rewrite row_loop_eq in E1, E2 by exact Hi. unfold saga_memory. rewrite row_loop_eq by exact Hi.
  eapply forM_pair; [|exact E1|exact E2].
  intros c s t s' t' F1 F2. cbv beta iota. apply bind_ok in F1 as (g & G1 & G2). rewrite G1. cbn [bind]. unfold n in G2. rewrite G2. cbn [bind]. rewrite F2. reflexivity.
Qed.

(** ** blocks *)
Variable ptr : list nat.
Hypothesis Hptr : partitions ptr d.
Lemma pblocks_in i h : i < n -> In h (pblocks P ptr i) <-> S h < length ptr /\ exists c, In c (prow P i) /\ In c (blk ptr h).
Proof.
  intros Hi. unfold pblocks, rowb. rewrite in_firsts, in_map_iff. fold (prow P i). split.
  - intros (c & <- & Hc). pose proof (rblocks_spec _ _ _ Hptr (prow_lt i c Hi Hc)) as (A & B). split; [exact A|]. exists c. auto.
  - intros (Hh & c & Hc & Hb). exists c. split; [|exact Hc]. eapply rblocks_in; eauto.
Qed.
Lemma pblocks_NoDup i : NoDup (pblocks P ptr i).
Proof. apply firsts_NoDup. Qed.

Lemma make_blocks_spec B : make_blocks P ptr = Ok B ->
  k_ptr B = ptr /\ k_bsi B = flat_map (pblocks P ptr) (seq 0 n) /\ length (k_bsp B) = S n /\
  (forall i, i < n -> row_ok (k_bsi B) (k_bsp B) i /\ csr_row (k_bsi B) (k_bsp B) i = pblocks P ptr i) /\
  block_weights n (k_bsi B) = Ok (k_d B).
Proof.
  intros E. destruct HP as (W & _). unfold make_blocks in E.
  destruct (support_matrix_spec (p_n P) (p_d P) (length ptr - 1) (p_indices P) (p_indptr P) (rblocks ptr) W) as (bsp & Es & L & Pp & R).
  { rewrite (rblocks_length _ _ Hptr). unfold d. lia. }
  { intros c Hc. pose proof (rblocks_spec _ _ _ Hptr Hc). lia. }
  rewrite Es in E. cbn [bind] in E. apply bind_ok in E as (dd & Ed & E). injection E as <-. cbn.
  split; [reflexivity|]. split; [reflexivity|]. split; [exact L|]. split; [|exact Ed].
  intros i Hi. split; [|apply R, Hi]. split; [rewrite L; fold n in Hi |- *; lia|].
  rewrite Pp by (fold n in Hi |- *; lia). unfold rowsb.
  replace (p_n P) with (S i + (p_n P - S i)) by (fold n in Hi |- *; lia). rewrite (seq_app (S i)), flat_map_app, app_length. lia.
Qed.
Lemma make_blocks_ok i : i < n -> prow P i <> [] -> exists B, make_blocks P ptr = Ok B.
Proof.
  intros Hi Hr. destruct HP as (W & _). unfold make_blocks.
  destruct (support_matrix_spec (p_n P) (p_d P) (length ptr - 1) (p_indices P) (p_indptr P) (rblocks ptr) W) as (bsp & Es & L & Pp & R).
  { rewrite (rblocks_length _ _ Hptr). unfold d. lia. }
  { intros c Hc. pose proof (rblocks_spec _ _ _ Hptr Hc). lia. }
  rewrite Es. cbn [bind]. unfold block_weights. destruct (rowsb _ _ _ _) eqn:Er; [|eexists; reflexivity].
  exfalso. destruct (prow P i) as [|c l] eqn:Ep; [contradiction|].
  assert (Hin : In (nth c (rblocks ptr) 0) (rowsb (p_indices P) (p_indptr P) (rblocks ptr) (p_n P))).
  { unfold rowsb. apply in_flat_map. exists i. split; [apply in_seq; fold n; lia|]. unfold rowb. apply in_firsts. apply (in_map (fun c0 : nat => nth c0 (rblocks ptr) 0)). fold (prow P i). rewrite Ep. left; reflexivity. }
  rewrite Er in Hin. destruct Hin.
Qed.
Lemma make_blocks_empty : (forall i, i < n -> prow P i = []) -> make_blocks P ptr = Err ValueError.
Proof.
  intros H. destruct HP as (W & _). unfold make_blocks.
  destruct (support_matrix_spec (p_n P) (p_d P) (length ptr - 1) (p_indices P) (p_indptr P) (rblocks ptr) W) as (bsp & Es & L & Pp & R).
  { rewrite (rblocks_length _ _ Hptr). unfold d. lia. }
  { intros c Hc. pose proof (rblocks_spec _ _ _ Hptr Hc). lia. }
  rewrite Es. cbn [bind]. replace (rowsb (p_indices P) (p_indptr P) (rblocks ptr) (p_n P)) with (@nil nat); [reflexivity|].
  symmetry. unfold rowsb. apply flat_map_concat_map || idtac.
  assert (G : forall l, (forall i, In i l -> i < n) -> flat_map (rowb (p_indices P) (p_indptr P) (rblocks ptr)) l = []).
  { induction l as [|a l IH]; intros Hl; [reflexivity|]. cbn [flat_map]. rewrite IH by (intros; apply Hl; right; assumption).
    unfold rowb. fold (prow P a). rewrite H by (apply Hl; left; reflexivity). reflexivity. }
  apply G. intros i Hi. apply in_seq in Hi. fold n in Hi. lia.
Qed.

(** number of samples whose support meets block h *)
Definition touching (h : nat) : list nat := filter (fun i => if in_dec Nat.eq_dec h (pblocks P ptr i) then true else false) (seq 0 n).
Lemma count_touching h : count_occ Nat.eq_dec (flat_map (pblocks P ptr) (seq 0 n)) h = length (touching h).
Proof.
  unfold touching. induction (seq 0 n) as [|i l IH]; [reflexivity|]. cbn [flat_map filter].
  rewrite count_occ_app, IH. destruct (in_dec Nat.eq_dec h (pblocks P ptr i)) as [H|H].
  - cbn [length]. rewrite (proj1 (NoDup_count_occ' Nat.eq_dec _) (pblocks_NoDup i) h H). reflexivity.
  - rewrite (proj1 (count_occ_not_In Nat.eq_dec _ _) H). reflexivity.
Qed.
Lemma touching_pos i h : i < n -> In h (pblocks P ptr i) -> 0 < length (touching h).
Proof.
  intros Hi Hh. assert (H : In i (touching h)).
  { unfold touching. apply filter_In. split; [apply in_seq; lia|]. destruct (in_dec _ _ _); [reflexivity|contradiction]. }
  destruct (touching h); [destruct H|simpl; lia].
Qed.
Lemma weights_spec (dd : vec K) : block_weights n (flat_map (pblocks P ptr) (seq 0 n)) = Ok dd ->
  (forall i h, i < n -> In h (pblocks P ptr i) -> h < length dd) /\
  (forall h, h < length dd -> 0 < length (touching h) -> nth h dd n0 = ndiv K (nofnat n) (nofnat (length (touching h)))) /\
  (forall h, h < length dd -> length (touching h) = 0 -> nth h dd n0 = n1).
Proof.
  unfold block_weights. destruct (flat_map (pblocks P ptr) (seq 0 n)) as [|a l] eqn:E; [discriminate|]. rewrite <- E.
  intros Hd. apply Ok_inj in Hd. subst dd. set (L := flat_map (pblocks P ptr) (seq 0 n)) in *. rewrite map_length, seq_length.
  assert (Q : forall h, h < S (list_max L) -> nth h (map (fun h => let c := count_occ Nat.eq_dec L h in if Nat.eqb c 0 then n1 else ndiv K (nofnat n) (nofnat c)) (seq 0 (S (list_max L)))) n0
     = if Nat.eqb (length (touching h)) 0 then n1 else ndiv K (nofnat n) (nofnat (length (touching h)))).
  { intros h Hh. rewrite (nth_indep _ n0 ((fun h => let c := count_occ Nat.eq_dec L h in if Nat.eqb c 0 then n1 else ndiv K (nofnat n) (nofnat c)) 0)) by (rewrite map_length, seq_length; exact Hh).
    rewrite (map_nth (fun h => let c := count_occ Nat.eq_dec L h in if Nat.eqb c 0 then n1 else ndiv K (nofnat n) (nofnat c))).
    rewrite seq_nth by exact Hh. cbn [Nat.add]. unfold L. rewrite count_touching. reflexivity. }
  split; [|split].
  - intros i h Hi Hh. assert (Hin : In h L) by (unfold L; apply in_flat_map; exists i; split; [apply in_seq; lia|exact Hh]).
    pose proof (proj1 (list_max_le L (list_max L)) (le_n _)) as F. rewrite Forall_forall in F. specialize (F h Hin). lia.
  - intros h Hh Ht. rewrite Q by exact Hh. destruct (Nat.eqb_spec (length (touching h)) 0); [lia|reflexivity].
  - intros h Hh Ht. rewrite Q by exact Hh. rewrite Ht. reflexivity.
Qed.

Lemma block_loop_eq B {St} i (body : nat -> nat -> St -> result St) s : make_blocks P ptr = Ok B -> i < n ->
  block_loop (k_bsi B) (k_bsp B) (k_ptr B) i body s =
  forM (pblocks P ptr i) (fun h s => forM (blk ptr h) (fun bj s => body h bj s) s) s.
Proof.
  intros EB Hi. destruct (make_blocks_spec B EB) as (E1 & E2 & E3 & E4 & E5). destruct (E4 i Hi) as ((R1 & R2) & R3).
  unfold block_loop. rewrite (csr_loop (k_bsi B) (k_bsp B) i (fun h s => from <- get (k_ptr B) h ;; to <- get (k_ptr B) (S h) ;; forM (range from to) (fun bj s => body h bj s) s)) by assumption.
  rewrite R3, E1. apply forM_ext_in. intros h s' Hh. apply (pblocks_in i h Hi) in Hh as (Hh & _).
  rewrite (get_ok ptr h 0), (get_ok ptr (S h) 0) by lia. reflexivity.
Qed.
Lemma blocks_disjoint i h h' j : i < n -> In h (pblocks P ptr i) -> In h' (pblocks P ptr i) -> h <> h' -> In j (blk ptr h) -> ~ In j (blk ptr h').
Proof.
  intros Hi H1 H2. apply (pblocks_in i _ Hi) in H1 as (H1 & _). apply (pblocks_in i _ Hi) in H2 as (H2 & _).
  apply blk_disjoint; auto. eapply partitions_mono; eauto.
Qed.
(** a block loop that updates every feature of the visited blocks once *)
Lemma block_loop_upd B i (body : nat -> nat -> vec K -> result (vec K)) (f : nat -> nat -> K -> K) (x : vec K) :
  make_blocks P ptr = Ok B -> i < n -> length x = d ->
  (forall h j x, In h (pblocks P ptr i) -> In j (blk ptr h) -> length x = d -> body h j x = Ok (upd x j (f h j (nth j x n0)))) ->
  exists x', block_loop (k_bsi B) (k_bsp B) (k_ptr B) i body x = Ok x' /\ length x' = d /\
    (forall h j, In h (pblocks P ptr i) -> In j (blk ptr h) -> nth j x' n0 = f h j (nth j x n0)) /\
    (forall j, (forall h, In h (pblocks P ptr i) -> ~ In j (blk ptr h)) -> nth j x' n0 = nth j x n0).
Proof.
  intros EB Hi Lx Hb. rewrite (block_loop_eq B) by assumption.
  apply (forM_blocks (fun h s => forM (blk ptr h) (fun bj s => body h bj s) s) (blk ptr) (fun h x j => f h j (nth j x n0)) d n0); auto.
  - apply pblocks_NoDup.
  - intros h h' j. apply blocks_disjoint; exact Hi.
  - intros h y Hh Ly.
    destruct (forM_upd_each (blk ptr h) (fun bj s => body h bj s) (fun j => f h j) (fun x => length x = d) (range_NoDup _ _)) with (x := y)
      as (y' & He & Hl & _ & H1 & H2); auto.
    + intros j z Hj Lz dd Hlt. rewrite Hb by auto. rewrite (nth_indep z dd n0 Hlt). split; [reflexivity|]. rewrite upd_length; exact Lz.
    + apply Forall_forall. intros j Hj. rewrite Ly. apply (pblocks_in i h Hi) in Hh as (Hh & _). eapply blk_in_lt; eauto.
    + exists y'. split; [exact He|]. split; [congruence|]. split; intros; auto.
  - intros h x1 y1 j Hh Hs. destruct (in_dec Nat.eq_dec j (blk ptr h)) as [Hj|Hj]; [left; rewrite (Hs j Hj); reflexivity|right; exact Hj].
Qed.
End K.
