(** * Block structures and sparse proximal operators of copt/penalty.py *)
From Coq Require Import ZArith Reals Lra Lia List Bool Permutation.
From Verif Require Import Num Vec Spec SpecSparse RVec ModelPenalty PenaltyFacts.
Import ListNotations.
Open Scope nat_scope.

(** ** GroupL1.prox_factory *)
Fixpoint data_of (rows : list (Z * nat)) : list Z :=
  match rows with [] => [] | (f, l) :: r => repeat f l ++ data_of r end.
Fixpoint ptr_of (lo : nat) (rows : list (Z * nat)) : list nat :=
  match rows with [] => [lo] | (_, l) :: r => lo :: ptr_of (lo + l) r end.
Fixpoint total (rows : list (Z * nat)) : nat :=
  match rows with [] => 0 | (_, l) :: r => l + total r end.

Lemma data_of_length rows : length (data_of rows) = total rows.
Proof. induction rows as [|[f l] r IH]; simpl; [reflexivity|]. rewrite app_length, repeat_length, IH; reflexivity. Qed.
Lemma data_of_app r1 r2 : data_of (r1 ++ r2) = data_of r1 ++ data_of r2.
Proof. induction r1 as [|[f l] r IH]; simpl; [reflexivity|]. rewrite IH, app_assoc; reflexivity. Qed.
Lemma total_app r1 r2 : total (r1 ++ r2) = total r1 + total r2.
Proof. induction r1 as [|[f l] r IH]; simpl; [reflexivity|]. rewrite IH; lia. Qed.
Lemma ptr_of_length lo rows : length (ptr_of lo rows) = S (length rows).
Proof. revert lo; induction rows as [|[f l] r IH]; intros lo; simpl; [reflexivity|]. rewrite IH; reflexivity. Qed.
Lemma ptr_of_snoc lo rows f l : ptr_of lo (rows ++ [(f, l)]) = ptr_of lo rows ++ [lo + total rows + l].
Proof.
  revert lo; induction rows as [|[f' l'] r IH]; intros lo; simpl.
  - rewrite Nat.add_0_r; reflexivity.
  - rewrite IH. do 2 f_equal. f_equal. lia.
Qed.
Lemma ptr_of_last lo rows d : nth (length rows) (ptr_of lo rows) d = lo + total rows.
Proof. revert lo; induction rows as [|[f l] r IH]; intros lo; simpl; [lia|]. rewrite IH; lia. Qed.

Lemma upd_app {A} (a b : list A) x v : upd (a ++ x :: b) (length a) v = a ++ v :: b.
Proof. induction a as [|y a IH]; simpl; [reflexivity|]. rewrite IH; reflexivity. Qed.

Lemma upd_app_eq {A} (a b : list A) x v i : i = length a -> upd (a ++ x :: b) i v = a ++ v :: b.
Proof. intros ->; apply upd_app. Qed.

Definition rep_state (n : nat) (s : gstate) (rows : list (Z * nat)) : Prop :=
  fp s = total rows /\ bp s = length rows /\ fp s <= n /\ length rows <= fp s /\
  gdata s = data_of rows ++ repeat 0%Z (n - fp s) /\
  (exists rest, gptr s = ptr_of 0 rows ++ rest /\ length rest = n - bp s).
(** a penalised block of current length [m] is being filled *)
Definition rep_open (n : nat) (s : gstate) (rows : list (Z * nat)) (m : nat) : Prop :=
  fp s = total rows + m /\ bp s = length rows /\ fp s <= n /\ length rows <= total rows /\ bp s < n /\
  gdata s = data_of rows ++ repeat 1%Z m ++ repeat 0%Z (n - fp s) /\
  (exists rest, gptr s = ptr_of 0 rows ++ fp s :: rest /\ length rest = n - S (bp s)).

Lemma push_single_ok n s rows : rep_state n s rows -> fp s < n ->
  exists s', push_single s = Ok s' /\ rep_state n s' (rows ++ [((-1)%Z, 1)]).
Proof.
  intros (Hf & Hb & Hn & Hle & Hd & rest & Hp & Hr) Hlt. unfold push_single.
  assert (Hdl : length (gdata s) = n) by (rewrite Hd, app_length, data_of_length, repeat_length; lia).
  rewrite set_ok by lia. cbn [bind].
  rewrite (get_ok _ _ 0) by (rewrite Hp, app_length, ptr_of_length; lia). cbn [bind].
  rewrite set_ok by (rewrite Hp, app_length, ptr_of_length; lia). cbn [bind].
  eexists; split; [reflexivity|]. unfold rep_state; cbn [fp bp gdata gptr].
  rewrite total_app, app_length. cbn [total length].
  destruct rest as [|r0 rest]; [simpl in Hr; lia|].
  assert (Hnth : nth (bp s) (gptr s) 0 = total rows).
  { rewrite Hp, app_nth1 by (rewrite ptr_of_length; lia). rewrite Hb, ptr_of_last. lia. }
  repeat split; try lia.
  - rewrite Hd, Hf. replace (n - total rows) with (S (n - S (total rows))) by lia. cbn [repeat].
    rewrite upd_app_eq by (symmetry; apply data_of_length). rewrite data_of_app. cbn [data_of repeat]. rewrite <- app_assoc. reflexivity.
  - exists rest. rewrite Hnth, Hp, Hb.
    rewrite upd_app_eq by (symmetry; apply ptr_of_length); rewrite ptr_of_snoc, <- app_assoc. cbn [app].
    split; [f_equal; f_equal; lia|]. simpl in Hr. lia.
Qed.

Lemma push_singles_ok {A} n : forall (l : list A) s rows, rep_state n s rows -> fp s + length l <= n ->
  exists s', forM l (fun _ s => push_single s) s = Ok s' /\
    rep_state n s' (rows ++ repeat ((-1)%Z, 1) (length l)).
Proof.
  induction l as [|a l IH]; intros s rows Hr Hle; cbn [forM length] in *.
  - exists s. rewrite app_nil_r. auto.
  - destruct (push_single_ok n s rows Hr ltac:(lia)) as (s1 & He & Hr1). rewrite He. cbn [bind].
    destruct (IH s1 _ Hr1) as (s2 & He2 & Hr2).
    { destruct Hr1 as (Hf1 & _), Hr as (Hf & _). rewrite Hf1, total_app. simpl. lia. }
    exists s2. split; [exact He2|]. rewrite <- app_assoc in Hr2. exact Hr2.
Qed.

Lemma push_feature_ok n s rows m : rep_open n s rows m -> fp s < n ->
  exists s', push_feature s = Ok s' /\ rep_open n s' rows (S m).
Proof.
  intros (Hf & Hb & Hn & Hle & Hbn & Hd & rest & Hp & Hr) Hlt. unfold push_feature.
  assert (Hdl : length (gdata s) = n) by (rewrite Hd, !app_length, data_of_length, !repeat_length; lia).
  rewrite set_ok by lia. cbn [bind].
  assert (Hlen : length (gptr s) = S n) by (rewrite Hp, app_length, ptr_of_length; simpl; lia).
  rewrite (get_ok _ _ 0) by lia. cbn [bind]. rewrite set_ok by lia. cbn [bind].
  assert (Hnth : nth (S (bp s)) (gptr s) 0 = fp s).
  { rewrite Hp, app_nth2 by (rewrite ptr_of_length; lia). rewrite ptr_of_length, Hb, Nat.sub_diag. reflexivity. }
  eexists; split; [reflexivity|]. unfold rep_open; cbn [fp bp gdata gptr]. repeat split; try lia.
  - rewrite Hd. replace (n - fp s) with (S (n - S (fp s))) by lia. cbn [repeat].
    rewrite app_assoc. rewrite upd_app_eq by (rewrite app_length, data_of_length, repeat_length; lia). rewrite <- app_assoc. f_equal.
    rewrite repeat_cons, <- app_assoc. reflexivity.
  - exists rest. rewrite Hnth, Hp, Hb.
    rewrite upd_app_eq by (symmetry; apply ptr_of_length); idtac. split; [reflexivity|]. lia.
Qed.
Lemma push_features_ok {A} n rows : forall (l : list A) s m, rep_open n s rows m -> fp s + length l <= n ->
  exists s', forM l (fun _ s => push_feature s) s = Ok s' /\ rep_open n s' rows (m + length l).
Proof.
  induction l as [|a l IH]; intros s m Hr Hle; cbn [forM length] in *.
  - exists s. rewrite Nat.add_0_r. auto.
  - destruct (push_feature_ok n s rows m Hr ltac:(lia)) as (s1 & He & Hr1). rewrite He. cbn [bind].
    destruct (IH s1 _ Hr1) as (s2 & He2 & Hr2).
    { destruct Hr1 as (Hf1 & _), Hr as (Hf & _). lia. }
    exists s2. split; [exact He2|]. replace (m + S (length l)) with (S m + length l) by lia. exact Hr2.
Qed.

Lemma push_group_ok n s rows a l : rep_state n s rows -> fp s <= a -> 1 <= l -> a + l <= n ->
  exists s', push_group (seg_group (a, l)) s = Ok s' /\
    rep_state n s' (rows ++ repeat ((-1)%Z, 1) (a - fp s) ++ [(1%Z, l)]).
Proof.
  intros Hr Ha Hl Hn. unfold push_group, seg_group; cbn [fst snd].
  destruct l as [|l]; [lia|]. cbn [seq map head_opt bind].
  replace (Z.to_nat (Z.of_nat a - Z.of_nat (fp s))) with (a - fp s) by lia.
  destruct (push_singles_ok n (seq 0 (a - fp s)) s rows Hr) as (s1 & He1 & Hr1).
  { rewrite seq_length. lia. }
  rewrite He1. cbn [bind]. rewrite seq_length in Hr1.
  set (rows1 := rows ++ repeat ((-1)%Z, 1) (a - fp s)) in *.
  assert (Ht1 : total rows1 = a).
  { unfold rows1. rewrite total_app. destruct Hr as (Hf & _).
    assert (forall k, total (repeat ((-1)%Z, 1) k) = k) as Hk.
    { induction k as [|k IHk]; simpl; [|rewrite IHk]; reflexivity. }
    rewrite Hk. lia. }
  destruct Hr1 as (Hf1 & Hb1 & Hn1 & Hle1 & Hd1 & rest & Hp1 & Hrl).
  destruct rest as [|r0 rest]; [simpl in Hrl; lia|].
  assert (Hlen : length (gptr s1) = S n) by (rewrite Hp1, app_length, ptr_of_length; simpl in *; lia).
  rewrite (get_ok _ _ 0) by lia. cbn [bind]. rewrite set_ok by lia. cbn [bind].
  assert (Hnth : nth (bp s1) (gptr s1) 0 = fp s1).
  { rewrite Hp1, app_nth1 by (rewrite ptr_of_length; lia). rewrite Hb1, ptr_of_last. lia. }
  change (Z.of_nat a :: map Z.of_nat (seq (S a) l)) with (map Z.of_nat (seq a (S l))).
  destruct (push_features_ok n rows1 (map Z.of_nat (seq a (S l)))
     {| gdata := gdata s1; gptr := upd (gptr s1) (S (bp s1)) (nth (bp s1) (gptr s1) 0); fp := fp s1; bp := bp s1 |} 0)
     as (s3 & He3 & Hr3).
  { unfold rep_open; cbn [fp bp gdata gptr]. repeat split; try lia.
    - rewrite Hd1. reflexivity.
    - exists rest. rewrite Hnth, Hp1, Hb1.
      rewrite upd_app_eq by (symmetry; apply ptr_of_length); idtac. split; [reflexivity|]. simpl in Hrl. lia. }
  { cbn [fp]. rewrite map_length, seq_length. lia. }
  rewrite He3. cbn [bind]. rewrite map_length, seq_length in Hr3.
  destruct Hr3 as (Hf3 & Hb3 & Hn3 & Hle3 & Hbn3 & Hd3 & rest3 & Hp3 & Hrl3).
  eexists; split; [reflexivity|]. rewrite app_assoc. fold rows1.
  unfold rep_state; cbn [fp bp gdata gptr]. rewrite total_app, app_length. cbn [total length].
  repeat split; try lia.
  - rewrite Hd3, data_of_app. cbn [data_of]. rewrite app_nil_r, <- app_assoc. reflexivity.
  - exists rest3. rewrite Hp3, ptr_of_snoc, <- app_assoc. cbn [app]. split; [|lia].
    do 2 f_equal. lia.
Qed.

(** the rows produced for a list of segments *)
Fixpoint rows_of (lo n : nat) (segs : list (nat * nat)) : list (Z * nat) :=
  match segs with
  | [] => repeat ((-1)%Z, 1) (n - lo)
  | (a, l) :: r => repeat ((-1)%Z, 1) (a - lo) ++ (1%Z, l) :: rows_of (a + l) n r
  end.

Lemma total_singles k : total (repeat ((-1)%Z, 1) k) = k.
Proof. induction k as [|k IHk]; simpl; [|rewrite IHk]; reflexivity. Qed.

Lemma push_groups_ok n : forall segs s rows, rep_state n s rows -> segs_ok (fp s) segs ->
  (forall sg, In sg segs -> fst sg + snd sg <= n) ->
  exists s', (s1 <- forM (map seg_group segs) push_group s ;;
              forM (range (fp s1) n) (fun _ s => push_single s) s1) = Ok s' /\
     rep_state n s' (rows ++ rows_of (fp s) n segs).
Proof.
  induction segs as [|[a l] segs IH]; intros s rows Hr Hok Hb; cbn [map forM rows_of].
  - cbn [bind]. unfold range.
    destruct (push_singles_ok n (seq (fp s) (n - fp s)) s rows Hr) as (s' & He & Hr').
    { rewrite seq_length. destruct Hr as (_ & _ & Hn & _). lia. }
    exists s'. rewrite seq_length in Hr'. auto.
  - destruct Hok as (H1 & H2 & H3).
    destruct (push_group_ok n s rows a l Hr H1 H2) as (s1 & He & Hr1).
    { apply (Hb (a, l)); left; reflexivity. }
    rewrite He. cbn [bind].
    assert (Hf1 : fp s1 = a + l).
    { destruct Hr1 as (Hf1 & _), Hr as (Hf & _). rewrite Hf1, !total_app, total_singles. simpl. lia. }
    destruct (IH s1 _ Hr1) as (s2 & He2 & Hr2).
    { rewrite Hf1; exact H3. } { intros sg Hs; apply Hb; right; exact Hs. }
    exists s2. split; [exact He2|]. rewrite Hf1 in Hr2. rewrite <- !app_assoc in Hr2. cbn [app] in Hr2.
    exact Hr2.
Qed.

Lemma rows_of_total : forall segs lo n, segs_ok lo segs -> lo <= n ->
  (forall sg, In sg segs -> fst sg + snd sg <= n) -> total (rows_of lo n segs) = n - lo.
Proof.
  induction segs as [|[a l] segs IH]; intros lo n Hok Hlo Hb; cbn [rows_of].
  - apply total_singles.
  - destruct Hok as (H1 & H2 & H3). pose proof (Hb (a, l) (or_introl eq_refl)) as Hal; cbn [fst snd] in Hal.
    rewrite total_app, total_singles. cbn [total]. rewrite IH; [lia|exact H3|lia|].
    intros sg Hs; apply Hb; right; exact Hs.
Qed.

Lemma group_blocks_rows segs n : segs_ok 0 segs -> (forall sg, In sg segs -> fst sg + snd sg <= n) ->
  group_blocks (map seg_group segs) n = Ok (data_of (rows_of 0 n segs), ptr_of 0 (rows_of 0 n segs)).
Proof.
  intros Hok Hb. unfold group_blocks.
  set (s0 := {| gdata := repeat 0%Z n; gptr := repeat 0 (S n); fp := 0; bp := 0 |}).
  assert (Hr0 : rep_state n s0 []).
  { unfold rep_state, s0; cbn [fp bp gdata gptr total length data_of ptr_of app]. repeat split; try lia.
    - rewrite Nat.sub_0_r; reflexivity.
    - exists (repeat 0 n). split; [reflexivity|]. rewrite repeat_length; lia. }
  destruct (push_groups_ok n segs s0 [] Hr0 Hok Hb) as (s' & He & Hr').
  cbn [app] in Hr'. change (fp s0) with 0 in Hr'.
  destruct (forM (map seg_group segs) push_group s0) as [s1|]; cbn [bind] in *; [|discriminate].
  rewrite He. cbn [bind]. destruct Hr' as (Hf & Hbp & Hn & Hle & Hd & rest & Hp & Hrl).
  rewrite rows_of_total in Hf by (try assumption; lia).
  f_equal. f_equal.
  - rewrite Hd, Hf. replace (n - (n - 0)) with 0 by lia. apply app_nil_r.
  - rewrite Hp, Hbp. replace (S (length (rows_of 0 n segs))) with (length (ptr_of 0 (rows_of 0 n segs)))
      by apply ptr_of_length.
    rewrite firstn_app, Nat.sub_diag, firstn_all. simpl. apply app_nil_r.
Qed.

(** Consequences of the row description. *)
Lemma ptr_of_app lo r1 r2 : ptr_of lo (r1 ++ r2) = removelast (ptr_of lo r1) ++ ptr_of (lo + total r1) r2.
Proof.
  revert lo; induction r1 as [|[f l] r IH]; intros lo; cbn [app ptr_of total].
  - rewrite Nat.add_0_r. reflexivity.
  - rewrite IH. replace (lo + (l + total r)) with (lo + l + total r) by lia.
    assert (Hne : ptr_of (lo + l) r <> []) by (destruct r as [|[? ?] ?]; discriminate).
    destruct (ptr_of (lo + l) r) as [|q qs]; [congruence|]. reflexivity.
Qed.
Lemma nth_ptr_of_app lo r1 r2 k d : nth (length r1 + k) (ptr_of lo (r1 ++ r2)) d = nth k (ptr_of (lo + total r1) r2) d.
Proof.
  revert lo; induction r1 as [|[f l] r IH]; intros lo; cbn [app ptr_of total length].
  - rewrite Nat.add_0_r; reflexivity.
  - cbn [nth Nat.add]. rewrite IH. f_equal. f_equal. lia.
Qed.
Lemma ptr_of_head lo rows d : nth 0 (ptr_of lo rows) d = lo.
Proof. destruct rows as [|[f l] r]; reflexivity. Qed.
Lemma ptr_of_split lo r1 f l r2 d :
  nth (length r1) (ptr_of lo (r1 ++ (f, l) :: r2)) d = lo + total r1 /\
  nth (S (length r1)) (ptr_of lo (r1 ++ (f, l) :: r2)) d = lo + total r1 + l.
Proof.
  split.
  - rewrite <- (Nat.add_0_r (length r1)). rewrite nth_ptr_of_app. apply ptr_of_head.
  - rewrite <- (Nat.add_1_r (length r1)). rewrite nth_ptr_of_app. cbn [ptr_of nth]. apply ptr_of_head.
Qed.
Lemma data_of_split r1 f l r2 j : total r1 <= j < total r1 + l ->
  nth j (data_of (r1 ++ (f, l) :: r2)) 0%Z = f.
Proof.
  intros Hj. rewrite data_of_app. rewrite app_nth2 by (rewrite data_of_length; lia).
  rewrite data_of_length. cbn [data_of]. rewrite app_nth1 by (rewrite repeat_length; lia).
  apply (repeat_spec l f). apply nth_In. rewrite repeat_length. lia.
Qed.

(** decomposition of the rows at a group / at an uncovered feature *)
Lemma rows_of_group : forall segs lo n s, segs_ok lo segs ->
  (forall sg, In sg segs -> fst sg + snd sg <= n) -> lo <= n -> In s segs ->
  exists r1 r2, rows_of lo n segs = r1 ++ (1%Z, snd s) :: r2 /\ lo + total r1 = fst s.
Proof.
  induction segs as [|[a l] segs IH]; intros lo n s Hok Hb Hlo Hin; [destruct Hin|].
  destruct Hok as (H1 & H2 & H3). cbn [rows_of].
  pose proof (Hb (a, l) (or_introl eq_refl)) as Hal; cbn [fst snd] in Hal.
  destruct Hin as [<-|Hin].
  - exists (repeat ((-1)%Z, 1) (a - lo)), (rows_of (a + l) n segs). split; [reflexivity|].
    rewrite total_singles. simpl. lia.
  - destruct (IH (a + l) n s H3 (fun sg Hs => Hb sg (or_intror Hs)) Hal Hin) as (r1 & r2 & He & Ht).
    exists (repeat ((-1)%Z, 1) (a - lo) ++ (1%Z, l) :: r1), r2. split.
    + rewrite He, <- app_assoc. reflexivity.
    + rewrite total_app, total_singles. cbn [total]. lia.
Qed.
Lemma repeat_split {A} (x : A) k j : j < k -> repeat x k = repeat x j ++ x :: repeat x (k - S j).
Proof.
  intros Hj. replace k with (j + S (k - S j)) at 1 by lia. rewrite repeat_app. reflexivity.
Qed.
Lemma rows_of_uncovered : forall segs lo n j, segs_ok lo segs ->
  (forall sg, In sg segs -> fst sg + snd sg <= n) -> lo <= j < n ->
  (forall s, In s segs -> ~ In j (seg_idx s)) ->
  exists r1 r2, rows_of lo n segs = r1 ++ ((-1)%Z, 1) :: r2 /\ lo + total r1 = j.
Proof.
  induction segs as [|[a l] segs IH]; intros lo n j Hok Hb Hj Hu; cbn [rows_of].
  - exists (repeat ((-1)%Z, 1) (j - lo)), (repeat ((-1)%Z, 1) (n - lo - S (j - lo))). split.
    + apply repeat_split. lia.
    + rewrite total_singles; lia.
  - destruct Hok as (H1 & H2 & H3).
    pose proof (Hb (a, l) (or_introl eq_refl)) as Hal; cbn [fst snd] in Hal.
    destruct (Nat.lt_ge_cases j a) as [Hlt|Hge].
    + exists (repeat ((-1)%Z, 1) (j - lo)),
        (repeat ((-1)%Z, 1) (a - lo - S (j - lo)) ++ (1%Z, l) :: rows_of (a + l) n segs). split.
      * rewrite (repeat_split _ (a - lo) (j - lo)) by lia. rewrite <- app_assoc. reflexivity.
      * rewrite total_singles; lia.
    + assert (a + l <= j).
      { destruct (Nat.le_gt_cases (a + l) j) as [|Hgt]; [assumption|exfalso].
        apply (Hu (a, l) (or_introl eq_refl)). unfold seg_idx; simpl. apply in_seq; lia. }
      destruct (IH (a + l) n j H3 (fun sg Hs => Hb sg (or_intror Hs)) ltac:(lia)
                  (fun s Hs => Hu s (or_intror Hs))) as (r1 & r2 & He & Ht).
      exists (repeat ((-1)%Z, 1) (a - lo) ++ (1%Z, l) :: r1), r2. split.
      * rewrite He, <- app_assoc. reflexivity.
      * rewrite total_app, total_singles. cbn [total]. lia.
Qed.
Lemma rows_of_count : forall segs lo n, segs_ok lo segs -> lo <= n ->
  (forall sg, In sg segs -> fst sg + snd sg <= n) ->
  length (rows_of lo n segs) + fold_right (fun s acc => snd s + acc) 0 segs = length segs + (n - lo).
Proof.
  induction segs as [|[a l] segs IH]; intros lo n Hok Hlo Hb; cbn [rows_of fold_right].
  - rewrite repeat_length. simpl. lia.
  - destruct Hok as (H1 & H2 & H3). pose proof (Hb (a, l) (or_introl eq_refl)) as Hal; cbn [fst snd] in Hal.
    specialize (IH (a + l) n H3 Hal (fun sg Hs => Hb sg (or_intror Hs))).
    rewrite app_length, repeat_length. cbn [length snd]. lia.
Qed.
Lemma rows_of_pos : forall segs lo n, segs_ok lo segs -> Forall (fun r => 1 <= snd r) (rows_of lo n segs).
Proof.
  assert (Hrep : forall k, Forall (fun r : Z * nat => 1 <= snd r) (repeat ((-1)%Z, 1) k)).
  { induction k; simpl; constructor; simpl; auto. }
  induction segs as [|[a l] segs IH]; intros lo n Hok; cbn [rows_of]; [apply Hrep|].
  destruct Hok as (H1 & H2 & H3). apply Forall_app; split; [apply Hrep|]. constructor; [exact H2|]. apply IH, H3.
Qed.
Lemma ptr_of_incr rows : forall lo i, Forall (fun r => 1 <= snd r) rows -> i < length rows ->
  nth i (ptr_of lo rows) 0 < nth (S i) (ptr_of lo rows) 0.
Proof.
  induction rows as [|[f l] r IH]; intros lo i Hp Hi; simpl in Hi; [lia|].
  inversion Hp as [|? ? H1 Hp']; subst. destruct i as [|i].
  - cbn [ptr_of nth]. rewrite ptr_of_head. simpl in H1. lia.
  - cbn [ptr_of nth]. apply IH; [exact Hp'|lia].
Qed.
Lemma ptr_of_mono rows lo i j : Forall (fun r => 1 <= snd r) rows -> i <= j -> j <= length rows ->
  nth i (ptr_of lo rows) 0 <= nth j (ptr_of lo rows) 0.
Proof.
  intros Hp Hij Hj. induction Hij as [|j Hij IH]; [lia|].
  specialize (IH ltac:(lia)). pose proof (ptr_of_incr rows lo j Hp ltac:(lia)). lia.
Qed.

(** ** Loops over disjoint blocks *)
Lemma forM_blocks {A} (body : nat -> list A -> result (list A)) (blk : nat -> list nat)
    (F : nat -> list A -> nat -> A) (n : nat) (d : A) : forall hs,
  NoDup hs ->
  (forall h h' j, In h hs -> In h' hs -> h <> h' -> In j (blk h) -> ~ In j (blk h')) ->
  (forall h x, In h hs -> length x = n -> exists x', body h x = Ok x' /\ length x' = n /\
      (forall j, In j (blk h) -> nth j x' d = F h x j) /\
      (forall j, ~ In j (blk h) -> nth j x' d = nth j x d)) ->
  (forall h x y j, In h hs -> (forall k, In k (blk h) -> nth k x d = nth k y d) -> F h x j = F h y j \/ ~ In j (blk h)) ->
  forall x, length x = n ->
  exists x', forM hs body x = Ok x' /\ length x' = n /\
    (forall h j, In h hs -> In j (blk h) -> nth j x' d = F h x j) /\
    (forall j, (forall h, In h hs -> ~ In j (blk h)) -> nth j x' d = nth j x d).
Proof.
  intros hs Hnd. induction Hnd as [|h hs Hh Hnd IH]; intros Hdis Hbody HF x Hl; cbn [forM].
  - exists x. repeat split; auto. intros h j [].
  - destruct (Hbody h x (or_introl eq_refl) Hl) as (x1 & He1 & Hl1 & Hi1 & Ho1). rewrite He1. cbn [bind].
    destruct (IH) with (x := x1) as (x' & He & Hl' & Hi & Ho); auto.
    { intros h1 h2 j H1 H2. apply Hdis; right; assumption. }
    { intros h1 y H1. apply Hbody; right; assumption. }
    { intros h1 y z j H1. apply HF; right; assumption. }
    exists x'. split; [exact He|]. split; [exact Hl'|]. split.
    + intros h1 j [<-|H1] Hj.
      * rewrite Ho; [apply Hi1, Hj|]. intros h2 H2. apply (Hdis h h2 j); simpl; auto. intros ->; contradiction.
      * rewrite (Hi h1 j H1 Hj).
        destruct (HF h1 x1 x j (or_intror H1)) as [He'|Hn]; [|exact He'|contradiction].
        intros k Hk. apply Ho1. apply (Hdis h1 h k); simpl; auto. intros ->; contradiction.
    + intros j Hj. rewrite Ho by (intros h1 H1; apply Hj; right; exact H1).
      apply Ho1, Hj. left; reflexivity.
Qed.

(** ** group sparse prox, over the reals *)
Section GL.
Local Open Scope R_scope.


Lemma sumsq_loop (x : list R) js : Forall (fun j => (j < length x)%nat) js -> forall acc : R,
  forM js (fun j (acc : RN) => xj <- get x j ;; Ok (nadd RN acc (@nsq RN xj))) acc
  = Ok (acc + dot (sub x js) (sub x js)).
Proof.
  induction 1 as [|j js Hj _ IH]; intros acc; cbn [forM].
  - simpl. f_equal. lra.
  - rewrite (get_ok x j 0) by exact Hj. cbn [bind]. rewrite IH. unfold nsq; rn.
    cbn [sub map dot]. f_equal. fold (sub x js). lra.
Qed.

Definition gl_value (alpha step : R) (bdata : list Z) (ptr : list nat) (d : list R) (h : nat)
   (x : list R) (j : nat) : R :=
  if (nth (nth h ptr 0%nat) bdata 0%Z <=? 0)%Z then nth j x 0
  else gshrink (alpha * (step * nth h d 0)) x (blk ptr h) j.

Lemma gl_block_ok (alpha step : R) (bdata : list Z) (ptr : list nat) (d : list R) (h : nat) (x : list R) :
  (S h < length ptr)%nat -> (nth h ptr 0 < length bdata)%nat -> (nth (S h) ptr 0 <= length x)%nat ->
  (h < length d)%nat ->
  exists x', @gl_block RN alpha bdata ptr d step h x = Ok x' /\ length x' = length x /\
    (forall j, In j (blk ptr h) -> nth j x' 0 = gl_value alpha step bdata ptr d h x j) /\
    (forall j, ~ In j (blk ptr h) -> nth j x' 0 = nth j x 0).
Proof.
  intros Hh Hb Hx Hd. unfold gl_block, gl_value.
  rewrite (get_ok ptr h 0%nat) by lia. cbn [bind]. rewrite (get_ok bdata _ 0%Z) by lia. cbn [bind].
  destruct (Z.leb_spec (nth (nth h ptr 0%nat) bdata 0%Z) 0).
  - exists x. auto.
  - rn. rewrite (get_ok d h 0) by lia. cbn [bind]. rewrite (get_ok ptr (S h) 0%nat) by lia. cbn [bind].
    change (range (nth h ptr 0%nat) (nth (S h) ptr 0%nat)) with (blk ptr h).
    assert (Hall : Forall (fun j => (j < length x)%nat) (blk ptr h)).
    { apply Forall_forall. intros j Hj. apply in_range in Hj. lia. }
    assert (Hnd : NoDup (blk ptr h)) by apply range_NoDup.
    pose proof (sumsq_loop x (blk ptr h) Hall 0) as Hsq. rn. rewrite Hsq. cbn [bind].
    rewrite Rplus_0_l. fold (norm2 (sub x (blk ptr h))).
    unfold gshrink. destruct (Rltb_spec (alpha * (step * nth h d 0)) (norm2 (sub x (blk ptr h)))) as [Hlt|Hge].
    + destruct (forM_upd_each (blk ptr h) (fun j x0 => xj <- get x0 j ;;
          set x0 j (xj * (1 - alpha * (step * nth h d 0) / norm2 (sub x (blk ptr h)))))
        (fun _ t => t * (1 - alpha * (step * nth h d 0) / norm2 (sub x (blk ptr h)))) (fun _ => True) Hnd)
        with (x := x) as (x' & He & Hl & _ & Hi & Ho); auto.
      { intros j y _ _ dd Hlt'. split; [|exact I]. rewrite (get_ok y j dd) by exact Hlt'. cbn [bind].
        rewrite set_ok by exact Hlt'. reflexivity. }
      exists x'. split; [exact He|]. split; [exact Hl|]. split; [|auto].
      intros j Hj. rewrite Hi by exact Hj. lra.
    + destruct (forM_upd_each (blk ptr h) (fun j x0 => set x0 j 0) (fun _ _ => 0) (fun _ => True) Hnd)
        with (x := x) as (x' & He & Hl & _ & Hi & Ho); auto.
      { intros j y _ _ dd Hlt'. split; [|exact I]. rewrite set_ok by exact Hlt'. reflexivity. }
      exists x'. auto.
Qed.

Lemma sub_ext x y g : (forall k, In k g -> nth k x 0 = nth k y 0) -> sub x g = sub y g.
Proof. intros H. apply map_ext_in. exact H. Qed.

Lemma gl_value_ext alpha step bdata ptr d h x y j :
  (forall k, In k (blk ptr h) -> nth k x 0 = nth k y 0) ->
  gl_value alpha step bdata ptr d h x j = gl_value alpha step bdata ptr d h y j \/ ~ In j (blk ptr h).
Proof.
  intros Hs. destruct (in_dec Nat.eq_dec j (blk ptr h)) as [Hj|Hj]; [left|right; exact Hj].
  unfold gl_value, gshrink. rewrite (sub_ext x y) by exact Hs. rewrite (Hs j Hj). reflexivity.
Qed.

(** strictly increasing pointers give disjoint blocks *)
Lemma blk_disjoint ptr : (forall i j, (i <= j)%nat -> (j < length ptr)%nat -> (nth i ptr 0 <= nth j ptr 0)%nat) ->
  forall h h' j, (S h < length ptr)%nat -> (S h' < length ptr)%nat -> h <> h' -> In j (blk ptr h) -> ~ In j (blk ptr h').
Proof.
  intros Hm h h' j Hh Hh' Hne Hj Hj'. apply in_range in Hj. apply in_range in Hj'.
  destruct (Nat.lt_ge_cases h h').
  - specialize (Hm (S h) h' ltac:(lia) ltac:(lia)). lia.
  - specialize (Hm (S h') h ltac:(lia) ltac:(lia)). lia.
Qed.

Lemma group_sparse_ok (alpha step : R) bdata ptr (x : list R) i indices indptr (d : list R) :
  (forall i j, (i <= j)%nat -> (j < length ptr)%nat -> (nth i ptr 0 <= nth j ptr 0)%nat) ->
  (S i < length indptr)%nat -> (nth (S i) indptr 0 <= length indices)%nat ->
  NoDup (csr_row indices indptr i) ->
  Forall (fun h => (S h < length ptr)%nat /\ (nth h ptr 0 < length bdata)%nat /\ (nth (S h) ptr 0 <= length x)%nat /\ (h < length d)%nat)
     (csr_row indices indptr i) ->
  exists x', @group_sparse_prox RN alpha bdata ptr x i indices indptr d step = Ok x' /\ length x' = length x /\
    (forall h j, In h (csr_row indices indptr i) -> In j (blk ptr h) ->
        nth j x' 0 = gl_value alpha step bdata ptr d h x j) /\
    (forall j, (forall h, In h (csr_row indices indptr i) -> ~ In j (blk ptr h)) -> nth j x' 0 = nth j x 0).
Proof.
  intros Hm Hi Hn Hnd Hf. unfold group_sparse_prox. rewrite csr_loop by assumption.
  rewrite Forall_forall in Hf.
  apply (forM_blocks (@gl_block RN alpha bdata ptr d step) (blk ptr)
          (gl_value alpha step bdata ptr d) (length x) 0); auto.
  - intros h h' j H1 H2. apply blk_disjoint; [exact Hm|apply Hf, H1|apply Hf, H2].
  - intros h y Hh Hl. destruct (Hf h Hh) as (H1 & H2 & H3 & H4). rn. rewrite <- Hl in *.
    apply gl_block_ok; assumption.
  - intros h y z j _. apply gl_value_ext.
Qed.
End GL.

(** ** Separable proximal operators: from per-block inequalities to the global prox *)
Section Sep.
Local Open Scope R_scope.
Lemma Rsum_perm u v : Permutation u v -> Rsum u = Rsum v.
Proof. induction 1; simpl; lra. Qed.
Lemma NoDup_app_intro {A} (a b : list A) : NoDup a -> NoDup b -> (forall k, In k a -> ~ In k b) -> NoDup (a ++ b).
Proof.
  induction 1 as [|x a Hx Ha IH]; intros Hb Hd; [exact Hb|]. simpl. constructor.
  - rewrite in_app_iff. intros [H|H]; [contradiction|]. apply (Hd x); [left; reflexivity|exact H].
  - apply IH; [exact Hb|]. intros k Hk. apply Hd; right; exact Hk.
Qed.
Lemma sum_support (f : nat -> R) n L : NoDup L -> Forall (fun k => (k < n)%nat) L ->
  (forall k, (k < n)%nat -> ~ In k L -> f k = 0) -> Rsum (map f (seq 0 n)) = Rsum (map f L).
Proof.
  intros Hnd Hlt Hz. rewrite Forall_forall in Hlt.
  set (rest := filter (fun k => if in_dec Nat.eq_dec k L then false else true) (seq 0 n)).
  assert (Hp : Permutation (seq 0 n) (L ++ rest)).
  { apply NoDup_Permutation.
    - apply seq_NoDup.
    - apply NoDup_app_intro; [exact Hnd|apply NoDup_filter, seq_NoDup|].
      intros k Hk Hr. apply filter_In in Hr as [_ Hr]. destruct (in_dec Nat.eq_dec k L); [discriminate|contradiction].
    - intros k. rewrite in_app_iff. split.
      + intros Hk. destruct (in_dec Nat.eq_dec k L) as [Hi|Hi]; [left; exact Hi|right].
        apply filter_In; split; [exact Hk|]. destruct (in_dec Nat.eq_dec k L); [contradiction|reflexivity].
      + intros [Hk|Hk]; [apply in_seq; specialize (Hlt k Hk); lia|]. apply filter_In in Hk; apply Hk. }
  rewrite (Rsum_perm _ _ (Permutation_map f Hp)), map_app, Rsum_app.
  rewrite (Rsum_zero f rest); [lra|].
  intros k Hk. apply filter_In in Hk as [Hk Hn]. apply in_seq in Hk.
  apply Hz; [lia|]. destruct (in_dec Nat.eq_dec k L); [discriminate|assumption].
Qed.

Lemma NoDup_flat_map (B : nat -> list nat) hs : NoDup hs -> (forall h, In h hs -> NoDup (B h)) ->
  (forall h h' j, In h hs -> In h' hs -> h <> h' -> In j (B h) -> ~ In j (B h')) -> NoDup (flat_map B hs).
Proof.
  induction 1 as [|h hs Hh Hnd IH]; intros Hb Hd; simpl; [constructor|].
  apply NoDup_app_intro.
  - apply Hb; left; reflexivity.
  - apply IH; [intros; apply Hb; right; assumption|]. intros h1 h2 j H1 H2. apply Hd; right; assumption.
  - intros j Hj Hf. apply in_flat_map in Hf as (h' & Hh' & Hj').
    apply (Hd h h' j); simpl; auto. intros ->; contradiction.
Qed.
Lemma Rsum_flat_map (f : nat -> R) (B : nat -> list nat) hs :
  Rsum (map f (flat_map B hs)) = Rsum (map (fun h => Rsum (map f (B h))) hs).
Proof.
  induction hs as [|h hs IH]; simpl; [reflexivity|]. rewrite map_app, Rsum_app, IH. reflexivity.
Qed.

Lemma sep_prox (B : nat -> list nat) (pen : nat -> list R -> R) step hs x p :
  length p = length x -> NoDup hs -> (forall h, In h hs -> NoDup (B h)) ->
  (forall h h' j, In h hs -> In h' hs -> h <> h' -> In j (B h) -> ~ In j (B h')) ->
  (forall h j, In h hs -> In j (B h) -> (j < length x)%nat) ->
  (forall j, (forall h, In h hs -> ~ In j (B h)) -> nth j p 0 = nth j x 0) ->
  (forall h y, In h hs -> length y = length x ->
     step * pen h p + Rsum (map (fun j => nth j (vminus x p) 0 * nth j (vminus y p) 0) (B h)) <= step * pen h y) ->
  is_prox (fun y => Rsum (map (fun h => pen h y) hs)) step x p.
Proof.
  intros Hl Hnd Hb Hd Hlt Ho Hvi. apply prox_intro; [exact Hl|]. intros y Hly.
  rewrite (dot_seq _ _ (length x)) by len.
  rewrite (sum_support _ (length x) (flat_map B hs)).
  - rewrite Rsum_flat_map.
    assert (Hsum : forall l, (forall h, In h l -> In h hs) ->
      step * Rsum (map (fun h => pen h p) l) +
      Rsum (map (fun h => Rsum (map (fun j => nth j (vminus x p) 0 * nth j (vminus y p) 0) (B h))) l)
      <= step * Rsum (map (fun h => pen h y) l)).
    { induction l as [|h l IH]; intros Hi; cbn [map Rsum]; [lra|].
      pose proof (Hvi h y (Hi h (or_introl eq_refl)) Hly). specialize (IH (fun h' H' => Hi h' (or_intror H'))). lra. }
    apply Hsum. auto.
  - apply NoDup_flat_map; assumption.
  - apply Forall_forall. intros j Hj. apply in_flat_map in Hj as (h & Hh & Hj). apply (Hlt h); assumption.
  - intros j Hj Hn. rewrite nth_vminus by lia.
    rewrite (Ho j); [ring|]. intros h Hh Hj'. apply Hn. apply in_flat_map. eauto.
Qed.

(** group sparse prox = prox of the reweighted penalty of the visited blocks *)
Lemma shrink_block_vi t x y p g : 0 <= t -> length y = length x -> length p = length x ->
  (forall j, In j g -> nth j p 0 = gshrink t x g j) ->
  t * norm2 (sub p g) + Rsum (map (fun j => nth j (vminus x p) 0 * nth j (vminus y p) 0) g) <= t * norm2 (sub y g).
Proof.
  intros Ht Hly Hlp Hp. rewrite <- dot_sub, !sub_vminus by lia.
  apply shrink_vi; [exact Ht|rewrite !sub_length; reflexivity|].
  apply list_ext with (d := 0).
  - destruct (Rltb _ _); rewrite ?smul_length, ?zeros_length, !sub_length; reflexivity.
  - intros j Hj. rewrite sub_length in Hj. rewrite nth_sub by exact Hj.
    rewrite Hp by (apply nth_In; exact Hj). unfold gshrink. destruct (Rltb t (norm2 (sub x g))).
    + rewrite nth_smul, nth_sub by exact Hj. reflexivity.
    + rewrite nth_zeros; reflexivity.
Qed.

Definition gl_block_pen (alpha : R) (bdata : list Z) (ptr : list nat) (d : list R) (h : nat) (y : list R) : R :=
  if (nth (nth h ptr 0%nat) bdata 0%Z <=? 0)%Z then 0 else alpha * nth h d 0 * norm2 (sub y (blk ptr h)).

Lemma group_sparse_prox_correct (alpha step : R) bdata ptr (x : list R) i indices indptr (d : list R) :
  (forall i j, (i <= j)%nat -> (j < length ptr)%nat -> (nth i ptr 0 <= nth j ptr 0)%nat) ->
  (S i < length indptr)%nat -> (nth (S i) indptr 0 <= length indices)%nat ->
  NoDup (csr_row indices indptr i) ->
  Forall (fun h => (S h < length ptr)%nat /\ (nth h ptr 0 < length bdata)%nat /\ (nth (S h) ptr 0 <= length x)%nat /\ (h < length d)%nat)
     (csr_row indices indptr i) ->
  (forall h, 0 <= alpha * (step * nth h d 0)) ->
  exists x', @group_sparse_prox RN alpha bdata ptr x i indices indptr d step = Ok x' /\
    is_prox (fun y => Rsum (map (fun h => gl_block_pen alpha bdata ptr d h y) (csr_row indices indptr i))) step x x'.
Proof.
  intros Hm Hi Hn Hnd Hf Ht.
  destruct (group_sparse_ok alpha step bdata ptr x i indices indptr d Hm Hi Hn Hnd Hf) as (p & He & Hl & Hin & Hout).
  exists p. split; [exact He|]. rewrite Forall_forall in Hf.
  apply sep_prox with (B := blk ptr); auto.
  - intros h _. apply range_NoDup.
  - intros h h' j H1 H2. apply blk_disjoint; [exact Hm|apply Hf, H1|apply Hf, H2].
  - intros h j Hh Hj. apply in_range in Hj. destruct (Hf h Hh) as (_ & _ & H3 & _). lia.
  - intros h y Hh Hly. unfold gl_block_pen.
    pose proof (Hin h) as Hv. unfold gl_value in Hv.
    destruct (Z.leb_spec (nth (nth h ptr 0%nat) bdata 0%Z) 0).
    + rewrite (Rsum_zero (fun j => nth j (vminus x p) 0 * nth j (vminus y p) 0)); [lra|].
      intros j Hj. rn. rewrite nth_vminus by lia. rewrite Hv by assumption. ring.
    + pose proof (shrink_block_vi (alpha * (step * nth h d 0)) x y p (blk ptr h) (Ht h) Hly Hl (fun j Hj => Hv j Hh Hj)).
      replace (step * (alpha * nth h d 0 * norm2 (sub p (blk ptr h)))) with
        (alpha * (step * nth h d 0) * norm2 (sub p (blk ptr h))) by ring.
      replace (step * (alpha * nth h d 0 * norm2 (sub y (blk ptr h)))) with
        (alpha * (step * nth h d 0) * norm2 (sub y (blk ptr h))) by ring.
      exact H0.
Qed.

(** L1 sparse prox = prox of the reweighted l1 norm of the visited coordinates *)
Lemma l1norm_sparse_prox_correct (alpha step : R) (x : list R) i indices indptr (d : list R) :
  (S i < length indptr)%nat -> (nth (S i) indptr 0 <= length indices)%nat ->
  NoDup (csr_row indices indptr i) ->
  Forall (fun j => (j < length x)%nat /\ (j < length d)%nat) (csr_row indices indptr i) ->
  (forall j, 0 <= alpha * nth j d 0 * step) ->
  exists x', @l1norm_sparse_prox RN alpha x i indices indptr d step = Ok x' /\
    is_prox (fun y => Rsum (map (fun j => alpha * nth j d 0 * Rabs (nth j y 0)) (csr_row indices indptr i))) step x x'.
Proof.
  intros Hi Hn Hnd Hf Ht.
  destruct (l1norm_sparse_correct RN alpha x i indices indptr d step Hi Hn Hnd Hf) as (p & He & Hl & Hin & Hout).
  exists p. split; [exact He|]. rewrite Forall_forall in Hf. rn.
  apply sep_prox with (B := fun j => [j]) (pen := fun j y => alpha * nth j d 0 * Rabs (nth j y 0)); auto.
  - intros h _. repeat constructor; simpl; tauto.
  - intros h h' j _ _ Hne [<-|[]] [H|[]]; congruence.
  - intros h j Hh [<-|[]]. apply Hf, Hh.
  - intros j Hj. apply Hout. intros Hin'. apply (Hj j Hin'). left; reflexivity.
  - intros h y Hh Hly. cbn [map Rsum]. rewrite !nth_vminus by lia. rewrite Hin by exact Hh.
    pose proof (soft_thr_vi (alpha * nth h d 0 * step) (nth h x 0) (nth h y 0) (Ht h)). rn. lra.
Qed.
End Sep.

(** ** FusedLasso block structures *)
Lemma nth_map_seq (f : nat -> nat) n k d : k < n -> nth k (map f (seq 0 n)) d = f k.
Proof.
  intros Hk. rewrite nth_indep with (d' := f 0) by (rewrite map_length, seq_length; exact Hk).
  rewrite map_nth, seq_nth by exact Hk. reflexivity.
Qed.
Lemma nth_repeat_in {A} (x d : A) n k : k < n -> nth k (repeat x n) d = x.
Proof. intros Hk. apply (repeat_spec n x). apply nth_In. rewrite repeat_length; exact Hk. Qed.

Lemma fused_blocks_1_spec n : exists data ptr, fused_blocks_1 n = Ok (data, ptr) /\
  length data = n /\ length ptr = S ((n + 1) / 2) /\
  (forall h, h <= (n + 1) / 2 -> nth h ptr 0 = Nat.min (2 * h) n) /\
  (forall h, h < (n + 1) / 2 -> nth (2 * h) data 0%Z = if S (2 * h) <? n then 1%Z else (-1)%Z).
Proof.
  unfold fused_blocks_1. pose proof (Nat.div_mod n 2 ltac:(lia)) as Hdm.
  pose proof (Nat.mod_upper_bound n 2 ltac:(lia)) as Hmu.
  destruct (Nat.eqb_spec (n mod 2) 1) as [Hodd|Heven].
  - assert (Hh : (n + 1) / 2 = S (n / 2)).
    { symmetry. apply Nat.div_unique with (r := 0); lia. }
    rewrite set_ok by (rewrite repeat_length; lia). cbn [bind].
    eexists _, _. split; [reflexivity|]. rewrite upd_length, repeat_length, app_length, map_length, seq_length.
    split; [reflexivity|]. split; [cbn [length]; lia|]. split.
    + intros h Hle. destruct (Nat.eq_dec h (S (n / 2))) as [->|Hne].
      * rewrite app_nth2 by (rewrite map_length, seq_length; lia).
        rewrite map_length, seq_length, Nat.sub_diag. cbn [nth].
        rewrite seq_S, map_app. cbn [map]. rewrite last_last. lia.
      * rewrite app_nth1 by (rewrite map_length, seq_length; lia). rewrite nth_map_seq by lia. lia.
    + intros h Hlt. rewrite nth_upd, repeat_length. destruct (Nat.ltb_spec (S (2 * h)) n).
      * destruct (Nat.eqb_spec (n - 1) (2 * h)); [lia|]. cbn [andb]. apply nth_repeat_in; lia.
      * destruct (Nat.eqb_spec (n - 1) (2 * h)); [|lia]. cbn [andb].
        destruct (Nat.ltb_spec (n - 1) n); [reflexivity|lia].
  - assert (Hh : (n + 1) / 2 = n / 2).
    { symmetry. apply Nat.div_unique with (r := 1); lia. }
    eexists _, _. split; [reflexivity|]. rewrite repeat_length, map_length, seq_length, Hh.
    split; [reflexivity|]. split; [reflexivity|]. split.
    + intros h Hle. rewrite nth_map_seq by lia. lia.
    + intros h Hlt. destruct (Nat.ltb_spec (S (2 * h)) n); [|lia]. apply nth_repeat_in; lia.
Qed.

Lemma fused_blocks_2_spec n : 1 <= n -> exists data ptr, fused_blocks_2 n = Ok (data, ptr) /\
  length data = n /\ length ptr = S (n / 2 + 1) /\
  (forall h, h <= n / 2 + 1 -> nth h ptr 0 = Nat.min (2 * h - 1) n) /\
  (forall h, h < n / 2 + 1 -> nth (2 * h - 1) data 0%Z = if (1 <=? h) && (2 * h <? n) then 1%Z else (-1)%Z).
Proof.
  intros Hn1. unfold fused_blocks_2. pose proof (Nat.div_mod n 2 ltac:(lia)) as Hdm.
  pose proof (Nat.mod_upper_bound n 2 ltac:(lia)) as Hmu.
  assert (Hc : (n + 2) / 2 = n / 2 + 1).
  { replace (n + 2) with (n + 1 * 2) by lia. rewrite Nat.div_add by lia. reflexivity. }
  rewrite Hc. rewrite set_ok by (rewrite repeat_length; lia). cbn [bind].
  set (ptr := 0 :: map (fun k => 2 * k + 1) (seq 0 (n / 2 + 1))).
  assert (Hpl : length ptr = S (n / 2 + 1)) by (unfold ptr; simpl; rewrite map_length, seq_length; reflexivity).
  assert (Hpn : forall h, h <= n / 2 + 1 -> nth h ptr 0 = 2 * h - 1).
  { intros [|h] Hh; [reflexivity|]. unfold ptr; cbn [nth]. rewrite nth_map_seq by lia. lia. }
  destruct (Nat.eqb_spec (n mod 2) 0) as [Heven|Hodd].
  - rewrite set_ok by (rewrite upd_length, repeat_length; lia). cbn [bind].
    rewrite set_ok by lia. cbn [bind].
    eexists _, _. split; [reflexivity|]. rewrite !upd_length, repeat_length.
    split; [reflexivity|]. split; [exact Hpl|]. split.
    + assert (Hlast : last ptr 0 = 2 * (n / 2) + 1).
      { unfold ptr. replace (n / 2 + 1) with (S (n / 2)) by lia. rewrite seq_S, map_app, app_comm_cons.
        cbn [map]. rewrite last_last. lia. }
      intros h Hh. rewrite nth_upd, Hpl, Hlast. destruct (Nat.eqb_spec (S (n / 2 + 1) - 1) h).
      * destruct (Nat.ltb_spec (S (n / 2 + 1) - 1) (S (n / 2 + 1))); [|lia]. cbn [andb]. lia.
      * cbn [andb]. rewrite Hpn by exact Hh. lia.
    + intros h Hh. rewrite nth_upd, upd_length, repeat_length, nth_upd, repeat_length.
      destruct (Nat.leb_spec 1 h); destruct (Nat.ltb_spec (2 * h) n); cbn [andb].
      * destruct (Nat.eqb_spec (n - 1) (2 * h - 1)); [lia|]. destruct (Nat.eqb_spec 0 (2 * h - 1)); [lia|].
        cbn [andb]. apply nth_repeat_in; lia.
      * destruct (Nat.eqb_spec (n - 1) (2 * h - 1)); [|lia]. destruct (Nat.ltb_spec (n - 1) n); [reflexivity|lia].
      * destruct (Nat.eqb_spec (n - 1) (2 * h - 1)); destruct (Nat.ltb_spec (n - 1) n); cbn [andb]; try reflexivity; try lia.
        destruct (Nat.eqb_spec 0 (2 * h - 1)); [|lia]. destruct (Nat.ltb_spec 0 n); [reflexivity|lia].
      * lia.
  - eexists _, _. split; [reflexivity|]. rewrite upd_length, repeat_length.
    split; [reflexivity|]. split; [exact Hpl|]. split.
    + intros h Hh. rewrite Hpn by exact Hh. lia.
    + intros h Hh. rewrite nth_upd, repeat_length.
      destruct (Nat.leb_spec 1 h); cbn [andb].
      * destruct (Nat.ltb_spec (2 * h) n); [|lia]. destruct (Nat.eqb_spec 0 (2 * h - 1)); [lia|].
        cbn [andb]. apply nth_repeat_in; lia.
      * destruct (Nat.eqb_spec 0 (2 * h - 1)); [|lia]. destruct (Nat.ltb_spec 0 n); [reflexivity|lia].
Qed.

(** ** fused sparse prox *)
Section FL.
Local Open Scope R_scope.

Definition pair_prox (ss a b : R) : R * R :=
  if Rleb (b + ss) (a - ss) then (a - ss, b + ss)
  else if Rleb (a + ss) (b - ss) then (a + ss, b - ss)
  else ((a + b) / 2, (a + b) / 2).

Definition fl_value (alpha step : R) (bdata : list Z) (ptr : list nat) (d : list R) (h : nat)
   (x : list R) (j : nat) : R :=
  let j0 := nth h ptr 0%nat in
  if (nth j0 bdata 0%Z <=? 0)%Z then nth j x 0
  else let p := pair_prox (step * nth h d 0 * alpha) (nth j0 x 0) (nth (S j0) x 0) in
       if Nat.eqb j j0 then fst p else snd p.

Lemma fl_block_ok (alpha step : R) bdata ptr (d : list R) h (x : list R) :
  (h < length ptr)%nat -> (nth h ptr 0 < length bdata)%nat -> (h < length d)%nat ->
  (nth h ptr 0 < length x)%nat ->
  ((nth (nth h ptr 0%nat) bdata 0 <= 0)%Z \/ (nth (S h) ptr 0 = nth h ptr 0 + 2 /\ nth (S h) ptr 0 <= length x)%nat) ->
  exists x', @fl_block RN alpha bdata ptr d step h x = Ok x' /\ length x' = length x /\
    (forall j, In j (blk ptr h) -> nth j x' 0 = fl_value alpha step bdata ptr d h x j) /\
    (forall j, ~ In j (blk ptr h) -> nth j x' 0 = nth j x 0).
Proof.
  intros Hh Hb Hd Hx Hc. unfold fl_block, fl_value.
  rewrite (get_ok ptr h 0%nat) by lia. cbn [bind]. rewrite (get_ok bdata _ 0%Z) by lia. cbn [bind].
  set (j0 := nth h ptr 0%nat) in *.
  destruct (Z.leb_spec (nth j0 bdata 0%Z) 0).
  - exists x. auto.
  - destruct Hc as [Hc|[Hs Hle]]; [lia|]. rn.
    rewrite (get_ok d h 0) by lia. cbn [bind]. rewrite (get_ok x j0 0) by lia. cbn [bind].
    rewrite (get_ok x (S j0) 0) by lia. cbn [bind].
    set (ss := step * nth h d 0 * alpha).
    assert (Hgen : forall u v : R,
       exists x', (x' <- set x j0 u;; set x' (S j0) v) = Ok x' /\ length x' = length x /\
       (forall j, In j (blk ptr h) -> nth j x' 0 = if Nat.eqb j j0 then u else v) /\
       (forall j, ~ In j (blk ptr h) -> nth j x' 0 = nth j x 0)).
    { intros u v. rewrite set_ok by lia. cbn [bind]. rewrite set_ok by (rewrite upd_length; lia).
      eexists; split; [reflexivity|]. rewrite !upd_length. split; [reflexivity|].
      unfold blk. fold j0. rewrite Hs. split; intros j Hj; rewrite in_range in Hj.
      - rewrite nth_upd, upd_length. destruct (Nat.eqb_spec j j0) as [->|].
        + destruct (Nat.eqb_spec (S j0) j0); [lia|]. cbn [andb]. apply nth_upd_eq; lia.
        + destruct (Nat.eqb_spec (S j0) j); [|lia]. destruct (Nat.ltb_spec (S j0) (length x)); [reflexivity|lia].
      - rewrite !nth_upd_neq by lia. reflexivity. }
    unfold pair_prox.
    destruct (Rleb (nth (S j0) x 0 + ss) (nth j0 x 0 - ss)); [apply Hgen|].
    destruct (Rleb (nth j0 x 0 + ss) (nth (S j0) x 0 - ss)); apply Hgen.
Qed.

Definition fl_block_pen (alpha : R) (bdata : list Z) (ptr : list nat) (d : list R) (h : nat) (y : list R) : R :=
  let j0 := nth h ptr 0%nat in
  if (nth j0 bdata 0%Z <=? 0)%Z then 0 else alpha * nth h d 0 * Rabs (nth (S j0) y 0 - nth j0 y 0).

Lemma pair_prox_vi ss a b u v : 0 <= ss ->
  let p := pair_prox ss a b in
  ss * Rabs (snd p - fst p) + ((a - fst p) * (u - fst p) + (b - snd p) * (v - snd p)) <= ss * Rabs (v - u).
Proof.
  intros Hs. unfold pair_prox. destruct (Rleb_spec (b + ss) (a - ss)); [|destruct (Rleb_spec (a + ss) (b - ss))]; cbn [fst snd].
  - rewrite (Rabs_left1 (b + ss - (a - ss))) by lra.
    pose proof (Rle_abs (- (v - u))). rewrite Rabs_Ropp in *. nra.
  - rewrite (Rabs_right (b - ss - (a + ss))) by lra. pose proof (Rle_abs (v - u)). nra.
  - replace ((a + b) / 2 - (a + b) / 2) with 0 by lra. rewrite Rabs_R0.
    assert (Hab : Rabs ((b - a) / 2 * (v - u)) <= ss * Rabs (v - u)).
    { rewrite Rabs_mult. apply Rmult_le_compat_r; [apply Rabs_pos|]. apply Rabs_le; lra. }
    pose proof (Rle_abs ((b - a) / 2 * (v - u))). 
    replace ((a - (a + b) / 2) * (u - (a + b) / 2) + (b - (a + b) / 2) * (v - (a + b) / 2)) with ((b - a) / 2 * (v - u)) by field.
    lra.
Qed.

Lemma fused_sparse_prox_correct (alpha step : R) bdata ptr (x : list R) i indices indptr (d : list R) :
  (forall i j, (i <= j)%nat -> (j < length ptr)%nat -> (nth i ptr 0 <= nth j ptr 0)%nat) ->
  (S i < length indptr)%nat -> (nth (S i) indptr 0 <= length indices)%nat ->
  NoDup (csr_row indices indptr i) ->
  Forall (fun h => (S h < length ptr)%nat /\ (nth h ptr 0 < length bdata)%nat /\ (h < length d)%nat /\
       (nth h ptr 0 < length x)%nat /\ (nth (S h) ptr 0 <= length x)%nat /\
       ((nth (nth h ptr 0%nat) bdata 0 <= 0)%Z \/ nth (S h) ptr 0 = nth h ptr 0 + 2)%nat)
     (csr_row indices indptr i) ->
  (forall h, 0 <= step * nth h d 0 * alpha) ->
  exists x', @fused_sparse_prox RN alpha bdata ptr x i indices indptr d step = Ok x' /\ length x' = length x /\
    (forall h j, In h (csr_row indices indptr i) -> In j (blk ptr h) -> nth j x' 0 = fl_value alpha step bdata ptr d h x j) /\
    (forall j, (forall h, In h (csr_row indices indptr i) -> ~ In j (blk ptr h)) -> nth j x' 0 = nth j x 0) /\
    is_prox (fun y => Rsum (map (fun h => fl_block_pen alpha bdata ptr d h y) (csr_row indices indptr i))) step x x'.
Proof.
  intros Hm Hi Hn Hnd Hf Ht. unfold fused_sparse_prox. rewrite csr_loop by assumption.
  rewrite Forall_forall in Hf.
  destruct (forM_blocks (@fl_block RN alpha bdata ptr d step) (blk ptr)
          (fl_value alpha step bdata ptr d) (length x) 0 (csr_row indices indptr i) Hnd)
    with (x := x) as (p & He & Hl & Hin & Hout); auto.
  - intros h h' j H1 H2. apply blk_disjoint; [exact Hm|apply Hf, H1|apply Hf, H2].
  - intros h y Hh Hl. destruct (Hf h Hh) as (H1 & H2 & H3 & H4 & H5 & H6). rn. rewrite <- Hl in *.
    apply fl_block_ok; try assumption; try lia.
  - intros h y z j Hh Hs. destruct (in_dec Nat.eq_dec j (blk ptr h)) as [Hj|Hj]; [left|right; exact Hj].
    unfold fl_value. destruct (Z.leb_spec (nth (nth h ptr 0%nat) bdata 0%Z) 0); [apply Hs, Hj|].
    destruct (Hf h Hh) as (H1 & H2 & H3 & H4 & H5 & [H6|H6]); [lia|].
    rn. rewrite (Hs (nth h ptr 0%nat)), (Hs (S (nth h ptr 0%nat))); [reflexivity| |]; unfold blk; rewrite in_range; lia.
  - exists p. split; [exact He|]. split; [exact Hl|]. split; [exact Hin|]. split; [exact Hout|]. rn.
    apply sep_prox with (B := blk ptr); auto.
    + intros h _. apply range_NoDup.
    + intros h h' j H1 H2. apply blk_disjoint; [exact Hm|apply Hf, H1|apply Hf, H2].
    + intros h j Hh Hj. apply in_range in Hj. destruct (Hf h Hh) as (_ & _ & _ & _ & H5 & _). lia.
    + intros h y Hh Hly. unfold fl_block_pen. pose proof (Hin h) as Hv. unfold fl_value in Hv.
      destruct (Z.leb_spec (nth (nth h ptr 0%nat) bdata 0%Z) 0).
      * rewrite (Rsum_zero (fun j => nth j (vminus x p) 0 * nth j (vminus y p) 0)); [lra|].
        intros j Hj. rewrite nth_vminus by lia. rewrite Hv by assumption. ring.
      * destruct (Hf h Hh) as (H1 & H2 & H3 & H4 & H5 & [H6|H6]); [lia|].
        set (j0 := nth h ptr 0%nat) in *.
        assert (Hb : blk ptr h = [j0; S j0]).
        { unfold blk. fold j0. rewrite H6. unfold range. replace (j0 + 2 - j0)%nat with 2%nat by lia. reflexivity. }
        rewrite Hb. cbn [map Rsum]. rewrite !nth_vminus by lia.
        assert (Hv0 := Hv j0 Hh ltac:(rewrite Hb; left; reflexivity)).
        assert (Hv1 := Hv (S j0) Hh ltac:(rewrite Hb; right; left; reflexivity)).
        rewrite Nat.eqb_refl in Hv0. replace (Nat.eqb (S j0) j0) with false in Hv1 by (symmetry; apply Nat.eqb_neq; lia).
        rewrite Hv0, Hv1.
        pose proof (pair_prox_vi (step * nth h d 0 * alpha) (nth j0 x 0) (nth (S j0) x 0) (nth j0 y 0) (nth (S j0) y 0) (Ht h)) as Hp.
        cbv zeta in Hp. lra.
Qed.
End FL.
