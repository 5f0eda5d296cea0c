(** * Two-dimensional total variation: the penalty and the linear operator *)
From Coq Require Import ZArith Bool List Lia Reals Lra Permutation.
From Verif Require Import Num Vec Spec SpecTv RVec ModelPenalty PenaltyFacts ModelTv TvSafe TvHull TvKkt TvTaut TvLines TvDykstra.
Import ListNotations.
Local Open Scope R_scope.

Lemma Rsum_flat {A} (f : A -> list R) l : Rsum (concat (map f l)) = Rsum (map (fun a => Rsum (f a)) l).
Proof. induction l as [|a l IH]; [reflexivity|]. cbn [map concat Rsum]. rewrite Rsum_app, IH. reflexivity. Qed.
Lemma sm_swap a b (f : nat -> nat -> R) : sm a (fun i => sm b (fun j => f i j)) = sm b (fun j => sm a (fun i => f i j)).
Proof. induction a as [|a IH]; [symmetry; apply sm_zero; reflexivity|]. cbn [sm]. rewrite IH, <- sm_add. reflexivity. Qed.
Lemma nth_map_seq {A} (f : nat -> A) n k d : (k < n)%nat -> nth k (map f (seq 0 n)) d = f k.
Proof. intros H. rewrite (nth_indep _ d (f 0%nat)) by (rewrite map_length, seq_length; exact H). rewrite map_nth, seq_nth by exact H. reflexivity. Qed.

Section Tv2.
Variables (rows cols : nat) (x : list R).
Notation X i j := (nth (i * cols + j) x 0).
Lemma tv2_sm : tv2 rows cols x = sm (rows - 1) (fun i => sm cols (fun j => Rabs (X (S i) j - X i j))) + sm rows (fun i => sm (cols - 1) (fun j => Rabs (X i (S j) - X i j))).
Proof.
  unfold tv2, tv_cols, tv_rows. f_equal.
  - rewrite Rsum_seq, sm_swap. apply sm_ext. intros j _. rewrite tv_sm. unfold img_col. rewrite map_length, seq_length. apply sm_ext. intros i Hi. rewrite !nth_map_seq by lia. reflexivity.
  - rewrite Rsum_seq. apply sm_ext. intros i _. rewrite tv_sm. unfold img_row. rewrite map_length, seq_length. apply sm_ext. intros j Hj. rewrite !nth_map_seq by lia. reflexivity.
Qed.
Lemma idx_lt i j : (i < rows)%nat -> (j < cols)%nat -> (i * cols + j < rows * cols)%nat.
Proof. nia. Qed.
Lemma grid_sum (h : nat -> R) a b : Rsum (map h (flat_map (fun i => map (fun j => (i * cols + j)%nat) (seq 0 b)) (seq 0 a))) = sm a (fun i => sm b (fun j => h (i * cols + j)%nat)).
Proof.
  rewrite flat_map_concat_map, concat_map, map_map, Rsum_flat, Rsum_seq. apply sm_ext. intros i _. rewrite map_map, Rsum_seq. reflexivity.
Qed.
Lemma tv2d_call_R (alpha : R) : length x = (rows * cols)%nat -> tv2d_call (K:=RN) alpha rows cols x = Ok (alpha * tv2 rows cols x).
Proof.
  intros L. unfold tv2d_call. change (@length RN x) with (@length R x). rewrite L, Nat.eqb_refl. cbn [negb].
  rewrite (mapM_ok _ (fun k => Rabs (nth (k + cols) x 0 - nth k x 0))).
  2:{ intros k Hk. apply in_flat_map in Hk as (i & Hi & Hk). apply in_map_iff in Hk as (j & <- & Hj). apply in_seq in Hi, Hj.
      rewrite !(get_ok (A:=R) x _ 0) by (rewrite L; nia). reflexivity. }
  cbn [bind]. rewrite (mapM_ok _ (fun k => Rabs (nth (k + 1) x 0 - nth k x 0))).
  2:{ intros k Hk. apply in_flat_map in Hk as (i & Hi & Hk). apply in_map_iff in Hk as (j & <- & Hj). apply in_seq in Hi, Hj.
      rewrite !(get_ok (A:=R) x _ 0) by (rewrite L; nia). reflexivity. }
  cbn [bind]. f_equal. change (@carrier RN) with R. rewrite !vsum_R. change (alpha * ?t = alpha * tv2 rows cols x) with (alpha * t = alpha * tv2 rows cols x). rewrite tv2_sm. rn. rewrite !grid_sum. f_equal. f_equal.
  - apply sm_ext. intros i _. apply sm_ext. intros j _. do 2 f_equal. f_equal. lia.
  - apply sm_ext. intros i _. apply sm_ext. intros j _. do 2 f_equal. f_equal. lia.
Qed.

(** the rows of the operator *)
Definition drow (i j : nat) : list R := upd (upd (zeros (rows * cols)) i 1) j (-1).
Lemma drow_ok i j : (i < rows * cols)%nat -> (j < rows * cols)%nat -> diff_row (K:=RN) (rows * cols) i j = Ok (drow i j).
Proof.
  intros Hi Hj. unfold diff_row, drow. rewrite vzeros_R. change (@set RN) with (@set R). rewrite set_ok by (rewrite zeros_length; exact Hi). cbn [bind].
  change (@set RN) with (@set R). rewrite set_ok by (rewrite upd_length, zeros_length; exact Hj). rn. reflexivity.
Qed.
Lemma sm_pick n i (f : nat -> R) : (i < n)%nat -> (forall k, (k < n)%nat -> k <> i -> f k = 0) -> sm n f = f i.
Proof.
  intros Hi H. induction n as [|n IH]; [lia|]. cbn [sm]. destruct (Nat.eq_dec i n) as [->|D].
  - rewrite sm_zero; [ring|]. intros k Hk. apply H; lia.
  - rewrite IH; [|lia|intros k Hk; apply H; lia]. rewrite (H n) by lia. ring.
Qed.
Lemma drow_dot i j : length x = (rows * cols)%nat -> (i < rows * cols)%nat -> (j < rows * cols)%nat -> i <> j -> dot (drow i j) x = nth i x 0 - nth j x 0.
Proof.
  intros L Hi Hj D. unfold drow. rewrite dot_sm by (rewrite !upd_length, zeros_length; lia). rewrite !upd_length, zeros_length.
  rewrite (sm_ext _ _ (fun k => (if Nat.eqb k i then nth i x 0 else 0) + (if Nat.eqb k j then - nth j x 0 else 0))).
  - rewrite sm_add, (sm_pick _ i), (sm_pick _ j), !Nat.eqb_refl; [ring|exact Hj| |exact Hi|]; intros k _ N; rewrite (proj2 (Nat.eqb_neq _ _) N); reflexivity.
  - intros k Hk. destruct (Nat.eqb_spec k i) as [Ei|Di]; destruct (Nat.eqb_spec k j) as [Ej|Dj]; subst; try contradiction.
    + rewrite nth_upd_neq by lia. rewrite nth_upd_eq by (rewrite zeros_length; lia). ring.
    + rewrite nth_upd_eq by (rewrite upd_length, zeros_length; lia). ring.
    + rewrite !nth_upd_neq by lia. rewrite nth_zeros. ring.
Qed.
Definition lrows (i j : nat) : list (list R) := (if Nat.ltb i (rows - 1) then [drow (i * cols + j) ((i + 1) * cols + j)] else []) ++ (if Nat.ltb j (cols - 1) then [drow (i * cols + j) (i * cols + (j + 1))] else []).
Lemma tv2d_rows_R : tv2d_rows (K:=RN) rows cols = Ok (concat (map (fun i => concat (map (lrows i) (seq 0 cols))) (seq 0 rows))).
Proof.
  unfold tv2d_rows. rewrite (mapM_ok _ (fun i => concat (map (lrows i) (seq 0 cols)))); [reflexivity|]. intros i Hi. apply in_seq in Hi.
  rewrite (mapM_ok _ (lrows i)); [reflexivity|]. intros j Hj. apply in_seq in Hj. unfold lrows.
  destruct (Nat.ltb_spec i (rows - 1)) as [A|A]; destruct (Nat.ltb_spec j (cols - 1)) as [B|B]; rewrite ?drow_ok by nia; cbn [bind]; rewrite ?drow_ok by nia; reflexivity.
Qed.
Lemma sm_ltb n (f : nat -> R) : sm n (fun i => if Nat.ltb i (n - 1) then f i else 0) = sm (n - 1) f.
Proof.
  destruct n as [|n]; [reflexivity|]. replace (S n - 1)%nat with n by lia. cbn [sm]. rewrite Nat.ltb_irrefl, Rplus_0_r. apply sm_ext. intros i Hi. rewrite (proj2 (Nat.ltb_lt _ _) Hi). reflexivity.
Qed.
Lemma tv2d_op : length x = (rows * cols)%nat -> exists L, tv2d_rows (K:=RN) rows cols = Ok L /\ Forall (fun r : list R => length r = length x) L /\ l1 (map (fun r => dot r x) L) = tv2 rows cols x.
Proof.
  intros L. eexists. split; [apply tv2d_rows_R|]. split.
  - apply Forall_forall. intros r Hr. apply in_concat in Hr as (b & Hb & Hr). apply in_map_iff in Hb as (i & <- & _). apply in_concat in Hr as (c & Hc & Hr). apply in_map_iff in Hc as (j & <- & _).
    unfold lrows in Hr. apply in_app_or in Hr. assert (G : forall a b, length (drow a b) = length x) by (intros; unfold drow; rewrite !upd_length, zeros_length; congruence).
    destruct Hr as [Hr|Hr]; [destruct (i <? rows - 1)%nat|destruct (j <? cols - 1)%nat]; cbn in Hr; repeat destruct Hr as [Hr|Hr]; try contradiction; subst r; apply G.
  - rewrite l1_Rsum, map_map, concat_map, map_map, Rsum_flat, Rsum_seq.
    rewrite (sm_ext rows _ (fun i => (if Nat.ltb i (rows - 1) then sm cols (fun j => Rabs (X (S i) j - X i j)) else 0) + sm (cols - 1) (fun j => Rabs (X i (S j) - X i j)))).
    { rewrite sm_add, sm_ltb, tv2_sm. reflexivity. }
    intros i Hi. rewrite concat_map, map_map, Rsum_flat, Rsum_seq.
    rewrite (sm_ext cols _ (fun j => (if Nat.ltb i (rows - 1) then Rabs (X (S i) j - X i j) else 0) + (if Nat.ltb j (cols - 1) then Rabs (X i (S j) - X i j) else 0))).
    { rewrite sm_add, sm_ltb. f_equal. destruct (i <? rows - 1)%nat; [reflexivity|apply sm_zero; reflexivity]. }
    intros j Hj. unfold lrows. rewrite map_app, Rsum_app. f_equal.
    + destruct (Nat.ltb_spec i (rows - 1)) as [A|A]; [|reflexivity]. cbn [map Rsum]. rewrite Rplus_0_r, drow_dot by nia. rewrite Rabs_minus_sym. do 3 f_equal. lia.
    + destruct (Nat.ltb_spec j (cols - 1)) as [A|A]; [|reflexivity]. cbn [map Rsum]. rewrite Rplus_0_r, drow_dot by nia. rewrite Rabs_minus_sym. do 3 f_equal. lia.
Qed.
End Tv2.
