(** Matrices as flat lists: grids, outer products, Bessel, the nuclear norm of a
    decomposition. *)
From Coq Require Import Reals Lra Lia List Bool ZArith Arith.
From Verif Require Import Num Vec Spec SpecTrace RVec ConvexFacts PenaltyFacts UtilsMain RandomizedProx SfwRate.
Import ListNotations.
Open Scope R_scope.

Lemma Rsum_ext_seq (f g : nat -> R) n : (forall i, (i < n)%nat -> f i = g i) ->
  Rsum (map f (seq 0 n)) = Rsum (map g (seq 0 n)).
Proof. intros H. f_equal. apply map_ext_in. intros i Hi. apply H. apply in_seq in Hi. lia. Qed.

Lemma Rsum_le_seq (f g : nat -> R) n : (forall i, (i < n)%nat -> f i <= g i) ->
  Rsum (map f (seq 0 n)) <= Rsum (map g (seq 0 n)).
Proof. intros H. apply Rsum_le_map. intros i Hi. apply H. apply in_seq in Hi. lia. Qed.

Lemma grid_sum (f : nat -> R) m n :
  Rsum (map f (seq 0 (m * n))) =
  Rsum (map (fun i => Rsum (map (fun j => f (i * n + j)%nat) (seq 0 n))) (seq 0 m)).
Proof.
  induction m as [|m IH]; [reflexivity|].
  rewrite seq_S, map_app, Rsum_app. cbn [map Rsum Nat.add].
  replace (S m * n)%nat with (m * n + n)%nat by lia.
  rewrite seq_app, map_app, Rsum_app, IH, Rplus_0_r. f_equal. cbn [Nat.add].
  assert (G : forall k, map f (seq k n) = map (fun j => f (k + j)%nat) (seq 0 n)).
  { clear. induction n as [|n IH]; intros k; [reflexivity|].
    rewrite !seq_S, !map_app, IH. cbn. reflexivity. }
  now rewrite G.
Qed.

(** A flat list filled from a function of row and column. *)
Definition grid (m n : nat) (f : nat -> nat -> R) : list R :=
  concat (map (fun i => map (f i) (seq 0 n)) (seq 0 m)).

Lemma concat_length_const {A} n (rows : list (list A)) :
  Forall (fun r => length r = n) rows -> length (concat rows) = (length rows * n)%nat.
Proof. induction 1 as [|r rs Hr H IH]; cbn; [reflexivity|]. rewrite app_length, IH. lia. Qed.

Lemma nth_concat_const {A} (d : A) n (rows : list (list A)) i j :
  Forall (fun r => length r = n) rows -> (i < length rows)%nat -> (j < n)%nat ->
  nth (i * n + j) (concat rows) d = nth j (nth i rows []) d.
Proof.
  intros H. revert i. induction H as [|r rs Hr H IH]; intros i Hi Hj; cbn in Hi; [lia|].
  destruct i as [|i]; cbn [concat Nat.mul Nat.add nth].
  - now rewrite app_nth1 by lia.
  - rewrite app_nth2 by lia. rewrite <- (IH i) by lia. f_equal. lia.
Qed.

Lemma nth_map_seq {A} (f : nat -> A) n i d : (i < n)%nat -> nth i (map f (seq 0 n)) d = f i.
Proof.
  intros H. rewrite (nth_indep _ d (f 0%nat)) by (now rewrite map_length, seq_length).
  rewrite map_nth. now rewrite seq_nth by exact H.
Qed.

Lemma grid_rows m n f : Forall (fun r : list R => length r = n) (map (fun i => map (f i) (seq 0 n)) (seq 0 m)).
Proof. apply Forall_map, Forall_forall. intros i _. now rewrite map_length, seq_length. Qed.
Lemma grid_length m n f : length (grid m n f) = (m * n)%nat.
Proof. unfold grid. rewrite (concat_length_const n) by apply grid_rows. now rewrite map_length, seq_length. Qed.
Lemma nth_grid m n f i j : (i < m)%nat -> (j < n)%nat -> nth (i * n + j) (grid m n f) 0 = f i j.
Proof.
  intros Hi Hj. unfold grid. rewrite (nth_concat_const 0 n); [|apply grid_rows|now rewrite map_length, seq_length|exact Hj].
  rewrite nth_map_seq by exact Hi. now rewrite nth_map_seq by exact Hj.
Qed.

Lemma flat_ext (m n : nat) (x y : list R) : length x = (m * n)%nat -> length y = (m * n)%nat ->
  (forall i j, (i < m)%nat -> (j < n)%nat -> nth (i * n + j) x 0 = nth (i * n + j) y 0) -> x = y.
Proof.
  intros Hx Hy H. apply (list_ext x y 0); [congruence|]. intros q Hq.
  assert (Hn : (n <> 0)%nat) by (intros ->; lia).
  pose proof (Nat.div_mod q n Hn) as E. pose proof (Nat.mod_upper_bound q n Hn) as B.
  rewrite E, (Nat.mul_comm n). apply H; [|exact B].
  apply Nat.div_lt_upper_bound; [exact Hn|]. lia.
Qed.

Lemma dot_grid (m n : nat) (x y : list R) : length x = (m * n)%nat -> length y = (m * n)%nat ->
  dot x y = Rsum (map (fun i => Rsum (map (fun j => nth (i * n + j) x 0 * nth (i * n + j) y 0) (seq 0 n))) (seq 0 m)).
Proof. intros Hx Hy. rewrite (dot_seq x y (m * n) Hx Hy). apply grid_sum. Qed.

Lemma outer_rows a b : Forall (fun r : list R => length r = length b) (map (fun x => map (Rmult x) b) a).
Proof. apply Forall_map, Forall_forall. intros x _. apply map_length. Qed.
Lemma outer_length a b : length (outer a b) = (length a * length b)%nat.
Proof. unfold outer. rewrite (concat_length_const (length b)) by apply outer_rows. now rewrite map_length. Qed.
Lemma nth_outer a b i j : (i < length a)%nat -> (j < length b)%nat ->
  nth (i * length b + j) (outer a b) 0 = nth i a 0 * nth j b 0.
Proof.
  intros Hi Hj. unfold outer. rewrite (nth_concat_const 0 (length b)); [|apply outer_rows|now rewrite map_length|exact Hj].
  rewrite (nth_indep _ [] ((fun x => map (Rmult x) b) 0)) by now rewrite map_length.
  rewrite (map_nth (fun x => map (Rmult x) b)).
  rewrite (nth_indep _ 0 (Rmult (nth i a 0) 0)) by now rewrite map_length.
  now rewrite map_nth.
Qed.

Lemma outer_dot m n (z a b : list R) : length z = (m * n)%nat -> length a = m -> length b = n ->
  dot z (outer a b) = Rsum (map (fun i => Rsum (map (fun j => nth (i * n + j) z 0 * (nth i a 0 * nth j b 0)) (seq 0 n))) (seq 0 m)).
Proof.
  intros Hz <- <-. rewrite (dot_grid (length a) (length b)); [|exact Hz|apply outer_length].
  apply Rsum_ext_seq. intros i Hi. apply Rsum_ext_seq. intros j Hj. now rewrite nth_outer.
Qed.

Lemma outer_outer a b c d : length a = length c -> length b = length d ->
  dot (outer a b) (outer c d) = dot a c * dot b d.
Proof.
  intros H1 H2. rewrite (outer_dot (length a) (length b)); [|apply outer_length|congruence|congruence].
  rewrite (dot_seq a c (length a)), (dot_seq b d (length b)) by congruence.
  rewrite Rmult_comm, <- (Rsum_map_mult (fun i => nth i a 0 * nth i c 0)).
  apply Rsum_ext_seq. intros i Hi. rewrite Rmult_comm, <- (Rsum_map_mult (fun j => nth j b 0 * nth j d 0)).
  apply Rsum_ext_seq. intros j Hj. rewrite nth_outer by assumption. ring.
Qed.

(** * Orthonormal families *)
Lemma ortho_cons n v vs : orthonormal n (v :: vs) ->
  length v = n /\ dot v v = 1 /\ (forall w, In w vs -> dot v w = 0) /\ orthonormal n vs.
Proof.
  intros (Hl & Ho). inversion Hl as [|? ? Hv Hvs]; subst. repeat split; auto.
  - exact (Ho 0%nat 0%nat ltac:(cbn; lia) ltac:(cbn; lia)).
  - intros w Hw. destruct (In_nth vs w [] Hw) as (i & Hi & <-).
    exact (Ho 0%nat (S i) ltac:(cbn; lia) ltac:(cbn; lia)).
  - intros i j Hi Hj. exact (Ho (S i) (S j) ltac:(cbn; lia) ltac:(cbn; lia)).
Qed.

Lemma bessel n vs : orthonormal n vs -> forall b, length b = n ->
  Rsum (map (fun v => dot v b * dot v b) vs) <= dot b b.
Proof.
  induction vs as [|v vs IH]; intros Ho b Hb.
  - cbn. apply dot_self_nonneg.
  - destruct (ortho_cons n v vs Ho) as (Hv & H1 & H0 & Ho').
    set (c := dot v b). specialize (IH Ho' (lin 1 b (- c) v)).
    rewrite lin_length, Hb, Hv, Nat.min_id in IH. specialize (IH eq_refl).
    assert (E : Rsum (map (fun v0 => dot v0 (lin 1 b (- c) v) * dot v0 (lin 1 b (- c) v)) vs)
                = Rsum (map (fun v0 => dot v0 b * dot v0 b) vs)).
    { f_equal. apply map_ext_in. intros w Hw.
      assert (Hlw : length w = n). { destruct Ho' as (F & _). rewrite Forall_forall in F. auto. }
      rewrite dot_lin_r by congruence. rewrite (dot_comm w v), (H0 w Hw). ring. }
    rewrite E in IH. cbn [map Rsum]. fold c.
    rewrite dot_lin_l in IH by (rewrite ?lin_length; lia).
    rewrite !dot_lin_r in IH by congruence. rewrite (dot_comm b v) in IH. fold c in IH.
    rewrite H1 in IH. lra.
Qed.

(** sum |u_l . a| |v_l . b| <= |a| |b| *)
Lemma bessel2 m n us vs a b : orthonormal m us -> orthonormal n vs -> length us = length vs ->
  length a = m -> length b = n ->
  Rsum (map (fun l => Rabs (dot (nth l us []) a) * Rabs (dot (nth l vs []) b)) (seq 0 (length us))) <= norm2 a * norm2 b.
Proof.
  intros Hu Hv Hl Ha Hb.
  set (p := map (fun u => Rabs (dot u a)) us). set (q := map (fun v => Rabs (dot v b)) vs).
  assert (Ep : forall l, (l < length us)%nat -> nth l p 0 = Rabs (dot (nth l us []) a)).
  { intros l Hlt. unfold p. rewrite (nth_indep _ 0 (Rabs (dot [] a))) by now rewrite map_length. now rewrite (map_nth (fun u => Rabs (dot u a))). }
  assert (Eq : forall l, (l < length us)%nat -> nth l q 0 = Rabs (dot (nth l vs []) b)).
  { intros l Hlt. unfold q. rewrite (nth_indep _ 0 (Rabs (dot [] b))) by (rewrite map_length; lia). now rewrite (map_nth (fun v => Rabs (dot v b))). }
  assert (E : Rsum (map (fun l => Rabs (dot (nth l us []) a) * Rabs (dot (nth l vs []) b)) (seq 0 (length us))) = dot p q).
  { rewrite (dot_seq p q (length us)) by (unfold p, q; rewrite map_length; congruence).
    apply Rsum_ext_seq. intros l Hlt. now rewrite Ep, Eq. }
  rewrite E. eapply Rle_trans; [apply dot_le_norm|].
  assert (N : forall k ws c, orthonormal k ws -> length c = k -> norm2 (map (fun u => Rabs (dot u c)) ws) <= norm2 c).
  { intros k ws c Ho Hc. apply norm2_le_sq; [apply norm2_nonneg|]. rewrite norm2_sq.
    eapply Rle_trans; [|apply (bessel k ws Ho c Hc)]. right.
    clear. induction ws as [|w ws IH]; cbn; [reflexivity|]. rewrite IH. f_equal.
    rewrite <- Rabs_mult. apply Rabs_pos_eq. nra. }
  apply Rmult_le_compat; try apply norm2_nonneg; unfold p, q.
  - apply (N m); auto.
  - apply (N n); auto.
Qed.

(** * Expansions in two orthonormal families *)
(** As [is_svd], without a sign condition. *)
Definition expands (m n k : nat) (x : list R) (U : list (list R)) (s : list R) (Vt : list (list R)) : Prop :=
  length x = (m * n)%nat /\
  forall i j, (i < m)%nat -> (j < n)%nat ->
    nth (i * n + j) x 0 = Rsum (map (fun l => nth l (nth i U []) 0 * nth l s 0 * nth j (nth l Vt []) 0) (seq 0 k)).

Definition frames (m n k : nat) (U Vt : list (list R)) : Prop :=
  length U = m /\ Forall (fun r => length r = k) U /\ length Vt = k /\
  orthonormal m (columns k U) /\ orthonormal n Vt.

Lemma svd_frames m n k x U s Vt : is_svd m n k x U s Vt -> frames m n k U Vt /\ expands m n k x U s Vt.
Proof. unfold is_svd, frames, expands. intuition. Qed.

Lemma column_length j U : length (column j U) = length U.
Proof. apply map_length. Qed.
Lemma columns_length k U : length (columns k U) = k.
Proof. unfold columns. now rewrite map_length, seq_length. Qed.
Lemma nth_columns k U l : (l < k)%nat -> nth l (columns k U) [] = column l U.
Proof. intros H. unfold columns. now rewrite nth_map_seq. Qed.
Lemma nth_column l U i : (i < length U)%nat -> nth i (column l U) 0 = nth l (nth i U []) 0.
Proof.
  intros H. unfold column. rewrite (nth_indep _ 0 (nth l (@nil R) 0)) by now rewrite map_length.
  now rewrite (map_nth (fun r => nth l r 0)).
Qed.
Lemma ortho_nth_length n vs l : orthonormal n vs -> (l < length vs)%nat -> length (nth l vs []) = n.
Proof. intros (F & _) H. rewrite Forall_forall in F. apply F, nth_In, H. Qed.

Lemma expand_dot m n k x U s Vt z : frames m n k U Vt -> expands m n k x U s Vt -> length z = (m * n)%nat ->
  dot x z = Rsum (map (fun l => nth l s 0 * dot z (outer (column l U) (nth l Vt []))) (seq 0 k)).
Proof.
  intros (LU & _ & LV & OU & OV) (Lx & Ex) Lz.
  rewrite (dot_grid m n x z Lx Lz).
  transitivity (Rsum (map (fun i => Rsum (map (fun j => Rsum (map (fun l =>
     nth l s 0 * (nth (i * n + j) z 0 * (nth i (column l U) 0 * nth j (nth l Vt []) 0))) (seq 0 k))) (seq 0 n))) (seq 0 m))).
  - apply Rsum_ext_seq. intros i Hi. apply Rsum_ext_seq. intros j Hj. rewrite (Ex i j Hi Hj).
    rewrite Rmult_comm, <- (Rsum_map_mult (fun l => nth l (nth i U []) 0 * nth l s 0 * nth j (nth l Vt []) 0)).
    apply Rsum_ext_seq. intros l Hl. rewrite nth_column by lia. ring.
  - transitivity (Rsum (map (fun i => Rsum (map (fun l => Rsum (map (fun j =>
     nth l s 0 * (nth (i * n + j) z 0 * (nth i (column l U) 0 * nth j (nth l Vt []) 0))) (seq 0 n))) (seq 0 k))) (seq 0 m))).
    { apply Rsum_ext_seq. intros i Hi. apply Rsum_map_swap. }
    rewrite Rsum_map_swap. apply Rsum_ext_seq. intros l Hl.
    rewrite (outer_dot m n z); [|exact Lz|now rewrite column_length|apply ortho_nth_length; [exact OV|lia]].
    rewrite <- Rsum_map_mult. apply Rsum_ext_seq. intros i Hi. rewrite <- Rsum_map_mult. reflexivity.
Qed.

Lemma frame_products m n k U Vt l a b : frames m n k U Vt -> (l < k)%nat -> length a = m -> length b = n ->
  dot (outer (column l U) (nth l Vt [])) (outer a b) = dot (column l U) a * dot (nth l Vt []) b.
Proof.
  intros (LU & _ & LV & OU & OV) Hl Ha Hb. apply outer_outer.
  - rewrite column_length. congruence.
  - rewrite (ortho_nth_length n Vt l OV) by lia. congruence.
Qed.

(** The operator norm of an expansion. *)
Lemma expand_op m n k x U d Vt c : frames m n k U Vt -> expands m n k x U d Vt -> 0 <= c ->
  (forall l, (l < k)%nat -> Rabs (nth l d 0) <= c) -> op_le m n x c.
Proof.
  intros Fr Ex Hc Hd. split; [apply Ex|]. intros a b Ha Hb.
  assert (Lo : length (outer a b) = (m * n)%nat) by (rewrite outer_length; congruence).
  rewrite (expand_dot m n k x U d Vt (outer a b) Fr Ex Lo).
  destruct Fr as (LU & FU & LV & OU & OV).
  pose proof (bessel2 m n (columns k U) Vt a b OU OV ltac:(now rewrite columns_length) Ha Hb) as B.
  rewrite columns_length in B.
  eapply Rle_trans; [|apply Rmult_le_compat_l; [exact Hc|exact B]].
  rewrite <- Rsum_map_mult. apply Rsum_le_seq. intros l Hl.
  rewrite dot_comm, (frame_products m n k U Vt l a b) by (unfold frames; auto).
  rewrite nth_columns by exact Hl. rewrite <- Rabs_mult.
  eapply Rle_trans; [apply Rle_abs|]. rewrite Rabs_mult.
  apply Rmult_le_compat_r; [apply Rabs_pos|]. apply Hd, Hl.
Qed.

Lemma single_sum (c : R) l k : (l < k)%nat ->
  Rsum (map (fun q => if Nat.eqb q l then c else 0) (seq 0 k)) = c.
Proof.
  assert (G : forall N a, Rsum (map (fun q => if Nat.eqb q l then c else 0) (seq a N))
              = if (Nat.leb a l && Nat.ltb l (a + N))%bool then c else 0).
  { induction N as [|N IH]; intros a; cbn [seq map Rsum].
    - destruct (Nat.leb_spec a l), (Nat.ltb_spec l (a + 0)); cbn; try lra; lia.
    - rewrite IH. destruct (Nat.eqb_spec a l) as [E|E];
      destruct (Nat.leb_spec (S a) l), (Nat.ltb_spec l (S a + N)), (Nat.leb_spec a l), (Nat.ltb_spec l (a + S N)); cbn; try lra; lia. }
  intros Hl. rewrite G. destruct (Nat.leb_spec 0 l), (Nat.ltb_spec l (0 + k)); cbn; try lra; lia.
Qed.

Lemma nth_repeat_lt {A} (c d : A) k l : (l < k)%nat -> nth l (repeat c k) d = c.
Proof. revert l. induction k as [|k IH]; intros [|l] H; cbn; try lia; auto. apply IH. lia. Qed.

(** Two expansions in the same frames. *)
Lemma expand_expand m n k x y U s d Vt : frames m n k U Vt ->
  expands m n k x U s Vt -> expands m n k y U d Vt ->
  dot x y = Rsum (map (fun l => nth l s 0 * nth l d 0) (seq 0 k)).
Proof.
  intros Fr Ex Ey. rewrite (expand_dot m n k x U s Vt y Fr Ex (proj1 Ey)).
  apply Rsum_ext_seq. intros l Hl. f_equal.
  pose proof Fr as (LU & FU & LV & OU & OV).
  assert (Lo : length (outer (column l U) (nth l Vt [])) = (m * n)%nat).
  { rewrite outer_length, column_length, (ortho_nth_length n Vt l OV) by lia. congruence. }
  rewrite (expand_dot m n k y U d Vt _ Fr Ey Lo).
  transitivity (Rsum (map (fun q => if Nat.eqb q l then nth l d 0 else 0) (seq 0 k))).
  - apply Rsum_ext_seq. intros q Hq.
    rewrite outer_outer.
    2:{ now rewrite !column_length. }
    2:{ rewrite !(ortho_nth_length n Vt _ OV) by lia. reflexivity. }
    pose proof (proj2 OU l q) as E1. rewrite columns_length, !nth_columns in E1 by assumption.
    rewrite (E1 Hl Hq), (proj2 OV l q ltac:(lia) ltac:(lia)). rewrite (Nat.eqb_sym l q).
    destruct (Nat.eqb_spec q l); [subst; ring|ring].
  - apply single_sum. exact Hl.
Qed.
Definition compose (m n k : nat) (U : list (list R)) (s : list R) (Vt : list (list R)) : list R :=
  grid m n (fun i j => Rsum (map (fun l => nth l (nth i U []) 0 * nth l s 0 * nth j (nth l Vt []) 0) (seq 0 k))).
Lemma compose_expands m n k U s Vt : expands m n k (compose m n k U s Vt) U s Vt.
Proof. split; [apply grid_length|]. intros i j Hi Hj. unfold compose. now rewrite nth_grid. Qed.

Lemma expands_eq m n k x U s Vt : expands m n k x U s Vt -> x = compose m n k U s Vt.
Proof.
  intros (L & E). apply (flat_ext m n); [exact L|apply grid_length|].
  intros i j Hi Hj. rewrite (E i j Hi Hj). unfold compose. now rewrite nth_grid.
Qed.

Lemma expands_minus m n k x y U s d Vt : length s = k -> length d = k ->
  expands m n k x U s Vt -> expands m n k y U d Vt ->
  expands m n k (vminus x y) U (vminus s d) Vt.
Proof.
  intros Ls Ld (Lx & Ex) (Ly & Ey). split; [unfold vminus; rewrite lin_length; lia|].
  intros i j Hi Hj. rewrite nth_vminus, Ex, Ey by (auto; congruence).
  rewrite <- Rsum_map_minus. apply Rsum_ext_seq. intros l Hl. rewrite nth_vminus by congruence. ring.
Qed.

(** * The nuclear norm *)
Lemma op_le_mono m n Z c c' : c <= c' -> op_le m n Z c -> op_le m n Z c'.
Proof.
  intros H (L & B). split; [exact L|]. intros a b Ha Hb. eapply Rle_trans; [apply B; assumption|].
  apply Rmult_le_compat_r; [|exact H]. apply Rmult_le_pos; apply norm2_nonneg.
Qed.

Lemma op_le_zeros m n : op_le m n (zeros (m * n)) 0.
Proof. split; [apply zeros_length|]. intros a b Ha Hb. rewrite dot_zeros_l. lra. Qed.

Lemma nuc_nonneg m n Y t : is_nuc m n Y t -> 0 <= t.
Proof.
  intros (U & _). apply U. exists (zeros (m * n)). rewrite dot_zeros_r. split; [|reflexivity].
  apply (op_le_mono _ _ _ 0); [lra|apply op_le_zeros].
Qed.

Lemma nuc_dual m n Y t Z c : is_nuc m n Y t -> 0 <= c -> op_le m n Z c -> dot Y Z <= c * t.
Proof.
  intros HN Hc HZ. pose proof (nuc_nonneg m n Y t HN) as Ht.
  assert (P : forall e, 0 < e -> op_le m n Z e -> dot Y Z <= e * t).
  { intros e He (L & B). destruct HN as (U & _).
    assert (H : dot Y (smul (/ e) Z) <= t).
    { apply U. exists (smul (/ e) Z). split; [|reflexivity]. split; [now rewrite smul_length|].
      intros a b Ha Hb. rewrite dot_smul_l, Rmult_1_l. specialize (B a b Ha Hb).
      apply Rmult_le_reg_l with e; [exact He|]. rewrite <- Rmult_assoc, Rinv_r by lra. lra. }
    rewrite dot_smul_r in H. apply (Rmult_le_compat_l e) in H; [|lra].
    rewrite <- Rmult_assoc, Rinv_r, Rmult_1_l in H by lra. exact H. }
  destruct (Rle_lt_or_eq_dec 0 c Hc) as [Hp|<-]; [auto|].
  rewrite Rmult_0_l. apply Rnot_lt_le. intros Hd.
  destruct (Rle_lt_or_eq_dec 0 t Ht) as [Hp|<-].
  - assert (He : 0 < dot Y Z / (2 * t)) by (apply Rdiv_lt_0_compat; lra).
    specialize (P _ He (op_le_mono _ _ _ 0 _ (Rlt_le _ _ He) HZ)).
    replace (dot Y Z / (2 * t) * t) with (dot Y Z / 2) in P by (field; lra). lra.
  - specialize (P 1 ltac:(lra) (op_le_mono _ _ _ 0 1 ltac:(lra) HZ)). lra.
Qed.

Lemma nuc_unique m n Y t t' : is_nuc m n Y t -> is_nuc m n Y t' -> t = t'.
Proof. intros H H'. exact (is_lub_u _ _ _ H H'). Qed.

(** The nuclear norm of a matrix is the sum of its singular values. *)
Lemma nuc_svd m n k x U s Vt : is_svd m n k x U s Vt -> is_nuc m n x (Rsum s).
Proof.
  intros HS. destruct (svd_frames _ _ _ _ _ _ _ HS) as (Fr & Ex).
  destruct HS as (Lx & LU & FU & Ls & LV & Ps & OU & OV & _).
  assert (Es : Rsum s = Rsum (map (fun l => nth l s 0) (seq 0 k))).
  { rewrite <- Ls. f_equal. clear. apply (list_ext _ _ 0); [now rewrite map_length, seq_length|].
    intros i Hi. now rewrite nth_map_seq. }
  assert (Pn : forall l, 0 <= nth l s 0).
  { intros l. destruct (Nat.lt_ge_cases l (length s)) as [H|H].
    - rewrite Forall_forall in Ps. apply Ps, nth_In, H.
    - rewrite nth_overflow by exact H. lra. }
  split.
  - intros r (Z & (LZ & B) & ->). rewrite (expand_dot m n k x U s Vt Z Fr Ex LZ), Es.
    apply Rsum_le_seq. intros l Hl.
    assert (H1 : dot Z (outer (column l U) (nth l Vt [])) <= 1).
    { eapply Rle_trans; [apply B; [now rewrite column_length|apply ortho_nth_length; [exact OV|lia]]|].
      unfold norm2. pose proof (proj2 OU l l) as E1. rewrite columns_length, !nth_columns in E1 by assumption.
      rewrite (E1 Hl Hl), (proj2 OV l l) by lia. rewrite Nat.eqb_refl, sqrt_1. lra. }
    rewrite <- (Rmult_1_r (nth l s 0)) at 2. apply Rmult_le_compat_l; [apply Pn|exact H1].
  - intros b Hb. apply Hb. exists (compose m n k U (repeat 1 k) Vt).
    pose proof (compose_expands m n k U (repeat 1 k) Vt) as Ey. split.
    + apply (expand_op m n k _ U (repeat 1 k) Vt 1 Fr Ey); [lra|].
      intros l Hl. rewrite nth_repeat_lt by exact Hl. rewrite Rabs_R1. lra.
    + rewrite (expand_expand m n k x _ U s (repeat 1 k) Vt Fr Ex Ey), Es.
      apply Rsum_ext_seq. intros l Hl. rewrite nth_repeat_lt by exact Hl. lra.
Qed.

(** Every matrix has a nuclear norm. *)
Lemma nuc_exists m n Y : length Y = (m * n)%nat -> { t | is_nuc m n Y t }.
Proof.
  intros LY. apply completeness.
  - exists (l1 Y). intros r (Z & (LZ & B) & ->).
    assert (Hz : forall q, (q < m * n)%nat -> Rabs (nth q Z 0) <= 1).
    { intros q Hq. assert (Hn : (n <> 0)%nat) by (intros ->; lia).
      pose proof (Nat.div_mod q n Hn) as E. pose proof (Nat.mod_upper_bound q n Hn) as Bq.
      assert (Hi : (q / n < m)%nat) by (apply Nat.div_lt_upper_bound; [exact Hn|lia]).
      assert (G : forall e, Rabs e = 1 -> e * nth q Z 0 <= 1).
      { intros e He. specialize (B (smul e (unit_vec m (q / n))) (unit_vec n (q mod n))
          ltac:(now rewrite smul_length, unit_vec_length) ltac:(apply unit_vec_length)).
        assert (Nu : forall N i, (i < N)%nat -> norm2 (unit_vec N i) = 1).
        { intros N i HiN. unfold norm2. rewrite <- sqrt_1. f_equal.
          rewrite (dot_seq _ _ N) by apply unit_vec_length.
          transitivity (Rsum (map (fun j => if Nat.eqb j i then 1 else 0) (seq 0 N))).
          - apply Rsum_ext_seq. intros j Hj. rewrite nth_unit_vec by exact Hj. destruct (Nat.eqb j i); ring.
          - apply single_sum. exact HiN. }
        rewrite norm2_smul, He, !Nu in B by assumption.
        rewrite (outer_dot m n) in B; [|exact LZ|now rewrite smul_length, unit_vec_length|apply unit_vec_length].
        eapply Rle_trans; [|eapply Rle_trans; [exact B|lra]]. right.
        transitivity (Rsum (map (fun i => if Nat.eqb i (q / n) then e * nth q Z 0 else 0) (seq 0 m))).
        - symmetry. apply single_sum. exact Hi.
        - apply Rsum_ext_seq. intros i Hi'.
          transitivity (Rsum (map (fun j => if Nat.eqb j (q mod n) then (if Nat.eqb i (q / n) then e * nth q Z 0 else 0) else 0) (seq 0 n))).
          + symmetry. apply single_sum. exact Bq.
          + apply Rsum_ext_seq. intros j Hj. rewrite nth_smul, !nth_unit_vec by assumption.
            destruct (Nat.eqb_spec j (q mod n)); destruct (Nat.eqb_spec i (q / n)); try ring.
            subst i j. replace (q / n * n + q mod n)%nat with q by lia. ring. }
      pose proof (G 1 Rabs_R1). pose proof (G (-1) ltac:(rewrite Rabs_left; lra)).
      apply Rabs_le. lra. }
    rewrite (dot_seq Y Z (m * n) LY LZ), l1_Rsum.
    replace (map Rabs Y) with (map (fun q => Rabs (nth q Y 0)) (seq 0 (m * n))).
    + apply Rsum_le_seq. intros q Hq. eapply Rle_trans; [apply Rle_abs|]. rewrite Rabs_mult.
      rewrite <- (Rmult_1_r (Rabs (nth q Y 0))) at 2. apply Rmult_le_compat_l; [apply Rabs_pos|auto].
    + apply (list_ext _ _ (Rabs 0)); [now rewrite !map_length, seq_length|].
      intros q Hq. rewrite map_length, seq_length in Hq. rewrite map_nth, nth_map_seq by exact Hq. reflexivity.
  - exists 0. exists (zeros (m * n)). rewrite dot_zeros_r. split; [|reflexivity].
    apply (op_le_mono _ _ _ 0); [lra|apply op_le_zeros].
Qed.
