(** * Facts about the helpers of copt/utils.py *)
From Coq Require Import ZArith QArith Reals List Bool Lra Lia Permutation.
From Verif Require Import Num Vec Spec SpecSparse RVec ModelUtils ModelUtilsArr.
Import ListNotations.
Open Scope R_scope.

Lemma forM_app {A S} (l1 l2 : list A) (body : A -> S -> result S) s :
  forM (l1 ++ l2) body s = (s' <- forM l1 body s ;; forM l2 body s').
Proof. revert s; induction l1 as [|a l1 IH]; intros s; simpl; auto. destruct (body a s); simpl; auto. Qed.
Lemma forM_inv {A S} (P : S -> Prop) (l : list A) (body : A -> S -> result S) :
  (forall a s, In a l -> P s -> exists s', body a s = Ok s' /\ P s') ->
  forall s, P s -> exists s', forM l body s = Ok s' /\ P s'.
Proof.
  induction l as [|a l IH]; intros H s Hs; simpl; [eauto|].
  destruct (H a s (or_introl eq_refl) Hs) as (s1 & E & H1). rewrite E. simpl.
  apply IH; auto. intros; apply H; simpl; auto.
Qed.

Lemma upd_upd {A} (l : list A) i a b : upd (upd l i a) i b = upd l i b.
Proof. revert i; induction l as [|h l IH]; intros [|i]; simpl; auto. rewrite IH. reflexivity. Qed.
Lemma firstn_S_upd {A} s (res : list A) v : (s < length res)%nat ->
  firstn (S s) (upd res s v) = firstn s res ++ [v].
Proof.
  revert s; induction res as [|h t IH]; intros [|s] H; simpl in *; try lia; auto.
  f_equal. apply IH; lia.
Qed.

(** ** build_func_grad *)
Lemma main_C27_jac_partial : forall (K : Num) (fn : vec K -> pyret K),
  (forall jac, exists fg, build_func_grad (JCallable jac) fn = Ok fg /\
     forall x, fg x = Ok (Some (fn x, jac x))) /\
  (exists fg, build_func_grad JTrue fn = Ok fg /\
     forall x f g, fn x = RetPair f g -> fg x = Ok (Some (RetScalar f, g))).
Proof.
  intros K fn. split.
  - intros jac. eexists; split; reflexivity.
  - eexists; split; [reflexivity|]. intros x f g E. simpl. unfold memoize_jac. rewrite E. reflexivity.
Qed.
(** with a scalar objective the finite-difference mode fails: an exception for jac=False/None,
    and a TypeError at every evaluation for jac="2-point" (any non-empty string) *)
Lemma main_C27_finite_difference_refuted : forall (K : Num) (fn : vec K -> pyret K),
  (forall x, exists f, fn x = RetScalar f) ->
  build_func_grad JFalse fn = Err NotImplementedError /\
  build_func_grad JNone fn = Err NotImplementedError /\
  (exists fg, build_func_grad (JStr str_2point) fn = Ok fg /\ forall x, fg x = Err TypeError).
Proof.
  intros K fn H. repeat split; auto. eexists; split; [reflexivity|].
  intros x. destruct (H x) as [f E]. simpl. unfold memoize_jac. rewrite E. reflexivity.
Qed.

(** ** parse_step_size *)
Lemma main_C76_parse_step_partial :
  (forall a b, parse_step_size (PTuple [a; b]) = Ok (PPair a b)) /\
  parse_step_size PFloat = Ok PFixed /\
  parse_step_size PCallable = Ok (POne PCallable) /\
  (forall s, parse_step_size (PStr s) = Ok (POne (PStr s)) <-> s = str_adaptive) /\
  (forall s, length s <> 2%nat -> s <> str_adaptive -> parse_step_size (PStr s) = Err ValueError) /\
  (forall l, length l <> 2%nat -> parse_step_size (PTuple l) = Err ValueError) /\
  parse_step_size POther = Err ValueError.
Proof.
  repeat split; auto.
  - intros H. unfold parse_step_size in H. destruct s as [|a [|b [|c s]]];
      try (destruct (list_eq_dec _ _ _) as [E|E]; [exact E|discriminate H]). discriminate H.
  - intros ->. reflexivity.
  - intros s H E. unfold parse_step_size. destruct s as [|a [|b [|c s]]]; try (simpl in H; lia);
      (destruct (list_eq_dec _ _ _) as [E'|E']; [contradiction|reflexivity]).
  - intros l H. unfold parse_step_size. destruct l as [|a [|b [|c l]]]; auto. simpl in H; lia.
Qed.
Lemma main_C76_parse_step_refuted :
  (* an int is not a float: step_size=1 is rejected *)
  parse_step_size PInt = Err ValueError /\
  (* any two-letter string, e.g. "DR", is taken apart *)
  (forall a b, parse_step_size (PStr [a; b]) = Ok (PPair (PStr [a]) (PStr [b]))).
Proof. split; auto. Qed.

(** ** safe_sparse_add *)
Lemma main_C28_sparse_add_partial : forall (K : Num) (n : nat) (u : nat -> K) (w : nat -> nat -> K), (1 <= n)%nat ->
  (* dense 1-D + sparse column or row *)
  (exists h, safe_sparse_add (Dense (A1 n u)) (Sparse n 1 w) = Ok (Dense (A1 n h)) /\
     forall i, (i < n)%nat -> h i = nadd K (u i) (w i 0%nat)) /\
  (exists h, safe_sparse_add (Dense (A1 n u)) (Sparse 1 n w) = Ok (Dense (A1 n h)) /\
     forall i, (i < n)%nat -> h i = nadd K (u i) (w 0%nat i)) /\
  (* sparse row + dense 1-D: a 1 x n result with the same entries *)
  (exists h, safe_sparse_add (Sparse 1 n w) (Dense (A1 n u)) = Ok (Dense (A2 1 n h)) /\
     forall i, (i < n)%nat -> h 0%nat i = nadd K (w 0%nat i) (u i)) /\
  (* both sparse, same shape: sparse result *)
  (forall m w', exists h, safe_sparse_add (Sparse m n w) (Sparse m n w') = Ok (Sparse m n h) /\
     forall i j, h i j = nadd K (w i j) (w' i j)) /\
  (* both dense 1-D *)
  (forall u', exists h, safe_sparse_add (Dense (A1 n u)) (Dense (A1 n u')) = Ok (Dense (A1 n h)) /\
     forall i, (i < n)%nat -> h i = nadd K (u i) (u' i)).
Proof.
  intros K n u w Hn.
  assert (Hbi : forall i, (i < n)%nat -> bi n i = i).
  { intros i Hi. unfold bi. destruct (Nat.eqb_spec n 1); lia. }
  assert (E1 : (n * 1 = n)%nat) by lia. assert (E2 : (1 * n = n)%nat) by lia.
  repeat split.
  - eexists; split.
    + unfold safe_sparse_add, toarray, np_add, ravel, ndim, bc; cbn [Nat.eqb andb].
      rewrite E1, Nat.eqb_refl. cbn [bind]. reflexivity.
    + intros i Hi. cbn beta. rewrite !Hbi by auto. rewrite Nat.div_1_r, Nat.mod_1_r. reflexivity.
  - eexists; split.
    + unfold safe_sparse_add, toarray, np_add, ravel, ndim, bc; cbn [Nat.eqb andb].
      rewrite E2, Nat.eqb_refl. cbn [bind]. reflexivity.
    + intros i Hi. cbn beta. rewrite !Hbi by auto. rewrite Nat.div_small, Nat.mod_small by auto. reflexivity.
  - eexists; split.
    + unfold safe_sparse_add, toarray, np_add, ravel, ndim, bc; cbn [Nat.eqb andb].
      rewrite Nat.eqb_refl. cbn [bind]. reflexivity.
    + intros i Hi. cbn beta. rewrite !Hbi by auto. reflexivity.
  - intros m w'. unfold safe_sparse_add. rewrite !Nat.eqb_refl. eexists; split; reflexivity.
  - intros u'. eexists; split.
    + unfold safe_sparse_add, np_add, bc. rewrite Nat.eqb_refl. cbn [bind]. reflexivity.
    + intros i Hi. cbn beta. rewrite !Hbi by auto. reflexivity.
Qed.
(** sparse column + dense 1-D: the n entries become an n x n outer sum, for every n >= 2 *)
Lemma main_C28_sparse_add_refuted : forall (K : Num) (n : nat) (u : nat -> K) (w : nat -> nat -> K), (2 <= n)%nat ->
  exists h, safe_sparse_add (Sparse n 1 w) (Dense (A1 n u)) = Ok (Dense (A2 n n h)) /\
    forall i j, (i < n)%nat -> (j < n)%nat -> h i j = nadd K (w i 0%nat) (u j).
Proof.
  intros K n u w Hn.
  assert (Hbi : forall i, bi n i = i). { intros i. unfold bi. destruct (Nat.eqb_spec n 1); lia. }
  unfold safe_sparse_add, toarray, np_add, ndim, bc. cbn [Nat.eqb andb].
  destruct n as [|[|n]]; try lia. cbn [Nat.eqb bind]. eexists; split; [reflexivity|].
  intros i j _ _. cbn beta. rewrite Hbi. reflexivity.
Qed.

(** ** sample_batches *)
Lemma exec_writes : forall (sched : list (nat * nat)) (idx : list nat),
  NoDup (map fst sched) -> Forall (fun w => (fst w < length idx)%nat) sched ->
  exists idx', forM sched (fun w idx => set idx (fst w) (snd w)) idx = Ok idx' /\ length idx' = length idx /\
    (forall p v, In (p, v) sched -> nth p idx' 0%nat = v) /\
    (forall p, ~ In p (map fst sched) -> nth p idx' 0%nat = nth p idx 0%nat).
Proof.
  induction sched as [|[p v] sched IH]; intros idx Hnd Hf; simpl.
  - exists idx. repeat split; auto; intros; contradiction.
  - inversion Hnd as [|? ? Hni Hnd']; subst. inversion Hf as [|? ? Hp Hf']; subst. simpl in Hp.
    rewrite set_ok by auto. simpl.
    destruct (IH (upd idx p v)) as (idx' & E & L & A & B); auto.
    { eapply Forall_impl; [|exact Hf']. intros a Ha. rewrite upd_length. exact Ha. }
    exists idx'. rewrite upd_length in L. repeat split; auto.
    + intros p' v' [E'|Hin]; [|apply A; auto]. injection E' as <- <-.
      rewrite B by auto. apply nth_upd_eq; auto.
    + intros p' Hp'. rewrite B by tauto. apply nth_upd_neq. tauto.
Qed.
Lemma all_writes_keys nb b draw : map fst (all_writes nb b draw) = seq 0 (nb * b).
Proof.
  unfold all_writes.
  assert (G : forall m s, map fst (flat_map (batch_writes b draw) (seq s m)) = seq (s * b) (m * b)).
  { induction m as [|m IH]; intros s; simpl; auto.
    rewrite map_app, IH. rewrite seq_app. f_equal.
    - unfold batch_writes. rewrite map_map. simpl.
      generalize (s * b)%nat as z. intros z. clear. revert z. 
      assert (forall k b z, map (fun j => (z + j)%nat) (seq k b) = seq (z + k) b).
      { intros k b0; revert k. induction b0; intros; simpl; auto. rewrite IHb0. f_equal. f_equal. lia. }
      intros z. rewrite H. f_equal. lia.
    - f_equal. simpl. lia. }
  rewrite G. reflexivity.
Qed.
Lemma all_writes_len nb b draw : length (all_writes nb b draw) = (nb * b)%nat.
Proof. rewrite <- (map_length fst), all_writes_keys. apply seq_length. Qed.
Lemma flat_map_len {A} (f : nat -> list A) b m : forall s, (forall k, (s <= k < s + m)%nat -> length (f k) = b) ->
  length (flat_map f (seq s m)) = (m * b)%nat.
Proof.
  induction m as [|m IH]; intros s H; simpl; auto. rewrite app_length, IH, H; try lia. intros; apply H; lia.
Qed.
Lemma flat_map_nth {A} (f : nat -> list A) b d : forall m s, (forall k, (s <= k < s + m)%nat -> length (f k) = b) ->
  forall k j, (k < m)%nat -> (j < b)%nat -> nth (k * b + j) (flat_map f (seq s m)) d = nth j (f (s + k)%nat) d.
Proof.
  induction m as [|m IH]; intros s H k j Hk Hj; [lia|]. simpl.
  destruct k as [|k].
  - rewrite app_nth1 by (rewrite H; lia). rewrite Nat.add_0_r. reflexivity.
  - rewrite app_nth2 by (rewrite H; lia). rewrite H by lia.
    replace (S k * b + j - b)%nat with (k * b + j)%nat by lia.
    rewrite IH; try lia; [|intros; apply H; lia]. f_equal. f_equal. lia.
Qed.
Lemma main_C29_sample_batches : forall (n_samples n_batches batch_size : nat) (draw : nat -> list nat) (sched : list (nat * nat)),
  (* every draw is np.random.choice(n_samples, size=batch_size, replace=False) *)
  (forall k, (k < n_batches)%nat -> length (draw k) = batch_size /\ NoDup (draw k) /\ Forall (fun i => (i < n_samples)%nat) (draw k)) ->
  (* any order of the element writes of all loop iterations *)
  Permutation sched (all_writes n_batches batch_size draw) ->
  exists idx, sample_batches n_batches batch_size sched = Ok idx /\
    idx = flat_map draw (seq 0 n_batches) /\
    (forall k, (k < n_batches)%nat ->
       let batch := firstn batch_size (skipn (k * batch_size) idx) in
       batch = draw k /\ NoDup batch /\ Forall (fun i => (i < n_samples)%nat) batch /\ length batch = batch_size).
Proof.
  intros ns nb b draw sched Hd Hp.
  assert (Hl : forall k, (0 <= k < 0 + nb)%nat -> length (draw k) = b) by (intros; apply Hd; lia).
  destruct (exec_writes sched (repeat 0%nat (nb * b))) as (idx & E & L & A & _).
  { eapply Permutation_NoDup; [apply Permutation_sym, (Permutation_map fst), Hp|].
    rewrite all_writes_keys. apply seq_NoDup. }
  { eapply (Permutation_Forall (Permutation_sym Hp)). rewrite repeat_length. apply Forall_forall. intros w Hw.
    apply (in_map fst) in Hw. rewrite all_writes_keys in Hw. apply in_seq in Hw. lia. }
  rewrite repeat_length in L.
  assert (Eidx : idx = flat_map draw (seq 0 nb)).
  { apply (nth_ext _ _ 0%nat 0%nat); [rewrite L; symmetry; apply flat_map_len; auto|].
    intros p Hp'. rewrite L in Hp'.
    assert (Hb : b <> 0%nat) by (intros ->; lia).
    set (k := (p / b)%nat). set (j := (p mod b)%nat).
    assert (Ep : p = (k * b + j)%nat). { unfold k, j. rewrite (Nat.div_mod p b) at 1 by auto. lia. }
    assert (Hj : (j < b)%nat) by (apply Nat.mod_upper_bound; auto).
    assert (Hk : (k < nb)%nat). { apply Nat.div_lt_upper_bound; auto. lia. }
    rewrite Ep. rewrite (flat_map_nth draw b 0%nat nb 0%nat Hl k j Hk Hj).
    apply A. eapply Permutation_in; [apply Permutation_sym, Hp|].
    unfold all_writes. apply in_flat_map. exists k. split; [apply in_seq; lia|].
    unfold batch_writes. apply in_map_iff. exists j. split; [reflexivity|apply in_seq; lia]. }
  exists idx. split; [exact E|]. split; [exact Eidx|].
  intros k Hk batch.
  assert (Eb : batch = draw k).
  { apply (nth_ext _ _ 0%nat 0%nat).
    - unfold batch. rewrite firstn_length, skipn_length, L, Hl by lia. nia.
    - intros j Hj. unfold batch in Hj. rewrite firstn_length, skipn_length, L in Hj.
      unfold batch.
      assert (Hj' : (j < b)%nat) by lia.
      pose proof (flat_map_nth draw b 0%nat nb 0%nat Hl k j Hk Hj') as Q. simpl in Q. rewrite <- Q, <- Eidx.
      rewrite <- (firstn_skipn (k * b) idx) at 2.
      rewrite app_nth2 by (rewrite firstn_length; lia).
      rewrite firstn_length, L. replace (k * b + j - Init.Nat.min (k * b) (nb * b))%nat with j by nia.
      rewrite <- (firstn_skipn b (skipn (k * b) idx)) at 2.
      rewrite app_nth1; [reflexivity|]. rewrite firstn_length, skipn_length, L. lia. }
  rewrite Eb. destruct (Hd k Hk) as (H1 & H2 & H3). auto.
Qed.

(** ** fast_csr_mv, fast_csr_vm *)
Section CsrGen.
Context {K : Num}.
Local Open Scope num_scope.
Variable data : vec K.
Variable indptr indices : list nat.

Definition row_js (r : nat) : list nat := range (nth r indptr 0%nat) (nth (S r) indptr 0%nat).
Lemma row_js_bound d r j : csr_row_wf (length data) indptr indices d r -> In j (row_js r) ->
  (j < length indices)%nat /\ (j < length data)%nat /\ (nth j indices 0 < d)%nat.
Proof.
  intros (H1 & H2 & H3 & H4) Hj. unfold row_js in *.
  pose proof Hj as Hj'. unfold range in Hj'. apply in_seq in Hj'.
  rewrite Forall_forall in H4. split; [lia|]. split; [lia|].
  apply H4. unfold csr_row. apply in_map_iff. exists j. auto.
Qed.
(** what one row contributes to the matrix-vector product, in the order of the loop *)
Definition row_acc (x : vec K) (js : list nat) (a : K) : K :=
  fold_left (fun a j => a + nth (nth j indices 0%nat) x n0 * nth j data n0) js a.
Lemma inner_mv (x : vec K) i : forall js res, (i < length res)%nat ->
  (forall j, In j js -> (j < length indices)%nat /\ (j < length data)%nat /\ (nth j indices 0 < length x)%nat) ->
  forM js (fun j res => j_idx <- get indices j ;; xj <- get x j_idx ;; dj <- get data j ;;
      r <- get res i ;; set res i (r + xj * dj)) res
  = Ok (upd res i (row_acc x js (nth i res n0))).
Proof.
  induction js as [|j js IH]; intros res Hi Hj; cbn [forM row_acc fold_left].
  - rewrite upd_id by auto. reflexivity.
  - destruct (Hj j (or_introl eq_refl)) as (A & B & C).
    rewrite (get_ok _ _ 0%nat A). cbn [bind]. rewrite (get_ok _ _ n0 C). cbn [bind].
    rewrite (get_ok _ _ n0 B). cbn [bind]. rewrite (get_ok _ _ n0 Hi). cbn [bind].
    rewrite set_ok by auto. cbn [bind].
    rewrite IH; [|rewrite upd_length; auto|intros; apply Hj; simpl; auto].
    rewrite nth_upd_eq by auto. rewrite upd_upd. reflexivity.
Qed.
(** the outer loop *)
Definition mv_body (x : vec K) (ir : nat * nat) (res : vec K) : result (vec K) :=
  let '(i, row_idx) := ir in
  lo <- get indptr row_idx ;; hi <- get indptr (S row_idx) ;;
  forM (range lo hi) (fun j res => j_idx <- get indices j ;; xj <- get x j_idx ;; dj <- get data j ;;
      r <- get res i ;; set res i (r + xj * dj)) res.
Lemma outer_mv (x : vec K) : forall idx s res, length res = (s + length idx)%nat ->
  (forall k, (s <= k)%nat -> nth k res n0 = n0) ->
  Forall (csr_row_wf (length data) indptr indices (length x)) idx ->
  forM (combine (seq s (length idx)) idx) (mv_body x) res
  = Ok (firstn s res ++ map (fun r => row_acc x (row_js r) n0) idx).
Proof.
  induction idx as [|r idx IH]; intros s res Hl Hz Hw; cbn [length seq combine forM map].
  - simpl in Hl. rewrite firstn_all2 by lia. rewrite app_nil_r. reflexivity.
  - pose proof (Forall_inv Hw) as Hr. pose proof (Forall_inv_tail Hw) as Hw'.
    cbn [length] in Hl. unfold mv_body at 1.
    destruct (Hr) as (B1 & B2 & B3 & _).
    rewrite (get_ok indptr r 0%nat) by lia. cbn [bind]. rewrite (get_ok indptr (S r) 0%nat) by lia. cbn [bind].
    change (range (nth r indptr 0%nat) (nth (S r) indptr 0%nat)) with (row_js r).
    rewrite inner_mv; [|lia|intros j Hj; apply (row_js_bound (length x) r j Hr Hj)].
    cbn [bind]. rewrite Hz by lia.
    rewrite IH; auto.
    + f_equal. rewrite (firstn_S_upd s res) by lia. rewrite <- app_assoc. reflexivity.
    + rewrite upd_length. lia.
    + intros k Hk. rewrite nth_upd_neq by lia. apply Hz; lia.
Qed.
Lemma fast_csr_mv_value (x : vec K) idx :
  Forall (csr_row_wf (length data) indptr indices (length x)) idx ->
  fast_csr_mv data indptr indices x idx = Ok (map (fun r => row_acc x (row_js r) n0) idx).
Proof.
  intros Hw. unfold fast_csr_mv, enumerate. 
  eapply eq_trans; [apply (outer_mv x idx 0 (vzeros (length idx)))|]; auto.
  - unfold vzeros. rewrite repeat_length. reflexivity.
  - intros k _. unfold vzeros. apply nth_repeat.
Qed.

(** vector-matrix product: index safety, and what each entry accumulates *)
Definition vm_body (x : vec K) (ki : nat * nat) (res : vec K) : result (vec K) :=
  let '(k, i) := ki in
  lo <- get indptr i ;; hi <- get indptr (S i) ;;
  forM (range lo hi) (fun j res => j_idx <- get indices j ;; xk <- get x k ;; dj <- get data j ;;
      r <- get res j_idx ;; set res j_idx (r + xk * dj)) res.
Definition col_acc (xk : K) (c : nat) (js : list nat) (a : K) : K :=
  fold_left (fun a j => if Nat.eqb (nth j indices 0%nat) c then a + xk * nth j data n0 else a) js a.
Lemma inner_vm (x : vec K) k d : forall js res, length res = d -> (k < length x)%nat ->
  (forall j, In j js -> (j < length indices)%nat /\ (j < length data)%nat /\ (nth j indices 0 < d)%nat) ->
  exists res', forM js (fun j res => j_idx <- get indices j ;; xk <- get x k ;; dj <- get data j ;;
      r <- get res j_idx ;; set res j_idx (r + xk * dj)) res = Ok res' /\ length res' = d /\
    forall c, (c < d)%nat -> nth c res' n0 = col_acc (nth k x n0) c js (nth c res n0).
Proof.
  induction js as [|j js IH]; intros res Hl Hk Hj; cbn [forM col_acc fold_left].
  - exists res. auto.
  - destruct (Hj j (or_introl eq_refl)) as (A & B & C).
    rewrite (get_ok _ _ 0%nat A). cbn [bind]. rewrite (get_ok _ _ n0 Hk). cbn [bind].
    rewrite (get_ok _ _ n0 B). cbn [bind]. rewrite (get_ok res _ n0) by lia. cbn [bind].
    rewrite set_ok by lia. cbn [bind].
    destruct (IH (upd res (nth j indices 0%nat) (nth (nth j indices 0%nat) res n0 + nth k x n0 * nth j data n0)))
      as (res' & E & L & P); auto.
    { rewrite upd_length; auto. } { intros; apply Hj; simpl; auto. }
    rewrite (get_ok _ _ n0 Hk) in E. cbn [bind] in E.
    exists res'. split; [exact E|]. split; [exact L|]. intros c Hc. rewrite P by auto.
    rewrite nth_upd. destruct (Nat.eqb_spec (nth j indices 0%nat) c) as [->|Hne]; [|reflexivity].
    destruct (Nat.ltb_spec c (length res)); [reflexivity|lia].
Qed.
Definition vm_acc (x : vec K) (c : nat) (l : list (nat * nat)) (a : K) : K :=
  fold_left (fun a ki => col_acc (nth (fst ki) x n0) c (row_js (snd ki)) a) l a.
Lemma outer_vm (x : vec K) d : forall l res, length res = d ->
  Forall (fun ki => (fst ki < length x)%nat /\ csr_row_wf (length data) indptr indices d (snd ki)) l ->
  exists res', forM l (vm_body x) res = Ok res' /\ length res' = d /\
    forall c, (c < d)%nat -> nth c res' n0 = vm_acc x c l (nth c res n0).
Proof.
  induction l as [|[k r] l IH]; intros res Hl Hw; cbn [forM vm_acc fold_left].
  - exists res; auto.
  - destruct (Forall_inv Hw) as [Hk Hr]. pose proof (Forall_inv_tail Hw) as Hw'. cbn [fst snd] in *.
    unfold vm_body at 1. destruct (Hr) as (B1 & B2 & B3 & _).
    rewrite (get_ok indptr r 0%nat) by lia. cbn [bind]. rewrite (get_ok indptr (S r) 0%nat) by lia. cbn [bind].
    change (range (nth r indptr 0%nat) (nth (S r) indptr 0%nat)) with (row_js r).
    destruct (inner_vm x k d (row_js r) res Hl Hk) as (res1 & E & L & P).
    { intros j Hj; apply (row_js_bound d r j Hr Hj). }
    rewrite E. cbn [bind]. destruct (IH res1 L Hw') as (res' & E' & L' & P').
    exists res'. split; [exact E'|]. split; [exact L'|]. intros c Hc. rewrite P', P by auto. reflexivity.
Qed.
Lemma enumerate_fst {A} (l : list A) ki : In ki (enumerate l) -> (fst ki < length l)%nat /\ In (snd ki) l.
Proof.
  unfold enumerate. destruct ki as [k i]. intros H. pose proof (in_combine_l _ _ _ _ H) as H1.
  apply in_seq in H1. split; [simpl; lia|]. apply (in_combine_r _ _ _ _ H).
Qed.
Lemma fast_csr_vm_value (x : vec K) d idx : length x = length idx ->
  Forall (csr_row_wf (length data) indptr indices d) idx ->
  exists res, fast_csr_vm x data indptr indices d idx = Ok res /\ length res = d /\
    forall c, (c < d)%nat -> nth c res n0 = vm_acc x c (enumerate idx) n0.
Proof.
  intros Hx Hw. unfold fast_csr_vm. rewrite Hx, Nat.eqb_refl. cbn [negb].
  destruct (outer_vm x d (enumerate idx) (vzeros d)) as (res & E & L & P).
  - apply repeat_length.
  - apply Forall_forall. intros ki Hki. destruct (enumerate_fst _ _ Hki) as [A B]. rewrite Forall_forall in Hw.
    split; [lia|]. apply Hw; auto.
  - exists res. split; [exact E|]. split; [exact L|]. intros c Hc. rewrite P by auto.
    unfold vzeros. rewrite nth_repeat. reflexivity.
Qed.
End CsrGen.

(** over the reals: the dense products *)
Lemma sum_indicator (f : nat -> R) c : forall d s, (s <= c < s + d)%nat ->
  Rsum (map (fun k => if Nat.eqb c k then f k else 0) (seq s d)) = f c.
Proof.
  induction d as [|d IH]; intros s H; [lia|]. simpl.
  destruct (Nat.eqb_spec c s) as [->|Hne].
  - assert (Z : Rsum (map (fun k => if Nat.eqb s k then f k else 0) (seq (S s) d)) = 0); [|lra].
    clear. assert (G : forall m, (s < m)%nat -> Rsum (map (fun k => if Nat.eqb s k then f k else 0) (seq m d)) = 0).
    { induction d as [|d IH]; intros m Hm; simpl; auto. destruct (Nat.eqb_spec s m); [lia|]. rewrite IH by lia. ring. }
    apply G; lia.
  - rewrite IH by lia. lra.
Qed.
Lemma Rsum_map_plus {A} (f g : A -> R) l : Rsum (map (fun a => f a + g a) l) = Rsum (map f l) + Rsum (map g l).
Proof. induction l; simpl; [lra|]. rewrite IHl. lra. Qed.
Lemma Rsum_map_mult {A} (f : A -> R) c l : Rsum (map (fun a => c * f a) l) = c * Rsum (map f l).
Proof. induction l; simpl; [lra|]. rewrite IHl. lra. Qed.
Lemma fold_Rsum l : fold_right Rplus 0 l = Rsum l.
Proof. induction l; simpl; auto. Qed.
Lemma csr_entry_R data indptr indices i c : csr_entry data indptr indices i c =
  Rsum (map (fun j => if Nat.eqb (nth j indices 0%nat) c then nth j data 0 else 0)
         (range (nth i indptr 0%nat) (nth (S i) indptr 0%nat))).
Proof. unfold csr_entry. apply fold_Rsum. Qed.
Lemma row_acc_R (data : list R) indices (x : list R) js : forall a : R,
  row_acc (K:=RN) data indices x js a = a + Rsum (map (fun j => nth (nth j indices 0%nat) x 0 * nth j data 0) js).
Proof.
  induction js as [|j js IH]; intros a; unfold row_acc in *; simpl; [lra|]. rn. rewrite IH. lra.
Qed.
Lemma entry_dot data indices (x : list R) : forall js,
  (forall j, In j js -> (nth j indices 0 < length x)%nat) ->
  Rsum (map (fun c => Rsum (map (fun j => if Nat.eqb (nth j indices 0%nat) c then nth j data 0 else 0) js) * nth c x 0) (seq 0 (length x)))
  = Rsum (map (fun j => nth (nth j indices 0%nat) x 0 * nth j data 0) js).
Proof.
  induction js as [|j js IH]; intros H; simpl.
  - induction (seq 0 (length x)); simpl; [auto|]. rewrite IHl. ring.
  - rewrite <- IH by (intros; apply H; simpl; auto).
    rewrite <- (sum_indicator (fun c => nth c x 0 * nth j data 0) (nth j indices 0%nat) (length x) 0)
      by (split; [lia|]; simpl; apply H; simpl; auto).
    rewrite <- Rsum_map_plus. f_equal. apply map_ext. intros c.
    destruct (Nat.eqb (nth j indices 0%nat) c); ring.
Qed.
Lemma col_acc_R (data : list R) indices (xk : R) c js : forall a : R,
  col_acc (K:=RN) data indices xk c js a
  = a + xk * Rsum (map (fun j => if Nat.eqb (nth j indices 0%nat) c then nth j data 0 else 0) js).
Proof.
  induction js as [|j js IH]; intros a; unfold col_acc in *; simpl; [lra|]. rn. rewrite IH.
  destruct (Nat.eqb (nth j indices 0%nat) c); simpl; lra.
Qed.
Lemma vm_acc_R (data : list R) indptr indices (x : list R) c l : forall a : R,
  vm_acc (K:=RN) data indptr indices x c l a
  = a + Rsum (map (fun ki => nth (fst ki) x 0 * csr_entry data indptr indices (snd ki) c) l).
Proof.
  induction l as [|[k r] l IH]; intros a; unfold vm_acc in *; simpl; [lra|]. rn. rewrite IH, col_acc_R.
  rewrite (csr_entry_R data indptr indices r c). unfold row_js. simpl. lra.
Qed.
Lemma map_enumerate {A B} (f : nat -> A -> B) (l : list A) d :
  map (fun ki => f (fst ki) (snd ki)) (enumerate l) = map (fun k => f k (nth k l d)) (seq 0 (length l)).
Proof.
  unfold enumerate.
  assert (G : forall l s, map (fun ki => f (fst ki) (snd ki)) (combine (seq s (length l)) l)
     = map (fun k => f k (nth (k - s) l d)) (seq s (length l))).
  { clear. induction l as [|a l IH]; intros s; simpl; auto. rewrite Nat.sub_diag. f_equal.
    rewrite IH. apply map_ext_in. intros k Hk. apply in_seq in Hk.
    replace (k - s)%nat with (S (k - S s)) by lia. reflexivity. }
  rewrite G. apply map_ext. intros k. rewrite Nat.sub_0_r. reflexivity.
Qed.

Lemma main_C30_in_bounds : forall (K : Num) (data : vec K) (indptr indices : list nat) (d : nat) (idx : list nat) (x w : vec K),
  Forall (csr_row_wf (length data) indptr indices d) idx -> length x = d -> length w = length idx ->
  (exists r, fast_csr_mv data indptr indices x idx = Ok r /\ length r = length idx) /\
  (exists r, fast_csr_vm w data indptr indices d idx = Ok r /\ length r = d).
Proof.
  intros K data indptr indices d idx x w Hw Hx Hl. split.
  - rewrite <- Hx in Hw. rewrite (fast_csr_mv_value data indptr indices x idx Hw).
    eexists; split; [reflexivity|]. apply map_length.
  - destruct (fast_csr_vm_value data indptr indices w d idx Hl Hw) as (r & A & B & _). eauto.
Qed.
Lemma main_C30_matvec : forall (data : list R) (indptr indices : list nat) (x : list R) (idx : list nat),
  Forall (csr_row_wf (length data) indptr indices (length x)) idx ->
  exists r, fast_csr_mv (K:=RN) data indptr indices x idx = Ok r /\ length r = length idx /\
    forall k, (k < length idx)%nat ->
      nth k r 0 = Rsum (map (fun c => csr_entry data indptr indices (nth k idx 0%nat) c * nth c x 0) (seq 0 (length x))).
Proof.
  intros data indptr indices x idx Hw.
  eexists. split; [exact (fast_csr_mv_value (K:=RN) data indptr indices x idx Hw)|].
  split; [apply map_length|]. intros k Hk. rn.
  rewrite (nth_indep _ _ (row_acc (K:=RN) data indices x (row_js indptr 0%nat) 0)) by (rewrite map_length; auto).
  rewrite (map_nth (fun r => row_acc (K:=RN) data indices x (row_js indptr r) 0)).
  set (r := nth k idx 0%nat).
  assert (Hr : csr_row_wf (length data) indptr indices (length x) r).
  { rewrite Forall_forall in Hw. apply Hw. apply nth_In; auto. }
  rewrite row_acc_R, Rplus_0_l.
  rewrite <- (entry_dot data indices x (row_js indptr r)).
  - f_equal.
  - intros j Hj. apply (row_js_bound (K:=RN) data indptr indices _ _ _ Hr Hj).
Qed.
Lemma main_C30_vecmat : forall (data : list R) (indptr indices : list nat) (w : list R) (d : nat) (idx : list nat),
  length w = length idx -> Forall (csr_row_wf (length data) indptr indices d) idx ->
  exists r, fast_csr_vm (K:=RN) w data indptr indices d idx = Ok r /\ length r = d /\
    forall c, (c < d)%nat ->
      nth c r 0 = Rsum (map (fun k => nth k w 0 * csr_entry data indptr indices (nth k idx 0%nat) c) (seq 0 (length idx))).
Proof.
  intros data indptr indices w d idx Hl Hw.
  destruct (fast_csr_vm_value (K:=RN) data indptr indices w d idx Hl Hw) as (r & A & B & C).
  exists r. split; [exact A|]. split; [exact B|]. intros c Hc. eapply eq_trans; [apply C; auto|].
  rewrite vm_acc_R. rn. rewrite Rplus_0_l.
  f_equal. apply (map_enumerate (fun k r => nth k w 0 * csr_entry data indptr indices r c)).
Qed.

(** ** Trace *)
Section TraceFacts.
Context {K : Num} {V : Type}.
Definition is_call (o : op K) : bool := match o with OpCall _ _ _ => true | _ => false end.
Definition ncalls (ops : list (op K)) : nat := length (filter is_call ops).
Definition ceil_div (a b : nat) : nat := ((a + (b - 1)) / b)%nat.
Lemma ceil_div_S a b : (1 <= b)%nat -> ceil_div (S a) b = (ceil_div a b + if Nat.eqb (a mod b) 0 then 1 else 0)%nat.
Proof.
  intros Hb. unfold ceil_div.
  pose proof (Nat.div_mod a b ltac:(lia)) as E. pose proof (Nat.mod_upper_bound a b ltac:(lia)) as Hm.
  set (q := (a / b)%nat) in *. set (m := (a mod b)%nat) in *.
  destruct (Nat.eqb_spec m 0) as [H0|H0].
  - replace ((S a + (b - 1)) / b)%nat with (q + 1)%nat by (apply (Nat.div_unique _ _ _ 0); lia).
    replace ((a + (b - 1)) / b)%nat with q by (apply (Nat.div_unique _ _ _ (b - 1)); lia). lia.
  - replace ((S a + (b - 1)) / b)%nat with (q + 1)%nat by (apply (Nat.div_unique _ _ _ m); lia).
    replace ((a + (b - 1)) / b)%nat with (q + 1)%nat by (apply (Nat.div_unique _ _ _ (m - 1)); lia). lia.
Qed.
Lemma ceil_div_mult k b : (1 <= b)%nat -> ceil_div (k * b) b = k.
Proof. intros Hb. unfold ceil_div. symmetry. apply (Nat.div_unique _ _ _ (b - 1)); lia. Qed.

Record tinv (f : option (vec K -> V)) (freq n : nat) (t : trace K V) : Prop := mkTinv {
  ti_c : tr_counter t = n; ti_f : tr_f t = f; ti_q : tr_freq t = freq;
  ti_s : length (tr_step t) = ceil_div n freq; ti_t : length (tr_time t) = ceil_div n freq;
  ti_x : length (tr_x t) = match f with Some _ => 0%nat | None => ceil_div n freq end;
  ti_fx : length (tr_fx t) = match f with Some _ => ceil_div n freq | None => 0%nat end
}.
Lemma run_op_inv f freq n o h t h' t' : (1 <= freq)%nat -> tinv f freq n t -> run_op o (h, t) = Ok (h', t') ->
  tinv f freq (n + if is_call o then 1 else 0) t'.
Proof.
  intros Hq [A B C D E F G] H. destruct o as [v|r v|r st de]; simpl in H.
  - injection H as <- <-. rewrite Nat.add_0_r. constructor; auto.
  - destruct (get h r) as [[[|] ?]|]; simpl in H; try discriminate H. injection H as <- <-.
    rewrite Nat.add_0_r. constructor; auto.
  - simpl. rewrite Nat.add_1_r. unfold trace_call in H. rewrite C, A in H.
    destruct (Nat.eqb_spec freq 0); [lia|].
    destruct (Nat.eqb (n mod freq) 0) eqn:Em.
    + destruct (get h r) as [[ow x]|]; simpl in H; [|discriminate H]. rewrite B in H.
      destruct f as [f|]; injection H as <- <-; constructor; simpl; auto;
        rewrite ?app_length, ceil_div_S, Em by auto; simpl; lia.
    + injection H as <- <-. constructor; simpl; auto; rewrite ceil_div_S, Em by auto; destruct f; lia.
Qed.
Lemma run_ops_inv f freq : forall ops n h t h' t', (1 <= freq)%nat -> tinv f freq n t -> run_ops ops (h, t) = Ok (h', t') ->
  tinv f freq (n + ncalls ops) t'.
Proof.
  induction ops as [|o ops IH]; intros n h t h' t' Hq Hi H; unfold run_ops in *; cbn [forM] in H.
  - injection H as <- <-. unfold ncalls; simpl. rewrite Nat.add_0_r. auto.
  - destruct (run_op o (h, t)) as [[h1 t1]|] eqn:E; cbn [bind] in H; [|discriminate H].
    pose proof (run_op_inv _ _ _ _ _ _ _ _ Hq Hi E) as Hi1.
    specialize (IH _ _ _ _ _ Hq Hi1 H). unfold ncalls in *. cbn [filter].
    destruct (is_call o); cbn [length]; [|rewrite Nat.add_0_r in IH; exact IH].
    replace (n + S (length (filter is_call ops)))%nat with (n + 1 + length (filter is_call ops))%nat by lia. exact IH.
Qed.
(** nothing recorded ever changes *)
Definition stable (s s' : heap K * trace K V) : Prop :=
  (forall i x, nth_error (fst s) i = Some (OwnTrace, x) -> nth_error (fst s') i = Some (OwnTrace, x)) /\
  (exists a, tr_x (snd s') = tr_x (snd s) ++ a) /\ (exists a, tr_fx (snd s') = tr_fx (snd s) ++ a) /\
  (exists a, tr_step (snd s') = tr_step (snd s) ++ a) /\ (exists a, tr_time (snd s') = tr_time (snd s) ++ a).
Lemma stable_refl s : stable s s.
Proof. repeat split; auto; exists []; rewrite app_nil_r; auto. Qed.
Lemma stable_trans s1 s2 s3 : stable s1 s2 -> stable s2 s3 -> stable s1 s3.
Proof.
  intros (A & [b B] & [c C] & [d D] & [e E]) (A' & [b' B'] & [c' C'] & [d' D'] & [e' E']).
  split; [auto|]. rewrite B', B, C', C, D', D, E', E, <- !app_assoc. repeat split; eexists; reflexivity.
Qed.
Lemma run_op_stable o s s' : run_op o s = Ok s' -> stable s s'.
Proof.
  destruct s as [h t]. intros H. destruct o as [v|r v|r st de]; simpl in H.
  - injection H as <-. split; [|repeat split; exists []; rewrite app_nil_r; auto].
    intros i x Hi. simpl in *. rewrite nth_error_app1; auto. apply nth_error_Some. congruence.
  - destruct (get h r) as [[[|] w]|] eqn:Eg; simpl in H; try discriminate H. injection H as <-.
    split; [|repeat split; exists []; rewrite app_nil_r; auto].
    intros i x Hi. simpl in *. rewrite nth_error_upd. destruct (Nat.eqb_spec r i) as [->|]; [|exact Hi].
    unfold get in Eg. rewrite Hi in Eg. discriminate Eg.
  - unfold trace_call in H. destruct (Nat.eqb (tr_freq t) 0); [discriminate H|].
    destruct (Nat.eqb _ 0).
    + destruct (get h r) as [[ow x]|]; simpl in H; [|discriminate H].
      destruct (tr_f t); injection H as <-.
      * split; [auto|]. simpl. repeat split; try (eexists; reflexivity). exists []; rewrite app_nil_r; auto.
      * split; [|simpl; repeat split; try (eexists; reflexivity); exists []; rewrite app_nil_r; auto].
        intros i y Hi. simpl in *. rewrite nth_error_app1; auto. apply nth_error_Some. congruence.
    + injection H as <-. split; [auto|]. repeat split; exists []; rewrite app_nil_r; auto.
Qed.
Lemma run_ops_stable : forall ops s s', run_ops ops s = Ok s' -> stable s s'.
Proof.
  induction ops as [|o ops IH]; intros s s' H; unfold run_ops in *; cbn [forM] in H.
  - injection H as <-. apply stable_refl.
  - destruct (run_op o s) as [s1|] eqn:E; cbn [bind] in H; [|discriminate H].
    eapply stable_trans; [apply (run_op_stable o); exact E|]. apply IH; exact H.
Qed.
End TraceFacts.

Lemma main_C31_trace_lengths : forall (K : Num) (V : Type) (f : option (vec K -> V)) (freq : nat) (ops : list (op K)) h t,
  (1 <= freq)%nat ->
  run_ops ops ([], trace_init f freq) = Ok (h, t) ->
  let calls := length (filter (fun o => match o with OpCall _ _ _ => true | _ => false end) ops) in
  let m := ((calls + (freq - 1)) / freq)%nat in
  length (tr_step t) = m /\ length (tr_time t) = m /\
  match f with Some _ => length (tr_fx t) = m | None => length (tr_x t) = m end.
Proof.
  intros K V f freq ops h t Hq H.
  assert (Hi : tinv f freq 0 (trace_init f freq)).
  { assert (E : ceil_div 0 freq = 0%nat) by (apply (ceil_div_mult 0); auto). constructor; simpl; rewrite ?E; auto; destruct f; auto. }
  destruct (run_ops_inv f freq ops 0 [] (trace_init f freq) h t Hq Hi H) as [A B C D E F G].
  intros calls m. change (ceil_div (0 + ncalls ops) freq) with m in *. repeat split; auto. destruct f; auto.
Qed.
Lemma main_C31_trace_by_value : forall (K : Num) (V : Type) (f : option (vec K -> V)) (freq k : nat)
  (before after : list (op K)) (r : nat) (step delta : K) h' t',
  (1 <= freq)%nat ->
  (* the (k*freq)-th call (counting from 0) of an arbitrary history *)
  run_ops (before ++ OpCall r step delta :: after) ([], trace_init f freq) = Ok (h', t') ->
  length (filter (fun o => match o with OpCall _ _ _ => true | _ => false end) before) = (k * freq)%nat ->
  exists h t w x, run_ops before ([], trace_init f freq) = Ok (h, t) /\
    nth_error h r = Some (w, x) /\           (* x: the content of the solver's array at that call *)
    nth_error (tr_step t') k = Some step /\ nth_error (tr_time t') k = Some delta /\
    match f with
    | Some f => nth_error (tr_fx t') k = Some (f x)
    | None => exists ref, nth_error (tr_x t') k = Some ref /\ nth_error h' ref = Some (OwnTrace, x)
    end.
Proof.
  intros K V f freq k before after r step delta h' t' Hq H Hk.
  unfold run_ops in H. rewrite forM_app in H.
  destruct (forM before run_op ([], trace_init f freq)) as [[h t]|] eqn:Eb; cbn [bind forM] in H; [|discriminate H].
  assert (Hi : tinv f freq 0 (trace_init f freq)).
  { assert (E : ceil_div 0 freq = 0%nat) by (apply (ceil_div_mult 0); auto). constructor; simpl; rewrite ?E; auto; destruct f; auto. }
  destruct (run_ops_inv f freq before 0 [] (trace_init f freq) h t Hq Hi Eb) as [A B C D E F G].
  change (ncalls before) with (length (filter (fun o : op K => match o with OpCall _ _ _ => true | _ => false end) before)) in *.
  rewrite Hk, Nat.add_0_l, ceil_div_mult in * by auto.
  destruct (run_op (OpCall r step delta) (h, t)) as [[h1 t1]|] eqn:Ec; cbn [bind] in H; [|discriminate H].
  destruct (run_ops_stable _ _ _ H) as (S1 & [a1 S2] & [a2 S3] & [a3 S4] & [a4 S5]). cbn [fst snd] in *.
  simpl in Ec. unfold trace_call in Ec. rewrite C, A in Ec.
  destruct (Nat.eqb_spec freq 0); [lia|]. rewrite Nat.mod_mul in Ec by auto. cbn [Nat.eqb] in Ec.
  destruct (get h r) as [[w x]|] eqn:Eg; simpl in Ec; [|discriminate Ec].
  assert (Enth : nth_error h r = Some (w, x)).
  { unfold get in Eg. destruct (nth_error h r); [congruence|discriminate Eg]. }
  exists h, t, w, x. split; [exact Eb|]. split; [exact Enth|].
  assert (L : forall (T : Type) (l a : list T) (y : T), length l = k -> nth_error ((l ++ [y]) ++ a) k = Some y).
  { intros T l a y Hl. rewrite <- app_assoc. rewrite nth_error_app2 by lia. rewrite Hl, Nat.sub_diag. reflexivity. }
  rewrite B in Ec. destruct f as [f|]; injection Ec as <- <-; cbn [tr_x tr_fx tr_step tr_time] in *.
  - rewrite S3, S4, S5. repeat split; apply L; auto.
  - rewrite S4, S5. split; [apply L; auto|]. split; [apply L; auto|].
    exists (length h). split; [rewrite S2; apply L; auto|].
    apply S1. rewrite nth_error_app2 by lia. rewrite Nat.sub_diag. reflexivity.
Qed.
