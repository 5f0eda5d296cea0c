(** * Proofs about copt/randomized.py: support matrix and block loops *)
From Coq Require Import ZArith Bool List Lia Permutation.
From Verif Require Import Num Vec Spec SpecSparse RVec ModelPenalty PenaltyFacts PenaltyFacts2 PenaltyFacts3 UtilsMain ModelRandomized.
Import ListNotations.
Local Open Scope nat_scope.

(** ** firsts *)
Lemma firsts_snoc l a : firsts (l ++ [a]) = if in_dec Nat.eq_dec a l then firsts l else firsts l ++ [a].
Proof.
  unfold firsts. rewrite rev_app_distr. cbn [rev app nodup].
  destruct (in_dec Nat.eq_dec a (rev l)) as [H|H]; destruct (in_dec Nat.eq_dec a l) as [H'|H'].
  - reflexivity.
  - exfalso. apply H'. apply in_rev. exact H.
  - exfalso. apply H. apply in_rev in H'. exact H'.
  - cbn [rev]. reflexivity.
Qed.
Lemma in_firsts l a : In a (firsts l) <-> In a l.
Proof. unfold firsts. rewrite <- in_rev, nodup_In, <- in_rev. tauto. Qed.
Lemma firsts_NoDup l : NoDup (firsts l).
Proof. unfold firsts. apply NoDup_rev, NoDup_nodup. Qed.
Lemma firsts_length l : length (firsts l) <= length l.
Proof.
  induction l as [|a l IH] using rev_ind; [reflexivity|]. rewrite firsts_snoc, app_length.
  destruct (in_dec _ _ _); [simpl; lia|]. rewrite app_length. simpl. lia.
Qed.

(** ** rows *)
Lemma csr_mono n d indices indptr : csr_wf n d indices indptr ->
  forall i j, i <= j -> j <= n -> nth i indptr 0 <= nth j indptr 0.
Proof.
  intros (L & M & _ & _) i j Hij. induction Hij as [|j Hij IH]; intros Hj; [lia|].
  specialize (M j ltac:(lia)). specialize (IH ltac:(lia)). lia.
Qed.
Lemma csr_row_ok n d indices indptr i : csr_wf n d indices indptr -> i < n -> row_ok indices indptr i.
Proof.
  intros W Hi. pose proof (csr_mono _ _ _ _ W (S i) n ltac:(lia) ltac:(lia)). destruct W as (L & M & B & _).
  split; lia.
Qed.
Lemma csr_row_in n d indices indptr i c : csr_wf n d indices indptr -> i < n -> In c (csr_row indices indptr i) -> c < d.
Proof.
  intros W Hi Hc. destruct (csr_row_ok _ _ _ _ _ W Hi) as (_ & B). destruct W as (_ & _ & _ & F).
  unfold csr_row in Hc. apply in_map_iff in Hc as (j & <- & Hj). apply in_range in Hj.
  rewrite Forall_forall in F. apply F, nth_In. lia.
Qed.

(** ** _support_matrix *)
Section Support.
Variables (n d nb : nat) (indices indptr rb : list nat).
Hypothesis W : csr_wf n d indices indptr.
Hypothesis Lrb : d <= length rb.
Hypothesis Brb : forall c, c < d -> nth c rb 0 < nb.
(** blocks of row i *)
Definition rowb (i : nat) : list nat := firsts (map (fun c => nth c rb 0) (csr_row indices indptr i)).
Definition rowsb (i : nat) : list nat := flat_map rowb (seq 0 i).
Lemma rowsb_S i : rowsb (S i) = rowsb i ++ rowb i.
Proof. unfold rowsb. rewrite seq_S, flat_map_app. cbn [flat_map]. rewrite app_nil_r. reflexivity. Qed.

(** state inside row i, after the entries [pre] *)
Definition inner_inv (i : nat) (ptr : list nat) (pre : list nat) (s : bs_state) : Prop :=
  length (bs_idx s) = length indices /\ bs_p s = ptr /\
  bs_count s = length (rowsb i ++ firsts pre) /\
  firstn (bs_count s) (bs_idx s) = rowsb i ++ firsts pre /\
  length (bs_seen s) = nb /\ (forall g, g < nb -> nth g (bs_seen s) 0 = if in_dec Nat.eq_dec g pre then 1 else 0).

Lemma inner_loop i ptr : i < n -> length (rowsb i) <= nth i indptr 0 -> forall k j pre s,
  j + k = nth (S i) indptr 0 -> nth i indptr 0 <= j -> length pre = j - nth i indptr 0 -> inner_inv i ptr pre s ->
  exists s', forM (seq j k) (support_entry indices rb) s = Ok s' /\
    inner_inv i ptr (pre ++ map (fun j => nth (nth j indices 0) rb 0) (seq j k)) s'.
Proof.
  intros Hi Hb. destruct (csr_row_ok _ _ _ _ _ W Hi) as (_ & Bn).
  induction k as [|k IH]; intros j pre s Hjk Hj Lp Inv; cbn [seq forM map].
  - exists s. rewrite app_nil_r. auto.
  - destruct Inv as (L1 & P1 & C1 & F1 & L2 & S2).
    unfold support_entry. rewrite (get_ok indices j 0) by lia. cbn [bind].
    assert (Hc : nth j indices 0 < d) by (destruct W as (_ & _ & _ & F); rewrite Forall_forall in F; apply F, nth_In; lia).
    rewrite (get_ok rb _ 0) by lia. cbn [bind]. set (g := nth (nth j indices 0) rb 0).
    assert (Hg : g < nb) by (apply Brb; exact Hc).
    rewrite (get_ok (bs_seen s) g 0) by lia. cbn [bind]. rewrite (S2 g Hg).
    destruct (in_dec Nat.eq_dec g pre) as [Hin|Hin].
    + cbn [Nat.eqb].
      edestruct (IH (S j) (pre ++ [g]) s) as (s' & E & I'); [lia|lia|rewrite app_length; cbn [length]; lia| |].
      { split; [exact L1|]. split; [exact P1|]. rewrite firsts_snoc. destruct (in_dec Nat.eq_dec g pre); [|contradiction].
        split; [exact C1|]. split; [exact F1|]. split; [exact L2|]. intros g' Hg'. rewrite (S2 g' Hg').
        destruct (in_dec Nat.eq_dec g' pre) as [A|A]; destruct (in_dec Nat.eq_dec g' (pre ++ [g])) as [B|B]; auto.
        - exfalso. apply B, in_app_iff. left; exact A.
        - exfalso. apply in_app_iff in B as [B|[->|[]]]; contradiction. }
      exists s'. split; [exact E|]. rewrite <- app_assoc in I'. exact I'.
    + cbn [Nat.eqb]. pose proof (firsts_length pre) as Lf.
      rewrite app_length in C1. rewrite set_ok by lia. cbn [bind]. rewrite set_ok by lia. cbn [bind].
      edestruct (IH (S j) (pre ++ [g]) (mkBs (upd (bs_idx s) (bs_count s) g) (bs_p s) (upd (bs_seen s) g 1) (S (bs_count s))))
        as (s' & E & I'); [lia|lia|rewrite app_length; cbn [length]; lia| |].
      { split; cbn; [rewrite upd_length; exact L1|]. split; [exact P1|]. rewrite firsts_snoc.
        destruct (in_dec Nat.eq_dec g pre); [contradiction|].
        split; [rewrite !app_length; simpl; lia|]. split; [|split; [rewrite upd_length; exact L2|]].
        - change (match upd (bs_idx s) (bs_count s) g with [] => [] | a :: l => a :: firstn (bs_count s) l end) with (firstn (S (bs_count s)) (upd (bs_idx s) (bs_count s) g)).
          rewrite firstn_S_upd by lia. rewrite F1, app_assoc. reflexivity.
        - intros g' Hg'. destruct (Nat.eq_dec g' g) as [->|N].
          + rewrite nth_upd_eq by lia. destruct (in_dec Nat.eq_dec g (pre ++ [g])) as [B|B]; [reflexivity|].
            exfalso. apply B, in_app_iff. right; left; reflexivity.
          + rewrite nth_upd_neq by congruence. rewrite (S2 g' Hg').
            destruct (in_dec Nat.eq_dec g' pre) as [A|A]; destruct (in_dec Nat.eq_dec g' (pre ++ [g])) as [B|B]; auto.
            * exfalso. apply B, in_app_iff. left; exact A.
            * exfalso. apply in_app_iff in B as [B|[->|[]]]; contradiction. }
      exists s'. split; [exact E|]. rewrite <- app_assoc in I'. exact I'.
Qed.

(** clearing [seen] *)
Lemma clear_loop (idx : list nat) : forall k j seen, j + k <= length idx -> length seen = nb ->
  (forall m, j <= m < j + k -> nth m idx 0 < nb) ->
  exists seen', forM (seq j k) (fun j seen => g <- get idx j ;; set seen g 0) seen = Ok seen' /\ length seen' = nb /\
    forall g, nth g seen' 0 = if in_dec Nat.eq_dec g (map (fun m => nth m idx 0) (seq j k)) then 0 else nth g seen 0.
Proof.
  induction k as [|k IH]; intros j seen Hl Ls Hb; cbn [seq forM map].
  - exists seen. split; [reflexivity|]. split; [exact Ls|]. intros g. destruct (in_dec _ _ _) as [[]|_]; reflexivity.
  - rewrite (get_ok idx j 0) by lia. cbn [bind]. assert (Hg : nth j idx 0 < nb) by (apply Hb; lia).
    rewrite set_ok by lia. cbn [bind].
    destruct (IH (S j) (upd seen (nth j idx 0) 0)) as (s' & E & L' & V); [lia|rewrite upd_length; exact Ls|intros m Hm; apply Hb; lia|].
    exists s'. split; [exact E|]. split; [exact L'|]. intros g. rewrite V.
    destruct (in_dec Nat.eq_dec g (map _ (seq (S j) k))) as [A|A]; destruct (in_dec Nat.eq_dec g (nth j idx 0 :: map _ (seq (S j) k))) as [B|B]; auto.
    + exfalso. apply B. right; exact A.
    + destruct B as [<-|B]; [|contradiction]. rewrite nth_upd_eq by lia. reflexivity.
    + apply nth_upd_neq. intros Q. apply B. left; exact Q.
Qed.

(** state before row i *)
Definition outer_inv (i : nat) (s : bs_state) : Prop :=
  length (bs_idx s) = length indices /\ length (bs_p s) = S n /\
  (forall k, k <= i -> nth k (bs_p s) 0 = length (rowsb k)) /\
  bs_count s = length (rowsb i) /\ firstn (bs_count s) (bs_idx s) = rowsb i /\
  length (bs_seen s) = nb /\ (forall g, nth g (bs_seen s) 0 = 0) /\
  length (rowsb i) <= nth i indptr 0.

Lemma map_firstn_nth (l : list nat) k : k <= length l -> forall j m, j + m <= k ->
  map (fun i => nth i l 0) (seq j m) = map (fun i => nth i (firstn k l) 0) (seq j m).
Proof.
  intros Hk j m Hm. apply map_ext_in. intros i Hi. apply in_seq in Hi.
  rewrite <- (firstn_skipn k l) at 1. rewrite app_nth1; [reflexivity|]. rewrite firstn_length. lia.
Qed.
Lemma map_nth_seq_app (a b : list nat) : map (fun i => nth i (a ++ b) 0) (seq (length a) (length b)) = b.
Proof.
  transitivity (map (fun i => nth i b 0) (seq 0 (length b))).
  - rewrite <- (Nat.add_0_r (length a)) at 1. rewrite <- seq_map_shift || idtac.
    assert (H : forall m j, map (fun i => nth i (a ++ b) 0) (seq (length a + j) m) = map (fun i => nth i b 0) (seq j m)).
    { induction m as [|m IH]; intros j; [reflexivity|]. cbn [seq map]. f_equal.
      - rewrite app_nth2 by lia. f_equal. lia.
      - rewrite <- (IH (S j)). f_equal. f_equal. lia. }
    apply H.
  - apply nth_ext with (d := 0) (d' := 0); [rewrite map_length, seq_length; reflexivity|].
    intros k Hk. rewrite map_length, seq_length in Hk. rewrite (nth_indep _ 0 ((fun i => nth i b 0) 0)) by (rewrite map_length, seq_length; lia).
    rewrite (map_nth (fun i => nth i b 0)), seq_nth by lia. reflexivity.
Qed.

Lemma support_row_ok i s : i < n -> outer_inv i s -> exists s', support_row indices indptr rb i s = Ok s' /\ outer_inv (S i) s'.
Proof.
  intros Hi (L1 & L2 & P & C & F & L3 & Z & B). pose proof W as (Lp & M & Bn & Fd).
  destruct (csr_row_ok _ _ _ _ _ W Hi) as (_ & Bi). specialize (M i Hi).
  unfold support_row. rewrite (get_ok indptr i 0), (get_ok indptr (S i) 0) by lia. cbn [bind]. unfold range at 1.
  destruct (inner_loop i (bs_p s) Hi B (nth (S i) indptr 0 - nth i indptr 0) (nth i indptr 0) [] s) as (s1 & E1 & I1);
    [lia|lia|simpl; lia| |].
  { split; [exact L1|]. split; [reflexivity|]. change (firsts []) with (@nil nat). rewrite app_nil_r.
    split; [exact C|]. split; [exact F|]. split; [exact L3|]. intros g Hg. rewrite Z. destruct (in_dec _ _ _) as [[]|]; reflexivity. }
  rewrite E1. cbn [bind]. cbn [app] in I1.
  change (map (fun j => nth (nth j indices 0) rb 0) (seq (nth i indptr 0) (nth (S i) indptr 0 - nth i indptr 0)))
    with (map (fun j => nth (nth j indices 0) rb 0) (range (nth i indptr 0) (nth (S i) indptr 0))) in I1.
  assert (Erow : map (fun j => nth (nth j indices 0) rb 0) (range (nth i indptr 0) (nth (S i) indptr 0)) = map (fun c => nth c rb 0) (csr_row indices indptr i)).
  { unfold csr_row. rewrite map_map. reflexivity. }
  rewrite Erow in I1. destruct I1 as (K1 & K2 & K3 & K4 & K5 & K6).
  fold (rowb i) in K3, K4. rewrite <- rowsb_S in K3, K4.
  assert (Brow : length (rowb i) <= nth (S i) indptr 0 - nth i indptr 0).
  { unfold rowb. etransitivity; [apply firsts_length|]. rewrite map_length. unfold csr_row. rewrite map_length. unfold range. rewrite seq_length. lia. }
  rewrite set_ok by (rewrite K2; lia). cbn [bind].
  rewrite (get_ok _ i 0) by (rewrite upd_length, K2; lia). cbn [bind].
  rewrite nth_upd_neq by lia. rewrite K2, (P i) by lia.
  assert (LR : length (rowsb (S i)) = length (rowsb i) + length (rowb i)) by (rewrite rowsb_S, app_length; reflexivity).
  unfold range. rewrite K3. replace (length (rowsb (S i)) - length (rowsb i)) with (length (rowb i)) by lia.
  assert (Eseg : map (fun m => nth m (bs_idx s1) 0) (seq (length (rowsb i)) (length (rowb i))) = rowb i).
  { rewrite (map_firstn_nth (bs_idx s1) (bs_count s1)) by lia. rewrite K4, rowsb_S. apply map_nth_seq_app. }
  destruct (clear_loop (bs_idx s1) (length (rowb i)) (length (rowsb i)) (bs_seen s1)) as (seen' & E2 & L2' & V2); [lia|exact K5| |].
  { intros m Hm. assert (In (nth m (bs_idx s1) 0) (rowb i)) as Hin.
    { rewrite <- Eseg. apply in_map_iff. exists m. split; [reflexivity|]. apply in_seq. lia. }
    unfold rowb in Hin. rewrite in_firsts in Hin. apply in_map_iff in Hin as (c & <- & Hc). apply Brb. eapply csr_row_in; eauto. }
  rewrite E2. cbn [bind]. eexists. split; [reflexivity|].
  unfold outer_inv; cbn [bs_idx bs_p bs_seen bs_count]. split; [exact K1|]. split; [rewrite upd_length; exact L2|]. split.
  { intros k Hk. destruct (Nat.eq_dec k (S i)) as [->|N].
    - rewrite nth_upd_eq by lia. reflexivity.
    - rewrite nth_upd_neq by lia. apply P; lia. }
  split; [reflexivity|]. split; [rewrite <- K3; exact K4|]. split; [exact L2'|]. split; [|lia].
  intros g. rewrite V2. rewrite Eseg. destruct (in_dec Nat.eq_dec g (rowb i)) as [|N]; [reflexivity|].
  destruct (Nat.lt_ge_cases g nb) as [Hg|Hg]; [|apply nth_overflow; lia].
  rewrite (K6 g Hg). destruct (in_dec Nat.eq_dec g _) as [A|A]; [|reflexivity]. exfalso. apply N. unfold rowb. apply in_firsts. exact A.
Qed.

Lemma support_rows k : forall i s, i + k <= n -> outer_inv i s ->
  exists s', forM (seq i k) (support_row indices indptr rb) s = Ok s' /\ outer_inv (i + k) s'.
Proof.
  induction k as [|k IH]; intros i s Hk Inv; cbn [seq forM].
  - exists s. rewrite Nat.add_0_r. auto.
  - destruct (support_row_ok i s ltac:(lia) Inv) as (s1 & E1 & I1). rewrite E1. cbn [bind].
    destruct (IH (S i) s1 ltac:(lia) I1) as (s2 & E2 & I2). exists s2. split; [exact E2|].
    replace (i + S k) with (S i + k) by lia. exact I2.
Qed.

Lemma nth_repeat0 k m : nth k (repeat 0 m) 0 = 0.
Proof. revert k; induction m as [|m IH]; intros [|k]; simpl; auto. Qed.

Lemma support_matrix_spec : exists bsp,
  support_matrix indices indptr rb nb = Ok (rowsb n, bsp) /\ length bsp = S n /\
  (forall i, i <= n -> nth i bsp 0 = length (rowsb i)) /\
  (forall i, i < n -> csr_row (rowsb n) bsp i = rowb i).
Proof.
  pose proof W as (Lp & M & Bn & Fd). unfold support_matrix.
  rewrite set_ok by (rewrite repeat_length; lia). cbn [bind]. unfold range. rewrite Lp, Nat.sub_0_r. replace (S n - 1) with n by lia.
  destruct (support_rows n 0 (mkBs (repeat 0 (length indices)) (upd (repeat 0 (S n)) 0 0) (repeat 0 nb) 0)) as (s & E & (L1 & L2 & P & C & F & _)); [lia| |].
  { split; cbn [bs_idx bs_p bs_seen bs_count]; [apply repeat_length|]. split; [rewrite upd_length, repeat_length; reflexivity|].
    split; [intros k Hk; replace k with 0 by lia; reflexivity|]. split; [reflexivity|]. split; [reflexivity|].
    split; [apply repeat_length|]. split; [intros; apply nth_repeat0|]. simpl; lia. }
  rewrite Nat.add_0_l in *. rewrite E. cbn [bind]. exists (bs_p s). rewrite F. split; [reflexivity|]. split; [exact L2|].
  split; [exact P|]. intros i Hi. unfold csr_row. rewrite (P i), (P (S i)) by lia. unfold range.
  rewrite rowsb_S, app_length. replace (length (rowsb i) + length (rowb i) - length (rowsb i)) with (length (rowb i)) by lia.
  assert (Hs : exists t, rowsb n = (rowsb i ++ rowb i) ++ t).
  { exists (flat_map rowb (seq (S i) (n - S i))). rewrite <- rowsb_S. unfold rowsb. rewrite <- flat_map_app.
    f_equal. replace n with (S i + (n - S i)) at 1 by lia. rewrite seq_app. reflexivity. }
  destruct Hs as (t & Ht). rewrite Ht. rewrite <- app_assoc.
  assert (H : forall (a b c : list nat) m, m <= length b -> map (fun j => nth j (a ++ b ++ c) 0) (seq (length a) m) = firstn m b).
  { clear. intros a b c m Hm. apply nth_ext with (d := 0) (d' := 0).
    - rewrite map_length, seq_length, firstn_length. lia.
    - intros k Hk. rewrite map_length, seq_length in Hk.
      rewrite (nth_indep _ 0 ((fun j => nth j (a ++ b ++ c) 0) 0)) by (rewrite map_length, seq_length; lia).
      rewrite (map_nth (fun j => nth j (a ++ b ++ c) 0)), seq_nth by lia. rewrite app_nth2 by lia. replace (length a + k - length a) with k by lia.
      rewrite app_nth1 by lia. rewrite <- (firstn_skipn m b) at 1. rewrite app_nth1; [reflexivity|]. rewrite firstn_length. lia. }
  rewrite (H _ _ _ (length (rowb i)) (le_n _)). apply firstn_all.
Qed.
End Support.
