(** * All values of np.random.choice(n, size=k, replace=False) form a balanced family *)
From Coq Require Import Reals Lra Lia List Bool ZArith Permutation.
From Verif Require Import Num Vec Spec SpecSparse ModelRandomized SpecFiniteSum ModelSfw SpecSfw SpecSfwMean.
Import ListNotations.
Local Open Scope nat_scope.

Local Notation rem := (remove Nat.eq_dec).
Lemma rem_NoDup x l : NoDup l -> NoDup (rem x l).
Proof.
  induction 1 as [|a l Ha H IH]; [constructor|]. cbn [remove]. destruct (Nat.eq_dec x a); [exact IH|].
  constructor; [|exact IH]. intros Hi. apply in_remove in Hi. tauto.
Qed.
Lemma rem_length x l : NoDup l -> In x l -> length (rem x l) = length l - 1.
Proof.
  intros N Hi. assert (Pm : Permutation l (x :: rem x l)).
  { apply NoDup_Permutation; [exact N| |].
    - constructor; [apply remove_In|apply rem_NoDup, N].
    - intros j. cbn [In]. split.
      + intros Hj. destruct (Nat.eq_dec x j) as [->|Hne]; [auto|]. right. apply in_in_remove; congruence.
      + intros [<-|Hj]; [exact Hi|]. apply in_remove in Hj. tauto. }
  apply Permutation_length in Pm. cbn [length] in Pm. lia.
Qed.
Fixpoint arr_count (m k : nat) : nat := match k with O => 1 | S k' => m * arr_count (m - 1) k' end.
Fixpoint arr_occ (m k : nat) : nat := match k with O => 0 | S k' => arr_count (m - 1) k' + (m - 1) * arr_occ (m - 1) k' end.
Lemma arr_length : forall k l, NoDup l -> length (arrangements l k) = arr_count (length l) k.
Proof.
  induction k as [|k IH]; intros l N; [reflexivity|]. cbn [arrangements arr_count].
  assert (H : forall u, incl u l -> length (flat_map (fun i => map (cons i) (arrangements (rem i l) k)) u) = length u * arr_count (length l - 1) k).
  { induction u as [|x u IHu]; intros Hu; [reflexivity|]. cbn [flat_map length]. rewrite app_length, map_length, IHu by (intros z Hz; apply Hu; right; exact Hz).
    rewrite (IH _ (rem_NoDup x l N)), (rem_length x l N (Hu x (or_introl eq_refl))). reflexivity. }
  apply H. apply incl_refl.
Qed.
Lemma arr_in : forall k l b, In b (arrangements l k) <-> length b = k /\ NoDup b /\ incl b l.
Proof.
  induction k as [|k IH]; intros l b; cbn [arrangements].
  - split; [intros [<-|[]]|].
    + split; [reflexivity|]. split; [constructor|intros z []].
    + intros (Lb & _). destruct b; [left; reflexivity|discriminate Lb].
  - rewrite in_flat_map. split.
    + intros (i & Hi & Hb). apply in_map_iff in Hb as (b' & <- & Hb'). apply IH in Hb' as (Lb & Nb & Ib). split; [cbn; lia|]. split.
      * constructor; [|exact Nb]. intros Hx. apply Ib, in_remove in Hx. tauto.
      * intros z [<-|Hz]; [exact Hi|]. apply Ib, in_remove in Hz. tauto.
    + intros (Lb & Nb & Ib). destruct b as [|i b]; [discriminate Lb|]. inversion Nb; subst. exists i. split; [apply Ib; left; reflexivity|].
      apply in_map. apply IH. split; [cbn in Lb; lia|]. split; [assumption|]. intros z Hz. apply in_in_remove; [congruence|]. apply Ib. right. exact Hz.
Qed.
Lemma concat_cons x (u : list (list nat)) i : count_occ Nat.eq_dec (concat (map (cons x) u)) i =
  (if Nat.eq_dec x i then length u else 0) + count_occ Nat.eq_dec (concat u) i.
Proof.
  induction u as [|b u IH]; [cbn; destruct (Nat.eq_dec x i); reflexivity|]. cbn [map concat length]. rewrite !count_occ_app, IH. cbn [count_occ].
  destruct (Nat.eq_dec x i); lia.
Qed.
Lemma arr_occ_eq : forall k l i, NoDup l -> In i l -> count_occ Nat.eq_dec (concat (arrangements l k)) i = arr_occ (length l) k.
Proof.
  induction k as [|k IH]; intros l i N Hi; [reflexivity|]. cbn [arrangements arr_occ].
  set (a := arr_count (length l - 1) k). set (o := arr_occ (length l - 1) k).
  assert (H : forall u, incl u l -> NoDup u -> count_occ Nat.eq_dec (concat (flat_map (fun x => map (cons x) (arrangements (rem x l) k)) u)) i =
    if in_dec Nat.eq_dec i u then a + (length u - 1) * o else length u * o).
  { induction u as [|x u IHu]; intros Hu Nu; [reflexivity|]. inversion Nu; subst. cbn [flat_map]. rewrite concat_app, count_occ_app, concat_cons.
    rewrite IHu by (auto; intros z Hz; apply Hu; right; exact Hz).
    rewrite (arr_length k _ (rem_NoDup x l N)), (rem_length x l N (Hu x (or_introl eq_refl))). fold a.
    destruct (Nat.eq_dec x i) as [->|Hne].
    - assert (Hz : count_occ Nat.eq_dec (concat (arrangements (rem i l) k)) i = 0).
      { apply count_occ_not_In. intros Hx. apply in_concat in Hx as (b & Hb & Hx). apply arr_in in Hb as (_ & _ & Ib). apply Ib, in_remove in Hx. tauto. }
      rewrite Hz. destruct (in_dec Nat.eq_dec i u) as [Hin|_]; [contradiction|]. destruct (in_dec Nat.eq_dec i (i :: u)) as [_|Hn]; [|exfalso; apply Hn; left; reflexivity].
      cbn [length]. rewrite Nat.sub_succ, Nat.sub_0_r. lia.
    - rewrite (IH _ i (rem_NoDup x l N)) by (apply in_in_remove; congruence). rewrite (rem_length x l N (Hu x (or_introl eq_refl))). fold o.
      destruct (in_dec Nat.eq_dec i u) as [Hin|Hin]; destruct (in_dec Nat.eq_dec i (x :: u)) as [Hin2|Hin2].
      + cbn [length]. assert (1 <= length u) by (destruct u; [destruct Hin|cbn; lia]). nia.
      + exfalso. apply Hin2. right. exact Hin.
      + destruct Hin2 as [->|Hin2]; [congruence|contradiction].
      + cbn [length]. lia. }
  rewrite (H l (incl_refl l) N). destruct (in_dec Nat.eq_dec i l); [reflexivity|contradiction].
Qed.
Lemma main_C108_choice : forall n bs, (bs <= n)%nat ->
  (forall b, In b (arrangements (seq 0 n) bs) <-> length b = bs /\ NoDup b /\ Forall (fun i => (i < n)%nat) b) /\
  arrangements (seq 0 n) bs <> [] /\ exists c, balanced n bs c (arrangements (seq 0 n) bs).
Proof.
  intros n bs Hb.
  assert (Hin : forall b, In b (arrangements (seq 0 n) bs) <-> length b = bs /\ NoDup b /\ Forall (fun i => (i < n)%nat) b).
  { intros b. rewrite arr_in, Forall_forall. split; intros (A & B & D); (split; [exact A|]; split; [exact B|]); intros z Hz; specialize (D z Hz); rewrite ?in_seq in *; lia. }
  split; [exact Hin|]. split.
  - intros E. assert (Hs : In (seq 0 bs) (arrangements (seq 0 n) bs)).
    { apply Hin. split; [apply seq_length|]. split; [apply seq_NoDup|]. apply Forall_forall. intros z Hz. apply in_seq in Hz. lia. }
    rewrite E in Hs. destruct Hs.
  - exists (arr_occ n bs). split.
    + apply Forall_forall. intros b Hbi. apply Hin in Hbi as (A & B & D). auto.
    + intros i Hi. rewrite (arr_occ_eq bs (seq 0 n) i (seq_NoDup n 0)) by (apply in_seq; lia). rewrite seq_length. reflexivity.
Qed.
