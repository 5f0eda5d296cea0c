(** * SAGA: one sample, memory invariant, unbiasedness *)
From Coq Require Import ZArith Bool List Lia Permutation Reals Lra.
From Verif Require Import Num Vec Spec SpecSparse RVec ModelPenalty PenaltyFacts PenaltyFacts2 PenaltyFacts3 UtilsMain ModelRandomized SpecFiniteSum RandomizedFacts RandomizedBlocks.
Import ListNotations.
Local Open Scope nat_scope.

(** feature j belongs to a block of sample i *)
Definition ext {K : Num} (P : problem K) (ptr : list nat) (i j : nat) : Prop :=
  exists h, In h (pblocks P ptr i) /\ In j (blk ptr h).
Lemma ext_dec {K : Num} (P : problem K) ptr i j : {ext P ptr i j} + {~ ext P ptr i j}.
Proof.
  unfold ext. induction (pblocks P ptr i) as [|h l IH].
  - right. intros (h & [] & _).
  - destruct (in_dec Nat.eq_dec j (blk ptr h)) as [H|H].
    + left. exists h. split; [left; reflexivity|exact H].
    + destruct IH as [Y|N].
      * left. destruct Y as (h' & A & B). exists h'. split; [right; exact A|exact B].
      * right. intros (h' & [<-|A] & B); [contradiction|]. apply N. exists h'. auto.
Qed.

Section K.
Context {K : Num}.
Variable P : problem K.
Hypothesis HP : problem_wf P.
Let n := p_n P.
Let d := p_d P.
Variable ptr : list nat.
Hypothesis Hptr : partitions ptr d.
Variable B : blocks K.
Hypothesis EB : make_blocks P ptr = Ok B.
Let bw (h : nat) : K := nth h (k_d B) n0.

Lemma ext_block i j h : i < n -> In h (pblocks P ptr i) -> In j (blk ptr h) -> nth j (rblocks ptr) 0 = h /\ j < d.
Proof.
  intros Hi Hh Hj. apply (pblocks_in P HP ptr Hptr i h Hi) in Hh as (Hh & _). split; [eapply rblocks_in; eauto|eapply blk_in_lt; eauto].
Qed.
Lemma ext_spec i j : i < n -> ext P ptr i j <-> sample_block P ptr i j.
Proof.
  intros Hi. split.
  - intros (h & Hh & Hj). apply (pblocks_in P HP ptr Hptr i h Hi) in Hh as (Hh & c & Hc & Hb). exists h, c. auto.
  - intros (h & c & Hh & Hj & Hc & Hr). exists h. split; [|exact Hj]. apply (pblocks_in P HP ptr Hptr i h Hi). split; [exact Hh|]. exists c. auto.
Qed.
Lemma row_ext i c : i < n -> In c (prow P i) -> ext P ptr i c.
Proof.
  intros Hi Hc. pose proof (rblocks_spec _ _ _ Hptr (prow_lt P HP i c Hi Hc)) as (A1 & A2).
  exists (nth c (rblocks ptr) 0). split; [|exact A2]. apply (pblocks_in P HP ptr Hptr i _ Hi). split; [exact A1|]. exists c. auto.
Qed.
Lemma bw_in i h : i < n -> In h (pblocks P ptr i) -> h < length (k_d B).
Proof.
  intros Hi Hh. destruct (make_blocks_spec P HP ptr Hptr B EB) as (_ & E2 & _ & _ & E5). fold n in E5, E2. rewrite E2 in E5.
  eapply (proj1 (weights_spec P ptr (k_d B) E5)); eauto.
Qed.

Lemma coef_update_ok step (avg tmp x : vec K) i : i < n -> length avg = d -> length tmp = d -> length x = d ->
  exists x', coef_update P B step avg tmp i x = Ok x' /\ length x' = d /\
    (forall j, ext P ptr i j -> nth j x' n0 =
       nsub K (nth j x n0) (nmul K step (nadd K (nth j tmp n0) (nmul K (bw (nth j (rblocks ptr) 0)) (nadd K (nth j avg n0) (nmul K (p_alpha P) (nth j x n0))))))) /\
    (forall j, ~ ext P ptr i j -> nth j x' n0 = nth j x n0).
Proof.
  intros Hi La Lt Lx. unfold coef_update.
  destruct (block_loop_upd P HP ptr Hptr B i (fun h bj x =>
    dh <- get (k_d B) h ;; ga <- get avg bj ;; xb <- get x bj ;; gt <- get tmp bj ;;
    set x bj (nsub K xb (nmul K step (nadd K gt (nmul K dh (nadd K ga (nmul K (p_alpha P) xb)))))))
    (fun h j xb => nsub K xb (nmul K step (nadd K (nth j tmp n0) (nmul K (bw h) (nadd K (nth j avg n0) (nmul K (p_alpha P) xb)))))) x EB Hi Lx)
    as (x' & E & L & V1 & V2).
  - intros h j y Hh Hj Ly. destruct (ext_block i j h Hi Hh Hj) as (_ & Hjd). pose proof (bw_in i h Hi Hh).
    rewrite (get_ok (k_d B) h n0) by assumption. cbn [bind]. rewrite (get_ok avg j n0) by lia. cbn [bind].
    rewrite (get_ok y j n0) by lia. cbn [bind]. rewrite (get_ok tmp j n0) by lia. cbn [bind]. rewrite set_ok by lia. reflexivity.
  - exists x'. split; [exact E|]. split; [exact L|]. split.
    + intros j (h & Hh & Hj). rewrite (V1 h j Hh Hj). destruct (ext_block i j h Hi Hh Hj) as (-> & _). reflexivity.
    + intros j Hn. apply V2. intros h Hh Hj. apply Hn. exists h. auto.
Qed.

Definition saga_len (s : saga_state K) : Prop :=
  length (sa_x s) = d /\ length (sa_mem s) = n /\ length (sa_avg s) = d /\ length (sa_tmp s) = d.
Lemma saga_init_len (x0 : vec K) : length x0 = d -> saga_len (saga_init P x0).
Proof. intros L. unfold saga_len, saga_init, vzeros; cbn. rewrite !repeat_length. auto. Qed.

(** the scratch vector during the step of sample i *)
Definition tmp_val (i : nat) (diff : K) (tmp : vec K) (j : nat) : K :=
  kfold P i j (fun a _ => nmul K diff a) (nth j tmp n0).
(** one sample, in closed form up to the prox *)
Lemma saga_sample_eq prox step i s : i < n -> saga_len s ->
  exists p x1 avg' tmp', row_dot P (sa_x s) i = Ok p /\
  let g := p_fd P p (nth i (p_b P) n0) in let diff := nsub K g (nth i (sa_mem s) n0) in
  length x1 = d /\ length avg' = d /\ length tmp' = d /\
  (forall j, ext P ptr i j -> nth j x1 n0 =
     nsub K (nth j (sa_x s) n0) (nmul K step (nadd K (tmp_val i diff (sa_tmp s) j) (nmul K (bw (nth j (rblocks ptr) 0)) (nadd K (nth j (sa_avg s) n0) (nmul K (p_alpha P) (nth j (sa_x s) n0))))))) /\
  (forall j, ~ ext P ptr i j -> nth j x1 n0 = nth j (sa_x s) n0) /\
  (forall c, nth c avg' n0 = kfold P i c (fun a g => nadd K g (ndiv K (nmul K diff a) (nofnat n))) (nth c (sa_avg s) n0)) /\
  (forall c, nth c tmp' n0 = if in_dec Nat.eq_dec c (prow P i) then n0 else nth c (sa_tmp s) n0) /\
  saga_sample P B prox step i s =
    (x2 <- prox x1 i (k_bsi B) (k_bsp B) (k_d B) step ;; Ok (mkSaga x2 (upd (sa_mem s) i g) avg' tmp')).
Proof.
  intros Hi (L1 & L2 & L3 & L4). destruct (row_dot_ok P HP i (sa_x s) Hi L1) as (p & Ep & _).
  exists p. set (g := p_fd P p (nth i (p_b P) n0)). set (diff := nsub K g (nth i (sa_mem s) n0)).
  destruct (set_tmp_ok P HP i diff (sa_tmp s) Hi L4) as (tmp & Et & Lt & TV).
  destruct (coef_update_ok step (sa_avg s) tmp (sa_x s) i Hi L3 Lt L1) as (x1 & Ex & Lx & X1 & X2).
  destruct (saga_memory_ok P HP i diff (sa_avg s) tmp Hi L3 Lt) as (avg' & tmp' & Em & La' & Lt' & M1 & M2 & M3).
  exists x1, avg', tmp'. split; [exact Ep|]. cbv zeta. fold g. fold diff. split; [exact Lx|]. split; [exact La'|]. split; [exact Lt'|].
  split; [intros j Hj; unfold tmp_val; rewrite <- TV; apply X1, Hj|]. split; [exact X2|]. split; [exact M1|]. split.
  { intros c. destruct (in_dec Nat.eq_dec c (prow P i)) as [Hc|Hc]; [apply M2, Hc|]. rewrite (M3 c Hc), TV. apply kfold_out, Hc. }
  unfold saga_sample. rewrite Ep. cbn [bind]. destruct HP as (_ & _ & Lb).
  rewrite (get_ok (p_b P) i n0) by (fold n in Lb; lia). cbn [bind]. rewrite (get_ok (sa_mem s) i n0) by lia. cbn [bind].
  fold g. fold diff. rewrite Et. cbn [bind]. rewrite Ex. cbn [bind].
  destruct (prox x1 i _ _ _ step); cbn [bind]; [|reflexivity]. rewrite Em. cbn [bind]. rewrite set_ok by lia. reflexivity.
Qed.

(** a prox that keeps the length of its argument *)
Definition prox_len (prox : sprox K) : Prop :=
  forall x i st x', prox x i (k_bsi B) (k_bsp B) (k_d B) st = Ok x' -> length x' = length x.
(** a prox that only changes features of the blocks of the given sample *)
Definition prox_local (prox : sprox K) : Prop :=
  forall x i st x', i < n -> length x = d -> prox x i (k_bsi B) (k_bsp B) (k_d B) st = Ok x' -> forall j, ~ ext P ptr i j -> nth j x' n0 = nth j x n0.
Lemma no_prox_len : prox_len no_prox.
Proof. intros x i st x' E. injection E as <-. reflexivity. Qed.
Lemma no_prox_local : prox_local no_prox.
Proof. intros x i st x' _ _ E. injection E as <-. reflexivity. Qed.

Lemma saga_sample_len prox step i s s' : prox_len prox -> i < n -> saga_len s -> saga_sample P B prox step i s = Ok s' -> saga_len s'.
Proof.
  intros Hp Hi L E. destruct (saga_sample_eq prox step i s Hi L) as (p & x1 & avg' & tmp' & _ & Lx & La & Lt & _ & _ & _ & _ & E').
  rewrite E' in E. apply bind_ok in E as (x2 & E2 & E). injection E as <-. unfold saga_len; cbn. apply Hp in E2. rewrite upd_length.
  destruct L as (_ & L2 & _). repeat split; congruence.
Qed.
Lemma saga_epoch_len prox step idx : prox_len prox -> Forall (fun i => i < n) idx -> forall s s', saga_len s ->
  saga_epoch P B prox step idx s = Ok s' -> saga_len s'.
Proof.
  intros Hp. unfold saga_epoch. induction idx as [|i idx IH]; intros F s s' L E; cbn [forM] in E; [congruence|].
  inversion F; subst. apply bind_ok in E as (s1 & E1 & E2). eapply IH; [assumption| |exact E2]. eapply saga_sample_len; eauto.
Qed.
Lemma saga_epoch_app prox step a b s s' : saga_epoch P B prox step (a ++ b) s = Ok s' <->
  exists s1, saga_epoch P B prox step a s = Ok s1 /\ saga_epoch P B prox step b s1 = Ok s'.
Proof.
  unfold saga_epoch. rewrite forM_app. destruct (forM a _ s) as [s1|e]; cbn [bind]; split.
  - intros E. exists s1. auto.
  - intros (s2 & E & E'). injection E as <-. exact E'.
  - discriminate.
  - intros (s2 & E & _). discriminate.
Qed.
(** never raises when the prox does not *)
Lemma saga_epoch_total prox step idx : prox_len prox ->
  (forall x i st, length x = d -> i < n -> exists x', prox x i (k_bsi B) (k_bsp B) (k_d B) st = Ok x') ->
  Forall (fun i => i < n) idx -> forall s, saga_len s -> exists s', saga_epoch P B prox step idx s = Ok s' /\ saga_len s'.
Proof.
  intros Hp Ht. unfold saga_epoch. induction idx as [|i idx IH]; intros F s L; cbn [forM]; [eauto|].
  inversion F; subst. destruct (saga_sample_eq prox step i s H1 L) as (p & x1 & avg' & tmp' & _ & Lx & La & Lt & _ & _ & _ & _ & E').
  destruct (Ht x1 i step Lx H1) as (x2 & E2). assert (E'' := E'). rewrite E2 in E''. cbn [bind] in E''. rewrite E''. cbn [bind].
  apply IH; [assumption|]. eapply saga_sample_len; eauto.
Qed.
(** memory of sample i: derivative at the last visit *)
Lemma saga_mem_hist prox step : prox_len prox -> forall hist s0 s, saga_len s0 -> Forall (fun i => i < n) hist ->
  saga_epoch P B prox step hist s0 = Ok s -> forall i, i < n ->
  (~ In i hist -> nth i (sa_mem s) n0 = nth i (sa_mem s0) n0) /\
  (forall h1 h2, hist = h1 ++ i :: h2 -> ~ In i h2 -> exists s1 p, saga_epoch P B prox step h1 s0 = Ok s1 /\
      row_dot P (sa_x s1) i = Ok p /\ nth i (sa_mem s) n0 = p_fd P p (nth i (p_b P) n0)).
Proof.
  intros Hp hist s0 s L F E i Hi.
  assert (St : forall s1 s2 k, saga_len s1 -> k < n -> saga_sample P B prox step k s1 = Ok s2 ->
     (exists p, row_dot P (sa_x s1) k = Ok p /\ nth k (sa_mem s2) n0 = p_fd P p (nth k (p_b P) n0)) /\
     (i <> k -> nth i (sa_mem s2) n0 = nth i (sa_mem s1) n0)).
  { intros s1 s2 k L1 Hk E1. destruct (saga_sample_eq prox step k s1 Hk L1) as (p & x1 & avg' & tmp' & Ep & _ & _ & _ & _ & _ & _ & _ & E').
    rewrite E' in E1. apply bind_ok in E1 as (x2 & _ & E1). injection E1 as <-. cbn. destruct L1 as (_ & L2 & _). split.
    - exists p. split; [exact Ep|]. apply nth_upd_eq. lia.
    - intros N. apply nth_upd_neq. congruence. }
  assert (Fr : forall l s1 s2, Forall (fun i => i < n) l -> saga_len s1 -> ~ In i l -> saga_epoch P B prox step l s1 = Ok s2 -> nth i (sa_mem s2) n0 = nth i (sa_mem s1) n0).
  { unfold saga_epoch. induction l as [|k l IH]; intros s1 s2 Fl L1 N E1; cbn [forM] in E1; [congruence|].
    inversion Fl; subst. apply bind_ok in E1 as (s3 & E3 & E4). rewrite (IH s3 s2); auto.
    - eapply St; eauto. intros ->. apply N. left; reflexivity.
    - eapply saga_sample_len; eauto.
    - intros H. apply N. right; exact H. }
  split; [intros N; eapply Fr; eauto|].
  intros h1 h2 -> N. apply Forall_app in F as (F1 & F2). inversion F2; subst.
  apply saga_epoch_app in E as (s1 & E1 & E2). unfold saga_epoch in E2. cbn [forM] in E2. apply bind_ok in E2 as (s2 & E2 & E3).
  assert (L1 : saga_len s1) by exact (saga_epoch_len prox step h1 Hp F1 s0 s1 L E1).
  destruct (St s1 s2 i L1 Hi E2) as ((p & Ep & Em) & _). exists s1, p. split; [exact E1|]. split; [exact Ep|].
  rewrite (Fr h2 s2 s); auto. eapply saga_sample_len; eauto.
Qed.
(** features outside the blocks of the visited samples never change *)
Lemma saga_untouched prox step j : prox_len prox -> prox_local prox -> forall hist s0 s, saga_len s0 -> Forall (fun i => i < n) hist ->
  saga_epoch P B prox step hist s0 = Ok s -> (forall i, In i hist -> ~ ext P ptr i j) -> nth j (sa_x s) n0 = nth j (sa_x s0) n0.
Proof.
  intros Hp Hl. unfold saga_epoch. induction hist as [|i l IH]; intros s0 s L F E N; cbn [forM] in E; [congruence|].
  inversion F; subst. apply bind_ok in E as (s1 & E1 & E2).
  assert (L1 : saga_len s1) by (eapply saga_sample_len; eauto).
  rewrite (IH s1 s L1) by (auto; intros; apply N; right; assumption).
  destruct (saga_sample_eq prox step i s0 H1 L) as (p & x1 & avg' & tmp' & Ep & Lx & _ & _ & _ & X2 & _ & _ & E').
  rewrite E' in E1. apply bind_ok in E1 as (x2 & E3 & E1). injection E1 as <-. cbn.
  assert (Ni : ~ ext P ptr i j) by (apply N; left; reflexivity).
  rewrite (Hl x1 i step x2 H1 Lx E3 j Ni). apply X2, Ni.
Qed.
End K.

(** ** over the reals *)
Ltac eqR := change (vec RN) with (list R) in *; change (carrier RN) with R in *.
Local Open Scope R_scope.
Lemma Rsum_map_ext {A} (f g : A -> R) l : (forall a, In a l -> f a = g a) -> Rsum (map f l) = Rsum (map g l).
Proof. intros H. f_equal. apply map_ext_in. exact H. Qed.
Section R.
Variable P : problem RN.
Hypothesis HP : problem_wf P.
Let n := p_n P.
Let d := p_d P.
Lemma csr_entry_pos i c : ent P i c = Rsum (map (fun k => if Nat.eqb (nth k (p_indices P) 0%nat) c then nth k (p_data P) 0 else 0) (rowpos P i)).
Proof. unfold ent. apply csr_entry_R. Qed.
Lemma ent_out i c : ~ In c (prow P i) -> ent P i c = 0.
Proof.
  intros Hc. rewrite csr_entry_pos. apply Rsum_zero. intros k Hk. destruct (Nat.eqb_spec (nth k (p_indices P) 0%nat) c) as [E|]; [|reflexivity].
  exfalso. apply Hc. rewrite <- E. apply rowpos_in. exact Hk.
Qed.
(** the entries of a column, added up *)
Lemma kfold_sum i c (q m z : R) : kfold P i c (fun a g => nadd RN g (ndiv RN (nmul RN q a) m)) z = z + q * ent P i c / m.
Proof.
  rewrite csr_entry_pos. unfold kfold. revert z. induction (rowpos P i) as [|k l IH]; intros z; cbn [fold_left map Rsum]; [unfold Rdiv; lra|].
  eapply eq_trans; [apply IH|]. destruct (Nat.eqb _ c); rn; unfold Rdiv; ring.
Qed.
(** in a canonical row, the entry of a column *)
Lemma kfold_last i c (q z : R) : canonical P -> (i < n)%nat -> In c (prow P i) -> kfold P i c (fun a _ => nmul RN q a) z = q * ent P i c.
Proof.
  intros Hc Hi Hin. rewrite csr_entry_pos. specialize (Hc i Hi). unfold prow in Hin. unfold csr_row in Hc, Hin. fold (rowpos P i) in Hc, Hin. unfold kfold.
  revert z Hin. induction (rowpos P i) as [|k l IH]; intros z Hin; [destruct Hin|]. cbn [fold_left map Rsum] in *. apply NoDup_cons_iff in Hc as (Hk & Hc).
  destruct (Nat.eqb_spec (nth k (p_indices P) 0%nat) c) as [E|N].
  - assert (H0 : forall z, fold_left (fun (acc : carrier RN) k => if Nat.eqb (nth k (p_indices P) 0%nat) c then nmul RN q (nth k (p_data P) n0) else acc) l z = z).
    { rewrite E in Hk. clear -Hk. induction l as [|k l IH]; intros z; [reflexivity|]. cbn [fold_left map] in *. destruct (Nat.eqb_spec (nth k (p_indices P) 0%nat) c) as [E|N]; [exfalso; apply Hk; left; exact E|].
      apply IH. intros H. apply Hk. right. exact H. }
    eapply eq_trans; [apply H0|]. rewrite (Rsum_zero (fun k => if Nat.eqb (nth k (p_indices P) 0%nat) c then nth k (p_data P) 0 else 0)).
    + rn. lra.
    + intros j Hj. destruct (Nat.eqb_spec (nth j (p_indices P) 0%nat) c) as [E'|]; [|reflexivity]. exfalso. apply Hk. rewrite E, <- E'. apply in_map_iff. exists j. auto.
  - eapply eq_trans; [apply (IH Hc)|lra]. destruct Hin as [E|H]; [contradiction|exact H].
Qed.
(** when the derivative has not changed the scratch entry is zero *)
Lemma tmp_val_zero i j (q : R) (tmp : list R) : q = 0 -> nth j tmp 0 = 0 -> tmp_val P i q tmp j = 0.
Proof.
  intros -> Hz. unfold tmp_val. rn. rewrite Hz. destruct (in_dec Nat.eq_dec j (prow P i)) as [H|H].
  - apply (kfold_const (K:=RN) P i j _ 0); [exact H|]. intros a z. rn. ring.
  - apply (kfold_out (K:=RN)); exact H.
Qed.
Lemma tmp_val_canonical i j (q : R) (tmp : list R) : canonical P -> (i < n)%nat ->
  tmp_val P i q tmp j = if in_dec Nat.eq_dec j (prow P i) then q * ent P i j else nth j tmp 0.
Proof.
  intros Hc Hi. unfold tmp_val. destruct (in_dec Nat.eq_dec j (prow P i)) as [H|H]; [apply kfold_last; assumption|apply (kfold_out (K:=RN)); exact H].
Qed.
Lemma row_dot_R i (x : vec RN) : (i < n)%nat -> length x = d -> row_dot P x i = Ok (adot P i x).
Proof.
  intros Hi Lx. destruct (row_dot_ok P HP i x Hi Lx) as (p & E & V). eapply eq_trans; [exact E|]. f_equal. eapply eq_trans; [exact V|]. clear E V p.
  unfold adot. rewrite (Rsum_map_ext (fun c => ent P i c * nth c x 0) (fun c => Rsum (map (fun k => (if Nat.eqb (nth k (p_indices P) 0%nat) c then nth k (p_data P) 0 else 0) * nth c x 0) (rowpos P i)))).
  2:{ intros c _. rewrite csr_entry_pos. induction (rowpos P i) as [|k l IH]; cbn [map Rsum]; [eqR; ring|]. rewrite <- IH. eqR. ring. }
  assert (Hl : forall k, In k (rowpos P i) -> (nth k (p_indices P) 0 < d)%nat).
  { intros k Hk. eapply prow_lt; [exact HP|exact Hi|]. apply rowpos_in. exact Hk. }
  assert (G : forall l (a : R), (forall k, In k l -> (nth k (p_indices P) 0 < d)%nat) ->
     fold_left (fun (p : carrier RN) k => nadd RN p (nmul RN (nth (nth k (p_indices P) 0%nat) x n0) (nth k (p_data P) n0))) l a =
     a + Rsum (map (fun c => Rsum (map (fun k => (if Nat.eqb (nth k (p_indices P) 0%nat) c then nth k (p_data P) 0 else 0) * nth c x 0) l)) (seq 0 (p_d P)))).
  { induction l as [|k l IH]; intros a Hk; cbn [fold_left map Rsum].
    - rewrite Rsum_zero by (intros; reflexivity). lra.
    - eapply eq_trans; [apply IH; intros; apply Hk; right; assumption|].
      rewrite (Rsum_map_plus (fun c => (if Nat.eqb (nth k (p_indices P) 0%nat) c then nth k (p_data P) 0 else 0) * nth c x 0)).
      rewrite (Rsum_map_ext (fun c => (if Nat.eqb (nth k (p_indices P) 0%nat) c then nth k (p_data P) 0 else 0) * nth c x 0) (fun c => if Nat.eqb (nth k (p_indices P) 0%nat) c then nth k (p_data P) 0 * nth c x 0 else 0)).
      2:{ intros c _. destruct (Nat.eqb _ c); eqR; ring. }
      pose proof (sum_indicator (fun c => nth k (p_data P) 0 * nth c x 0) (nth k (p_indices P) 0%nat) (p_d P) 0%nat) as SI.
      eapply eq_trans; [|apply f_equal; apply (f_equal (fun t => t + _)); symmetry; apply SI; specialize (Hk k (or_introl eq_refl)); unfold d in Hk; lia]. rn. eqR. ring. }
  eapply eq_trans; [apply (G (rowpos P i) 0); exact Hl|]. lra.
Qed.

Variable ptr : list nat.
Hypothesis Hptr : partitions ptr d.
Variable B : blocks RN.
Hypothesis EB : make_blocks P ptr = Ok B.

Definition saga_inv (s : saga_state RN) : Prop :=
  (forall j, (j < d)%nat -> nth j (sa_avg s) 0 = mean_row P (fun i => nth i (sa_mem s) 0) j) /\ sa_tmp s = zeros d.

(** changing one term of a sum *)
Lemma Rsum_upd_one (f g : nat -> R) m i : (i < m)%nat -> (forall k, (k < m)%nat -> k <> i -> g k = f k) ->
  Rsum (map g (seq 0 m)) = Rsum (map f (seq 0 m)) + (g i - f i).
Proof.
  intros Hi Hk.
  assert (E : Rsum (map g (seq 0 m)) = Rsum (map (fun k => f k + (if Nat.eqb i k then g k - f k else 0)) (seq 0 m))).
  { apply Rsum_map_ext. intros k Hin. apply in_seq in Hin. destruct (Nat.eqb_spec i k) as [->|N]; [lra|]. rewrite Hk; [lra|lia|congruence]. }
  rewrite E, Rsum_map_plus. f_equal. apply (sum_indicator (fun k => g k - f k)). lia.
Qed.
Lemma INR_n_pos i : (i < n)%nat -> 0 < INR n.
Proof. intros. apply lt_0_INR. lia. Qed.

Lemma mean_row_upd (mem : list R) (g : R) i j : (i < n)%nat -> length mem = n ->
  mean_row P (fun k => nth k (upd mem i g) 0) j = mean_row P (fun k => nth k mem 0) j + (g - nth i mem 0) * ent P i j / INR n.
Proof.
  intros Hi L. unfold mean_row. fold n.
  rewrite (Rsum_upd_one (fun k => nth k mem 0 * ent P k j) (fun k => nth k (upd mem i g) 0 * ent P k j) n i Hi).
  - rewrite nth_upd_eq by lia. pose proof (INR_n_pos i Hi). field. lra.
  - intros k Hk N. cbn beta. rewrite nth_upd_neq by congruence. reflexivity.
Qed.
Lemma saga_sample_inv prox step i s s' : prox_len B prox -> (i < n)%nat -> saga_len P s -> saga_inv s ->
  saga_sample P B prox step i s = Ok s' -> saga_inv s'.
Proof.
  intros Hp Hi L (I1 & I2) E.
  destruct (saga_sample_eq P HP ptr Hptr B EB prox step i s Hi L) as (p & x1 & avg' & tmp' & Ep & Lx & La & Lt & _ & _ & M1 & M2 & E').
  rewrite E' in E. apply bind_ok in E as (x2 & _ & E). injection E as <-. set (g := p_fd P p _) in *. destruct L as (_ & L2 & _). fold n in L2. fold d in La, Lt.
  unfold saga_inv; cbn [sa_avg sa_tmp sa_mem]. split.
  - intros j Hj. eapply eq_trans; [|symmetry; apply (mean_row_upd (sa_mem s) g i j Hi L2)]. specialize (I1 j Hj). eapply eq_trans in I1; [|reflexivity].
    eapply eq_trans; [exact (M1 j)|]. eapply eq_trans; [apply kfold_sum|]. rewrite nofnat_R. fold n. eapply eq_trans; [|apply f_equal2; [exact I1|reflexivity]]. reflexivity.
  - apply (list_ext tmp' (zeros d) 0); [rewrite zeros_length; exact Lt|]. intros j Hj. rewrite nth_zeros. eapply eq_trans; [exact (M2 j)|].
    destruct (in_dec Nat.eq_dec j (prow P i)) as [Hin|Hin]; [reflexivity|]. rewrite I2. apply nth_zeros.
Qed.
Lemma saga_epoch_inv prox step idx : prox_len B prox -> Forall (fun i => (i < n)%nat) idx -> forall s s', saga_len P s -> saga_inv s ->
  saga_epoch P B prox step idx s = Ok s' -> saga_inv s'.
Proof.
  intros Hp. unfold saga_epoch. induction idx as [|i idx IH]; intros F s s' L I E; cbn [forM] in E; [congruence|].
  inversion F; subst. apply bind_ok in E as (s1 & E1 & E2). eapply IH; [assumption| | |exact E2].
  - eapply saga_sample_len; eauto.
  - eapply saga_sample_inv; eauto.
Qed.
Lemma saga_init_inv x0 : saga_inv (saga_init P x0).
Proof.
  split; cbn; [|apply vzeros_R]. intros j Hj. unfold mean_row. rewrite (Rsum_zero (fun i => nth i (vzeros (K:=RN) (p_n P)) 0 * ent P i j)).
  - fold d. rewrite (vzeros_R d), nth_zeros. lra.
  - intros i _. rewrite (vzeros_R (p_n P)), nth_zeros. ring.
Qed.

(** reweighting: the weights of a touched block sum to n over the samples that touch it *)
Lemma weights_sum h : (0 < length (touching P ptr h))%nat -> (h < length (k_d B))%nat ->
  Rsum (map (fun i => if in_dec Nat.eq_dec h (pblocks P ptr i) then nth h (k_d B) 0 else 0) (seq 0 n)) = INR n.
Proof.
  intros Ht Hh. destruct (make_blocks_spec P HP ptr Hptr B EB) as (_ & E2 & _ & _ & E5). fold n in E5. rewrite E2 in E5.
  destruct (weights_spec P ptr (k_d B) E5) as (_ & W & _). specialize (W h Hh Ht). rn. rewrite W. rewrite !nofnat_R.
  assert (G : forall l (c : R), Rsum (map (fun i => if in_dec Nat.eq_dec h (pblocks P ptr i) then c else 0) l) = INR (length (filter (fun i => if in_dec Nat.eq_dec h (pblocks P ptr i) then true else false) l)) * c).
  { induction l as [|i l IH]; intros c; cbn [map filter]; [cbn; lra|]. cbn [Rsum]. rewrite IH.
    destruct (in_dec Nat.eq_dec h (pblocks P ptr i)); [|lra]. cbn [length]. rewrite S_INR. lra. }
  rewrite G. fold n. fold (touching P ptr h). change (length (filter _ (seq 0 n))) with (length (touching P ptr h)).
  assert (0 < INR (length (touching P ptr h))) by (apply lt_0_INR; exact Ht). field. lra.
Qed.
Lemma ext_iff i j h : (i < n)%nat -> (S h < length ptr)%nat -> In j (blk ptr h) -> ext P ptr i j <-> In h (pblocks P ptr i).
Proof.
  intros Hi Hh Hj. split; [|intros; exists h; auto]. intros (h' & A1 & A2).
  destruct (ext_block P HP ptr Hptr i j h' Hi A1 A2) as (A3 & _). rewrite (rblocks_in _ _ _ _ Hptr Hh Hj) in A3. subst. exact A1.
Qed.
Lemma touched_facts j : touched P ptr j -> exists h, (S h < length ptr)%nat /\ In j (blk ptr h) /\ nth j (rblocks ptr) 0%nat = h /\
  (j < d)%nat /\ (0 < length (touching P ptr h))%nat /\ (h < length (k_d B))%nat.
Proof.
  intros (i & Hi & h & c & Hh & Hj & Hc & Hr). exists h. split; [exact Hh|]. split; [exact Hj|]. split; [eapply rblocks_in; eauto|].
  split; [eapply blk_in_lt; eauto|]. assert (In h (pblocks P ptr i)) by (apply (pblocks_in P HP ptr Hptr i h Hi); split; [exact Hh|]; exists c; auto).
  split; [eapply touching_pos; eauto|eapply bw_in; eauto].
Qed.
(** sum over samples of [u_i + weight * v] on the samples touching feature j *)
Lemma direction_sum j (u : nat -> R) (v : R) : touched P ptr j -> (forall i, (i < n)%nat -> ~ ext P ptr i j -> u i = 0) ->
  Rsum (map (fun i => if ext_dec P ptr i j then u i + nth (nth j (rblocks ptr) 0%nat) (k_d B) 0 * v else 0) (seq 0 n))
  = Rsum (map u (seq 0 n)) + INR n * v.
Proof.
  intros Ht Hu. destruct (touched_facts j Ht) as (h & Hh & Hj & Eh & Hjd & Hp & Hd). rewrite Eh.
  transitivity (Rsum (map (fun i => u i + v * (if in_dec Nat.eq_dec h (pblocks P ptr i) then nth h (k_d B) 0 else 0)) (seq 0 n))).
  - apply Rsum_map_ext. intros i Hin. apply in_seq in Hin.
    destruct (ext_dec P ptr i j) as [E|E]; destruct (in_dec Nat.eq_dec h (pblocks P ptr i)) as [D|D].
    + ring.
    + exfalso. apply D. eapply ext_iff; eauto; lia.
    + exfalso. apply E. eapply ext_iff; eauto; lia.
    + rewrite Hu by (auto; lia). ring.
  - rewrite Rsum_map_plus. f_equal. rewrite (Rsum_map_mult (fun i => if in_dec Nat.eq_dec h (pblocks P ptr i) then nth h (k_d B) 0 else 0)). rewrite weights_sum by assumption. ring.
Qed.

(** unbiasedness of the SAGA direction *)
Lemma saga_unbiased step s (xs : nat -> saga_state RN) j : canonical P -> saga_len P s -> saga_inv s ->
  (forall i, (i < n)%nat -> saga_sample P B no_prox step i s = Ok (xs i)) -> touched P ptr j -> (0 < n)%nat ->
  / INR n * Rsum (map (fun i => nth j (sa_x s) 0 - nth j (sa_x (xs i)) 0) (seq 0 n)) = step * (grad_F P (sa_x s) j + p_alpha P * nth j (sa_x s) 0).
Proof.
  intros HC L (I1 & I2) Hxs Ht Hn. destruct (touched_facts j Ht) as (h & Hh & Hj & Eh & Hjd & Hp & Hd).
  assert (Hpos : 0 < INR n) by (apply lt_0_INR; exact Hn).
  set (u := fun i => (loss_deriv P (sa_x s) i - nth i (sa_mem s) 0) * ent P i j).
  set (v := nth j (sa_avg s) 0 + p_alpha P * nth j (sa_x s) 0).
  assert (E : forall i, (i < n)%nat -> nth j (sa_x s) 0 - nth j (sa_x (xs i)) 0 = step * (if ext_dec P ptr i j then u i + nth (nth j (rblocks ptr) 0%nat) (k_d B) 0 * v else 0)).
  { intros i Hi. destruct (saga_sample_eq P HP ptr Hptr B EB no_prox step i s Hi L) as (p & x1 & avg' & tmp' & Ep & Lx & La & Lt & X1 & X2 & _ & _ & E').
    rewrite row_dot_R in Ep by (try exact Hi; apply L). apply Ok_inj in Ep. rewrite (Hxs i Hi) in E'. cbn [no_prox bind] in E'. apply Ok_inj in E'. rewrite E'. cbn [sa_x].
    destruct (ext_dec P ptr i j) as [D|D].
    - specialize (X1 j D). rn. rewrite X1. rewrite tmp_val_canonical by assumption. unfold u, v. destruct (in_dec Nat.eq_dec j (prow P i)) as [R1|R1].
      + unfold loss_deriv. rewrite <- Ep. rn. ring.
      + rewrite (ent_out i j R1). rn. rewrite I2, nth_zeros. ring.
    - specialize (X2 j D). rn. rewrite X2. ring. }
  rewrite (Rsum_map_ext _ (fun i => step * (if ext_dec P ptr i j then u i + nth (nth j (rblocks ptr) 0%nat) (k_d B) 0 * v else 0))).
  2:{ intros i Hi. apply in_seq in Hi. apply E. lia. }
  rewrite Rsum_map_mult, direction_sum; [|exact Ht|].
  2:{ intros i Hi D. unfold u. rewrite ent_out; [ring|]. intros Hin. apply D. eapply row_ext; eauto. }
  unfold u. rewrite (Rsum_map_ext _ (fun i => loss_deriv P (sa_x s) i * ent P i j + (-1) * (nth i (sa_mem s) 0 * ent P i j))) by (intros; ring).
  rewrite Rsum_map_plus, Rsum_map_mult. specialize (I1 j Hjd). unfold mean_row in I1. fold n in I1. unfold v. rewrite I1.
  unfold grad_F, mean_row. fold n. field. lra.
Qed.
End R.
