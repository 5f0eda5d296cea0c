(** * SAGA and SVRG started from an integer array *)
From Coq Require Import ZArith Bool List Lia Permutation Reals Lra.
From Verif Require Import Num Vec Spec SpecSparse RVec ModelPenalty PenaltyFacts PenaltyFacts2 PenaltyFacts3 UtilsMain ModelRandomized SpecFiniteSum RandomizedFacts RandomizedBlocks RandomizedSaga RandomizedSvrg ModelMemory MemoryMain RandomizedRuns ModelIntStart.
Import ListNotations.

(** ** float64 arrays: the model without conversions *)
Lemma coef_id {K : Num} (P : problem K) B step gavg gtmp i x : coef_update_cast P (fun v => v) B step gavg gtmp i x = coef_update P B step gavg gtmp i x.
Proof. reflexivity. Qed.
Lemma saga_sample_id {K : Num} (P : problem K) B prox step i s : saga_sample_cast P (fun v => v) B prox step i s = saga_sample P B prox step i s.
Proof. reflexivity. Qed.
Lemma saga_loop_id {K : Num} (P : problem K) B prox step tol perms : forall k it s log,
  saga_loop_cast P (fun v => v) B prox step tol perms k it s log = saga_loop P B prox step tol perms k it s log.
Proof.
  induction k as [|k IH]; intros it s log; [reflexivity|]. cbn [saga_loop_cast saga_loop]. unfold saga_epoch.
  change (saga_sample_cast P (fun v => v) B prox step) with (saga_sample P B prox step).
  destruct (forM _ _ s); cbn [bind]; [|reflexivity]. destruct (nltb K _ tol); [reflexivity|]. destruct k; [reflexivity|apply IH].
Qed.
Lemma svrg_loop_id {K : Num} (P : problem K) B prox step tol perms : forall k it x tmp log,
  svrg_loop_cast P (fun v => v) B prox step tol perms k it x tmp log = svrg_loop P B prox step tol perms k it x tmp log.
Proof.
  induction k as [|k IH]; intros it x tmp log; [reflexivity|]. cbn [svrg_loop_cast svrg_loop]. unfold svrg_epoch.
  destruct (full_grad P x) as [g|]; cbn [bind]; [|reflexivity].
  change (svrg_sample_cast P (fun v => v) B prox step x g) with (svrg_sample P B prox step x g).
  destruct (forM _ _ (x, tmp)) as [[x' t']|]; cbn [bind]; [|reflexivity]. destruct (nltb K _ tol); [reflexivity|]. destruct k; [reflexivity|apply IH].
Qed.

(** ** integer arrays keep integer entries *)
Definition ints (x : list R) : Prop := Forall (fun v => exists z, v = IZR z) x.
Lemma ints_upd x i v : ints x -> (exists z, v = IZR z) -> ints (upd x i v).
Proof.
  intros H Hv. revert i. induction x as [|a x IH]; intros [|i]; cbn [upd]; try constructor; try assumption;
    try exact (Forall_inv H); try exact (Forall_inv_tail H). apply IH. exact (Forall_inv_tail H).
Qed.
Lemma ints_set (x : vec RN) i v x' : ints x -> (exists z, v = IZR z) -> set x i v = Ok x' -> ints x'.
Proof.
  intros H Hv E. destruct (Nat.lt_ge_cases i (length x)) as [Hi|Hi].
  - rewrite set_ok in E by exact Hi. injection E as <-. apply ints_upd; assumption.
  - exfalso. unfold set in E. destruct (Nat.ltb_spec i (length x)); [lia|discriminate E].
Qed.
Lemma forM_inv {A S} (I : S -> Prop) (f : A -> S -> result S) : (forall a s s', I s -> f a s = Ok s' -> I s') ->
  forall l s s', I s -> forM l f s = Ok s' -> I s'.
Proof.
  intros Hf. induction l as [|a l IH]; intros s s' Hs E; cbn [forM] in E; [injection E as <-; exact Hs|].
  apply bind_ok in E as (s1 & E1 & E2). eapply IH; [|exact E2]. eapply Hf; eauto.
Qed.
Lemma cast_int v : exists z, int_cast v = IZR z.
Proof. destruct (int_cast_spec v) as (z & E & _). exists z. exact E. Qed.
Lemma coef_ints (P : problem RN) B step gavg gtmp i (x x' : vec RN) : ints x -> coef_update_cast P int_cast B step gavg gtmp i x = Ok x' -> ints x'.
Proof.
  intros H. unfold coef_update_cast, block_loop. intros E.
  apply bind_ok in E as (lo & _ & E). apply bind_ok in E as (hi & _ & E). revert E. apply (forM_inv ints); [|exact H].
  intros hj s s' Hs E. apply bind_ok in E as (h & _ & E). apply bind_ok in E as (a & _ & E). apply bind_ok in E as (b & _ & E).
  revert E. apply (forM_inv ints); [|exact Hs]. intros bj t t' Ht E.
  apply bind_ok in E as (dh & _ & E). apply bind_ok in E as (ga & _ & E). apply bind_ok in E as (xb & _ & E). apply bind_ok in E as (gt & _ & E).
  eapply ints_set; [exact Ht|apply cast_int|exact E].
Qed.
Lemma saga_ints (P : problem RN) B (prox : sprox RN) step tol perms : (forall (x : vec RN) i bi bp dd st x', ints x -> prox x i bi bp dd st = Ok x' -> ints x') ->
  forall k it (s : saga_state RN) log r, ints (sa_x s) -> Forall (fun s : saga_state RN => ints (sa_x s)) log ->
  saga_loop_cast P int_cast B prox step tol perms k it s log = Ok r -> ints (er_x r) /\ Forall (fun s : saga_state RN => ints (sa_x s)) (er_log r).
Proof.
  intros Hp. induction k as [|k IH]; intros it s log r Hs Hl E; cbn [saga_loop_cast] in E; [discriminate E|].
  apply bind_ok in E as (s' & E1 & E).
  assert (Hs' : ints (sa_x s')).
  { revert E1. apply (forM_inv (fun s : saga_state RN => ints (sa_x s))); [|exact Hs]. clear -Hp. intros i s s' Hs E. unfold saga_sample_cast in E.
    apply bind_ok in E as (p & _ & E). apply bind_ok in E as (bi & _ & E). apply bind_ok in E as (mi & _ & E). apply bind_ok in E as (tm & _ & E).
    apply bind_ok in E as (x1 & E1 & E). apply bind_ok in E as (x2 & E2 & E). apply bind_ok in E as ([a t] & _ & E). apply bind_ok in E as (m & _ & E).
    injection E as <-. cbn [sa_x]. eapply Hp; [|exact E2]. eapply coef_ints; [exact Hs|exact E1]. }
  destruct (nltb RN _ tol); [injection E as <-; cbn; auto|]. destruct k; [injection E as <-; cbn; auto|].
  eapply IH; [| |exact E]; auto.
Qed.
Lemma svrg_ints (P : problem RN) B (prox : sprox RN) step tol perms : (forall (x : vec RN) i bi bp dd st x', ints x -> prox x i bi bp dd st = Ok x' -> ints x') ->
  forall k it (x tmp : vec RN) log r, ints x -> Forall (fun s : vec RN * vec RN => ints (fst s)) log ->
  svrg_loop_cast P int_cast B prox step tol perms k it x tmp log = Ok r -> ints (er_x r) /\ Forall (fun s : vec RN * vec RN => ints (fst s)) (er_log r).
Proof.
  intros Hp. induction k as [|k IH]; intros it x tmp log r Hs Hl E; cbn [svrg_loop_cast] in E; [discriminate E|].
  apply bind_ok in E as (g & _ & E). apply bind_ok in E as ([x' t'] & E1 & E).
  assert (Hs' : ints x').
  { change (ints (fst (x', t'))). revert E1. apply (forM_inv (fun s : vec RN * vec RN => ints (fst s))); [|exact Hs]. clear -Hp. intros i [y t] s' Hs E. unfold svrg_sample_cast in E.
    apply bind_ok in E as (p & _ & E). apply bind_ok in E as (po & _ & E). apply bind_ok in E as (bi & _ & E). apply bind_ok in E as (tm & _ & E).
    apply bind_ok in E as (x1 & E1 & E). apply bind_ok in E as (x2 & E2 & E). injection E as <-. cbn [fst].
    eapply Hp; [|exact E2]. eapply coef_ints; [exact Hs|exact E1]. }
  destruct (nltb RN _ tol); [injection E as <-; cbn; auto|]. destruct k; [injection E as <-; cbn; auto|].
  eapply IH; [| |exact E]; auto.
Qed.

(** ** an integer array of zeros does not move when the updates are below one *)
Section Zero.
Variable P : problem RN.
Hypothesis HP : problem_wf P.
Let n := p_n P.
Let d := p_d P.
Variable ptr : list nat.
Hypothesis Hptr : partitions ptr d.
Variable B : blocks RN.
Hypothesis EB : make_blocks P ptr = Ok B.
Let bw (h : nat) : R := nth h (k_d B) 0.
Local Open Scope R_scope.

Lemma bw_bound i h : (i < n)%nat -> In h (pblocks P ptr i) -> 0 <= bw h <= INR n.
Proof.
  intros Hi Hh. pose proof (bw_in P HP ptr Hptr B EB i h Hi Hh) as Hl. pose proof (touching_pos P ptr i h Hi Hh) as Ht.
  destruct (make_blocks_spec P HP ptr Hptr B EB) as (_ & E2 & _ & _ & E5). rewrite E2 in E5.
  destruct (weights_spec P ptr (k_d B) E5) as (_ & W & _). specialize (W h Hl Ht).
  assert (E : bw h = INR n / INR (length (touching P ptr h))) by (unfold bw; etransitivity; [exact W|rewrite !nofnat_R; reflexivity]).
  rewrite E. assert (1 <= INR (length (touching P ptr h))) by (apply (le_INR 1); lia). assert (0 <= INR n) by apply pos_INR.
  assert (H1 : 0 < / INR (length (touching P ptr h)) <= 1) by (split; [apply Rinv_0_lt_compat; lra|rewrite <- Rinv_1; apply Rinv_le_contravar; lra]).
  unfold Rdiv. split; [apply Rmult_le_pos; lra|]. rewrite <- (Rmult_1_r (INR n)) at 2. apply Rmult_le_compat_l; lra.
Qed.
Lemma upd_same (x : list R) j : upd x j (nth j x 0) = x.
Proof. revert j. induction x as [|a x IH]; intros [|j]; cbn [upd nth]; try reflexivity. f_equal. apply IH. Qed.
Lemma forM_const {A S} (f : A -> S -> result S) (s : S) l : (forall a, In a l -> f a s = Ok s) -> forM l f s = Ok s.
Proof.
  induction l as [|a l IH]; intros H; cbn [forM]; [reflexivity|]. rewrite (H a) by (left; reflexivity). cbn [bind]. apply IH. intros; apply H; right; assumption.
Qed.
(** the loop over the blocks of sample i leaves the zeros alone *)
Lemma coef_zero step (avg tmp : vec RN) i : (i < n)%nat -> length avg = d -> length tmp = d ->
  (forall j, (j < d)%nat -> Rabs step * (Rabs (nth j tmp 0) + INR n * Rabs (nth j avg 0)) < 1) ->
  coef_update_cast P int_cast B step avg tmp i (zeros d) = Ok (zeros d).
Proof.
  intros Hi La Lt Hs. unfold coef_update_cast. eapply eq_trans; [apply (block_loop_eq P HP ptr Hptr B i _ _ EB Hi)|].
  apply forM_const. intros h Hh. apply forM_const. intros j Hj. destruct (ext_block P HP ptr Hptr i j h Hi Hh Hj) as (_ & Hjd). fold d in Hjd.
  pose proof (bw_in P HP ptr Hptr B EB i h Hi Hh) as Hl. pose proof (bw_bound i h Hi Hh) as Hb.
  assert (Lz : length (zeros d) = d) by apply zeros_length. assert (Hjz : (j < length (zeros d))%nat) by lia.
  rewrite (get_ok (k_d B) h n0) by assumption. cbn [bind]. rewrite (get_ok avg j n0) by lia. cbn [bind].
  rewrite (get_ok (zeros d : vec RN) j n0) by exact Hjz. cbn [bind]. rewrite (get_ok tmp j n0) by lia. cbn [bind]. rewrite set_ok by exact Hjz.
  f_equal. rewrite int_cast_small; [rewrite <- (upd_same (zeros d) j) at 2; rewrite nth_zeros; reflexivity|].
  specialize (Hs j Hjd). rn. rewrite nth_zeros. fold (bw h).
  replace (0 - step * (nth j tmp 0 + bw h * (nth j avg 0 + p_alpha P * 0))) with (- (step * (nth j tmp 0 + bw h * nth j avg 0))) by ring.
  rewrite Rabs_Ropp, Rabs_mult. eapply Rle_lt_trans; [|exact Hs]. apply Rmult_le_compat_l; [apply Rabs_pos|].
  eapply Rle_trans; [apply Rabs_triang|]. apply Rplus_le_compat_l. rewrite Rabs_mult, (Rabs_right (bw h)) by lra. apply Rmult_le_compat_r; [apply Rabs_pos|lra].
Qed.
Lemma zeros_diff : vnorm1 (vsub (zeros d : vec RN) (zeros d)) = 0.
Proof.
  rewrite vsub_R, vnorm1_R. generalize d. intros m. clear. induction m as [|m IH]; [reflexivity|]. change (zeros (S m)) with (0 :: zeros m). 
  change (Rabs (1 * 0 + -1 * 0) + l1 (vminus (zeros m) (zeros m)) = 0). rewrite IH. replace (1 * 0 + -1 * 0) with 0 by ring. rewrite Rabs_R0. lra.
Qed.

(** *** SVRG *)
Section SvrgZero.
Variables step tol : R.
Hypothesis Hsmall : forall j, (j < d)%nat -> Rabs step * (INR n * Rabs (grad_F P (zeros d) j)) < 1.
Hypothesis Htol : 0 < tol.
Lemma svrg_zero_epoch (g : vec RN) idx : length g = d -> (forall j, (j < d)%nat -> nth j g 0 = grad_F P (zeros d) j) -> Forall (fun i => (i < n)%nat) idx ->
  forM idx (svrg_sample_cast P int_cast B no_prox step (zeros d) g) (zeros d : vec RN, zeros d : vec RN) = Ok (zeros d, zeros d).
Proof.
  intros Lg Hg F. apply forM_const. intros i Hin. rewrite Forall_forall in F. specialize (F i Hin). assert (Lz : length (zeros d) = d) by apply zeros_length.
  unfold svrg_sample_cast. destruct (row_dot_ok P HP i (zeros d : vec RN) F Lz) as (p & Ep & _). rewrite Ep. cbn [bind].
  destruct HP as (_ & _ & Lb). rewrite (get_ok (p_b P) i n0) by (fold n in Lb; lia). cbn [bind].
  set (q := nsub RN _ _). assert (Eq : q = 0) by (unfold q; rn; ring). clearbody q. subst q.
  destruct (set_tmp_ok P HP i 0 (zeros d : vec RN) F Lz) as (t & Et & Lt & Tv). eapply eq_trans; [rewrite Et; reflexivity|]. cbn [bind].
  assert (Ez : t = zeros d).
  { apply (nth_ext _ _ 0 0); [rewrite Lz; exact Lt|]. intros j _. rewrite nth_zeros. eapply eq_trans; [apply (Tv j)|]. apply (tmp_val_zero P i j 0 (zeros d) eq_refl). apply nth_zeros. }
  subst t. rewrite coef_zero; [reflexivity|exact F|exact Lg|exact Lz|]. intros j Hj. rewrite nth_zeros, Rabs_R0, Rplus_0_l, Hg by exact Hj. apply Hsmall, Hj.
Qed.
Lemma svrg_zero max_iter perms : (0 < max_iter)%nat -> Forall (fun i => (i < n)%nat) (perms 0%nat) ->
  minimize_svrg_cast P int_cast (zeros d) (Some step) None (Some ptr) max_iter tol perms = Ok (mkER (K:=RN) (zeros d) true 0 [(zeros d : vec RN, zeros d : vec RN); (zeros d : vec RN, zeros d : vec RN)]).
Proof.
  intros Hm F. unfold minimize_svrg_cast. rewrite EB. cbn [bind]. change (vzeros (K:=RN) (p_d P)) with (zeros d). destruct max_iter as [|k]; [lia|]. cbn [svrg_loop_cast].
  assert (Lz : length (zeros d) = d) by apply zeros_length. destruct (full_grad_R P HP (zeros d) Lz) as (g & Eg & Lg & Vg). rewrite Eg. cbn [bind].
  rewrite svrg_zero_epoch by assumption. cbn [bind]. rewrite zeros_diff. replace (nltb RN 0 tol) with true; [reflexivity|]. symmetry. apply Rltb_iff. exact Htol.
Qed.
End SvrgZero.

(** *** SAGA *)
Section SagaZero.
Hypothesis Hcan : canonical P.
Variables step tol G : R.
Hypothesis HG : forall i j, (i < n)%nat -> (j < d)%nat -> Rabs (loss_deriv P (zeros d) i * ent P i j) <= G.
Hypothesis Hsmall : Rabs step * ((1 + INR n) * G) < 1.
Hypothesis Htol : 0 < tol.
Definition sz_inv (k : nat) (rest : list nat) (s : saga_state RN) : Prop :=
  sa_x s = zeros d /\ length (sa_mem s) = n /\ length (sa_avg s) = d /\ sa_tmp s = zeros d /\
  (forall i, In i rest -> nth i (sa_mem s) 0 = 0) /\ (forall j, (j < d)%nat -> Rabs (nth j (sa_avg s) 0) <= INR k * (G / INR n)).
Lemma saga_zero_sample i rest k s : (i < n)%nat -> ~ In i rest -> (k <= n)%nat -> sz_inv k (i :: rest) s ->
  exists s', saga_sample_cast P int_cast B no_prox step i s = Ok s' /\ sz_inv (S k) rest s'.
Proof.
  intros Hi Hni Hk (Ix & Lm & La & It & Im & Ia). assert (Lz : length (zeros d) = d) by apply zeros_length.
  assert (Hn : 0 < INR n) by (apply lt_0_INR; lia). assert (Hkn : INR k <= INR n) by (apply le_INR; exact Hk).
  unfold saga_sample_cast. rewrite Ix, It. rewrite (row_dot_R P HP i (zeros d) Hi Lz). cbn [bind].
  assert (Lb : (n <= length (p_b P))%nat) by apply HP. rewrite (get_ok (p_b P) i n0) by lia. cbn [bind]. rewrite (get_ok (sa_mem s) i n0) by lia. cbn [bind].
  change (p_fd P (adot P i (zeros d)) (nth i (p_b P) n0)) with (loss_deriv P (zeros d) i).
  set (q := nsub RN (loss_deriv P (zeros d) i) _). assert (Eq : q = loss_deriv P (zeros d) i) by (unfold q; rn; rewrite (Im i (or_introl eq_refl)); ring). clearbody q.
  destruct (set_tmp_ok P HP i q (zeros d : vec RN) Hi Lz) as (t & Et & Lt & Tv). rewrite Et. cbn [bind].
  assert (Ht : forall j, (j < d)%nat -> Rabs (nth j t 0) <= G).
  { intros j Hj. eapply Rle_trans; [|apply (HG i j Hi Hj)]. rewrite (Tv j : nth j t 0 = _). change (Rabs (tmp_val P i q (zeros d) j) <= Rabs (loss_deriv P (zeros d) i * ent P i j)).
    rewrite (tmp_val_canonical P i j q (zeros d) Hcan Hi), nth_zeros, Eq. destruct (in_dec Nat.eq_dec j (prow P i)); [lra|rewrite Rabs_R0; apply Rabs_pos]. }
  rewrite coef_zero; [|exact Hi|exact La|exact Lt|].
  2:{ intros j Hj. eapply Rle_lt_trans; [|exact Hsmall]. apply Rmult_le_compat_l; [apply Rabs_pos|]. specialize (Ht j Hj). specialize (Ia j Hj).
      assert (G0 : 0 <= G) by (eapply Rle_trans; [apply Rabs_pos|exact Ht]).
      assert (Ig : INR k * (G / INR n) <= G). { apply Rle_trans with (INR n * (G / INR n)); [apply Rmult_le_compat_r; [|exact Hkn]; unfold Rdiv; apply Rmult_le_pos; [lra|left; apply Rinv_0_lt_compat; lra]|right; field; lra]. }
      assert (INR n * Rabs (nth j (sa_avg s) 0) <= INR n * G) by (apply Rmult_le_compat_l; lra). lra. }
  cbn [bind no_prox]. destruct (saga_memory_ok P HP i q (sa_avg s) t Hi La Lt) as (avg' & tmp' & Em & La' & Lt' & M1 & M2 & M3). rewrite Em. cbn [bind].
  rewrite set_ok by lia. cbn [bind]. eexists. split; [reflexivity|]. unfold sz_inv; cbn [sa_x sa_mem sa_avg sa_tmp].
  split; [reflexivity|]. split; [rewrite upd_length; exact Lm|]. split; [exact La'|]. split.
  - apply (nth_ext _ _ 0 0); [rewrite Lz; exact Lt'|]. intros j _. rewrite nth_zeros. destruct (in_dec Nat.eq_dec j (prow P i)) as [H|H]; [apply (M2 j H)|].
    eapply eq_trans; [apply (M3 j H)|]. eapply eq_trans; [apply (Tv j)|]. eapply eq_trans; [apply (kfold_out (K:=RN)); exact H|]. apply nth_zeros.
  - split.
    + intros i' Hin. rewrite nth_upd_neq by (intros ->; contradiction). apply Im. right. exact Hin.
    + intros j Hj. rewrite (M1 j : nth j avg' 0 = _). rewrite nofnat_R. eapply Rle_trans; [right; exact (f_equal Rabs (kfold_sum P i j q (INR n) (nth j (sa_avg s) 0)))|]. rewrite S_INR, Eq. fold n.
      eapply Rle_trans; [apply Rabs_triang|]. specialize (Ia j Hj). specialize (HG i j Hi Hj). unfold Rdiv at 1. rewrite (Rabs_mult _ (/ INR n)), (Rabs_right (/ INR n)) by (left; apply Rinv_0_lt_compat; lra).
      assert (Rabs (loss_deriv P (zeros d) i * ent P i j) * / INR n <= G * / INR n) by (apply Rmult_le_compat_r; [left; apply Rinv_0_lt_compat; lra|exact HG]).
      unfold Rdiv in *. rn. lra.
Qed.
Lemma saga_zero_epoch : forall idx k s, (k + length idx <= n)%nat -> NoDup idx -> Forall (fun i => (i < n)%nat) idx -> sz_inv k idx s ->
  exists s', forM idx (saga_sample_cast P int_cast B no_prox step) s = Ok s' /\ sa_x s' = zeros d.
Proof.
  induction idx as [|i idx IH]; intros k s Hk ND F I; cbn [forM]; [exists s; split; [reflexivity|apply I]|].
  apply NoDup_cons_iff in ND as (Hi & ND). inversion F as [|? ? Hl F']; subst. cbn [length] in Hk.
  destruct (saga_zero_sample i idx k s Hl Hi ltac:(lia) I) as (s' & E & I'). rewrite E. cbn [bind]. apply (IH (S k) s'); try assumption. lia.
Qed.
Lemma saga_zero max_iter perms : (0 < max_iter)%nat -> NoDup (perms 0%nat) -> Forall (fun i => (i < n)%nat) (perms 0%nat) ->
  exists r, minimize_saga_cast P int_cast (zeros d) (Some step) None (Some ptr) max_iter tol perms = Ok r /\ er_x r = zeros d /\ er_success r = true /\ er_nit r = 0%nat.
Proof.
  intros Hm ND F. unfold minimize_saga_cast. rewrite EB. cbn [bind]. destruct max_iter as [|k]; [lia|]. cbn [saga_loop_cast].
  assert (Hl : (length (perms 0%nat) <= n)%nat).
  { rewrite <- (seq_length n 0). apply NoDup_incl_length; [exact ND|]. intros i Hin. rewrite Forall_forall in F. apply in_seq. specialize (F i Hin). lia. }
  destruct (saga_zero_epoch (perms 0%nat) 0%nat (saga_init P (zeros d))) as (s' & E & Ex); try assumption.
  { unfold sz_inv, saga_init; cbn [sa_x sa_mem sa_avg sa_tmp]. repeat split.
    - apply repeat_length. - apply repeat_length.
    - intros i _. apply (nth_zeros n i). - intros j _. change (vzeros (K:=RN) (p_d P)) with (zeros d). rewrite nth_zeros, Rabs_R0. cbn [INR]. lra. }
  rewrite E. cbn [bind]. rewrite Ex. change (sa_x (saga_init P (zeros d : vec RN))) with (zeros d : vec RN). rewrite zeros_diff. replace (nltb RN 0 tol) with true; [|symmetry; apply Rltb_iff; exact Htol].
  eexists. split; [reflexivity|]. cbn. auto.
Qed.
End SagaZero.
End Zero.

Local Open Scope R_scope.
Lemma main_C124_float_partial : forall (K : Num) (P : problem K) (x0 : vec K) step prox ptr max_iter tol perms,
  minimize_saga_cast P (fun v => v) x0 step prox ptr max_iter tol perms = minimize_saga P x0 step prox ptr max_iter tol perms /\
  minimize_svrg_cast P (fun v => v) x0 step prox ptr max_iter tol perms = minimize_svrg P x0 step prox ptr max_iter tol perms.
Proof.
  intros K P x0 step prox ptr max_iter tol perms. unfold minimize_saga_cast, minimize_saga, minimize_svrg_cast, minimize_svrg. destruct step as [st|]; [|split; reflexivity].
  destruct (make_blocks P _) as [B|e]; cbn [bind]; [|split; reflexivity]. split; [apply saga_loop_id|apply svrg_loop_id].
Qed.
Lemma main_C124_integers_partial : forall (P : problem RN) (x0 : list R) step ptr max_iter tol perms,
  Forall (fun v => exists z, v = IZR z) x0 ->
  (forall r, minimize_saga_cast P int_cast x0 step None ptr max_iter tol perms = Ok r ->
     Forall (fun v => exists z, v = IZR z) (er_x r) /\ Forall (fun s : saga_state RN => Forall (fun v => exists z, v = IZR z) (sa_x s)) (er_log r)) /\
  (forall r, minimize_svrg_cast P int_cast x0 step None ptr max_iter tol perms = Ok r ->
     Forall (fun v => exists z, v = IZR z) (er_x r) /\ Forall (fun s : vec RN * vec RN => Forall (fun v => exists z, v = IZR z) (fst s)) (er_log r)).
Proof.
  intros P x0 step ptr max_iter tol perms H0.
  assert (Hp : forall (x : vec RN) i bi bp dd st x', ints x -> no_prox (K:=RN) x i bi bp dd st = Ok x' -> ints x') by (intros x i bi bp dd st x' Hx E; injection E as <-; exact Hx).
  split; intros r E.
  - unfold minimize_saga_cast in E. destruct step as [st|]; [|discriminate E]. apply bind_ok in E as (B & _ & E). eapply (saga_ints P B no_prox); [exact Hp| |constructor; [|constructor]|exact E]; exact H0.
  - unfold minimize_svrg_cast in E. destruct step as [st|]; [|discriminate E]. apply bind_ok in E as (B & _ & E). eapply (svrg_ints P B no_prox); [exact Hp| |constructor; [|constructor]|exact E]; exact H0.
Qed.
Lemma main_C124_svrg_stuck_partial : forall (P : problem RN) (ptr : list nat) (B : blocks RN) (step tol : R) max_iter perms,
  problem_wf P -> partitions ptr (p_d P) -> make_blocks P ptr = Ok B -> 0 < tol -> (0 < max_iter)%nat -> Forall (fun i => (i < p_n P)%nat) (perms 0%nat) ->
  (forall j, (j < p_d P)%nat -> Rabs step * (INR (p_n P) * Rabs (grad_F P (zeros (p_d P)) j)) < 1) ->
  exists r, minimize_svrg_cast P int_cast (zeros (p_d P)) (Some step) None (Some ptr) max_iter tol perms = Ok r /\
    er_x r = zeros (p_d P) /\ er_success r = true /\ er_nit r = 0%nat.
Proof.
  intros P ptr B step tol max_iter perms HP Hptr EB Ht Hm F Hs. eexists. split; [exact (svrg_zero P HP ptr Hptr B EB step tol Hs Ht max_iter perms Hm F)|]. cbn. auto.
Qed.
Lemma main_C124_saga_stuck_partial : forall (P : problem RN) (ptr : list nat) (B : blocks RN) (step tol G : R) max_iter perms,
  problem_wf P -> canonical P -> partitions ptr (p_d P) -> make_blocks P ptr = Ok B -> 0 < tol -> (0 < max_iter)%nat -> NoDup (perms 0%nat) -> Forall (fun i => (i < p_n P)%nat) (perms 0%nat) ->
  (forall i j, (i < p_n P)%nat -> (j < p_d P)%nat -> Rabs (loss_deriv P (zeros (p_d P)) i * ent P i j) <= G) -> Rabs step * ((1 + INR (p_n P)) * G) < 1 ->
  exists r, minimize_saga_cast P int_cast (zeros (p_d P)) (Some step) None (Some ptr) max_iter tol perms = Ok r /\
    er_x r = zeros (p_d P) /\ er_success r = true /\ er_nit r = 0%nat.
Proof.
  intros P ptr B step tol G max_iter perms HP HC Hptr EB Ht Hm ND F HG Hs. exact (saga_zero P HP ptr Hptr B EB HC step tol G HG Hs Ht max_iter perms Hm ND F).
Qed.

(** one sample, one feature: least squares with target b *)
Definition pin (b : R) : problem RN := mkP (K:=RN) [1] [0]%nat [0; 1]%nat 1 1 [b] (fun p b => p - b) 0.
Lemma pin_ok b : problem_wf (pin b) /\ canonical (pin b).
Proof.
  split. { unfold problem_wf, csr_wf. cbn [pin p_n p_d p_indices p_indptr p_data p_b]. wf_solve. }
  intros i Hi. cbn in Hi. destruct i as [|i]; [|lia]; cbn; repeat constructor; intros [].
Qed.
Lemma pin_blocks b : make_blocks (pin b) (eye_ptr 1) = Ok (mkB (K:=RN) [0; 1]%nat [0]%nat [0; 1]%nat [1 / 1]).
Proof. cbv -[Rplus Rmult Rminus Ropp Rdiv Rinv IZR]. reflexivity. Qed.
Lemma pin_grad b : grad_F (pin b) [0] 0 = - b /\ loss_deriv (pin b) [0] 0 = - b /\ ent (pin b) 0 0 = 1.
Proof. repeat split; cbv -[Rplus Rmult Rminus Ropp Rdiv Rinv IZR]; field. Qed.
Lemma main_C124_refuted : forall step tol : R, 0 < step -> 0 < tol <= 1 / 4 ->
  let b := / (4 * step) in
  exists (ra : epoch_result RN (saga_state RN)) (rv : epoch_result RN (vec RN * vec RN)) (ia : epoch_result RN (saga_state RN)) (iv : epoch_result RN (vec RN * vec RN)),
    problem_wf (pin b) /\ grad_F (pin b) [0] 0 = - b /\
    minimize_saga (pin b) [0] (Some step) None None 1 tol (fun _ => [0%nat]) = Ok ra /\ er_x ra = [1 / 4] /\ er_success ra = false /\
    minimize_svrg (pin b) [0] (Some step) None None 1 tol (fun _ => [0%nat]) = Ok rv /\ er_x rv = [1 / 4] /\ er_success rv = false /\
    minimize_saga_cast (pin b) int_cast [0] (Some step) None None 1 tol (fun _ => [0%nat]) = Ok ia /\ er_x ia = [0] /\ er_success ia = true /\
    minimize_svrg_cast (pin b) int_cast [0] (Some step) None None 1 tol (fun _ => [0%nat]) = Ok iv /\ er_x iv = [0] /\ er_success iv = true.
Proof.
  intros step tol Hst Ht b. destruct (pin_ok b) as (W & C). destruct (pin_grad b) as (G1 & G2 & G3).
  assert (Hb : step * b = 1 / 4) by (unfold b; field; lra). assert (Hb0 : 0 < b) by (unfold b; apply Rinv_0_lt_compat; lra).
  assert (F : Forall (fun i => (i < p_n (pin b))%nat) [0%nat]) by (constructor; [cbn; lia|constructor]).
  assert (N : nltb RN (vnorm1 (vsub [1 / 4 : RN] [0 : RN])) tol = false).
  { rewrite vsub_R, vnorm1_R. apply Rltb_false. cbn. unfold lin. cbn. replace (1 * (1 / 4) + -1 * 0) with (1 / 4) by field. rewrite Rabs_pos_eq by lra. lra. }
  destruct (main_C124_saga_stuck_partial (pin b) (eye_ptr 1) _ step tol b 1 (fun _ => [0%nat]) W C (partitions_eye 1) (pin_blocks b)) as (ia & Ei & X1 & X2 & _);
    try lra; try lia; try exact F. { repeat constructor. intros []. }
  { intros i j Hi Hj. cbn in Hi, Hj. destruct i; [|lia]. destruct j; [|lia]. change (zeros (p_d (pin b))) with [0]. rewrite G2, G3. rewrite Rmult_1_r, Rabs_Ropp, Rabs_pos_eq by lra. lra. }
  { change (p_n (pin b)) with 1%nat. rewrite Rabs_pos_eq by lra. cbn [INR]. replace (step * ((1 + 1) * b)) with (2 * (step * b)) by ring. rewrite Hb. lra. }
  destruct (main_C124_svrg_stuck_partial (pin b) (eye_ptr 1) _ step tol 1 (fun _ => [0%nat]) W (partitions_eye 1) (pin_blocks b)) as (iv & Ej & Y1 & Y2 & _);
    try lra; try lia; try exact F.
  { intros j Hj. cbn in Hj. destruct j; [|lia]. change (zeros (p_d (pin b))) with [0]. rewrite G1. change (p_n (pin b)) with 1%nat. cbn [INR]. rewrite Rabs_Ropp, !Rabs_pos_eq by lra. rewrite Rmult_1_l, Hb. lra. }
  set (s0 := mkSaga (K:=RN) [0] [0] [0] [0]). set (s1 := mkSaga (K:=RN) [1 / 4] [- b] [- b] [0]).
  set (B := mkB (K:=RN) [0; 1]%nat [0]%nat [0; 1]%nat [1 / 1]).
  assert (Es : saga_epoch (pin b) B no_prox step [0%nat] s0 = Ok s1).
  { assert (X : forall a b m v a' b' m' v' : R, a = a' -> m = m' -> v = v' -> b = b' -> Ok (mkSaga (K:=RN) [a] [m] [v] [b]) = Ok (mkSaga (K:=RN) [a'] [m'] [v'] [b'])) by (intros; subst; reflexivity).
    subst s0 s1 B. cbv -[Rplus Rmult Rminus Ropp Rdiv Rinv IZR b]. apply X; try field. rewrite <- Hb. field. }
  assert (Ev : exists t, svrg_epoch (pin b) B no_prox step [0 : RN] [- b : RN] [0%nat] ([0 : RN], [0 : RN]) = Ok ([1 / 4 : RN], t)).
  { assert (X : forall a b a' b' : R, a = a' -> b = b' -> Ok ([a : RN], [b : RN]) = Ok ([a' : RN], [b' : RN])) by (intros; subst; reflexivity).
    exists [0]. subst B. cbv -[Rplus Rmult Rminus Ropp Rdiv Rinv IZR b]. apply X; try field. rewrite <- Hb. field. }
  destruct Ev as (t & Ev).
  assert (Eg : full_grad (pin b) [0 : RN] = Ok [- b : RN]).
  { assert (X : forall a a' : R, a = a' -> Ok [a : RN] = Ok [a' : RN]) by (intros; subst; reflexivity). cbv -[Rplus Rmult Rminus Ropp Rdiv Rinv IZR b]. apply X. field. }
  exists (mkER (K:=RN) [1 / 4] false 0 [s1; s0]), (mkER (K:=RN) [1 / 4] false 0 [([1 / 4 : RN], t); ([0 : RN], [0 : RN])]), ia, iv.
  split; [exact W|]. split; [exact G1|].
  split. { unfold minimize_saga. change (p_d (pin b)) with 1%nat. rewrite pin_blocks. cbn [bind saga_loop]. change (saga_init (pin b) [0]) with s0. fold B. rewrite Es. cbn [bind].
    change (sa_x s1) with [1 / 4 : RN]. change (sa_x s0) with [0 : RN]. rewrite N. reflexivity. }
  split; [reflexivity|]. split; [reflexivity|].
  split. { unfold minimize_svrg. change (p_d (pin b)) with 1%nat. rewrite pin_blocks. cbn [bind svrg_loop]. change (vzeros (K:=RN) 1) with [0 : RN]. fold B. change (full_grad (pin b) [0]) with (full_grad (pin b) [0 : RN]). rewrite Eg. cbn [bind].
    match goal with |- bind ?e _ = _ => change e with (svrg_epoch (pin b) B no_prox step [0 : RN] [- b : RN] [0%nat] ([0 : RN], [0 : RN])) end. rewrite Ev. cbn [bind].
    match goal with |- context [nltb RN ?e tol] => change e with (vnorm1 (vsub [1 / 4 : RN] [0 : RN])) end. rewrite N. reflexivity. }
  split; [reflexivity|]. split; [reflexivity|]. split; [exact Ei|]. split; [exact X1|]. split; [exact X2|]. split; [exact Ej|]. split; [exact Y1|exact Y2].
Qed.
Lemma ex_C124 : let P := pin (1 / 4) in
  problem_wf P /\ canonical P /\ partitions (eye_ptr 1) (p_d P) /\ (exists B, make_blocks P (eye_ptr 1) = Ok B) /\ grad_F P [0] 0 = - (1 / 4) /\
  (forall j, (j < p_d P)%nat -> Rabs 1 * (INR (p_n P) * Rabs (grad_F P (zeros (p_d P)) j)) < 1) /\
  (forall i j, (i < p_n P)%nat -> (j < p_d P)%nat -> Rabs (loss_deriv P (zeros (p_d P)) i * ent P i j) <= 1 / 4) /\ Rabs 1 * ((1 + INR (p_n P)) * (1 / 4)) < 1.
Proof.
  intros P. destruct (pin_ok (1 / 4)) as (W & C). destruct (pin_grad (1 / 4)) as (G1 & G2 & G3).
  split; [exact W|]. split; [exact C|]. split; [exact (partitions_eye 1)|]. split; [eexists; apply pin_blocks|]. split; [exact G1|]. split.
  { intros j Hj. cbn in Hj. destruct j; [|lia]. change (zeros (p_d P)) with [0]. subst P. rewrite G1. change (p_n (pin (1 / 4))) with 1%nat. cbn [INR]. rewrite Rabs_Ropp, !Rabs_pos_eq by lra. lra. }
  split. { intros i j Hi Hj. cbn in Hi, Hj. destruct i; [|lia]. destruct j; [|lia]. change (zeros (p_d P)) with [0]. subst P. rewrite G2, G3, Rmult_1_r, Rabs_Ropp, Rabs_pos_eq by lra. lra. }
  change (p_n P) with 1%nat. cbn [INR]. rewrite Rabs_pos_eq by lra. lra.
Qed.
