(** * VRTOS started from an integer array *)
From Coq Require Import ZArith Bool List Lia Permutation Reals Lra.
From Verif Require Import Num Vec Spec SpecSparse RVec ModelPenalty PenaltyFacts PenaltyFacts2 PenaltyFacts3 UtilsMain ModelRandomized SpecFiniteSum RandomizedFacts RandomizedBlocks RandomizedSaga RandomizedSvrg RandomizedVrtos RandomizedMain3 ModelMemory MemoryMain RandomizedRuns ModelIntStart IntStartMain ModelIntVrtos.
Import ListNotations.

(** ** float64 arrays: the model without conversions *)
Lemma vr_loop_id {K : Num} (P : problem K) B1 B2 p1 p2 step perms : forall k it s log,
  vr_loop_cast P (fun v => v) B1 B2 p1 p2 step perms k it s log = vr_loop P B1 B2 p1 p2 step perms k it s log.
Proof.
  induction k as [|k IH]; intros it s log; [reflexivity|]. cbn [vr_loop_cast vr_loop]. unfold vr_epoch.
  change (vr_sample_cast P (fun v => v) B1 B2 p1 p2 step) with (vr_sample P B1 B2 p1 p2 step).
  destruct (forM _ _ s); cbn [bind]; [|reflexivity]. destruct k; [reflexivity|apply IH].
Qed.

(** ** integer arrays keep integer entries *)
Lemma block_ints (bsi bsp ptr : list nat) i (body : nat -> nat -> vec RN -> result (vec RN)) (x x' : vec RN) :
  (forall h j t t', ints t -> body h j t = Ok t' -> ints t') -> ints x -> block_loop bsi bsp ptr i body x = Ok x' -> ints x'.
Proof.
  intros Hb H E. unfold block_loop in E. apply bind_ok in E as (lo & _ & E). apply bind_ok in E as (hi & _ & E). revert E. apply (forM_inv ints); [|exact H].
  intros hj s s' Hs E. apply bind_ok in E as (h & _ & E). apply bind_ok in E as (a & _ & E). apply bind_ok in E as (b & _ & E).
  revert E. apply (forM_inv ints); [|exact Hs]. intros bj t t' Ht E. eapply Hb; eauto.
Qed.
Lemma vr_x_ints (P : problem RN) B step (z y avg tmp : vec RN) i (x x' : vec RN) : ints x -> vr_xupdate_cast P int_cast B step z y avg tmp i x = Ok x' -> ints x'.
Proof.
  intros H. apply block_ints; [|exact H]. intros h j t t' Ht E.
  apply bind_ok in E as (dh & _ & E). apply bind_ok in E as (ga & _ & E). apply bind_ok in E as (zb & _ & E). apply bind_ok in E as (yb & _ & E). apply bind_ok in E as (gt & _ & E).
  eapply ints_set; [exact Ht|apply cast_int|exact E].
Qed.
Lemma vr_z_ints B B1 B2 (y0 y1 : vec RN) i (z z' : vec RN) : ints z -> vr_zupdate_cast (K:=RN) int_cast B B1 B2 y0 y1 i z = Ok z' -> ints z'.
Proof.
  intros H. apply block_ints; [|exact H]. intros h j t t' Ht E.
  apply bind_ok in E as (h1 & _ & E). apply bind_ok in E as (d1 & _ & E). apply bind_ok in E as (h2 & _ & E). apply bind_ok in E as (d2 & _ & E). apply bind_ok in E as (a & _ & E). apply bind_ok in E as (b & _ & E).
  eapply ints_set; [exact Ht|apply cast_int|exact E].
Qed.
Definition vints (s : vr_state RN) : Prop := ints (vr_x1 s) /\ ints (vr_x2 s) /\ ints (vr_z s).
Lemma vr_sample_ints (P : problem RN) B1 B2 step i (s s' : vr_state RN) : vints s -> vr_sample_cast P int_cast B1 B2 no_prox no_prox step i s = Ok s' -> vints s'.
Proof.
  intros (H1 & H2 & Hz) E. unfold vr_sample_cast in E.
  apply bind_ok in E as (p & _ & E). apply bind_ok in E as (bi & _ & E). apply bind_ok in E as (mi & _ & E). apply bind_ok in E as (tm & _ & E).
  apply bind_ok in E as (x1 & E1 & E). cbn [no_prox bind] in E. apply bind_ok in E as (y0 & _ & E). apply bind_ok in E as (x2 & E2 & E). cbn [no_prox bind] in E.
  apply bind_ok in E as (y1 & _ & E). apply bind_ok in E as (z & E3 & E). apply bind_ok in E as (z' & E4 & E). apply bind_ok in E as ([a t] & _ & E). apply bind_ok in E as (m & _ & E).
  injection E as <-. unfold vints; cbn [vr_x1 vr_x2 vr_z]. split; [eapply vr_x_ints; [exact H1|exact E1]|]. split; [eapply vr_x_ints; [exact H2|exact E2]|].
  eapply vr_z_ints; [|exact E4]. eapply vr_z_ints; [exact Hz|exact E3].
Qed.
Lemma vr_loop_ints (P : problem RN) B1 B2 step perms : forall k it (s : vr_state RN) log r, vints s -> Forall vints log ->
  vr_loop_cast P int_cast B1 B2 no_prox no_prox step perms k it s log = Ok r -> ints (vs_x r) /\ ints (vs_x0 r) /\ Forall vints (vs_log r).
Proof.
  induction k as [|k IH]; intros it s log r Hs Hl E; cbn [vr_loop_cast] in E; [discriminate E|].
  apply bind_ok in E as (s' & E1 & E).
  assert (Hs' : vints s') by (revert E1; apply (forM_inv vints); [|exact Hs]; intros i t t' Ht; apply vr_sample_ints, Ht).
  destruct k; [injection E as <-; cbn; destruct Hs' as (? & ? & ?); repeat split; auto; constructor; [split|]; auto|]. eapply IH; [| |exact E]; auto.
Qed.

(** ** an integer array of zeros does not move when the updates are below one *)
Section Zero.
Variable P : problem RN.
Hypothesis HP : problem_wf P.
Let n := p_n P.
Let d := p_d P.
Local Open Scope R_scope.
Section One.
Variable ptr : list nat.
Hypothesis Hptr : partitions ptr d.
Variable B : blocks RN.
Hypothesis EB : make_blocks P ptr = Ok B.
Let bw (h : nat) : R := nth h (k_d B) 0.
Let Lz : length (zeros d) = d. Proof. apply zeros_length. Qed.
Lemma upd_zero j v : v = 0 -> upd (zeros d) j v = zeros d.
Proof. intros ->. rewrite <- (upd_same (zeros d) j) at 2. rewrite nth_zeros. reflexivity. Qed.
Lemma vr_x_zero step (avg tmp : vec RN) i : (i < n)%nat -> length avg = d -> length tmp = d ->
  (forall j, (j < d)%nat -> Rabs step * (1 / 2) * (Rabs (nth j tmp 0) + INR n * Rabs (nth j avg 0)) < 1) ->
  vr_xupdate_cast P int_cast B step (zeros d) (zeros d) avg tmp i (zeros d) = Ok (zeros d).
Proof.
  intros Hi La Lt Hs. unfold vr_xupdate_cast. eapply eq_trans; [apply (block_loop_eq P HP ptr Hptr B i _ _ EB Hi)|].
  apply forM_const. intros h Hh. apply forM_const. intros j Hj. destruct (ext_block P HP ptr Hptr i j h Hi Hh Hj) as (_ & Hjd). fold d in Hjd.
  pose proof (bw_in P HP ptr Hptr B EB i h Hi Hh) as Hl. pose proof (bw_bound P HP ptr Hptr B EB i h Hi Hh) as Hb.
  assert (Hjz : (j < length (zeros d))%nat) by lia.
  rewrite (get_ok (k_d B) h n0) by assumption. cbn [bind]. rewrite (get_ok avg j n0) by lia. cbn [bind].
  rewrite (get_ok (zeros d : vec RN) j n0) by exact Hjz. cbn [bind]. rewrite (get_ok tmp j n0) by lia. cbn [bind]. rewrite set_ok by exact Hjz.
  f_equal. apply upd_zero. apply int_cast_small.
  specialize (Hs j Hjd). rn. rewrite nth_zeros. fold n in Hb. change (0 <= bw h <= INR n) in Hb. fold (bw h).
  change (nlit 1 2 : RN) with (1 / 2).
  match goal with |- Rabs ?e < 1 => replace e with (- (step * (1 / 2) * (nth j tmp 0 + bw h * nth j avg 0))) by (try lra; field) end.
  rewrite Rabs_Ropp, !Rabs_mult, (Rabs_right (1 / 2)) by lra. eapply Rle_lt_trans; [|exact Hs]. apply Rmult_le_compat_l; [pose proof (Rabs_pos step); lra|].
  eapply Rle_trans; [apply Rabs_triang|]. apply Rplus_le_compat_l. rewrite Rabs_mult, (Rabs_right (bw h)) by lra. apply Rmult_le_compat_r; [apply Rabs_pos|lra].
Qed.
Lemma vr_y_zero i : (i < n)%nat -> vr_yupdate (K:=RN) B (zeros d) (zeros d) i (zeros d) = Ok (zeros d).
Proof.
  intros Hi. unfold vr_yupdate. eapply eq_trans; [apply (block_loop_eq P HP ptr Hptr B i _ _ EB Hi)|].
  apply forM_const. intros h Hh. apply forM_const. intros j Hj. destruct (ext_block P HP ptr Hptr i j h Hi Hh Hj) as (_ & Hjd). fold d in Hjd.
  assert (Hjz : (j < length (zeros d))%nat) by lia.
  rewrite (get_ok (zeros d : vec RN) j n0) by exact Hjz. cbn [bind]. rewrite set_ok by exact Hjz. f_equal. apply upd_zero. rn. rewrite nth_zeros. ring.
Qed.
End One.
Variables ptr1 ptr2 : list nat.
Hypothesis Hptr1 : partitions ptr1 d.
Hypothesis Hptr2 : partitions ptr2 d.
Variables B1 B2 : blocks RN.
Hypothesis EB1 : make_blocks P ptr1 = Ok B1.
Hypothesis EB2 : make_blocks P ptr2 = Ok B2.
Hypothesis Hall : forall j, (j < d)%nat -> exists i, (i < n)%nat /\ In j (csr_row (p_indices P) (p_indptr P) i).
Lemma vr_z_zero ptr B i : partitions ptr d -> make_blocks P ptr = Ok B -> (i < n)%nat -> vr_zupdate_cast (K:=RN) int_cast B B1 B2 (zeros d) (zeros d) i (zeros d) = Ok (zeros d).
Proof.
  intros Hptr EB Hi. unfold vr_zupdate_cast. eapply eq_trans; [apply (block_loop_eq P HP ptr Hptr B i _ _ EB Hi)|].
  apply forM_const. intros h Hh. apply forM_const. intros j Hj. destruct (ext_block P HP ptr Hptr i j h Hi Hh Hj) as (_ & Hjd). fold d in Hjd.
  assert (Lz : length (zeros d) = d) by apply zeros_length. assert (Hjz : (j < length (zeros d))%nat) by lia.
  destruct (make_blocks_spec P HP ptr1 Hptr1 B1 EB1) as (Q1 & _). destruct (make_blocks_spec P HP ptr2 Hptr2 B2 EB2) as (Q2 & _).
  rewrite (B1_ptr P HP ptr1 Hptr1 B1 EB1), (B1_ptr P HP ptr2 Hptr2 B2 EB2).
  rewrite (get_ok (rblocks ptr1) j 0%nat) by (rewrite (rblocks_length _ _ Hptr1); exact Hjd). cbn [bind].
  rewrite (get_ok (k_d B1) _ n0) by (apply (touched_range P HP ptr1 B1 j Hptr1 EB1), stored_touched; auto). cbn [bind].
  rewrite (get_ok (rblocks ptr2) j 0%nat) by (rewrite (rblocks_length _ _ Hptr2); exact Hjd). cbn [bind].
  rewrite (get_ok (k_d B2) _ n0) by (apply (touched_range P HP ptr2 B2 j Hptr2 EB2), stored_touched; auto). cbn [bind].
  rewrite (get_ok (zeros d : vec RN) j n0) by exact Hjz. cbn [bind]. rewrite set_ok by exact Hjz. f_equal. apply upd_zero. apply int_cast_small.
  rn. rewrite nth_zeros. match goal with |- Rabs (?e / ?f) < 1 => replace (e / f) with 0; [rewrite Rabs_R0; lra|] end. unfold Rdiv. ring.
Qed.

Hypothesis Hcan : canonical P.
Variables step G : R.
Hypothesis HG : forall i j, (i < n)%nat -> (j < d)%nat -> Rabs (loss_deriv P (zeros d) i * ent P i j) <= G.
Hypothesis Hsmall : Rabs step * (1 / 2) * ((1 + INR n) * G) < 1.
Definition vz_inv (V : list nat) (s : vr_state RN) : Prop :=
  vr_y0 s = zeros d /\ vr_y1 s = zeros d /\ vr_x1 s = zeros d /\ vr_x2 s = zeros d /\ vr_z s = zeros d /\ vr_tmp s = zeros d /\
  length (vr_mem s) = n /\ length (vr_avg s) = d /\ NoDup V /\ Forall (fun i => (i < n)%nat) V /\
  (forall i, (i < n)%nat -> In i V -> nth i (vr_mem s) 0 = loss_deriv P (zeros d) i) /\ (forall i, (i < n)%nat -> ~ In i V -> nth i (vr_mem s) 0 = 0) /\
  (forall j, (j < d)%nat -> Rabs (nth j (vr_avg s) 0) <= INR (length V) * (G / INR n)).
Lemma vr_zero_sample i V s : (i < n)%nat -> vz_inv V s ->
  exists V' s', vr_sample_cast P int_cast B1 B2 no_prox no_prox step i s = Ok s' /\ vz_inv V' s'.
Proof.
  intros Hi (I0 & I1 & I2 & I3 & I4 & It & Lm & La & ND & FV & Im & Iz & Ia). assert (Lz : length (zeros d) = d) by apply zeros_length.
  assert (Hn : 0 < INR n) by (apply lt_0_INR; lia).
  assert (HV : (length V <= n)%nat).
  { rewrite <- (seq_length n 0). apply NoDup_incl_length; [exact ND|]. intros k Hin. rewrite Forall_forall in FV. apply in_seq. specialize (FV k Hin). lia. }
  assert (Hkn : INR (length V) <= INR n) by (apply le_INR; exact HV).
  unfold vr_sample_cast. rewrite I0, I1, I2, I3, I4, It. rewrite (row_dot_R P HP i (zeros d) Hi Lz). cbn [bind].
  assert (Lb : (n <= length (p_b P))%nat) by apply HP. rewrite (get_ok (p_b P) i n0) by lia. cbn [bind]. rewrite (get_ok (vr_mem s) i n0) by lia. cbn [bind].
  change (p_fd P (adot P i (zeros d)) (nth i (p_b P) n0)) with (loss_deriv P (zeros d) i).
  set (g := loss_deriv P (zeros d) i) in *.
  set (q := nsub RN g _). assert (Eq : (In i V /\ q = 0) \/ (~ In i V /\ q = g)).
  { destruct (in_dec Nat.eq_dec i V) as [H|H]; [left|right]; (split; [exact H|]); unfold q; rn; [rewrite (Im i Hi H)|rewrite (Iz i Hi H)]; unfold g; ring. }
  clearbody q.
  assert (Qb : forall j, (j < d)%nat -> Rabs (q * ent P i j) <= G).
  { intros j Hj. specialize (HG i j Hi Hj). fold g in HG. destruct Eq as [(_ & ->)|(_ & ->)]; [|exact HG]. rewrite Rmult_0_l, Rabs_R0. eapply Rle_trans; [apply Rabs_pos|exact HG]. }
  destruct (set_tmp_ok P HP i q (zeros d : vec RN) Hi Lz) as (t & Et & Lt & Tv). rewrite Et. cbn [bind].
  assert (Ht : forall j, (j < d)%nat -> Rabs (nth j t 0) <= G).
  { intros j Hj. eapply Rle_trans; [|apply (Qb j Hj)]. rewrite (Tv j : nth j t 0 = _). change (Rabs (tmp_val P i q (zeros d) j) <= Rabs (q * ent P i j)).
    rewrite (tmp_val_canonical P i j q (zeros d) Hcan Hi), nth_zeros. destruct (in_dec Nat.eq_dec j (prow P i)); [lra|rewrite Rabs_R0; apply Rabs_pos]. }
  assert (Hb : forall j, (j < d)%nat -> Rabs step * (1 / 2) * (Rabs (nth j t 0) + INR n * Rabs (nth j (vr_avg s) 0)) < 1).
  { intros j Hj. eapply Rle_lt_trans; [|exact Hsmall]. apply Rmult_le_compat_l; [pose proof (Rabs_pos step); lra|]. specialize (Ht j Hj). specialize (Ia j Hj).
    assert (G0 : 0 <= G) by (eapply Rle_trans; [apply Rabs_pos|exact Ht]).
    assert (Ig : INR (length V) * (G / INR n) <= G). { apply Rle_trans with (INR n * (G / INR n)); [apply Rmult_le_compat_r; [|exact Hkn]; unfold Rdiv; apply Rmult_le_pos; [lra|left; apply Rinv_0_lt_compat; lra]|right; field; lra]. }
    assert (INR n * Rabs (nth j (vr_avg s) 0) <= INR n * G) by (apply Rmult_le_compat_l; lra). lra. }
  rewrite (vr_x_zero ptr1 Hptr1 B1 EB1) by assumption. cbn [bind no_prox]. rewrite (vr_y_zero ptr1 Hptr1 B1 EB1) by assumption. cbn [bind].
  rewrite (vr_x_zero ptr2 Hptr2 B2 EB2) by assumption. cbn [bind no_prox]. rewrite (vr_y_zero ptr2 Hptr2 B2 EB2) by assumption. cbn [bind].
  rewrite (vr_z_zero ptr1 B1) by assumption. cbn [bind]. rewrite (vr_z_zero ptr2 B2) by assumption. cbn [bind].
  destruct (saga_memory_ok P HP i q (vr_avg s) t Hi La Lt) as (avg' & tmp' & Em & La' & Lt' & M1 & M2 & M3). rewrite Em. cbn [bind].
  rewrite set_ok by lia. cbn [bind].
  assert (Tz : tmp' = zeros d).
  { apply (nth_ext _ _ 0 0); [rewrite Lz; exact Lt'|]. intros j _. rewrite nth_zeros. destruct (in_dec Nat.eq_dec j (prow P i)) as [H|H]; [apply (M2 j H)|].
    eapply eq_trans; [apply (M3 j H)|]. eapply eq_trans; [apply (Tv j)|]. eapply eq_trans; [apply (kfold_out (K:=RN)); exact H|]. apply nth_zeros. }
  assert (Av : forall j, nth j avg' 0 = nth j (vr_avg s) 0 + q * ent P i j / INR n).
  { intros j. eapply eq_trans; [exact (M1 j)|]. rewrite nofnat_R. eapply eq_trans; [exact (kfold_sum P i j q (INR n) (nth j (vr_avg s) 0))|]. reflexivity. }
  assert (New : forall V', NoDup V' -> Forall (fun i => (i < n)%nat) V' -> (forall k, In k V' <-> k = i \/ In k V) ->
    (forall j, (j < d)%nat -> Rabs (nth j avg' 0) <= INR (length V') * (G / INR n)) -> vz_inv V' (mkVr (K:=RN) (zeros d) (zeros d) (zeros d) (zeros d) (zeros d) (upd (vr_mem s) i g) avg' tmp')).
  { intros V' ND' FV' IV' Ia'. unfold vz_inv; cbn. repeat (split; [reflexivity|]). split; [exact Tz|]. split; [rewrite upd_length; exact Lm|]. split; [exact La'|]. split; [exact ND'|]. split; [exact FV'|].
    split; [|split; [|exact Ia']].
    - intros k Hk Hin. destruct (Nat.eq_dec i k) as [<-|Hne]; [rewrite nth_upd_eq by exact (eq_ind_r (fun m => (i < m)%nat) Hi Lm); reflexivity|]. rewrite nth_upd_neq by exact Hne. apply Im; [exact Hk|]. apply IV' in Hin as [->|Hin]; [congruence|exact Hin].
    - intros k Hk Hni. assert (k <> i /\ ~ In k V) as (A & C) by (split; intros X; apply Hni, IV'; auto). rewrite nth_upd_neq by congruence. apply Iz; assumption. }
  destruct Eq as [(Hin & Eq)|(Hni & Eq)].
  - exists V. eexists. split; [reflexivity|]. apply New; try assumption. { intros k. split; [auto|]. intros [->|]; assumption. }
    intros j Hj. rewrite Av, Eq. unfold Rdiv at 1. rewrite !Rmult_0_l, Rplus_0_r. apply Ia, Hj.
  - exists (i :: V). eexists. split; [reflexivity|]. apply New. { constructor; assumption. } { constructor; assumption. } { intros k. cbn. intuition. }
    intros j Hj. rewrite Av. cbn [length]. rewrite S_INR. eapply Rle_trans; [apply Rabs_triang|]. specialize (Ia j Hj). specialize (Qb j Hj).
    unfold Rdiv at 1. rewrite (Rabs_mult _ (/ INR n)), (Rabs_right (/ INR n)) by (left; apply Rinv_0_lt_compat; lra).
    assert (Rabs (q * ent P i j) * / INR n <= G * / INR n) by (apply Rmult_le_compat_r; [left; apply Rinv_0_lt_compat; lra|exact Qb]).
    unfold Rdiv in *. lra.
Qed.
Lemma vr_zero_epoch : forall idx V s, Forall (fun i => (i < n)%nat) idx -> vz_inv V s ->
  exists V' s', forM idx (vr_sample_cast P int_cast B1 B2 no_prox no_prox step) s = Ok s' /\ vz_inv V' s'.
Proof.
  induction idx as [|i idx IH]; intros V s F I; cbn [forM]; [exists V, s; auto|]. inversion F as [|? ? Hl F']; subst.
  destruct (vr_zero_sample i V s Hl I) as (V' & s' & E & I'). rewrite E. cbn [bind]. apply (IH V' s'); assumption.
Qed.
Lemma zeros_norm : vnorm (vsub (zeros d : vec RN) (zeros d)) = 0.
Proof.
  rewrite vsub_R, vnorm_R. unfold norm2. replace (dot (vminus (zeros d) (zeros d)) (vminus (zeros d) (zeros d))) with 0; [apply sqrt_0|].
  symmetry. generalize d. clear. intros m. induction m as [|m IH]; [reflexivity|].
  change ((1 * 0 + -1 * 0) * (1 * 0 + -1 * 0) + dot (vminus (zeros m) (zeros m)) (vminus (zeros m) (zeros m)) = 0). rewrite IH. ring.
Qed.
Lemma vr_zero_loop perms : (forall k, Forall (fun i => (i < n)%nat) (perms k)) -> forall k it V s log, vz_inv V s -> (0 < k)%nat ->
  exists r, vr_loop_cast P int_cast B1 B2 no_prox no_prox step perms k it s log = Ok r /\ vs_x r = zeros d /\ vs_x0 r = zeros d /\ vs_cert r = 0 /\ S (vs_nit r) = (it + k)%nat.
Proof.
  intros F. induction k as [|k IH]; intros it V s log I Hk; [lia|]. cbn [vr_loop_cast].
  destruct (vr_zero_epoch (perms it) V s (F it) I) as (V' & s' & E & I'). rewrite E. cbn [bind].
  destruct k as [|k].
  - eexists. split; [reflexivity|]. cbn [vs_x vs_x0 vs_cert vs_nit]. destruct I' as (_ & _ & -> & -> & -> & _). split; [reflexivity|]. split; [reflexivity|]. split; [|lia].
    rewrite zeros_norm. rn. ring.
  - destruct (IH (S it) V' s' (s' :: log) I' ltac:(lia)) as (r & Er & A & C & D & N). exists r. split; [exact Er|]. repeat split; try assumption. lia.
Qed.
End Zero.

Local Open Scope R_scope.
Lemma main_C128_float_partial : forall (K : Num) (P : problem K) (x0 : vec K) (step : K) prox1 prox2 ptr1 ptr2 max_iter (tol : K) perms,
  minimize_vrtos_cast P (fun v => v) x0 step prox1 prox2 ptr1 ptr2 max_iter tol perms = minimize_vrtos P x0 step prox1 prox2 ptr1 ptr2 max_iter tol perms.
Proof.
  intros K P x0 step prox1 prox2 ptr1 ptr2 max_iter tol perms. unfold minimize_vrtos_cast, minimize_vrtos.
  destruct (negb _); [reflexivity|]. destruct (nltb K step n0); [reflexivity|].
  destruct (make_blocks P (match ptr1 with Some q => q | None => _ end)) as [B1|e]; cbn [bind]; [|reflexivity].
  destruct (make_blocks P (match ptr2 with Some q => q | None => _ end)) as [B2|e]; cbn [bind]; [|reflexivity].
  match goal with |- bind ?e _ = _ => match goal with |- _ = bind ?f _ => change e with f end end.
  destruct (vr_epoch _ _ _ _ _ _ _ _) as [s|]; cbn [bind]; [|reflexivity]. apply vr_loop_id.
Qed.
Lemma main_C128_integers_partial : forall (P : problem RN) (x0 : list R) (step : R) ptr1 ptr2 max_iter (tol : R) perms r,
  Forall (fun v => exists z, v = IZR z) x0 ->
  minimize_vrtos_cast P int_cast x0 step None None ptr1 ptr2 max_iter tol perms = Ok r ->
  Forall (fun v => exists z, v = IZR z) (vs_x r) /\ Forall (fun v => exists z, v = IZR z) (vs_x0 r) /\
  Forall (fun s : vr_state RN => Forall (fun v => exists z, v = IZR z) (vr_x1 s) /\ Forall (fun v => exists z, v = IZR z) (vr_x2 s) /\ Forall (fun v => exists z, v = IZR z) (vr_z s)) (vs_log r).
Proof.
  intros P x0 step ptr1 ptr2 max_iter tol perms r H0 E. unfold minimize_vrtos_cast in E.
  destruct (negb _); [discriminate E|]. destruct (nltb RN step n0); [discriminate E|]. apply bind_ok in E as (B1 & _ & E). apply bind_ok in E as (B2 & _ & E).
  apply bind_ok in E as (s & Es & E). assert (Hs : vints s).
  { revert Es. apply (forM_inv vints); [intros i t t' Ht; apply vr_sample_ints, Ht|]. unfold vints, vr_init; cbn. auto. }
  eapply (vr_loop_ints P B1 B2 step perms); [exact Hs| |exact E]. constructor; [exact Hs|constructor].
Qed.
Lemma main_C128_stuck_partial : forall (P : problem RN) (ptr1 ptr2 : list nat) (B1 B2 : blocks RN) (step tol G : R) max_iter perms,
  problem_wf P -> canonical P -> length (p_b P) = p_n P -> partitions ptr1 (p_d P) -> partitions ptr2 (p_d P) -> make_blocks P ptr1 = Ok B1 -> make_blocks P ptr2 = Ok B2 ->
  (forall j, (j < p_d P)%nat -> exists i, (i < p_n P)%nat /\ In j (csr_row (p_indices P) (p_indptr P) i)) ->
  0 <= step -> (0 < p_n P)%nat -> (0 < max_iter)%nat -> (forall k, Forall (fun i => (i < p_n P)%nat) (perms k)) ->
  (forall i j, (i < p_n P)%nat -> (j < p_d P)%nat -> Rabs (loss_deriv P (zeros (p_d P)) i * ent P i j) <= G) -> step * (1 / 2) * ((1 + INR (p_n P)) * G) < 1 ->
  exists r, minimize_vrtos_cast P int_cast (zeros (p_d P)) step None None (Some ptr1) (Some ptr2) max_iter tol perms = Ok r /\
    vs_x r = zeros (p_d P) /\ vs_x0 r = zeros (p_d P) /\ vs_cert r = 0 /\ S (vs_nit r) = max_iter.
Proof.
  intros P ptr1 ptr2 B1 B2 step tol G max_iter perms HP HC Lb H1 H2 EB1 EB2 Hall Hst Hn Hm F HG Hs.
  unfold minimize_vrtos_cast. rewrite Lb, Nat.eqb_refl. cbn [negb]. replace (nltb RN step n0) with false by (symmetry; apply Rltb_false; exact Hst). rewrite EB1, EB2. cbn [bind].
  assert (Hs' : Rabs step * (1 / 2) * ((1 + INR (p_n P)) * G) < 1) by (rewrite Rabs_pos_eq by exact Hst; exact Hs).
  assert (I0 : vz_inv P G [] (vr_init P (zeros (p_d P)))).
  { unfold vz_inv, vr_init; cbn [vr_y0 vr_y1 vr_x1 vr_x2 vr_z vr_tmp vr_mem vr_avg]. rewrite zeros_length. repeat (split; [reflexivity|]). split; [apply repeat_length|]. split; [apply repeat_length|].
    split; [constructor|]. split; [constructor|]. split; [intros i _ []|]. split; [intros i _ _; apply (nth_zeros (p_n P) i)|].
    intros j _. change (vzeros (K:=RN) (p_d P)) with (zeros (p_d P)). rewrite nth_zeros, Rabs_R0. cbn [length INR]. lra. }
  destruct (vr_zero_epoch P HP ptr1 ptr2 H1 H2 B1 B2 EB1 EB2 Hall HC step G HG Hs' [0%nat] [] _ ltac:(constructor; [exact Hn|constructor]) I0) as (V & s & Es & I).
  rewrite Es. cbn [bind].
  destruct (vr_zero_loop P HP ptr1 ptr2 H1 H2 B1 B2 EB1 EB2 Hall HC step G HG Hs' perms F max_iter 0 V s [s] I Hm) as (r & Er & A & C & D & N).
  exists r. repeat split; assumption.
Qed.

(** one sample, one feature, target b: the float64 run moves, the integer run returns the start *)
Lemma main_C128_refuted : forall step tol : R, 0 < step < 4 ->
  let b := / (2 * step) in
  problem_wf (pin b) /\ grad_F (pin b) [0] 0 = - b /\
  (exists r, minimize_vrtos (pin b) [0] step None None None None 1 tol (fun _ => [0%nat]) = Ok r /\ vs_x r = [1 / 2 - step / 8]) /\
  (forall max_iter perms, (0 < max_iter)%nat -> (forall k, Forall (fun i => (i < 1)%nat) (perms k)) ->
    exists r, minimize_vrtos_cast (pin b) int_cast [0] step None None None None max_iter tol perms = Ok r /\ vs_x r = [0] /\ vs_cert r = 0).
Proof.
  intros step tol Hst b. destruct (pin_ok b) as (W & C). destruct (pin_grad b) as (G1 & G2 & G3).
  assert (Hb : step * b = 1 / 2) by (unfold b; field; lra). assert (Hb0 : 0 < b) by (unfold b; apply Rinv_0_lt_compat; lra).
  split; [exact W|]. split; [exact G1|]. split.
  - unfold minimize_vrtos. change (negb (p_n (pin b) =? length (p_b (pin b)))%nat) with false. cbv iota.
    replace (nltb RN step n0) with false by (symmetry; apply Rltb_false; rn; lra). change (p_d (pin b)) with 1%nat. rewrite pin_blocks. cbn [bind].
    eexists. split; [cbv -[Rplus Rmult Rminus Ropp Rdiv Rinv IZR sqrt b]; reflexivity|]. cbn [vs_x].
    assert (X : forall u v : R, u = v -> [u : RN] = [v]) by (intros; subst; reflexivity). apply X. clear X.
    unfold b. field. repeat split; lra.
  - intros max_iter perms Hm F. pose proof (main_C128_stuck_partial (pin b) (eye_ptr 1) (eye_ptr 1) _ _ step tol b max_iter perms W C eq_refl (partitions_eye 1) (partitions_eye 1) (pin_blocks b) (pin_blocks b)) as St.
    destruct St as (r & Er & X & _ & Ce & _); try lra; try lia; try exact F; [| | | |exists r; split; [exact Er|split; [exact X|exact Ce]]].
    + intros j Hj. cbn in Hj. exists 0%nat. split; [cbn; lia|]. cbn. left. lia.
    + cbn. lia.
    + intros i j Hi Hj. cbn in Hi, Hj. destruct i; [|lia]. destruct j; [|lia]. change (zeros (p_d (pin b))) with [0]. rewrite G2, G3. rewrite Rmult_1_r, Rabs_Ropp, Rabs_pos_eq by lra. lra.
    + change (p_n (pin b)) with 1%nat. cbn [INR]. replace (step * (1 / 2) * ((1 + 1) * b)) with (step * b) by field. lra.
Qed.
Lemma ex_C128 : let P := pin (1 / 4) in
  problem_wf P /\ canonical P /\ length (p_b P) = p_n P /\ partitions (eye_ptr 1) (p_d P) /\ (exists B, make_blocks P (eye_ptr 1) = Ok B) /\ grad_F P [0] 0 = - (1 / 4) /\
  (forall j, (j < p_d P)%nat -> exists i, (i < p_n P)%nat /\ In j (csr_row (p_indices P) (p_indptr P) i)) /\
  (forall i j, (i < p_n P)%nat -> (j < p_d P)%nat -> Rabs (loss_deriv P (zeros (p_d P)) i * ent P i j) <= 1 / 4) /\ 1 * (1 / 2) * ((1 + INR (p_n P)) * (1 / 4)) < 1.
Proof.
  intros P. destruct (pin_ok (1 / 4)) as (W & C). destruct (pin_grad (1 / 4)) as (G1 & G2 & G3).
  split; [exact W|]. split; [exact C|]. split; [reflexivity|]. split; [exact (partitions_eye 1)|]. split; [eexists; apply pin_blocks|]. split; [exact G1|].
  split. { intros j Hj. cbn in Hj. exists 0%nat. split; [cbn; lia|]. cbn. left. lia. }
  split. { intros i j Hi Hj. cbn in Hi, Hj. destruct i; [|lia]. destruct j; [|lia]. change (zeros (p_d P)) with [0]. subst P. rewrite G2, G3, Rmult_1_r, Rabs_Ropp, Rabs_pos_eq by lra. lra. }
  change (p_n P) with 1%nat. cbn [INR]. lra.
Qed.
