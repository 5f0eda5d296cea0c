(** * minimize_sfw, variant LF: runs as folds over batches, and means over all sequences of batches *)
From Coq Require Import Reals Lra Lia List Bool ZArith Permutation.
From Verif Require Import Num Vec Spec SpecSparse RVec ConvexFacts ModelConstraint ModelPenalty PenaltyFacts PenaltyFacts2 ModelUtilsArr UtilsMain
  ModelFrankWolfe FrankWolfeConv FrankWolfeMain ModelRandomized SpecFiniteSum RandomizedFacts RandomizedProx RandomizedSaga ModelSfw SpecSfw SpecSfwMean SfwFacts SfwStep SfwMain SfwMain2 SfwMain3 SfwRate SfwRate2 SfwMean SfwMean2 SfwMean3 SfwLf SfwLfArith.
Import ListNotations.
Local Open Scope R_scope.

(** runs whose steps all succeed *)
Section GenRun.
Variable pow23 : R -> R.
Variable P : problem RN.
Variable V : sfw_variant.
Variable lmo : lmo_fun RN.
Variable lipschitz : option RN.
Variable bs : nat.
Hypothesis Hb : (1 <= bs <= p_n P)%nat.
Local Notation n := (p_n P).
Local Notation stepf := (sfw_step (K:=RN) pow23 P lmo V SSublinear lipschitz bs).
Local Notation next := (nextV pow23 P V lmo lipschitz bs).
Variable Good : sfw_state RN -> Prop.
Hypothesis next_ok : forall it b s, Good s -> batch_ok n bs b -> exists r, stepf it b s = Ok r /\ next s b = sfw_tick (si_next r) /\ Good (next s b).
Lemma fold_good : forall w s, Good s -> Forall (batch_ok n bs) w -> Good (fold_left next w s).
Proof.
  induction w as [|b w IH]; intros s G F; [exact G|]. inversion F; subst. cbn [fold_left]. apply IH; [|assumption].
  destruct (next_ok 0 b s G) as (r & _ & _ & H); auto.
Qed.
Variable tol : R.
Hypothesis Htol : tol <= 0.
Lemma while_gen : forall w u it fuel s succ log, Forall (batch_ok n bs) w -> (length u + length (concat w) <= n)%nat -> (length w < fuel)%nat -> Good s ->
  exists log', sfw_while (K:=RN) pow23 P lmo V SSublinear lipschitz bs tol fuel (u ++ concat w) it (length u) s succ log
    = Ok (fold_left next w s, succ, log').
Proof.
  induction w as [|b w IH]; intros u it fuel s succ log F Hu Hf G.
  - destruct fuel as [|fuel]; [cbn in Hf; lia|]. cbn [sfw_while concat]. rewrite app_nil_r, Nat.ltb_irrefl. cbn [fold_left]. eauto.
  - inversion F as [|? ? Hbt F']; subst. destruct fuel as [|fuel]; [cbn in Hf; lia|]. cbn [sfw_while]. cbn [concat] in Hu |- *.
    pose proof Hbt as (_ & _ & Lb). rewrite app_length in Hu. rewrite !app_length.
    destruct (Nat.ltb_spec (length u) (length u + (length b + length (concat w)))) as [_|Hge]; [|lia].
    replace (slice (u ++ b ++ concat w) (length u) (Nat.min (length u + bs) n)) with b by (symmetry; eapply slice_batch; lia).
    destruct (next_ok it b s G Hbt) as (r & Er & Hr & G'). rewrite Er. cbn [bind].
    rewrite (never_quiet tol Htol). rewrite <- Hr. cbn [fold_left].
    replace (u ++ b ++ concat w) with ((u ++ b) ++ concat w) by (rewrite app_assoc; reflexivity).
    replace (length u + bs)%nat with (length (u ++ b)) by (rewrite app_length; lia).
    apply IH; [exact F'|rewrite app_length; lia|cbn [length] in Hf; lia|exact G'].
Qed.
Lemma epochs_gen nb (w : list (list nat)) : (nb * bs <= n)%nat -> Forall (batch_ok n bs) w -> forall k it s log, (1 <= k)%nat -> ((it + k) * nb <= length w)%nat -> Good s ->
  exists r, sfw_epochs (K:=RN) pow23 P lmo V SSublinear lipschitz bs tol (batch_draws nb w) k it s false log = Ok r /\
    sr_x r = sw_x (fold_left next (firstn (k * nb) (skipn (it * nb) w)) s) /\ sr_success r = false.
Proof.
  intros Hnb Fw. induction k as [|k IH]; intros it s log Hk Lw G; [lia|]. cbn [sfw_epochs].
  destruct (Nat.eqb_spec bs 0) as [Z|_]; [lia|].
  set (v := firstn nb (skipn (it * nb) w)).
  assert (Lv : length v = nb) by (unfold v; rewrite firstn_length, skipn_length; nia).
  assert (Fv : Forall (batch_ok n bs) v).
  { apply Forall_forall. intros b Hbi. rewrite Forall_forall in Fw. apply Fw. eapply skipn_in, firstn_in, Hbi. }
  assert (Lc : length (concat v) = (nb * bs)%nat).
  { rewrite <- Lv. clear - Fv. induction Fv as [|b v (_ & _ & Hbb) _ IH]; [reflexivity|]. cbn [concat length]. rewrite app_length, IH, Hbb. lia. }
  destruct (while_gen v [] it (S (length (concat v))) s false log Fv ltac:(cbn [length]; lia) ltac:(nia) G) as (log' & Ew).
  cbn [app length] in Ew. unfold batch_draws. fold v. rewrite Ew. cbn [bind].
  pose proof (fold_good v s G Fv) as G'.
  assert (Hs : firstn (S k * nb) (skipn (it * nb) w) = v ++ firstn (k * nb) (skipn (S it * nb) w)).
  { unfold v. cbn [Nat.mul].
    assert (H : forall m (x : list (list nat)), firstn nb x ++ firstn m (skipn nb x) = firstn (nb + m) x).
    { clear. intros m. induction nb as [|q IH]; intros x; [reflexivity|]. destruct x as [|a x]; [rewrite !firstn_nil; reflexivity|].
      cbn [firstn skipn app Nat.add]. rewrite IH. reflexivity. }
    rewrite <- H. f_equal. f_equal.
    assert (H2 : forall p (x : list (list nat)), skipn nb (skipn p x) = skipn (nb + p) x).
    { clear. intros p. induction p as [|p IH]; intros x; [rewrite Nat.add_0_r; reflexivity|]. destruct x as [|a x]; [rewrite !skipn_nil; reflexivity|].
      rewrite Nat.add_succ_r. cbn [skipn]. apply IH. }
    rewrite H2. reflexivity. }
  rewrite Hs, fold_left_app. destruct k as [|k].
  - eexists. split; [reflexivity|]. split; [|reflexivity]. cbn [Nat.mul firstn fold_left sr_x]. reflexivity.
  - apply IH; [lia|nia|exact G'].
Qed.
End GenRun.

Lemma powN_pos_L (Bt : list (list nat)) k : (1 <= length Bt)%nat -> 0 < INR (length Bt ^ k).
Proof. intros HN. apply lt_0_INR. pose proof (Nat.pow_nonzero (length Bt) k). lia. Qed.
Lemma young (mu D z : R) : 0 < mu -> Rabs z * D <= / 2 * (mu * (D * D) + z * z / mu).
Proof.
  intros Hm. assert (H : 0 <= (mu * D - Rabs z) * (mu * D - Rabs z) / mu).
  { apply Rmult_le_pos; [apply Rle_0_sqr|left; apply Rinv_0_lt_compat, Hm]. }
  replace ((mu * D - Rabs z) * (mu * D - Rabs z) / mu) with (mu * (D * D) + Rabs z * Rabs z / mu - 2 * (Rabs z * D)) in H by (field; lra).
  replace (Rabs z * Rabs z) with (z * z) in H by (rewrite <- Rabs_mult; symmetry; apply Rabs_pos_eq, Rle_0_sqr). lra.
Qed.

Section Mean.
Variable pow23 : R -> R.
Variable P : problem RN.
Variable f : R -> R -> R.
Variable lmo : lmo_fun RN.
Variable lipschitz : option RN.
Variable bs : nat.
Variable dom : list R -> Prop.
Variables C Dinf L : R.
Hypothesis W : problem_wf P.
Hypothesis Hb : (1 <= bs <= p_n P)%nat.
Hypothesis Hc : convex_set (p_d P) dom.
Hypothesis Hl : lmo_exact (p_d P) dom lmo.
Hypothesis Hconv : convex_loss P f.
Hypothesis HC : curvature (p_d P) dom (mean_loss P f) (grad_list P) C.
Hypothesis HDinf : forall u v i, length u = p_d P -> length v = p_d P -> dom u -> dom v -> (i < p_n P)%nat -> Rabs (adot P i u - adot P i v) <= Dinf.
Hypothesis HL : forall p q b, Rabs (p_fd P p b - p_fd P q b) <= L * Rabs (p - q).
Hypothesis HL0 : 0 <= L.
Local Notation n := (p_n P).
Local Notation d := (p_d P).
Local Notation stepf := (sfw_step (K:=RN) pow23 P lmo LF SSublinear lipschitz bs).
Local Notation next := (nextV pow23 P LF lmo lipschitz bs).
Local Notation Good := (goodL P dom Dinf).
Local Notation m := (mLF P bs).
Lemma nextL_ok it b s : Good s -> batch_ok n bs b -> exists r, stepf it b s = Ok r /\ next s b = sfw_tick (si_next r) /\ Good (next s b).
Proof.
  intros G Hbt. destruct (G) as (((Ws & Ha & Hx) & _) & _). pose proof Hbt as (F & N & _).
  destruct (step_total pow23 P lmo LF SSublinear lipschitz bs W 0 b s) as (r & E); auto.
  { left. split; [reflexivity|discriminate]. }
  { apply (feasible_sized _ dom); [apply lmo_exact_feasible, Hl|apply Ws|exact Hx]. }
  destruct (good_stepL P pow23 lmo lipschitz bs dom Dinf W Hb Hc Hl HDinf 0 b s r G Hbt E) as (G' & _).
  eexists. split; [rewrite step_it, E; reflexivity|]. unfold nextV. rewrite E. cbn [si_next]. split; [reflexivity|exact G'].
Qed.
Variable Bt : list (list nat).
Variable c : nat.
Variable y : list R.
Variable s0 : sfw_state RN.
Hypothesis HBt : balanced n bs c Bt.
Hypothesis HN : (1 <= length Bt)%nat.
Hypothesis Ly : length y = d.
Hypothesis Hy : dom y.
Hypothesis G0 : Good s0.
Hypothesis T0 : sw_t s0 = 0%nat.
Local Notation st := (stV pow23 P LF lmo lipschitz bs s0).
Local Notation a t := (alf m (INR t)).
Local Notation e t := (elf m (INR t)).
Definition VL (w : list (list nat)) : R := Vs P (st w).
Definition UL (w : list (list nat)) : R := Us P (st w).
Definition hL (w : list (list nat)) : R := mean_loss P f (sw_x (st w)) - mean_loss P f y.
Lemma stL_good w : Forall (fun b => In b Bt) w -> Good (st w).
Proof. intros F. apply (fold_good pow23 P LF lmo lipschitz bs Good nextL_ok); [exact G0|]. apply (bal_oks n bs Bt c HBt w F). Qed.
Lemma BtL_ok b : In b Bt -> batch_ok n bs b.
Proof. intros Hi. apply (Forall_inv (bal_oks n bs Bt c HBt [b] ltac:(constructor; [exact Hi|constructor]))). Qed.
Lemma stL_step w b : Forall (fun b => In b Bt) w -> In b Bt -> exists r, stepf 0 b (st w) = Ok r /\ st (w ++ [b]) = sfw_tick (si_next r).
Proof.
  intros F Hi. destruct (nextL_ok 0 b (st w) (stL_good w F) (BtL_ok b Hi)) as (r & Er & Hr & _). exists r. split; [exact Er|].
  unfold stV. rewrite fold_left_app. cbn [fold_left]. fold (st w). exact Hr.
Qed.
Lemma stL_t : forall w, Forall (fun b => In b Bt) w -> sw_t (st w) = length w.
Proof.
  intros w. induction w as [|b w IH] using rev_ind; intros F; [exact T0|].
  apply Forall_app in F as (F & Fi). inversion Fi; subst. destruct (stL_step w b F ltac:(assumption)) as (r & Er & ->).
  destruct (good_stepL P pow23 lmo lipschitz bs dom Dinf W Hb Hc Hl HDinf 0 b (st w) r (stL_good w F) (BtL_ok b ltac:(assumption)) Er) as (_ & Ht & _).
  cbn [sfw_tick sw_t]. rewrite Ht, (IH F), app_length. cbn [length]. lia.
Qed.
(** a sum over the batches of sums over their members *)
Lemma sum_batches (w : nat -> R) : Rsum (map (fun b => Rsum (map w b)) Bt) = INR (length Bt) * (/ m * Rsum (map w (seq 0 n))).
Proof.
  destruct (balanced_sum n bs c Bt w HBt) as (Hs & Hcnt). assert (Hp : 0 < INR n) by (apply lt_0_INR; lia). assert (Hp2 : 0 < INR bs) by (apply lt_0_INR; lia).
  rewrite Hs. unfold mLF. apply (f_equal INR) in Hcnt. rewrite !mult_INR in Hcnt.
  assert (Hc2 : INR c = INR bs * INR (length Bt) / INR n) by (rewrite Hcnt; field; lra). rewrite Hc2. field. lra.
Qed.
Lemma DL_pos : 0 <= Dinf.
Proof. specialize (HDinf y y 0%nat Ly Ly Hy Hy ltac:(lia)). rewrite Rminus_eq_0, Rabs_R0 in HDinf. exact HDinf. Qed.
Lemma abs_prod u v D : Rabs u <= D -> Rabs v <= D -> Rabs (u * v) <= D * D.
Proof. intros H1 H2. rewrite Rabs_mult. apply Rmult_le_compat; auto using Rabs_pos. Qed.
Lemma VL_triv w : Forall (fun b => In b Bt) w -> 0 <= VL w <= INR n * (Dinf * Dinf).
Proof.
  intros F. unfold VL, Vs. split.
  - generalize (seq 0 n). intros l. induction l as [|z l IH]; cbn [map Rsum]; [lra|]. apply Rplus_le_le_0_compat; [apply Rle_0_sqr|exact IH].
  - eapply Rle_trans; [apply (Rsum_le_map _ (fun _ => Dinf * Dinf))|rewrite Rsum_const, seq_length; lra].
    intros i Hi. apply in_seq in Hi. eapply Rle_trans; [apply Rle_abs|]. apply abs_prod; apply (xi_bound P dom Dinf); try apply stL_good; auto; lia.
Qed.
Lemma sum_VL w : Forall (fun b => In b Bt) w -> let t := length w in
  Rsum (map (fun b => VL (w ++ [b])) Bt) <= INR (length Bt) * ((1 - / m * e t * (2 - e t)) * VL w + INR n * (Dinf * Dinf) * forceL m (INR t)).
Proof.
  intros F t. pose proof (stL_t w F) as Ht. fold t in Ht. set (s := st w) in *.
  assert (E : Rsum (map (fun b => VL (w ++ [b])) Bt) = INR (length Bt) * Rsum (map (fun i => (1 - / m) * qout P lmo (a t) s i + / m * qin P lmo (a t) (e t) s i) (seq 0 n))).
  { transitivity (Rsum (map (fun b => Rsum (map (qout P lmo (a t) s) (seq 0 n)) + Rsum (map (fun i => qin P lmo (a t) (e t) s i - qout P lmo (a t) s i) b)) Bt)).
    - f_equal. apply map_ext_in. intros b Hi. unfold VL. destruct (stL_step w b F Hi) as (r & Er & ->).
      destruct (sums_stepL P pow23 lmo lipschitz bs dom Dinf W Hb Hc Hl HDinf 0 b (st w) r (stL_good w F) (BtL_ok b Hi) Er) as (H & _).
      fold s in H. rewrite Ht in H. exact H.
    - rewrite Rsum_map_plus, Rsum_const, sum_batches. rewrite <- Rmult_plus_distr_l. f_equal. rewrite <- Rsum_map_mult, <- Rsum_map_plus. f_equal.
      apply map_ext. intros i. ring. }
  rewrite E. apply Rmult_le_compat_l; [apply pos_INR|].
  destruct Bt as [|b0 Bt'] eqn:EB; [cbn in HN; lia|]. rewrite <- EB in *. assert (Hb0 : In b0 Bt) by (rewrite EB; left; reflexivity).
  destruct (stL_step w b0 F Hb0) as (r & Er & _).
  unfold VL. fold s. unfold Vs. rewrite <- Rsum_map_mult.
  rewrite (Rmult_assoc (INR n)). replace (INR n) with (INR (length (seq 0 n))) by (rewrite seq_length; reflexivity).
  rewrite <- (Rsum_const (Dinf * Dinf * forceL m (INR t)) (seq 0 n)), <- Rsum_map_plus. apply Rsum_le_map. intros i Hi. apply in_seq in Hi.
  pose proof (xi_bound P dom Dinf s i (stL_good w F) ltac:(lia)) as Hx.
  pose proof (gi_bound P pow23 lmo lipschitz bs dom Dinf W Hb Hc Hl HDinf 0 b0 s r i (stL_good w F) (BtL_ok b0 Hb0) Er ltac:(lia)) as Hg.
  unfold qout, qin. pose proof (m_ge1 P bs Hb) as Hm. unfold forceL.
  set (al := a t) in *. set (et := e t) in *. set (x := xi P s i) in *. set (g := gi P lmo s i) in *.
  assert (Hk : kapL m (INR t) = / m * et - al - / m * et * (et - al)) by reflexivity. set (k := kapL m (INR t)) in *. clearbody al et x g k.
  assert (Hm1 : 0 < / m <= 1). { split; [apply Rinv_0_lt_compat; lra|]. rewrite <- Rinv_1. apply Rinv_le_contravar; lra. }
  set (q := (1 - / m) * (al * al) + / m * ((et - al) * (et - al))).
  match goal with |- ?l <= _ => replace l with ((1 - / m * et * (2 - et)) * (x * x) + 2 * (k * (x * g)) + q * (g * g)) end.
  2:{ rewrite Hk. unfold q. ring. }
  pose proof (abs_prod x g Dinf Hx Hg) as H1. pose proof (abs_prod g g Dinf Hg Hg) as H2.
  assert (H3 : k * (x * g) <= Rabs k * (Dinf * Dinf)).
  { eapply Rle_trans; [apply Rle_abs|]. rewrite Rabs_mult. apply Rmult_le_compat_l; [apply Rabs_pos|exact H1]. }
  assert (Hq : 0 <= q). { unfold q. apply Rplus_le_le_0_compat; apply Rmult_le_pos; try apply Rle_0_sqr; lra. }
  pose proof (Rmult_le_compat_l q _ _ Hq (Rle_trans _ _ _ (Rle_abs _) H2)). lra.
Qed.
Lemma sum_UL w : Forall (fun b => In b Bt) w -> Rsum (map (fun b => UL (w ++ [b])) Bt) = INR (length Bt) * ((1 - / m) * UL w).
Proof.
  intros F. transitivity (Rsum (map (fun b => UL w + Rsum (map (fun i => 0 - Rabs (un P (st w) i)) b)) Bt)).
  - f_equal. apply map_ext_in. intros b Hi. unfold UL. destruct (stL_step w b F Hi) as (r & Er & ->).
    destruct (sums_stepL P pow23 lmo lipschitz bs dom Dinf W Hb Hc Hl HDinf 0 b (st w) r (stL_good w F) (BtL_ok b Hi) Er) as (_ & H). exact H.
  - rewrite Rsum_map_plus, Rsum_const, sum_batches, Rsum_map_minus, Rsum_zero by reflexivity. fold (Us P (st w)). fold (UL w). ring.
Qed.
Lemma one_hL w b mu : Forall (fun b => In b Bt) w -> In b Bt -> 0 < mu -> let t := length w in
  hL (w ++ [b]) <= (1 - a t) * hL w + a t * (UL w * Dinf + L * (/ 2 * (mu * (Dinf * Dinf) + / INR n * VL w / mu))) + a t * a t / 2 * C.
Proof.
  intros F Hi Hmu t. destruct (stL_step w b F Hi) as (r & Er & Hs).
  pose proof (value_stepL P f pow23 lmo lipschitz bs dom C Dinf L W Hb Hc Hl Hconv HC HDinf HL 0 b (st w) r y (stL_good w F) (BtL_ok b Hi) Er Ly Hy) as H.
  cbn zeta in H. rewrite (stL_t w F) in H. fold t in H. unfold hL. rewrite Hs. cbn [sfw_tick sw_x]. eapply Rle_trans; [exact H|].
  apply Rplus_le_compat_r, Rplus_le_compat_l. apply Rmult_le_compat_l; [left; apply (alf_range P pow23 bs Hb t)|].
  rewrite Rmult_plus_distr_r. fold (UL w). apply Rplus_le_compat_l.
  assert (Hp : 0 < INR n) by (apply lt_0_INR; lia). assert (Hp' : 0 < / INR n) by (apply Rinv_0_lt_compat, Hp).
  assert (HA : As P (st w) * Dinf <= / 2 * (INR n * (mu * (Dinf * Dinf)) + VL w / mu)).
  { unfold As, VL, Vs. rewrite Rmult_comm, <- Rsum_map_mult.
    eapply Rle_trans; [apply (Rsum_le_map _ (fun i => / 2 * (mu * (Dinf * Dinf)) + / 2 * / mu * (xi P (st w) i * xi P (st w) i)))|].
    - intros i _. rewrite Rmult_comm. pose proof (young mu Dinf (xi P (st w) i) Hmu) as Q. unfold Rdiv in Q. lra.
    - rewrite Rsum_map_plus, Rsum_const, Rsum_map_mult, seq_length. unfold Rdiv. lra. }
  pose proof (Rmult_le_compat_l _ _ _ (Rmult_le_pos _ _ (Rlt_le _ _ Hp') HL0) HA) as H1.
  replace (/ INR n * L * (/ 2 * (INR n * (mu * (Dinf * Dinf)) + VL w / mu))) with (L * (/ 2 * (mu * (Dinf * Dinf) + / INR n * VL w / mu))) in H1 by (field; lra).
  lra.
Qed.
(** the recursions for the means *)
Variables vb ub hb mu : nat -> R.
Hypothesis Hv0 : INR n * (Dinf * Dinf) <= vb 0%nat.
Hypothesis Hvs : forall t, INR n * (Dinf * Dinf) <= vb (S t) \/ (1 - / m * e t * (2 - e t)) * vb t + INR n * (Dinf * Dinf) * forceL m (INR t) <= vb (S t).
Hypothesis Hu0 : UL [] <= ub 0%nat.
Hypothesis Hus : forall t, (1 - / m) * ub t <= ub (S t).
Hypothesis Hmu : forall t, 0 < mu t.
Hypothesis Hh0 : hL [] <= hb 0%nat.
Hypothesis Hhs : forall t, (1 - a t) * hb t + a t * (ub t * Dinf + L * (/ 2 * (mu t * (Dinf * Dinf) + / INR n * vb t / mu t))) + a t * a t / 2 * C <= hb (S t).
Lemma m1_range : 0 < / m <= 1.
Proof. pose proof (m_ge1 P bs Hb). split; [apply Rinv_0_lt_compat; lra|]. rewrite <- Rinv_1. apply Rinv_le_contravar; lra. Qed.
Lemma mean_VL : forall k, Rsum (map VL (seqs Bt k)) <= INR (length Bt ^ k) * vb k.
Proof.
  induction k as [|k IH].
  - cbn [seqs map Rsum Nat.pow INR]. pose proof (VL_triv [] (Forall_nil _)). lra.
  - pose proof (powN_pos_L Bt k HN) as Hq. assert (HN0 : 0 < INR (length Bt)) by (apply lt_0_INR; lia).
    destruct (Hvs k) as [Htr|Hrec].
    + eapply Rle_trans; [apply (Rsum_le_map _ (fun _ => vb (S k)))|rewrite Rsum_const, seqs_length; apply Rle_refl].
      intros w Hw. apply seqs_in in Hw as (_ & F). pose proof (VL_triv w F). lra.
    + rewrite seqs_sum. pose proof m1_range as Hm1. pose proof (elf_range m (INR k) (m_ge1 P bs Hb) (pos_INR k)) as He.
      assert (Hct : 0 <= 1 - / m * e k * (2 - e k)).
      { assert (/ m * (e k * (2 - e k)) <= 1 * 1); [|lra]. apply Rmult_le_compat; try lra.
        - apply Rmult_le_pos; lra.
        - assert (0 <= (1 - e k) * (1 - e k)) by apply Rle_0_sqr. lra. }
      set (ct := 1 - / m * e k * (2 - e k)) in *. set (fo := INR n * (Dinf * Dinf) * forceL m (INR k)) in *.
      eapply Rle_trans.
      * apply (Rsum_le_map _ (fun w => INR (length Bt) * ct * VL w + INR (length Bt) * fo)).
        intros w Hw. apply seqs_in in Hw as (Lw & F). pose proof (sum_VL w F) as H. cbn zeta in H. rewrite Lw in H. fold ct fo in H. lra.
      * rewrite Rsum_map_plus, Rsum_map_mult, Rsum_const, seqs_length. cbn [Nat.pow]. rewrite mult_INR.
        pose proof (Rmult_le_compat_l (INR (length Bt) * ct) _ _ ltac:(apply Rmult_le_pos; lra) IH) as H1.
        pose proof (Rmult_le_compat_l (INR (length Bt) * INR (length Bt ^ k)) _ _ ltac:(apply Rmult_le_pos; lra) Hrec) as H2. lra.
Qed.
Lemma mean_UL : forall k, Rsum (map UL (seqs Bt k)) <= INR (length Bt ^ k) * ub k.
Proof.
  induction k as [|k IH].
  - cbn [seqs map Rsum Nat.pow INR]. lra.
  - rewrite seqs_sum. pose proof (powN_pos_L Bt k HN) as Hq. assert (HN0 : 0 < INR (length Bt)) by (apply lt_0_INR; lia). pose proof m1_range as Hm1.
    rewrite (map_ext_in _ (fun w => INR (length Bt) * (1 - / m) * UL w)).
    2:{ intros w Hw. apply seqs_in in Hw as (Lw & F). rewrite (sum_UL w F). ring. }
    rewrite Rsum_map_mult. cbn [Nat.pow]. rewrite mult_INR.
    pose proof (Rmult_le_compat_l (INR (length Bt) * (1 - / m)) _ _ ltac:(apply Rmult_le_pos; lra) IH) as H1.
    pose proof (Rmult_le_compat_l (INR (length Bt) * INR (length Bt ^ k)) _ _ ltac:(apply Rmult_le_pos; lra) (Hus k)) as H2. lra.
Qed.
Lemma mean_hL : forall k, Rsum (map hL (seqs Bt k)) <= INR (length Bt ^ k) * hb k.
Proof.
  induction k as [|k IH].
  - cbn [seqs map Rsum Nat.pow INR]. lra.
  - rewrite seqs_sum. pose proof (powN_pos_L Bt k HN) as Hq. assert (HN0 : 0 < INR (length Bt)) by (apply lt_0_INR; lia).
    pose proof (alf_range P pow23 bs Hb k) as Hg. pose proof DL_pos as HD. pose proof (Hmu k) as Hmk. pose proof (mean_VL k) as HVk. pose proof (mean_UL k) as HUk.
    assert (Hp : 0 < / INR n) by (apply Rinv_0_lt_compat, lt_0_INR; lia). specialize (Hhs k).
    set (al := a k) in *. set (mk := mu k) in *. set (q := length Bt) in *. assert (Him : 0 < / mk) by (apply Rinv_0_lt_compat, Hmk).
    eapply Rle_trans.
    + apply (Rsum_le_map _ (fun w => INR q * (1 - al) * hL w + (INR q * (al * Dinf) * UL w + (INR q * (al * L * / 2 * / INR n * / mk) * VL w + INR q * (al * (L * (/ 2 * (mk * (Dinf * Dinf)))) + al * al / 2 * C))))).
      intros w Hw. apply seqs_in in Hw as (Lw & F).
      eapply Rle_trans; [apply (Rsum_le_map _ (fun _ => (1 - al) * hL w + al * (UL w * Dinf + L * (/ 2 * (mk * (Dinf * Dinf) + / INR n * VL w / mk))) + al * al / 2 * C))|].
      * intros b Hi. pose proof (one_hL w b mk F Hi Hmk) as H. cbn zeta in H. rewrite Lw in H. exact H.
      * rewrite Rsum_const. fold q. apply Req_le. unfold Rdiv. ring.
    + rewrite !Rsum_map_plus, !Rsum_map_mult, Rsum_const, seqs_length. cbn [Nat.pow]. fold q. rewrite mult_INR. fold q in Hq, IH, HVk, HUk.
      clearbody al mk q.
      pose proof (Rmult_le_compat_l (INR q * (1 - al)) _ _ ltac:(apply Rmult_le_pos; lra) IH) as H1.
      pose proof (Rmult_le_compat_l (INR q * (al * Dinf)) _ _ ltac:(repeat apply Rmult_le_pos; lra) HUk) as H2.
      pose proof (Rmult_le_compat_l (INR q * (al * L * / 2 * / INR n * / mk)) _ _ ltac:(repeat apply Rmult_le_pos; lra) HVk) as H3.
      pose proof (Rmult_le_compat_l (INR q * INR (q ^ k)) _ _ ltac:(apply Rmult_le_pos; lra) Hhs) as H4. unfold Rdiv in *. lra.
Qed.
End Mean.
