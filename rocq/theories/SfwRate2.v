(** * minimize_sfw, variant SAG: rate of the full-batch run and mean rate over all index sequences *)
From Coq Require Import Reals Lra Lia List Bool ZArith Permutation.
From Verif Require Import Num Vec Spec SpecSparse RVec ConvexFacts ModelConstraint ModelPenalty PenaltyFacts PenaltyFacts2 ModelUtilsArr UtilsMain
  ModelFrankWolfe FrankWolfeConv FrankWolfeMain ModelRandomized SpecFiniteSum RandomizedFacts RandomizedProx RandomizedSaga ModelSfw SpecSfw SfwFacts SfwStep SfwMain SfwMain2 SfwMain3 SfwRate.
Import ListNotations.
Local Open Scope R_scope.

(** ** words *)
Lemma words_in n : forall k w, In w (words n k) <-> length w = k /\ Forall (fun i => (i < n)%nat) w.
Proof.
  induction k as [|k IH]; intros w; cbn [words].
  - split; [intros [<-|[]]; auto|]. intros [L _]. destruct w; [left; reflexivity|discriminate L].
  - rewrite in_flat_map. split.
    + intros (v & Hv & Hw). apply in_map_iff in Hw as (i & <- & Hi). apply in_seq in Hi. apply IH in Hv as (L & F).
      rewrite app_length, L. cbn [length]. split; [lia|]. apply Forall_app. split; [exact F|]. constructor; [lia|constructor].
    + intros (L & F). destruct (exists_last (l := w)) as (v & i & ->); [intros ->; discriminate L|].
      rewrite app_length in L. cbn [length] in L. apply Forall_app in F as (F & Fi). inversion Fi; subst.
      exists v. split; [apply IH; split; [lia|exact F]|]. apply in_map_iff. exists i. split; [reflexivity|apply in_seq; lia].
Qed.
Lemma words_length n k : length (words n k) = (n ^ k)%nat.
Proof.
  induction k as [|k IH]; [reflexivity|]. cbn [words Nat.pow]. rewrite <- IH. generalize (words n k). induction l as [|w l IHl]; [cbn; lia|].
  cbn [flat_map length]. rewrite app_length, IHl, map_length, seq_length. lia.
Qed.
Lemma words_sum n k (G : list nat -> R) :
  Rsum (map G (words n (S k))) = Rsum (map (fun w => Rsum (map (fun i => G (w ++ [i])) (seq 0 n))) (words n k)).
Proof.
  cbn [words]. generalize (words n k). induction l as [|w l IHl]; [reflexivity|].
  cbn [flat_map map Rsum]. rewrite map_app, Rsum_app, IHl, map_map. reflexivity.
Qed.
Lemma Rsum_const {A} (c : R) (l : list A) : Rsum (map (fun _ => c) l) = INR (length l) * c.
Proof. induction l as [|a l IH]; [cbn; ring|]. cbn [map Rsum length]. rewrite IH, S_INR. ring. Qed.
Lemma draws_concat n (w : list nat) : forall k a, concat (map (epoch_draws n w) (seq a k)) = firstn (k * n) (skipn (a * n) w).
Proof.
  induction k as [|k IH]; intros a; [reflexivity|]. cbn [seq map concat Nat.mul]. rewrite IH. unfold epoch_draws.
  replace (S a * n)%nat with (a * n + n)%nat by lia.
  assert (H : forall m (v : list nat), firstn n v ++ firstn m (skipn n v) = firstn (n + m) v).
  { clear. intros m. induction n as [|n IH]; intros v; [reflexivity|]. destruct v as [|x v]; [rewrite !firstn_nil; reflexivity|].
    cbn [firstn skipn app Nat.add]. rewrite IH. reflexivity. }
  rewrite <- H. f_equal. f_equal. clear. rewrite Nat.add_comm. generalize (a * n)%nat as m. intros m. revert w. induction m as [|m IH]; intros w.
  - rewrite Nat.add_0_r. reflexivity.
  - destruct w as [|x w]; [rewrite !skipn_nil; reflexivity|]. rewrite Nat.add_succ_r. cbn [skipn]. apply IH.
Qed.

(** ** the run as a fold, when tol <= 0 *)
Lemma bind_out {A B C} (m : result A) (k1 : A -> result B) (k2 : A -> result C) (h : C -> result B) :
  (forall a, k1 a = bind (k2 a) h) -> bind m k1 = bind (bind m k2) h.
Proof. intros H. destruct m; [apply H|reflexivity]. Qed.
Lemma step_it {K : Num} (pow23 : K -> K) P lmo variant rule lipschitz bs it batch s :
  sfw_step pow23 P lmo variant rule lipschitz bs it batch s =
  bind (sfw_step pow23 P lmo variant rule lipschitz bs 0 batch s)
    (fun r => Ok (mkSfwI it (si_batch r) (si_prev r) (si_est r) (si_lmo r) (si_gamma r) (si_next r))).
Proof.
  unfold sfw_step. apply bind_out; intros sizes. apply bind_out; intros prev. apply bind_out; intros [[dual sigma] lf].
  apply bind_out; intros new. apply bind_out; intros u. apply bind_out; intros [est o]. apply bind_out; intros act. reflexivity.
Qed.

Section Fold.
Variable pow23 : R -> R.
Variable P : problem RN.
Variable lmo : lmo_fun RN.
Variable lipschitz : option RN.
Variable dom : list R -> Prop.
Variable tol : R.
Hypothesis W : problem_wf P.
Hypothesis Hn : (1 <= p_n P)%nat.
Hypothesis Hc : convex_set (p_d P) dom.
Hypothesis Hl : lmo_exact (p_d P) dom lmo.
Local Notation n := (p_n P).
Local Notation d := (p_d P).
Local Notation stepf := (sfw_step (K:=RN) pow23 P lmo SAG SSublinear lipschitz 1).
Local Notation Good := (good P dom).
Definition next (s : sfw_state RN) (i : nat) : sfw_state RN :=
  match stepf 0 [i] s with Ok r => sfw_tick (si_next r) | Err _ => s end.
Lemma one_batch i : (i < n)%nat -> batch_ok n 1 [i].
Proof. intros Hi. split; [constructor; [exact Hi|constructor]|]. split; [repeat constructor; intros []|reflexivity]. Qed.
Lemma next_ok it i s : Good s -> (i < n)%nat -> exists r, stepf it [i] s = Ok r /\ next s i = sfw_tick (si_next r) /\ Good (next s i).
Proof.
  intros G Hi. destruct (G) as ((Ws & Ha & Hx) & _). pose proof (one_batch i Hi) as Hbt. pose proof Hbt as (F & N & _).
  destruct (step_total pow23 P lmo SAG SSublinear lipschitz 1 W 0 [i] s) as (r & E); auto.
  { left. split; [reflexivity|discriminate]. }
  { apply (feasible_sized _ dom); [apply lmo_exact_feasible, Hl|apply Ws|exact Hx]. }
  destruct (good_step P W pow23 lmo lipschitz 1 dom ltac:(lia) Hc Hl 0 [i] s r G Hbt E) as (G' & _).
  eexists. split; [rewrite step_it, E; reflexivity|]. unfold next. rewrite E. cbn [si_next]. split; [reflexivity|exact G'].
Qed.
Lemma fold_good : forall w s, Good s -> Forall (fun i => (i < n)%nat) w -> Good (fold_left next w s).
Proof.
  induction w as [|i w IH]; intros s G F; [exact G|]. inversion F; subst. cbn [fold_left]. apply IH; [|assumption].
  destruct (next_ok 0 i s G) as (r & _ & _ & H); auto.
Qed.
Hypothesis Htol : tol <= 0.
Lemma never_quiet (r : sfw_iter RN) : nltb RN (sfw_moved r) tol = false.
Proof.
  apply Rltb_false. unfold sfw_moved. rewrite vnorm1_R. pose proof (l1_nonneg (vsub (K:=RN) (sw_x (si_next r)) (sw_x (si_prev r)))). lra.
Qed.
Lemma while_fold draws it : Forall (fun i => (i < n)%nat) (draws it) -> length (draws it) = n -> forall fuel k s succ log, (n - k < fuel)%nat -> (k <= n)%nat -> Good s ->
  exists log', sfw_while (K:=RN) pow23 P lmo SAG SSublinear lipschitz 1 tol fuel (draws it) it k s succ log
    = Ok (fold_left next (skipn k (draws it)) s, succ, log').
Proof.
  intros F Ln.
  induction fuel as [|fuel IH]; intros k s succ log Hf Hk G; [lia|]. cbn [sfw_while]. rewrite Ln.
  destruct (Nat.ltb_spec k n) as [Hlt|Hge].
  - assert (Hsl : exists i, slice (draws it) k (Nat.min (k + 1) n) = [i] /\ skipn k (draws it) = i :: skipn (k + 1) (draws it) /\ (i < n)%nat).
    { unfold slice. rewrite Nat.min_l by lia. replace (k + 1 - k)%nat with 1%nat by lia.
      destruct (skipn k (draws it)) as [|i l] eqn:Es.
      - apply (f_equal (@length nat)) in Es. rewrite skipn_length in Es. cbn in Es. lia.
      - exists i. split; [reflexivity|]. split.
        + f_equal. assert (H : forall m (v : list nat), skipn (m + 1) v = tl (skipn m v)).
          { clear. induction m as [|m IH]; intros v; [destruct v; reflexivity|]. destruct v as [|a v]; [reflexivity|]. cbn [skipn Nat.add]. apply IH. }
          rewrite H, Es. reflexivity.
        + rewrite Forall_forall in F. apply F. apply (skipn_in i k). rewrite Es. left. reflexivity. }
    destruct Hsl as (i & -> & -> & Hi). destruct (next_ok it i s G Hi) as (r & Er & Hr & G').
    rewrite Er. cbn [bind]. rewrite never_quiet. rewrite <- Hr. cbn [fold_left]. apply IH; [lia|lia|exact G'].
  - assert (Hs : skipn k (draws it) = []) by (apply skipn_all2; lia). rewrite Hs. cbn [fold_left]. eauto.
Qed.
Lemma epochs_fold draws : forall k it s log, (1 <= k)%nat -> Good s ->
  (forall a, (it <= a < it + k)%nat -> Forall (fun i => (i < n)%nat) (draws a) /\ length (draws a) = n) ->
  exists r, sfw_epochs (K:=RN) pow23 P lmo SAG SSublinear lipschitz 1 tol draws k it s false log = Ok r /\
    sr_x r = sw_x (fold_left next (concat (map draws (seq it k))) s) /\ sr_success r = false.
Proof.
  induction k as [|k IH]; intros it s log Hk G V; [lia|]. cbn [sfw_epochs Nat.eqb].
  destruct (V it ltac:(lia)) as (F & Ln).
  destruct (while_fold draws it F Ln (S (length (draws it))) 0 s false log ltac:(lia) ltac:(lia) G) as (log' & Ew).
  rewrite Ew. cbn [bind skipn]. cbn [seq map concat]. rewrite fold_left_app.
  pose proof (fold_good (draws it) s G F) as G'. destruct k as [|k].
  - eexists. split; [reflexivity|]. split; reflexivity.
  - apply IH; [lia|exact G'|]. intros a Ha. apply V. lia.
Qed.
End Fold.

(** ** means over all index sequences *)
Section Mean.
Variable pow23 : R -> R.
Variable P : problem RN.
Variable f : R -> R -> R.
Variable lmo : lmo_fun RN.
Variable lipschitz : option RN.
Variable dom : list R -> Prop.
Variables C Dinf D1 L B : R.
Variable y : list R.
Variable s0 : sfw_state RN.
Hypothesis W : problem_wf P.
Hypothesis Hn : (1 <= p_n P)%nat.
Hypothesis Hc : convex_set (p_d P) dom.
Hypothesis Hl : lmo_exact (p_d P) dom lmo.
Hypothesis Hconv : convex_loss P f.
Hypothesis HC : curvature (p_d P) dom (mean_loss P f) (grad_list P) C.
Hypothesis HDinf : forall u v i, length u = p_d P -> length v = p_d P -> dom u -> dom v -> (i < p_n P)%nat -> Rabs (adot P i u - adot P i v) <= Dinf.
Hypothesis HD1 : forall u v, length u = p_d P -> length v = p_d P -> dom u -> dom v ->
  Rsum (map (fun i => Rabs (adot P i u - adot P i v)) (seq 0 (p_n P))) <= D1.
Hypothesis HL : forall p q b, Rabs (p_fd P p b - p_fd P q b) <= L * Rabs (p - q).
Hypothesis HL0 : 0 <= L.
Hypothesis Ly : length y = p_d P.
Hypothesis Hy : dom y.
Hypothesis G0 : good P dom s0.
Hypothesis T0 : sw_t s0 = 0%nat.
Hypothesis HB1 : 2 * INR (p_n P) * dual_err P (sw_dual s0) (sw_x s0) <= B.
Hypothesis HB2 : 4 * INR (p_n P) * L * D1 <= B.
Local Notation n := (p_n P).
Local Notation d := (p_d P).
Local Notation nx := (next pow23 P lmo lipschitz).
Definition st (w : list nat) : sfw_state RN := fold_left nx w s0.
Definition E (w : list nat) : R := dual_err P (sw_dual (st w)) (sw_x (st w)).
Definition h (w : list nat) : R := mean_loss P f (sw_x (st w)) - mean_loss P f y.
Lemma st_good w : Forall (fun i => (i < n)%nat) w -> good P dom (st w).
Proof. intros F. apply (fold_good pow23 P lmo lipschitz dom W Hn Hc Hl); assumption. Qed.
Lemma st_t : forall w, Forall (fun i => (i < n)%nat) w -> sw_t (st w) = length w.
Proof.
  intros w. induction w as [|i w IH] using rev_ind; intros F; [exact T0|].
  apply Forall_app in F as (F & Fi). inversion Fi; subst. unfold st. rewrite fold_left_app, app_length. cbn [fold_left length].
  fold (st w). pose proof (st_good w F) as G.
  destruct (next_ok pow23 P lmo lipschitz dom W Hn Hc Hl 0 i (st w) G) as (r & Er & -> & _); auto.
  destruct (good_step P W pow23 lmo lipschitz 1 dom ltac:(lia) Hc Hl 0 [i] (st w) r G (one_batch P i ltac:(assumption)) Er) as (_ & _ & Ht & _).
  cbn [sfw_tick sw_t]. rewrite Ht, (IH F). lia.
Qed.
Lemma n_pos : 1 <= INR n.
Proof. change 1 with (INR 1). apply le_INR. exact Hn. Qed.
(** the error after the update of one sample *)
Lemma err_upd (dual dual' x : list R) i : (i < n)%nat -> (forall k, k <> i -> nth k dual' 0 = nth k dual 0) ->
  nth i dual' 0 = / INR n * loss_deriv P x i ->
  dual_err P dual' x = dual_err P dual x - Rabs (nth i dual 0 - / INR n * loss_deriv P x i).
Proof.
  intros Hi Hk He. unfold dual_err.
  rewrite (Rsum_upd_one P (fun k => Rabs (nth k dual 0 - / INR n * loss_deriv P x k)) (fun k => Rabs (nth k dual' 0 - / INR n * loss_deriv P x k)) n i Hi).
  - rewrite He, Rminus_eq_0, Rabs_R0. ring.
  - intros k _ Hne. rewrite Hk by exact Hne. reflexivity.
Qed.
Definition gam (k : nat) : R := 2 / (INR k + 2).
Lemma gam_pos k : 0 < gam k <= 1.
Proof.
  unfold gam. pose proof (pos_INR k). split; [apply Rdiv_lt_0_compat; lra|]. apply Rmult_le_reg_r with (INR k + 2); [lra|].
  unfold Rdiv. rewrite Rmult_assoc, Rinv_l by lra. lra.
Qed.
Lemma one_word w i : Forall (fun i => (i < n)%nat) w -> (i < n)%nat ->
  let e := Rabs (nth i (sw_dual (st w) : list R) 0 - / INR n * loss_deriv P (sw_x (st w)) i) in
  E (w ++ [i]) <= E w - e + / INR n * (L * (gam (length w) * D1)) /\
  h (w ++ [i]) <= (1 - gam (length w)) * h w + gam (length w) * ((E w - e) * Dinf) + gam (length w) * gam (length w) / 2 * C.
Proof.
  intros F Hi e. pose proof (st_good w F) as G. pose proof (one_batch P i Hi) as Hbt.
  destruct (next_ok pow23 P lmo lipschitz dom W Hn Hc Hl 0 i (st w) G Hi) as (r & Er & Hr & _).
  destruct (good_step P W pow23 lmo lipschitz 1 dom ltac:(lia) Hc Hl 0 [i] (st w) r G Hbt Er) as (_ & _ & Ht & Hout & Hin & _).
  assert (Hd : dual_err P (sw_dual (si_next r)) (sw_x (st w)) = E w - e).
  { apply err_upd; [exact Hi| |].
    - intros k Hk. apply Hout. intros [<-|[]]. congruence.
    - apply Hin. left. reflexivity. }
  assert (Hs : st (w ++ [i]) = sfw_tick (si_next r)).
  { unfold st. rewrite fold_left_app. cbn [fold_left]. fold (st w). exact Hr. }
  unfold E at 1, h at 1. rewrite Hs. cbn [sfw_tick sw_x sw_dual].
  pose proof (err_step P W Hn pow23 lmo lipschitz 1 dom D1 L) as H1.
  pose proof (value_step P f W Hn pow23 lmo lipschitz 1 dom C Dinf) as H2.
  split.
  - rewrite <- Hd. unfold gam. rewrite <- (st_t w F). eapply H1; eauto.
  - rewrite <- Hd. unfold gam. rewrite <- (st_t w F). eapply H2; eauto.
Qed.

Lemma sum_over_i (v : nat -> R) a : Rsum (map (fun i => a - v i) (seq 0 n)) = INR n * a - Rsum (map v (seq 0 n)).
Proof. rewrite Rsum_map_minus, Rsum_const, seq_length. reflexivity. Qed.
Lemma sum_E w : Forall (fun i => (i < n)%nat) w ->
  Rsum (map (fun i => E (w ++ [i])) (seq 0 n)) <= (INR n - 1) * E w + L * (gam (length w) * D1).
Proof.
  intros F. pose proof n_pos as Hp. set (k := / INR n * (L * (gam (length w) * D1))).
  eapply Rle_trans.
  - apply (Rsum_le_map _ (fun i => (E w + k) - Rabs (nth i (sw_dual (st w) : list R) 0 - / INR n * loss_deriv P (sw_x (st w)) i))).
    intros i Hi. apply in_seq in Hi. pose proof (one_word w i F ltac:(lia)) as (H & _). unfold k. lra.
  - rewrite sum_over_i. fold (dual_err P (sw_dual (st w)) (sw_x (st w))). fold (E w).
    assert (H : INR n * k = L * (gam (length w) * D1)) by (unfold k; field; lra). lra.
Qed.
Lemma sum_h w : Forall (fun i => (i < n)%nat) w -> 0 <= Dinf ->
  Rsum (map (fun i => h (w ++ [i])) (seq 0 n)) <=
    INR n * ((1 - gam (length w)) * h w) + gam (length w) * ((INR n - 1) * E w * Dinf) + INR n * (gam (length w) * gam (length w) / 2 * C).
Proof.
  intros F HD. pose proof n_pos as Hp. pose proof (gam_pos (length w)) as Hg. set (g := gam (length w)) in *.
  set (a := (1 - g) * h w + g * (E w * Dinf) + g * g / 2 * C).
  eapply Rle_trans.
  - apply (Rsum_le_map _ (fun i => a - (g * Dinf) * Rabs (nth i (sw_dual (st w) : list R) 0 - / INR n * loss_deriv P (sw_x (st w)) i))).
    intros i Hi. apply in_seq in Hi. pose proof (one_word w i F ltac:(lia)) as (_ & H). fold g in H. unfold a. lra.
  - rewrite sum_over_i, Rsum_map_mult. fold (dual_err P (sw_dual (st w)) (sw_x (st w))). fold (E w). unfold a. lra.
Qed.
Lemma rate_E_arith (t N : R) : 0 <= t -> 1 <= N -> 0 <= B ->
  (N - 1) * (B / (t + 2 * N)) + 2 / (t + 2) * (B / (4 * N)) <= N * (B / (t + 1 + 2 * N)).
Proof.
  intros Ht HN HB.
  assert (H : 0 <= N * (B / (t + 1 + 2 * N)) - (N - 1) * (B / (t + 2 * N)) - 2 / (t + 2) * (B / (4 * N))); [|lra].
  replace (N * (B / (t + 1 + 2 * N)) - (N - 1) * (B / (t + 2 * N)) - 2 / (t + 2) * (B / (4 * N)))
    with (B * (2 * N * (t + 2) * (t + N + 1) - (t + 1 + 2 * N) * (t + 2 * N)) / (2 * N * (t + 2) * (t + 1 + 2 * N) * (t + 2 * N))) by (field; lra).
  apply Rmult_le_pos.
  - apply Rmult_le_pos; [exact HB|]. nra.
  - left. apply Rinv_0_lt_compat. repeat apply Rmult_lt_0_compat; lra.
Qed.
Lemma B_nonneg : 0 <= B.
Proof.
  eapply Rle_trans; [|exact HB1]. pose proof n_pos. apply Rmult_le_pos; [lra|]. unfold dual_err.
  generalize (seq 0 n). induction l as [|a l IH]; cbn [map Rsum]; [lra|]. apply Rplus_le_le_0_compat; [apply Rabs_pos|exact IH].
Qed.
Lemma pow_pos' k : 0 < INR (n ^ k).
Proof. apply lt_0_INR. pose proof (Nat.pow_nonzero n k). lia. Qed.
Lemma mean_E : forall k, Rsum (map E (words n k)) <= INR (n ^ k) * (B / (INR k + 2 * INR n)).
Proof.
  pose proof n_pos as Hp. pose proof B_nonneg as HB.
  induction k as [|k IH].
  - cbn [words map Rsum Nat.pow INR]. assert (H : E [] <= B / (0 + 2 * INR n)); [|lra].
    apply Rmult_le_reg_r with (2 * INR n); [lra|]. unfold E, st. cbn [fold_left].
    replace (B / (0 + 2 * INR n) * (2 * INR n)) with B by (field; lra). lra.
  - rewrite words_sum. eapply Rle_trans.
    + apply (Rsum_le_map _ (fun w => (INR n - 1) * E w + L * (gam k * D1))).
      intros w Hw. apply words_in in Hw as (Lw & F). pose proof (sum_E w F) as H. rewrite Lw in H. exact H.
    + rewrite Rsum_map_plus, Rsum_map_mult, Rsum_const, words_length.
      assert (H1 : (INR n - 1) * Rsum (map E (words n k)) <= (INR n - 1) * (INR (n ^ k) * (B / (INR k + 2 * INR n)))) by (apply Rmult_le_compat_l; lra).
      pose proof (rate_E_arith (INR k) (INR n) (pos_INR k) Hp HB) as H2.
      assert (H3 : L * (gam k * D1) <= 2 / (INR k + 2) * (B / (4 * INR n)) * INR n * / INR n).
      { fold (gam k). rewrite Rmult_assoc, Rinv_r, Rmult_1_r by lra. pose proof (gam_pos k).
        replace (L * (gam k * D1)) with (gam k * (L * D1)) by ring. apply Rmult_le_compat_l; [lra|].
        apply Rmult_le_reg_r with (4 * INR n); [lra|]. replace (B / (4 * INR n) * (4 * INR n)) with B by (field; lra). lra. }
      rewrite Rmult_assoc, Rinv_r, Rmult_1_r in H3 by lra.
      pose proof (pow_pos' k) as Hq.
      rewrite S_INR. cbn [Nat.pow]. rewrite mult_INR.
      assert (H4 : INR (n ^ k) * ((INR n - 1) * (B / (INR k + 2 * INR n)) + L * (gam k * D1)) <= INR (n ^ k) * (INR n * (B / (INR k + 1 + 2 * INR n)))).
      { apply Rmult_le_compat_l; lra. }
      lra.
Qed.
Lemma Dinf_nonneg : 0 <= Dinf.
Proof. specialize (HDinf y y 0%nat Ly Ly Hy Hy ltac:(lia)). rewrite Rminus_eq_0, Rabs_R0 in HDinf. exact HDinf. Qed.
Lemma C_nonneg : 0 <= C.
Proof.
  specialize (HC y y 1 Ly Ly Hy Hy ltac:(lra)).
  assert (E1 : lin (1 - 1) y 1 y = y). { apply list_ext with (d := 0); [leng|]. intros i Hi. rewrite nth_lin by reflexivity. lra. }
  assert (E2 : vminus y y = zeros d). { apply list_ext with (d := 0); [leng|]. intros i Hi. rewrite nth_vminus by reflexivity. rewrite nth_zeros. lra. }
  rewrite E1, E2, dot_zeros_r in HC. lra.
Qed.
Lemma mean_h : forall k, (1 <= k)%nat -> Rsum (map h (words n k)) <= INR (n ^ k) * (2 * (C + Dinf * B) / (INR k + 2)).
Proof.
  pose proof n_pos as Hp. pose proof B_nonneg as HB. pose proof Dinf_nonneg as HD. pose proof C_nonneg as HC0.
  set (M := C + Dinf * B). assert (HM : 0 <= M) by (unfold M; pose proof (Rmult_le_pos _ _ HD HB); lra).
  assert (Step : forall k, (k = 0%nat \/ Rsum (map h (words n k)) <= INR (n ^ k) * (2 * M / (INR k + 2))) ->
    Rsum (map h (words n (S k))) <= INR (n ^ S k) * (2 * M / (INR (S k) + 2))).
  { intros k Hk. rewrite words_sum. pose proof (gam_pos k) as Hg. pose proof (pow_pos' k) as Hq. pose proof (pos_INR k) as Hk0.
    assert (H1 : Rsum (map (fun w => Rsum (map (fun i => h (w ++ [i])) (seq 0 n))) (words n k)) <=
      INR n * (1 - gam k) * Rsum (map h (words n k)) + (gam k * (INR n - 1) * Dinf) * Rsum (map E (words n k)) + INR (n ^ k) * (INR n * (gam k * gam k / 2 * C))).
    { rewrite <- !Rsum_map_mult, <- (words_length n k), <- (Rsum_const (INR n * (gam k * gam k / 2 * C)) (words n k)), <- !Rsum_map_plus.
      apply Rsum_le_map. intros w Hw. apply words_in in Hw as (Lw & F). pose proof (sum_h w F HD) as H. rewrite Lw in H. lra. }
    assert (H2 : (gam k * (INR n - 1) * Dinf) * Rsum (map E (words n k)) <= INR (n ^ k) * (INR n * (gam k * (Dinf * B / (INR k + 2))))).
    { eapply Rle_trans; [apply Rmult_le_compat_l; [apply Rmult_le_pos; [apply Rmult_le_pos|]; lra|apply mean_E]|].
      assert (Hb : B / (INR k + 2 * INR n) <= B / (INR k + 2)).
      { apply Rmult_le_compat_l; [exact HB|]. apply Rinv_le_contravar; lra. }
      assert (Hb0 : 0 <= B / (INR k + 2 * INR n)) by (apply Rmult_le_pos; [exact HB|left; apply Rinv_0_lt_compat; lra]).
      assert (Hx : (INR n - 1) * (B / (INR k + 2 * INR n)) <= INR n * (B / (INR k + 2))) by nra.
      replace (gam k * (INR n - 1) * Dinf * (INR (n ^ k) * (B / (INR k + 2 * INR n)))) with ((gam k * Dinf * INR (n ^ k)) * ((INR n - 1) * (B / (INR k + 2 * INR n)))) by ring.
      replace (INR (n ^ k) * (INR n * (gam k * (Dinf * B / (INR k + 2))))) with ((gam k * Dinf * INR (n ^ k)) * (INR n * (B / (INR k + 2)))) by (unfold Rdiv; ring).
      apply Rmult_le_compat_l; [apply Rmult_le_pos; [apply Rmult_le_pos|]; lra|exact Hx]. }
    assert (H3 : INR n * (1 - gam k) * Rsum (map h (words n k)) <= INR (n ^ k) * (INR n * ((1 - gam k) * (2 * M / (INR k + 2))))).
    { destruct Hk as [->|Hk].
      - assert (Hz : 1 - gam 0 = 0) by (unfold gam; cbn [INR]; field). rewrite Hz. lra.
      - replace (INR (n ^ k) * (INR n * ((1 - gam k) * (2 * M / (INR k + 2))))) with (INR n * (1 - gam k) * (INR (n ^ k) * (2 * M / (INR k + 2)))) by ring.
        apply Rmult_le_compat_l; [apply Rmult_le_pos; lra|exact Hk]. }
    cbn [Nat.pow]. rewrite mult_INR.
    assert (H4 : (1 - gam k) * (2 * M / (INR k + 2)) + gam k * (Dinf * B / (INR k + 2)) + gam k * gam k / 2 * C <= 2 * M / (INR (S k) + 2)).
    { rewrite S_INR. unfold gam. set (t := INR k) in *.
      replace ((1 - 2 / (t + 2)) * (2 * M / (t + 2)) + 2 / (t + 2) * (Dinf * B / (t + 2)) + 2 / (t + 2) * (2 / (t + 2)) / 2 * C)
        with (2 * M * ((t + 1) / ((t + 2) * (t + 2)))) by (unfold M; field; lra).
      replace (2 * M / (t + 1 + 2)) with (2 * M * / (t + 3)) by (unfold Rdiv; do 2 f_equal; lra).
      apply Rmult_le_compat_l; [lra|]. apply Rmult_le_reg_r with ((t + 2) * (t + 2) * (t + 3)); [repeat apply Rmult_lt_0_compat; lra|].
      replace ((t + 1) / ((t + 2) * (t + 2)) * ((t + 2) * (t + 2) * (t + 3))) with ((t + 1) * (t + 3)) by (field; lra).
      replace (/ (t + 3) * ((t + 2) * (t + 2) * (t + 3))) with ((t + 2) * (t + 2)) by (field; lra). nra. }
    assert (H5 : INR (n ^ k) * (INR n * ((1 - gam k) * (2 * M / (INR k + 2)) + gam k * (Dinf * B / (INR k + 2)) + gam k * gam k / 2 * C)) <= INR (n ^ k) * (INR n * (2 * M / (INR (S k) + 2)))).
    { apply Rmult_le_compat_l; [lra|]. apply Rmult_le_compat_l; [lra|exact H4]. }
    lra. }
  induction k as [|k IH]; intros Hk; [lia|]. apply Step. destruct k as [|k]; [left; reflexivity|right; apply IH; lia].
Qed.
End Mean.
