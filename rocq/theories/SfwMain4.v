(** * minimize_sfw, variant SAG: rates *)
From Coq Require Import Reals Lra Lia List Bool ZArith Permutation.
From Verif Require Import Num Vec Spec SpecSparse RVec ConvexFacts ModelConstraint ModelPenalty PenaltyFacts PenaltyFacts2 ModelUtilsArr UtilsMain
  ModelFrankWolfe FrankWolfeConv FrankWolfeMain ModelRandomized SpecFiniteSum RandomizedFacts RandomizedProx RandomizedSaga ModelSfw SpecSfw SfwFacts SfwStep SfwMain SfwMain2 SfwMain3 SfwRate SfwRate2.
Import ListNotations.
Local Open Scope R_scope.

(** a smooth loss has bounded curvature *)
Lemma main_C91_curvature : forall (P : problem RN) (f : R -> R -> R) (dom : list R -> Prop) (L D2 : R),
  (1 <= p_n P)%nat -> 0 <= L ->
  (forall p q b, f q b <= f p b + p_fd P p b * (q - p) + L / 2 * ((q - p) * (q - p))) ->
  (forall u v, length u = p_d P -> length v = p_d P -> dom u -> dom v ->
     Rsum (map (fun i => (adot P i u - adot P i v) * (adot P i u - adot P i v)) (seq 0 (p_n P))) <= D2) ->
  curvature (p_d P) dom (mean_loss P f) (grad_list P) (L * D2 / INR (p_n P)).
Proof.
  intros P f dom L D2 Hn HL Hs HD x s t Lx Ls Hx Hss Ht.
  assert (Hp : 0 < / INR (p_n P)) by (apply Rinv_0_lt_compat, lt_0_INR; lia).
  rewrite grad_dot by leng. specialize (HD s x Ls Lx Hss Hx). unfold mean_loss.
  assert (H : Rsum (map (fun i => f (adot P i (lin (1 - t) x t s)) (nth i (p_b P) 0)) (seq 0 (p_n P))) <=
    Rsum (map (fun i => f (adot P i x) (nth i (p_b P) 0)) (seq 0 (p_n P))) + t * Rsum (map (fun i => loss_deriv P x i * adot P i (vminus s x)) (seq 0 (p_n P)))
    + L / 2 * (t * t) * Rsum (map (fun i => (adot P i s - adot P i x) * (adot P i s - adot P i x)) (seq 0 (p_n P)))).
  { rewrite <- !Rsum_map_mult, <- !Rsum_map_plus. apply Rsum_le_map. intros i _.
    rewrite adot_lin by (rewrite Lx, Ls; reflexivity). rewrite adot_vminus by (rewrite Lx, Ls; reflexivity). unfold loss_deriv.
    pose proof (Hs (adot P i x) ((1 - t) * adot P i x + t * adot P i s) (nth i (p_b P) 0)) as H1.
    replace ((1 - t) * adot P i x + t * adot P i s - adot P i x) with (t * (adot P i s - adot P i x)) in H1 by ring. change (carrier RN) with R in *. lra. }
  apply (Rmult_le_compat_l (/ INR (p_n P))) in H; [|lra].
  assert (H2 : L / 2 * (t * t) * Rsum (map (fun i => (adot P i s - adot P i x) * (adot P i s - adot P i x)) (seq 0 (p_n P))) <= L / 2 * (t * t) * D2).
  { apply Rmult_le_compat_l; [|exact HD]. apply Rmult_le_pos; [lra|]. apply Rle_0_sqr. }
  apply (Rmult_le_compat_l (/ INR (p_n P))) in H2; [|lra].
  replace (t * t / 2 * (L * D2 / INR (p_n P))) with (/ INR (p_n P) * (L / 2 * (t * t) * D2)) by (unfold Rdiv; ring). lra.
Qed.

Lemma init_good (P : problem RN) (dom : list R -> Prop) (x0 : list R) s0 : problem_wf P -> length x0 = p_d P -> dom x0 -> sfw_init (K:=RN) P SAG x0 None = Ok s0 ->
  good P dom s0 /\ sw_t s0 = 0%nat /\ sw_x s0 = x0 /\ sw_dual s0 = zeros (p_n P).
Proof.
  intros W L0 Hx Es. destruct (init_facts P SAG x0 None s0 W L0 Es) as (Ex & Hd & Ha & Hact & Ht & Ws & _).
  split; [|auto]. split.
  - split; [exact Ws|]. split; [exact Hact|]. rewrite Ex. exact Hx.
  - intros j Hj. rewrite Ha, Hd, nth_zeros. unfold dual_sum. symmetry. apply Rsum_zero. intros i _. rewrite nth_zeros. ring.
Qed.

(** ** C91: mean rate of SAG with one sample per step *)
Lemma main_C91_mean_rate : forall (pow23 : R -> R) (P : problem RN) (f : R -> R -> R) lmo lipschitz tol max_iter x0 (dom : list R -> Prop) (C Dinf D1 L B : R) (y : list R),
  problem_wf P -> (1 <= p_n P)%nat -> convex_set (p_d P) dom -> lmo_exact (p_d P) dom lmo -> convex_loss P f ->
  curvature (p_d P) dom (mean_loss P f) (grad_list P) C ->
  (forall u v i, length u = p_d P -> length v = p_d P -> dom u -> dom v -> (i < p_n P)%nat -> Rabs (adot P i u - adot P i v) <= Dinf) ->
  (forall u v, length u = p_d P -> length v = p_d P -> dom u -> dom v ->
     Rsum (map (fun i => Rabs (adot P i u - adot P i v)) (seq 0 (p_n P))) <= D1) ->
  0 <= L -> (forall p q b, Rabs (p_fd P p b - p_fd P q b) <= L * Rabs (p - q)) ->
  2 * Rsum (map (fun i => Rabs (loss_deriv P x0 i)) (seq 0 (p_n P))) <= B -> 4 * INR (p_n P) * L * D1 <= B ->
  length x0 = p_d P -> dom x0 -> length y = p_d P -> dom y -> (1 <= max_iter)%nat -> tol <= 0 ->
  exists res : list nat -> sfw_result RN,
    (forall w, In w (words (p_n P) (p_n P * max_iter)) ->
       minimize_sfw (K:=RN) pow23 P lmo SAG SSublinear lipschitz 1 tol Vanilla max_iter (epoch_draws (p_n P) w) x0 = Ok (res w)) /\
    / INR (p_n P ^ (p_n P * max_iter)) *
      Rsum (map (fun w => mean_loss P f (sr_x (res w)) - mean_loss P f y) (words (p_n P) (p_n P * max_iter)))
    <= 2 * (C + Dinf * B) / (INR (p_n P * max_iter) + 2).
Proof.
  intros pow23 P f lmo lipschitz tol max_iter x0 dom C Dinf D1 L B y W Hn Hc Hl Hconv HC HDinf HD1 HL0 HL HB1 HB2 L0 Hx Ly Hy Hm Ht.
  assert (Hi : exists s0, sfw_init (K:=RN) P SAG x0 None = Ok s0) by (eexists; reflexivity). destruct Hi as (s0 & Es).
  destruct (init_good P dom x0 s0 W L0 Hx Es) as (G0 & T0 & Ex & Ed).
  set (T := (p_n P * max_iter)%nat).
  assert (Hrun : forall w, In w (words (p_n P) T) -> exists r,
    minimize_sfw (K:=RN) pow23 P lmo SAG SSublinear lipschitz 1 tol Vanilla max_iter (epoch_draws (p_n P) w) x0 = Ok r /\ sr_x r = sw_x (st pow23 P lmo lipschitz s0 w)).
  { intros w Hw. apply words_in in Hw as (Lw & F).
    destruct (epochs_fold pow23 P lmo lipschitz dom tol W Hn Hc Hl Ht (epoch_draws (p_n P) w) max_iter 0 s0 [] Hm G0) as (r & Er & Hr & _).
    - intros a Ha. unfold epoch_draws. split.
      + apply Forall_forall. intros i Hi. rewrite Forall_forall in F. apply F. eapply skipn_in, firstn_in, Hi.
      + rewrite firstn_length, skipn_length, Lw. unfold T. nia.
    - exists r. split.
      + unfold minimize_sfw. cbn [bind]. change (@length (carrier RN) x0) with (length x0). rewrite L0, Nat.eqb_refl. cbn [negb]. exact (bind_use _ _ _ _ Es Er).
      + rewrite Hr, draws_concat. cbn [Nat.mul skipn]. rewrite firstn_all2 by (rewrite Lw; unfold T; lia). reflexivity. }
  set (dflt := mkSfwR (K:=RN) [] false 0 [] s0).
  exists (fun w => match minimize_sfw (K:=RN) pow23 P lmo SAG SSublinear lipschitz 1 tol Vanilla max_iter (epoch_draws (p_n P) w) x0 with Ok r => r | Err _ => dflt end).
  split. { intros w Hw. destruct (Hrun w Hw) as (r & -> & _). reflexivity. }
  assert (Hq : 0 < INR (p_n P ^ T)) by (apply lt_0_INR; pose proof (Nat.pow_nonzero (p_n P) T); lia).
  apply Rmult_le_reg_l with (INR (p_n P ^ T)); [exact Hq|]. rewrite <- Rmult_assoc, Rinv_r, Rmult_1_l by lra.
  eapply Rle_trans; [apply Req_le|apply (mean_h pow23 P f lmo lipschitz dom C Dinf D1 L B y s0); try assumption].
  - f_equal. apply map_ext_in. intros w Hw. unfold h. destruct (Hrun w Hw) as (r & -> & ->). reflexivity.
  - rewrite Ed, Ex. eapply Rle_trans; [apply Req_le|exact HB1]. unfold dual_err.
    rewrite Rmult_assoc. f_equal. rewrite <- Rsum_map_mult. f_equal. apply map_ext. intros i. rewrite nth_zeros.
    assert (Hp : 0 < INR (p_n P)) by (apply lt_0_INR; lia).
    replace (0 - / INR (p_n P) * loss_deriv P x0 i) with (- (/ INR (p_n P) * loss_deriv P x0 i)) by ring.
    rewrite Rabs_Ropp, Rabs_mult, (Rabs_pos_eq (/ INR (p_n P))) by (left; apply Rinv_0_lt_compat; exact Hp).
    rewrite <- Rmult_assoc, Rinv_r, Rmult_1_l by lra. reflexivity.
  - unfold T. nia.
Qed.

(** ** C90: the full batch *)
Section Full.
Context {K : Num}.
Variable pow23 : K -> K.
Variable P : problem K.
Variable lmo : lmo_fun K.
Variable variant : sfw_variant.
Variable rule : sfw_rule.
Variable lipschitz : option K.
Variable tol : K.
Variable draws : nat -> list nat.
Hypothesis Hn : (1 <= p_n P)%nat.
Hypothesis Hd : forall it, length (draws it) = p_n P.
Local Notation stepf := (sfw_step pow23 P lmo variant rule lipschitz (p_n P)).
Local Notation epochs := (sfw_epochs pow23 P lmo variant rule lipschitz (p_n P) tol draws).
Lemma step_count bs it batch s r : sfw_step pow23 P lmo variant rule lipschitz bs it batch s = Ok r -> sw_t (si_next r) = sw_t s.
Proof.
  unfold sfw_step. intros E. apply bind_ok in E as (sizes & _ & E). apply bind_ok in E as (prev & _ & E).
  apply bind_ok in E as ([[dual sigma] lf] & _ & E). apply bind_ok in E as (new & _ & E). apply bind_ok in E as (u & _ & E).
  apply bind_ok in E as ([est o] & _ & E). apply bind_ok in E as (act & _ & E). injection E as <-. reflexivity.
Qed.
Lemma while_once it fuel s succ log s' succ' log' : (2 <= fuel)%nat ->
  sfw_while pow23 P lmo variant rule lipschitz (p_n P) tol fuel (draws it) it 0 s succ log = Ok (s', succ', log') ->
  succ' = true \/ (succ' = succ /\ sw_t s' = S (sw_t s)).
Proof.
  intros Hf E. destruct fuel as [|[|fuel]]; try lia. cbn [sfw_while] in E. rewrite Hd in E.
  destruct (Nat.ltb_spec 0 (p_n P)); [|lia]. apply bind_ok in E as (r & Er & E).
  destruct (nltb K (sfw_moved r) tol).
  - injection E as <- <- <-. left. reflexivity.
  - cbn [Nat.add] in E. rewrite Nat.ltb_irrefl in E. injection E as <- <- <-. right. split; [reflexivity|].
    cbn [sfw_tick sw_t]. rewrite (step_count _ _ _ _ _ Er). reflexivity.
Qed.
Lemma epochs_count : forall k it s succ log r, epochs k it s succ log = Ok r -> sr_success r = false ->
  succ = false /\ sw_t (sr_state r) = (sw_t s + k)%nat.
Proof.
  induction k as [|k IH]; intros it s succ log r E Hs; [discriminate E|]. cbn [sfw_epochs] in E.
  destruct (Nat.eqb (p_n P) 0); [discriminate E|]. apply bind_ok in E as ([[s' succ'] log'] & Ew & E).
  assert (Hw : succ' = true \/ (succ' = succ /\ sw_t s' = S (sw_t s))).
  { apply (while_once it (S (length (draws it))) s succ log s' succ' log'); [rewrite Hd; lia|exact Ew]. }
  destruct k as [|k].
  - injection E as <-. cbn [sr_success sr_state] in *. destruct Hw as [->|(-> & Ht)]; [discriminate Hs|]. split; [exact Hs|lia].
  - destruct (IH _ _ _ _ _ E Hs) as (-> & Ht). destruct Hw as [Hw|(<- & Ht')]; [discriminate Hw|]. split; [reflexivity|lia].
Qed.
End Full.

Lemma full_batch n batch : batch_ok n n batch -> forall i, (i < n)%nat -> In i batch.
Proof.
  intros (F & N & Lb) i Hi. apply (NoDup_length_incl (l := batch) (l' := seq 0 n)); auto.
  - rewrite seq_length. lia.
  - intros k Hk. rewrite Forall_forall in F. apply in_seq. specialize (F k Hk). lia.
  - apply in_seq. lia.
Qed.
Lemma main_C90_full_batch : forall (pow23 : R -> R) (P : problem RN) (f : R -> R -> R) lmo lipschitz tol max_iter draws x0 (dom : list R -> Prop) (C : R) (y : list R) (r : sfw_result RN),
  problem_wf P -> (1 <= p_n P)%nat -> valid_draws (p_n P) (p_n P) draws -> convex_set (p_d P) dom -> lmo_exact (p_d P) dom lmo -> convex_loss P f ->
  curvature (p_d P) dom (mean_loss P f) (grad_list P) C -> dom x0 -> length y = p_d P -> dom y ->
  minimize_sfw (K:=RN) pow23 P lmo SAG SSublinear lipschitz (p_n P) tol Vanilla max_iter draws x0 = Ok r ->
  (forall q, In q (sr_log r) -> length (si_est q) = p_d P /\ forall j, (j < p_d P)%nat -> nth j (si_est q : list R) 0 = grad_F P (sw_x (si_prev q)) j) /\
  (sr_success r = false -> mean_loss P f (sr_x r) - mean_loss P f y <= 2 * C / (INR max_iter + 2)).
Proof.
  intros pow23 P f lmo lipschitz tol max_iter draws x0 dom C y r W Hn V Hc Hl Hconv HC Hx Ly Hy E.
  destruct (minimize_inv _ _ _ _ _ _ _ _ _ _ _ _ _ E) as (_ & L0 & _ & a & s0 & _ & Ha & Es & Ee). specialize (Ha eq_refl). subst a.
  destruct (init_good P dom x0 s0 W L0 Hx Es) as (G0 & T0 & Ex & _).
  set (full := fun q : sfw_iter RN => length (si_est q) = p_d P /\ forall j, (j < p_d P)%nat -> nth j (si_est q : list R) 0 = grad_F P (sw_x (si_prev q)) j).
  set (bnd := fun (t : nat) (x : list R) => mean_loss P f x - mean_loss P f y <= 2 * C / (INR t + 2)).
  assert (HC0 : 0 <= C) by (apply (C_nonneg P f dom C y s0); assumption).
  assert (H : good P dom (sr_state r) /\ ((1 <= sw_t (sr_state r))%nat -> bnd (sw_t (sr_state r)) (sw_x (sr_state r))) /\ Forall full (sr_log r)).
  { refine (epochs_ind2 (K:=RN) pow23 P lmo SAG SSublinear lipschitz (p_n P) tol draws
      (fun (s : sfw_state RN) (log : list (sfw_iter RN)) => good P dom s /\ ((1 <= sw_t s)%nat -> bnd (sw_t s) (sw_x s)) /\ Forall full log)
      (fun (s : sfw_state RN) (log : list (sfw_iter RN)) => good P dom s /\ bnd (S (sw_t s)) (sw_x s) /\ Forall full log) V _ _ _ _ _ _ _ _ _ Ee _).
    - intros it batch s log q Hbt (G & Hbd & Fl) Eq. pose proof Hbt as (F & N & _).
      destruct (good_step P W pow23 lmo lipschitz (p_n P) dom Hn Hc Hl it batch s q G Hbt Eq) as (Gn & _ & Ht & _ & Hin & _).
      pose proof (lmo_exact_feasible _ _ _ Hl) as Hf.
      destruct (step_inv pow23 P lmo SAG SSublinear lipschitz (p_n P) W it batch s q (proj1 (proj1 G)) (feas_sized P lmo SAG dom Hf s (proj1 G)) F N Eq)
        as (Hp & _ & _ & _ & _ & _ & _ & _ & _ & (Lest & Hest) & _).
      assert (Hz : dual_err P (sw_dual (si_next q)) (sw_x s) = 0).
      { unfold dual_err. apply Rsum_zero. intros i Hi. apply in_seq in Hi. etransitivity; [apply f_equal, (f_equal2 Rminus (Hin i (full_batch _ _ Hbt i ltac:(lia))) eq_refl)|].
        rewrite Rminus_eq_0. apply Rabs_R0. }
      split; [exact Gn|]. split.
      + unfold bnd. rewrite Ht.
        assert (Hv : mean_loss P f (sw_x (si_next q)) - mean_loss P f y <= (1 - 2 / (INR (sw_t s) + 2)) * (mean_loss P f (sw_x s) - mean_loss P f y) + 2 / (INR (sw_t s) + 2) * (2 / (INR (sw_t s) + 2)) / 2 * C).
        { exact (value_step0 P f W Hn pow23 lmo lipschitz (p_n P) dom C Hn Hc Hl Hconv HC it batch s q y G Hbt Eq Ly Hy Hz). }
        pose proof (rate_step (sw_t s) (mean_loss P f (sw_x s) - mean_loss P f y) (mean_loss P f (sw_x (si_next q)) - mean_loss P f y) (mean_loss P f (sw_x s) - mean_loss P f y) C 0 HC0 ltac:(lra) ltac:(lra)) as Hr.
        rewrite !Rmult_0_r, !Rplus_0_r in Hr. apply Hr; [|lra].
        destruct (sw_t s) as [|t] eqn:Et; [left; reflexivity|right; apply Hbd; lia].
      + constructor; [|exact Fl]. split; [exact Lest|]. intros j Hj. etransitivity; [exact (Hest j Hj)|]. cbn iota. rewrite Hp.
        destruct Gn as (_ & Hag). etransitivity; [exact (Hag j Hj)|]. unfold dual_sum, grad_F, mean_row. rewrite <- Rsum_map_mult. f_equal.
        apply map_ext_in. intros i Hi. apply in_seq in Hi. etransitivity; [exact (f_equal2 Rmult (Hin i (full_batch _ _ Hbt i ltac:(lia))) eq_refl)|]. ring.
    - intros s log (A & B & F). split; [exact A|]. split; [|exact F]. intros _. unfold bnd in *. eapply Rle_trans; [exact B|].
      apply Rmult_le_compat_l; [lra|]. rewrite S_INR. pose proof (pos_INR (sw_t s)). apply Rinv_le_contravar; lra.
    - intros s log (A & B & F). split; [exact A|]. split; [|exact F]. intros _. exact B.
    - split; [exact G0|]. split; [|constructor]. rewrite T0. intros; lia. }
  destruct H as (_ & Hb & F). rewrite Forall_forall in F. split; [exact F|]. intros Hs.
  assert (Hd : forall it, length (draws it) = p_n P).
  { intros it. destruct (V it) as (_ & V1 & V2). destruct (Nat.eq_dec (p_n P) 1) as [e|ne]; [apply V1, e|].
    destruct (V2 ne) as (-> & _). rewrite Nat.div_same by lia. lia. }
  destruct (epochs_count (K:=RN) pow23 P lmo SAG SSublinear lipschitz tol draws Hn Hd _ _ _ _ _ _ Ee Hs) as (_ & Ht).
  destruct (epochs_bs _ _ _ _ _ _ _ _ _ _ _ _ _ _ _ Ee) as (_ & Hm).
  rewrite T0 in Ht. cbn [Nat.add] in Ht. rewrite (result_x _ _ _ _ _ _ _ _ _ _ _ _ _ _ _ Ee), <- Ht. apply Hb. lia.
Qed.

(** a problem that meets the hypotheses: two samples, squared loss, [-1, 1] *)
Lemma adot_two i a : (i < 2)%nat -> adot two_rows i [a] = a.
Proof.
  intros Hi. unfold adot, ent. destruct i as [|[|i]]; [| |lia];
    cbn [p_n p_d p_data p_indices p_indptr p_b p_fd two_rows seq map Rsum]; unfold csr_entry; cbn; lra.
Qed.
Lemma ball1 (u : list R) : length u = 1%nat -> l1_ball 1 u -> exists a, u = [a] /\ -1 <= a <= 1.
Proof.
  intros Lu Hu. destruct u as [|a [|b u]]; try discriminate Lu. exists a. split; [reflexivity|]. unfold l1_ball in Hu. cbn in Hu.
  rewrite Rplus_0_r in Hu. apply Rabs_le_inv' in Hu. lra.
Qed.
Definition half_square (p b : R) : R := (p - b) * (p - b) / 2.
Lemma two_rows_hyp : convex_loss two_rows half_square /\
  curvature 1 (l1_ball 1) (mean_loss two_rows half_square) (grad_list two_rows) 4 /\
  (forall u v i, length u = 1%nat -> length v = 1%nat -> l1_ball 1 u -> l1_ball 1 v -> (i < 2)%nat -> Rabs (adot two_rows i u - adot two_rows i v) <= 2) /\
  (forall u v, length u = 1%nat -> length v = 1%nat -> l1_ball 1 u -> l1_ball 1 v -> Rsum (map (fun i => Rabs (adot two_rows i u - adot two_rows i v)) (seq 0 2)) <= 4) /\
  (forall p q b : R, Rabs (p_fd two_rows p b - p_fd two_rows q b) <= 1 * Rabs (p - q)) /\
  2 * Rsum (map (fun i => Rabs (loss_deriv two_rows [1] i)) (seq 0 2)) <= 32.
Proof.
  assert (Hd : forall u v i, length u = 1%nat -> length v = 1%nat -> l1_ball 1 u -> l1_ball 1 v -> (i < 2)%nat -> Rabs (adot two_rows i u - adot two_rows i v) <= 2).
  { intros u v i Lu Lv Hu Hv Hi. destruct (ball1 u Lu Hu) as (a & -> & Ha). destruct (ball1 v Lv Hv) as (b & -> & Hb).
    rewrite !adot_two by exact Hi. apply Rabs_le. lra. }
  split. { intros p q b. unfold half_square. cbn. change (carrier RN) with R in *. pose proof (Rle_0_sqr (q - p)) as Hsq. unfold Rsqr in Hsq. lra. }
  split.
  { replace 4 with (1 * 8 / INR (p_n two_rows)) by (cbn; lra). apply (main_C91_curvature two_rows half_square (l1_ball 1) 1 8); [cbn; lia|lra| |].
    - intros p q b. unfold half_square. cbn. lra.
    - intros u v Lu Lv Hu Hv. destruct (ball1 u Lu Hu) as (a & -> & Ha). destruct (ball1 v Lv Hv) as (b & -> & Hb).
      cbn [p_n two_rows seq map Rsum]. rewrite !adot_two by lia. nra. }
  split; [exact Hd|].
  split. { intros u v Lu Lv Hu Hv. pose proof (Hd u v 0%nat Lu Lv Hu Hv ltac:(lia)). pose proof (Hd u v 1%nat Lu Lv Hu Hv ltac:(lia)). cbn [seq map Rsum]. lra. }
  split. { intros p q b. cbn. rewrite Rmult_1_l. right. f_equal. ring. }
  cbn [seq map Rsum]. unfold loss_deriv. rewrite !adot_two by lia. cbn. rewrite !Rminus_0_r, Rabs_R1. lra.
Qed.
