(** * SVRG in every order of the samples: descent, rates, meaning of success, termination (closed statements, C96) *)
From Coq Require Import Bool List Lia Permutation Reals Lra.
From Verif Require Import Num Vec Spec SpecSparse RVec ConvexFacts PenaltyFacts UtilsMain ModelRandomized SpecFiniteSum SpecEpochs SpecLoss LossFacts RandomizedBlocks RandomizedSaga RandomizedSvrg RandomizedFix RandomizedMain RandomizedMain3 SvdExists EpochFacts SvrgDescent.
Import ListNotations.
Local Open Scope R_scope.

Definition eok (P : problem RN) (f : R -> R -> R) (lphi L D step : R) : Prop :=
  problem_wf P /\ canonical P /\ (0 < p_n P)%nat /\ 0 <= p_alpha P /\ lip_losses P f lphi L /\ spread P D /\ 1 <= D /\
  (p_alpha P = 0 \/ all_stored P) /\ 0 < step /\ step * INR (p_n P) * (L + p_alpha P * D) <= 1 / 4.

Lemma l1_sq v : l1 v * l1 v <= INR (length v) * dot v v.
Proof.
  assert (A : dot (map Rabs v) (repeat 1 (length v)) = l1 v) by (induction v as [|a v IH]; cbn; [reflexivity|rewrite IH; ring]).
  assert (B : dot (map Rabs v) (map Rabs v) = dot v v). { clear A. induction v as [|a v IH]; cbn; [reflexivity|]. rewrite IH. f_equal. rewrite <- Rabs_mult. apply Rabs_pos_eq, Rle_0_sqr. }
  assert (C : forall m, dot (repeat 1 m) (repeat 1 m) = INR m). { induction m as [|m IH]; [reflexivity|]. cbn [repeat dot]. rewrite IH, S_INR. ring. }
  pose proof (cauchy_sq (map Rabs v) (repeat 1 (length v))) as Q. rewrite A, B, C in Q. lra.
Qed.
(** a sequence that decreases by at least c per step *)
Lemma drop_le (a : nat -> R) c k : (forall i, (i < k)%nat -> a (S i) <= a i - c) -> INR k * c <= a 0%nat - a k.
Proof.
  induction k as [|k IH]; intros H; [cbn; lra|]. rewrite S_INR. specialize (IH ltac:(intros; apply H; lia)). specialize (H k ltac:(lia)). lra.
Qed.
Lemma best_le (a : nat -> R) (q : nat -> R) k : (forall i, (i <= k)%nat -> a (S i) <= a i - q i) -> exists i, (i <= k)%nat /\ INR (S k) * q i <= a 0%nat - a (S k).
Proof.
  induction k as [|k IH]; intros H.
  - exists 0%nat. split; [lia|]. specialize (H 0%nat ltac:(lia)). cbn [INR]. lra.
  - destruct IH as (i & Hi & E); [intros; apply H; lia|]. specialize (H (S k) ltac:(lia)). rewrite (S_INR (S k)). rewrite S_INR in *.
    destruct (Rle_lt_dec (q (S k)) (q i)) as [C|C].
    + exists (S k). split; [lia|]. assert (0 <= INR k + 1) by (pose proof (pos_INR k); lra). apply (Rmult_le_compat_l (INR k + 1)) in C; [|assumption]. lra.
    + exists i. split; [lia|]. lra.
Qed.
Lemma pow_le_seq (a : nat -> R) c k : 0 <= c -> (forall i, (i < k)%nat -> a (S i) <= c * a i) -> a k <= c ^ k * a 0%nat.
Proof.
  intros Hc. induction k as [|k IH]; intros H; [cbn; lra|]. specialize (IH ltac:(intros; apply H; lia)). specialize (H k ltac:(lia)). cbn [pow].
  apply (Rmult_le_compat_l c) in IH; [|exact Hc]. lra.
Qed.
(** strong convexity of the ridge-regularised finite sum, and the resulting gradient domination *)
Lemma finite_sum_strong (P : problem RN) f (x y : list R) : convex_loss P f -> (0 < p_n P)%nat -> length x = p_d P -> length y = p_d P ->
  finite_sum P f x + dot (gvec P x) (vminus y x) + p_alpha P / 2 * dot (vminus y x) (vminus y x) <= finite_sum P f y.
Proof.
  intros Hc Hn Lx Ly. assert (Lm : length (vminus y x) = p_d P) by leng. rewrite dot_gvec by assumption. unfold finite_sum. set (n := p_n P) in *.
  assert (Hpos : 0 < INR n) by (apply lt_0_INR; exact Hn).
  assert (Q : Rsum (map (fun i => f (adot P i x) (nth i (p_b P) 0)) (seq 0 n)) + Rsum (map (fun i => loss_deriv P x i * dot (arow P i) (vminus y x)) (seq 0 n)) <= Rsum (map (fun i => f (adot P i y) (nth i (p_b P) 0)) (seq 0 n))).
  { induction (seq 0 n) as [|i l IH]; cbn [map Rsum]; [lra|]. pose proof (Hc (adot P i x) (adot P i y) (nth i (p_b P) 0)) as H. rewrite adot_vminus in H by assumption. unfold loss_deriv at 1. lra. }
  apply (Rmult_le_compat_l (/ INR n)) in Q; [|left; apply Rinv_0_lt_compat; exact Hpos].
  assert (E : dot y y = dot x x + 2 * dot x (vminus y x) + dot (vminus y x) (vminus y x)).
  { unfold vminus. repeat rewrite ?dot_lin_l, ?dot_lin_r by (try congruence; leng). rewrite (dot_comm y x). ring. }
  rewrite E. lra.
Qed.
Lemma finite_sum_pl (P : problem RN) f (x y : list R) : convex_loss P f -> (0 < p_n P)%nat -> 0 < p_alpha P -> length x = p_d P -> length y = p_d P ->
  2 * p_alpha P * (finite_sum P f x - finite_sum P f y) <= dot (gvec P x) (gvec P x).
Proof.
  intros Hc Hn Ha Lx Ly. pose proof (finite_sum_strong P f x y Hc Hn Lx Ly) as S. pose proof (dot_quad (gvec P x) (vminus y x) (p_alpha P)) as Q.
  set (h := vminus y x) in *. apply (Rmult_le_compat_l (2 * p_alpha P)) in S; [|lra]. lra.
Qed.

Section Run.
Variables (P : problem RN) (f : R -> R -> R) (lphi L D step : R).
Hypothesis OK : eok P f lphi L D step.
Let n := p_n P.
Let d := p_d P.
Let F := finite_sum P f.
Variables (perms : nat -> list nat).
Hypothesis Hperm : forall k, Permutation (perms k) (seq 0 n).
Lemma grad_is x g : length x = d -> is_gradient d F x g -> g = gvec P x.
Proof.
  intros Lx H. destruct OK as (_ & _ & Hn & Ha & HL & _). eapply gradient_unique; [exact Lx|exact H|]. apply (finite_sum_gradient P Hn Ha f lphi L HL x Lx).
Qed.
Lemma one_epoch B (snap gavg tmp : vec RN) (s' : vec RN * vec RN) k : make_blocks P (eye_ptr d) = Ok B -> length snap = d -> length tmp = d -> full_grad P snap = Ok gavg ->
  svrg_epoch P B no_prox step snap gavg (perms k) (snap, tmp) = Ok s' ->
  length (fst s') = d /\ length (snd s') = d /\
  F (fst s') <= F snap - step * INR n / 3 * dot (gvec P snap) (gvec P snap) /\
  2 / 3 * (step * INR n * norm2 (gvec P snap)) <= norm2 (vminus (fst s') snap) <= 4 / 3 * (step * INR n * norm2 (gvec P snap)).
Proof.
  intros EB Ls Lt Eg E. destruct OK as (HP & HC & Hn & Ha & HL & HD & HD1 & Hall & Hst & Hsm).
  assert (HD0 : 0 <= D) by lra. assert (Hst0 : 0 <= step) by lra.
  destruct (svrg_epoch_vec P HP HC Hn Ha B EB D f lphi L step HD HD0 HL Hst0 (perms k) (Hperm k) Hall Hsm snap gavg tmp s' Ls Lt Eg E) as (L1 & L2 & e & Le & E1 & E2).
  split; [exact L1|]. split; [exact L2|]. rewrite <- norm2_sq.
  apply (inexact_descent P Hn Ha D f lphi L step HL Hst0 Hsm snap (fst s') e Ls L1 Le); [|  |exact E1|exact E2].
  - assert (0 <= p_alpha P * D) by (apply Rmult_le_pos; assumption). lra.
  - rewrite <- (Rmult_1_r (p_alpha P)) at 1. apply Rmult_le_compat_l; assumption.
Qed.
Variables (x0 : vec RN) (tol : R) (max_iter : nat) (r : epoch_result RN (vec RN * vec RN)).
Hypothesis Lx0 : length x0 = d.
Hypothesis E : minimize_svrg P x0 (Some step) None None max_iter tol perms = Ok r.
Lemma svrg_run : exists xs : nat -> list R, xs 0%nat = x0 /\ er_x r = xs (S (er_nit r)) /\ map fst (rev (er_log r)) = map xs (seq 0 (S (S (er_nit r)))) /\
  (forall k, (k <= S (er_nit r))%nat -> length (xs k) = d) /\
  (forall k, (k <= er_nit r)%nat -> F (xs (S k)) <= F (xs k) - step * INR n / 3 * dot (gvec P (xs k)) (gvec P (xs k)) /\
     2 / 3 * (step * INR n * norm2 (gvec P (xs k))) <= norm2 (vminus (xs (S k)) (xs k)) <= 4 / 3 * (step * INR n * norm2 (gvec P (xs k)))) /\
  (er_success r = true -> l1 (vminus (er_x r) (xs (er_nit r))) < tol) /\
  (er_success r = false -> S (er_nit r) = max_iter /\ forall k, (k <= er_nit r)%nat -> tol <= l1 (vminus (xs (S k)) (xs k))).
Proof.
  destruct (main_C69_svrg_contract _ _ _ _ _ _ _ _ _ _ E) as (st & B & S0 & Est & EB & I0 & Ep & Hm & Ex & El & Hd & Hsu & Hfa).
  injection Est as <-. exists (fun k => fst (S0 k)).
  assert (Inv : forall k, (k <= S (er_nit r))%nat -> length (fst (S0 k)) = d /\ length (snd (S0 k)) = d).
  { induction k as [|k IH]; intros Hk; [rewrite I0; cbn [fst snd]; split; [exact Lx0|unfold vzeros; apply repeat_length]|].
    destruct (IH ltac:(lia)) as (M1 & M2). destruct (Ep k ltac:(lia)) as (g & Eg & Ee). destruct (S0 k) as [x t] eqn:ES. cbn [fst snd] in *.
    destruct (one_epoch B x g t (S0 (S k)) k EB M1 M2 Eg Ee) as (A1 & A2 & _). auto. }
  assert (Hv : forall u v : vec RN, nltb RN (vnorm1 (vsub u v)) tol = true <-> l1 (vminus u v) < tol).
  { intros u v. rewrite vsub_R, vnorm1_R. apply Rltb_iff. }
  split; [rewrite I0; reflexivity|]. split; [exact Ex|].
  split. { rewrite El, rev_involutive, map_map. reflexivity. }
  split; [intros k Hk; apply Inv, Hk|].
  split. { intros k Hk. destruct (Inv k ltac:(lia)) as (M1 & M2). destruct (Ep k Hk) as (g & Eg & Ee). destruct (S0 k) as [x t] eqn:ES. cbn [fst snd] in *.
    destruct (one_epoch B x g t (S0 (S k)) k EB M1 M2 Eg Ee) as (_ & _ & A). exact A. }
  split. { intros Hs. rewrite Hs in Hsu. symmetry in Hsu. apply Hv in Hsu. rewrite Ex. exact Hsu. }
  intros Hs. split; [apply Hfa, Hs|]. intros k Hk. apply Rnot_lt_le. intros C. apply Hv in C.
  destruct (Nat.eq_dec k (er_nit r)) as [->|Nk].
  - rewrite Hs in Hsu. pose proof (eq_trans Hsu C). discriminate.
  - pose proof (eq_trans (eq_sym (Hd k ltac:(lia))) C). discriminate.
Qed.
End Run.

(** ** C96 *)
Lemma main_C96_svrg_descent : forall (P : problem RN) (f : R -> R -> R) (lphi L D step tol : R) (x0 : list R) (max_iter : nat) (perms : nat -> list nat) (r : epoch_result RN (vec RN * vec RN)),
  problem_wf P -> canonical P -> (0 < p_n P)%nat -> 0 <= p_alpha P -> lip_losses P f lphi L -> spread P D -> 1 <= D -> (p_alpha P = 0 \/ all_stored P) ->
  0 < step -> step * INR (p_n P) * (L + p_alpha P * D) <= 1 / 4 -> (forall k, Permutation (perms k) (seq 0 (p_n P))) -> length x0 = p_d P ->
  minimize_svrg P x0 (Some step) None None max_iter tol perms = Ok r ->
  exists xs : nat -> list R, xs 0%nat = x0 /\ er_x r = xs (S (er_nit r)) /\ map fst (rev (er_log r)) = map xs (seq 0 (S (S (er_nit r)))) /\
  forall k g, (k <= er_nit r)%nat -> is_gradient (p_d P) (finite_sum P f) (xs k) g ->
    finite_sum P f (xs (S k)) <= finite_sum P f (xs k) - step * INR (p_n P) / 3 * dot g g /\
    2 / 3 * (step * INR (p_n P) * norm2 g) <= norm2 (vminus (xs (S k)) (xs k)) <= 4 / 3 * (step * INR (p_n P) * norm2 g).
Proof.
  intros P f lphi L D step tol x0 max_iter perms r H1 H2 H3 H4 H5 H6 H7 H8 H9 H10 Hperm Lx0 E.
  assert (OK : eok P f lphi L D step) by (unfold eok; tauto).
  destruct (svrg_run P f lphi L D step OK perms Hperm x0 tol max_iter r Lx0 E) as (xs & A1 & A2 & A3 & A4 & A5 & _). exists xs. split; [exact A1|]. split; [exact A2|]. split; [exact A3|].
  intros k g Hk Hg. rewrite (grad_is P f lphi L D step OK (xs k) g (A4 k ltac:(lia)) Hg). apply A5, Hk.
Qed.
(** the best recorded iterate *)
Lemma main_C96_svrg_rate : forall (P : problem RN) (f : R -> R -> R) (lphi L D step tol : R) (x0 : list R) (max_iter : nat) (perms : nat -> list nat) (r : epoch_result RN (vec RN * vec RN)),
  problem_wf P -> canonical P -> (0 < p_n P)%nat -> 0 <= p_alpha P -> lip_losses P f lphi L -> spread P D -> 1 <= D -> (p_alpha P = 0 \/ all_stored P) ->
  0 < step -> step * INR (p_n P) * (L + p_alpha P * D) <= 1 / 4 -> (forall k, Permutation (perms k) (seq 0 (p_n P))) -> length x0 = p_d P ->
  minimize_svrg P x0 (Some step) None None max_iter tol perms = Ok r ->
  exists x g : list R, In x (map fst (er_log r)) /\ is_gradient (p_d P) (finite_sum P f) x g /\
    INR (S (er_nit r)) * (step * INR (p_n P) / 3 * dot g g) <= finite_sum P f x0 - finite_sum P f (er_x r).
Proof.
  intros P f lphi L D step tol x0 max_iter perms r H1 H2 H3 H4 H5 H6 H7 H8 H9 H10 Hperm Lx0 E.
  assert (OK : eok P f lphi L D step) by (unfold eok; tauto).
  destruct (svrg_run P f lphi L D step OK perms Hperm x0 tol max_iter r Lx0 E) as (xs & A1 & A2 & A3 & A4 & A5 & _).
  destruct (best_le (fun k => finite_sum P f (xs k)) (fun k => step * INR (p_n P) / 3 * dot (gvec P (xs k)) (gvec P (xs k))) (er_nit r)) as (i & Hi & Q); [intros k Hk; apply A5, Hk|].
  exists (xs i), (gvec P (xs i)). split; [|split].
  - apply (in_rev (map fst (er_log r))). rewrite <- map_rev, A3. apply in_map, in_seq. lia.
  - apply (finite_sum_gradient P H3 H4 f lphi L H5 (xs i)). apply A4. lia.
  - rewrite A2, <- A1. exact Q.
Qed.
(** ridge-regularised convex losses: linear rate for the returned point *)
Lemma main_C96_svrg_linear : forall (P : problem RN) (f : R -> R -> R) (lphi L D step tol : R) (x0 : list R) (max_iter : nat) (perms : nat -> list nat) (r : epoch_result RN (vec RN * vec RN)),
  problem_wf P -> canonical P -> (0 < p_n P)%nat -> 0 < p_alpha P -> lip_losses P f lphi L -> spread P D -> 1 <= D -> all_stored P ->
  0 < step -> step * INR (p_n P) * (L + p_alpha P * D) <= 1 / 4 -> (forall k, Permutation (perms k) (seq 0 (p_n P))) -> length x0 = p_d P ->
  minimize_svrg P x0 (Some step) None None max_iter tol perms = Ok r -> convex_loss P f ->
  forall y : list R, length y = p_d P ->
  finite_sum P f (er_x r) - finite_sum P f y <= (1 - 2 / 3 * (p_alpha P * (step * INR (p_n P)))) ^ S (er_nit r) * (finite_sum P f x0 - finite_sum P f y).
Proof.
  intros P f lphi L D step tol x0 max_iter perms r H1 H2 H3 H4 H5 H6 H7 H8 H9 H10 Hperm Lx0 E Hc y Ly.
  assert (OK : eok P f lphi L D step) by (unfold eok; assert (0 <= p_alpha P) by lra; tauto).
  destruct (svrg_run P f lphi L D step OK perms Hperm x0 tol max_iter r Lx0 E) as (xs & A1 & A2 & A3 & A4 & A5 & _).
  assert (Hnp : 0 < INR (p_n P)) by (apply lt_0_INR; exact H3). assert (Hsn : 0 < step * INR (p_n P)) by (apply Rmult_lt_0_compat; assumption).
  assert (HL0 : 0 <= L) by apply H5.
  assert (Hal : p_alpha P * (step * INR (p_n P)) <= 1 / 4).
  { assert (p_alpha P <= L + p_alpha P * D). { assert (p_alpha P * 1 <= p_alpha P * D) by (apply Rmult_le_compat_l; lra). lra. }
    assert (step * INR (p_n P) * p_alpha P <= step * INR (p_n P) * (L + p_alpha P * D)) by (apply Rmult_le_compat_l; lra). lra. }
  rewrite A2, <- A1. apply (pow_le_seq (fun k => finite_sum P f (xs k) - finite_sum P f y)); [lra|].
  intros k Hk. destruct (A5 k ltac:(lia)) as (Q & _). pose proof (finite_sum_pl P f (xs k) y Hc H3 H4 (A4 k ltac:(lia)) Ly) as PL.
  apply (Rmult_le_compat_l (step * INR (p_n P) / 3)) in PL; [|lra]. lra.
Qed.
(** success: the gradient at the returned point is small *)
Lemma main_C96_svrg_success : forall (P : problem RN) (f : R -> R -> R) (lphi L D step tol : R) (x0 : list R) (max_iter : nat) (perms : nat -> list nat) (r : epoch_result RN (vec RN * vec RN)),
  problem_wf P -> canonical P -> (0 < p_n P)%nat -> 0 <= p_alpha P -> lip_losses P f lphi L -> spread P D -> 1 <= D -> (p_alpha P = 0 \/ all_stored P) ->
  0 < step -> step * INR (p_n P) * (L + p_alpha P * D) <= 1 / 4 -> (forall k, Permutation (perms k) (seq 0 (p_n P))) -> length x0 = p_d P ->
  minimize_svrg P x0 (Some step) None None max_iter tol perms = Ok r -> er_success r = true ->
  exists g : list R, is_gradient (p_d P) (finite_sum P f) (er_x r) g /\ norm2 g < 2 * tol / (step * INR (p_n P)).
Proof.
  intros P f lphi L D step tol x0 max_iter perms r H1 H2 H3 H4 H5 H6 H7 H8 H9 H10 Hperm Lx0 E Hs.
  assert (OK : eok P f lphi L D step) by (unfold eok; tauto).
  destruct (svrg_run P f lphi L D step OK perms Hperm x0 tol max_iter r Lx0 E) as (xs & A1 & A2 & A3 & A4 & A5 & A6 & _). specialize (A6 Hs).
  assert (Hnp : 0 < INR (p_n P)) by (apply lt_0_INR; exact H3). assert (Hsn : 0 < step * INR (p_n P)) by (apply Rmult_lt_0_compat; assumption).
  exists (gvec P (er_x r)). assert (Lr : length (er_x r) = p_d P) by (rewrite A2; apply A4; lia). split; [apply (finite_sum_gradient P H3 H4 f lphi L H5 _ Lr)|].
  set (x := xs (er_nit r)) in *. assert (Lx : length x = p_d P) by (apply A4; lia). destruct (A5 (er_nit r) (le_n _)) as (_ & Q & _). fold x in Q. rewrite <- A2 in Q.
  pose proof (norm2_le_l1 (vminus (er_x r) x)) as N. pose proof (gvec_lip P H3 H4 f lphi L H5 (er_x r) x Lr Lx) as G.
  assert (T : norm2 (gvec P (er_x r)) <= norm2 (gvec P x) + norm2 (vminus (gvec P (er_x r)) (gvec P x))).
  { replace (gvec P (er_x r)) with (vplus (gvec P x) (vminus (gvec P (er_x r)) (gvec P x))) at 1; [apply norm_vplus; unfold vminus; rewrite lin_length, !gvec_length, Nat.min_id; reflexivity|].
    apply (list_ext _ _ 0); [unfold vplus, vminus; rewrite !lin_length, !gvec_length, !Nat.min_id; reflexivity|]. intros j _.
    rewrite nth_vplus by (unfold vminus; rewrite lin_length, !gvec_length, Nat.min_id; reflexivity). rewrite nth_vminus by (rewrite !gvec_length; reflexivity). ring. }
  apply (Rmult_lt_reg_l (step * INR (p_n P))); [exact Hsn|]. replace (step * INR (p_n P) * (2 * tol / (step * INR (p_n P)))) with (2 * tol) by (field; lra).
  assert (HL0 : 0 <= L) by apply H5.
  assert (Hal : step * INR (p_n P) * (L + p_alpha P) <= 1 / 4).
  { assert (p_alpha P * 1 <= p_alpha P * D) by (apply Rmult_le_compat_l; lra).
    assert (step * INR (p_n P) * (L + p_alpha P) <= step * INR (p_n P) * (L + p_alpha P * D)) by (apply Rmult_le_compat_l; lra). lra. }
  pose proof (norm2_nonneg (vminus (er_x r) x)) as N0.
  assert (G2 : step * INR (p_n P) * norm2 (vminus (gvec P (er_x r)) (gvec P x)) <= 1 / 4 * norm2 (vminus (er_x r) x)).
  { apply Rle_trans with (step * INR (p_n P) * ((L + p_alpha P) * norm2 (vminus (er_x r) x))); [apply Rmult_le_compat_l; lra|]. rewrite <- Rmult_assoc. apply Rmult_le_compat_r; assumption. }
  apply (Rmult_le_compat_l (step * INR (p_n P))) in T; [|lra]. lra.
Qed.
(** termination: with enough epochs allowed the run stops with success *)
Lemma main_C96_svrg_terminates : forall (P : problem RN) (f : R -> R -> R) (lphi L D step tol low : R) (x0 : list R) (max_iter : nat) (perms : nat -> list nat),
  problem_wf P -> canonical P -> (exists i j, (i < p_n P)%nat /\ stores P i j) -> 0 <= p_alpha P -> lip_losses P f lphi L -> spread P D -> 1 <= D -> (p_alpha P = 0 \/ all_stored P) ->
  0 < step -> step * INR (p_n P) * (L + p_alpha P * D) <= 1 / 4 -> (forall k, Permutation (perms k) (seq 0 (p_n P))) -> length x0 = p_d P -> 0 < tol ->
  (forall y : list R, length y = p_d P -> low <= finite_sum P f y) ->
  16 * (INR (p_d P) * (step * INR (p_n P))) * (finite_sum P f x0 - low) < 3 * (tol * tol) * INR max_iter ->
  exists r, minimize_svrg P x0 (Some step) None None max_iter tol perms = Ok r /\ er_success r = true.
Proof.
  intros P f lphi L D step tol low x0 max_iter perms H1 H2 (i0 & j0 & Hi0 & S00) H4 H5 H6 H7 H8 H9 H10 Hperm Lx0 Ht Hlow Hmax.
  assert (H3 : (0 < p_n P)%nat) by lia. assert (OK : eok P f lphi L D step) by (unfold eok; tauto).
  assert (Hnp : 0 < INR (p_n P)) by (apply lt_0_INR; exact H3). assert (Hsn : 0 < step * INR (p_n P)) by (apply Rmult_lt_0_compat; assumption).
  assert (Hd : 0 < INR (p_d P)). { apply lt_0_INR. pose proof (prow_lt P H1 i0 j0 Hi0 S00). lia. }
  pose proof (Hlow x0 Lx0) as Hlow0.
  assert (Hm : (0 < max_iter)%nat). { destruct max_iter; [|lia]. exfalso. cbn [INR] in Hmax. assert (0 <= 16 * (INR (p_d P) * (step * INR (p_n P))) * (finite_sum P f x0 - low)); [|lra]. apply Rmult_le_pos; [|lra]. apply Rmult_le_pos; [lra|]. apply Rmult_le_pos; lra. }
  pose proof (partitions_eye (p_d P)) as Hq.
  destruct (make_blocks_ok P H1 (eye_ptr (p_d P)) Hq i0 Hi0) as (B & EB). { intros Z. unfold stores in S00. change (In j0 (prow P i0)) in S00. rewrite Z in S00. destruct S00. }
  destruct (main_C85_svrg_total RN P (eye_ptr (p_d P)) B no_prox step tol x0 max_iter perms H1 Hq EB) as (r & E).
  { intros x i a b c st x' Ex. injection Ex as <-. reflexivity. } { intros x i _ _. exists x. reflexivity. } { exact Lx0. } { exact Hm. }
  { intros k. apply Forall_forall. intros i Hi. apply (Permutation_in _ (Hperm k)), in_seq in Hi. lia. }
  exists r. split; [exact E|].
  destruct (svrg_run P f lphi L D step OK perms Hperm x0 tol max_iter r Lx0 E) as (xs & A1 & A2 & A3 & A4 & A5 & A6 & A7).
  destruct (er_success r) eqn:Hs; [reflexivity|]. exfalso. destruct (A7 eq_refl) as (Hit & Hbig).
  set (c := 3 * (tol * tol) / (16 * (INR (p_d P) * (step * INR (p_n P))))).
  assert (Hden : 0 < 16 * (INR (p_d P) * (step * INR (p_n P)))) by (apply Rmult_lt_0_compat; [lra|apply Rmult_lt_0_compat; lra]).
  assert (DR : INR (S (er_nit r)) * c <= finite_sum P f (xs 0%nat) - finite_sum P f (xs (S (er_nit r)))).
  { apply (drop_le (fun k => finite_sum P f (xs k))). intros k Hk. destruct (A5 k ltac:(lia)) as (Q & _ & U). specialize (Hbig k ltac:(lia)).
    set (G := gvec P (xs k)) in *. set (m := vminus (xs (S k)) (xs k)) in *.
    pose proof (l1_sq m) as LQ. assert (Lm : length m = p_d P) by (unfold m, vminus; rewrite lin_length, !A4 by lia; apply Nat.min_id). rewrite Lm, <- norm2_sq in LQ.
    assert (T1 : tol * tol <= l1 m * l1 m) by (apply Rmult_le_compat; lra).
    assert (T2 : norm2 m * norm2 m <= 4 / 3 * (step * INR (p_n P) * norm2 G) * (4 / 3 * (step * INR (p_n P) * norm2 G))) by (apply Rmult_le_compat; try apply norm2_nonneg; assumption).
    assert (T3 : INR (p_d P) * (norm2 m * norm2 m) <= INR (p_d P) * (4 / 3 * (step * INR (p_n P) * norm2 G) * (4 / 3 * (step * INR (p_n P) * norm2 G)))) by (apply Rmult_le_compat_l; lra).
    assert (T4 : c <= step * INR (p_n P) / 3 * dot G G); [|lra].
    unfold c. apply (Rmult_le_reg_r (16 * (INR (p_d P) * (step * INR (p_n P))))); [exact Hden|]. unfold Rdiv at 1. rewrite Rmult_assoc, Rinv_l, Rmult_1_r by lra.
    rewrite <- norm2_sq. lra. }
  rewrite A1 in DR. pose proof (Hlow (xs (S (er_nit r))) (A4 (S (er_nit r)) (le_n _))) as HF. rewrite Hit in *.
  assert (X : INR max_iter * c * (16 * (INR (p_d P) * (step * INR (p_n P)))) = 3 * (tol * tol) * INR max_iter) by (unfold c; field; split; lra).
  assert (Y : INR max_iter * c * (16 * (INR (p_d P) * (step * INR (p_n P)))) <= (finite_sum P f x0 - low) * (16 * (INR (p_d P) * (step * INR (p_n P))))) by (apply Rmult_le_compat_r; lra).
  lra.
Qed.
