(** * Total variation: the statements of the properties *)
From Coq Require Import ZArith Bool List Lia Reals Lra Permutation.
From Verif Require Import Num Vec Spec SpecTv RVec ModelPenalty PenaltyFacts ModelTv TvSafe TvHull TvKkt TvTaut TvLines TvDykstra TvOp.
Import ListNotations.
Local Open Scope nat_scope.

Lemma main_C15_tv1d_total : forall (K : Num) (pinf ninf step : K) (input : list K), input <> [] ->
  exists p, low_tv1d pinf ninf step input = Ok (map Some p) /\ length p = length input /\ prox_tv1d pinf ninf input step = Ok p.
Proof. intros K. apply low_tv1d_total. Qed.
Lemma main_C15_tv2d_total : forall (K : Num) (pinf ninf : K) w step rows cols max_iter tol, 1 <= rows -> 1 <= cols -> length w = rows * cols -> 1 <= max_iter ->
  exists x warned, prox_tv2d pinf ninf w step rows cols max_iter tol = Ok (x, warned) /\ length x = length w.
Proof. intros K. apply prox_tv2d_total. Qed.
Lemma main_C15_degenerate : forall (K : Num) (pinf ninf : K) w step rows cols max_iter tol,
  prox_tv1d pinf ninf [] step = Err IndexError /\ prox_tv2d pinf ninf w step rows cols 0 tol = Err UnboundLocalError /\
  (length w <> rows * cols -> 1 <= max_iter -> prox_tv2d pinf ninf w step rows cols max_iter tol = Err ValueError).
Proof.
  intros. split; [reflexivity|]. split; [unfold prox_tv2d; destruct (negb _); reflexivity|]. intros L Hm. unfold prox_tv2d. rewrite (proj2 (Nat.eqb_neq _ _) L). destruct max_iter; [lia|reflexivity].
Qed.

Local Open Scope R_scope.
Lemma diffs_tv (x : list R) : l1 (diffs (K:=RN) x) = tv x.
Proof.
  induction x as [|a x IH]; [reflexivity|]. destruct x as [|b x]; [reflexivity|]. change (Rabs (b - a) + l1 (diffs (K:=RN) (b :: x)) = Rabs (b - a) + tv (b :: x)). rewrite IH. reflexivity.
Qed.
Lemma fused_call_R (alpha : R) (x : list R) : fused_call (K:=RN) alpha x = alpha * tv x.
Proof. unfold fused_call. rewrite vsum_R, vabs_R, <- l1_Rsum, diffs_tv. reflexivity. Qed.
Lemma main_C14_prox_tv1d : forall (pinf ninf : R) (w : list R) (step : R), w <> [] -> 0 <= step -> exists p, prox_tv1d (K:=RN) pinf ninf w step = Ok p /\ is_prox tv step w p.
Proof. exact prox_tv1d_prox. Qed.
Lemma main_C14_fused_prox : forall (pinf ninf alpha : R) (x : list R) (step : R), x <> [] -> 0 <= step * alpha -> exists p, fused_prox (K:=RN) pinf ninf alpha x step = Ok p /\
  is_prox (fun v => fused_call (K:=RN) alpha v) step x p.
Proof.
  intros pinf ninf alpha x step Hne Hs. destruct (prox_tv1d_prox pinf ninf x (step * alpha) Hne Hs) as (p & E & L & _ & H1 & H2). exists p. split; [exact E|].
  unfold is_prox, is_prox_on, prox_obj in *. split; [exact L|]. split; [exact I|]. split; intros y Ly _; rewrite !fused_call_R, <- !Rmult_assoc; [apply H1|apply H2]; auto.
Qed.
Lemma main_C16_prox_tv2d : forall (pinf ninf step : R) (rows cols : nat) (w : list R) (tol : R) (max_iter : nat) (x : list R), 0 <= step -> (1 <= rows)%nat -> (1 <= cols)%nat ->
  prox_tv2d (K:=RN) pinf ninf w step rows cols max_iter tol = Ok (x, false) -> length x = length w /\
  (forall z, length z = length w -> prox_obj (tv2 rows cols) step w x <= prox_obj (tv2 rows cols) step w z + 4 * step * INR (rows * cols) * tol) /\
  (forall z, is_prox (tv2 rows cols) step w z -> dist2 z x <= 8 * step * INR (rows * cols) * tol).
Proof.
  intros pinf ninf step rows cols w tol max_iter x Hs Hr Hc E.
  assert (L : length w = (rows * cols)%nat). { destruct (Nat.eq_dec (length w) (rows * cols)) as [L|L]; [exact L|exfalso]. unfold prox_tv2d in E. change (@length RN w) with (@length R w) in E. rewrite (proj2 (Nat.eqb_neq _ _) L) in E. destruct max_iter; discriminate E. }
  assert (Hm : (1 <= max_iter)%nat). { destruct max_iter; [|lia]. unfold prox_tv2d in E. destruct (negb _); discriminate E. }
  destruct (prox_tv2d_R pinf ninf step rows cols w Hs Hr Hc L tol max_iter Hm) as (x' & b & E' & H & _). rewrite E in E'. injection E' as -> <-. destruct (H eq_refl) as (Lx & A). split; [rewrite L; exact Lx|]. split.
  - intros z Lz. specialize (A z ltac:(congruence)). pose proof (dist2_nonneg z x'). lra.
  - intros z (Lz & _ & Hz & _). specialize (A z ltac:(congruence)). specialize (Hz x' ltac:(rewrite L; exact Lx) I). lra.
Qed.
Lemma main_C16_penalty_prox : forall (pinf ninf alpha step : R) (rows cols : nat) (w : list R) (tol : R) (max_iter : nat) (x : list R), 0 <= step * alpha -> (1 <= rows)%nat -> (1 <= cols)%nat ->
  tv2d_prox (K:=RN) pinf ninf alpha rows cols max_iter tol w step = Ok (x, false) ->
  forall (z : list R) (fz : R), tv2d_call (K:=RN) alpha rows cols z = Ok fz -> exists fx : R, tv2d_call (K:=RN) alpha rows cols x = Ok fx /\
  step * fx + / 2 * dist2 x w <= step * fz + / 2 * dist2 z w + 4 * (step * alpha) * INR (rows * cols) * tol.
Proof.
  intros pinf ninf alpha step rows cols w tol max_iter x Hs Hr Hc E z fz Ez. destruct (main_C16_prox_tv2d pinf ninf (step * alpha) rows cols w tol max_iter x Hs Hr Hc E) as (Lx & A & _).
  assert (L : length w = (rows * cols)%nat). { destruct (Nat.eq_dec (length w) (rows * cols)) as [L|L]; [exact L|exfalso]. unfold tv2d_prox, prox_tv2d in E. change (@length RN w) with (@length R w) in E. rewrite (proj2 (Nat.eqb_neq _ _) L) in E. destruct max_iter; discriminate E. }
  assert (Lz : length z = (rows * cols)%nat). { destruct (Nat.eq_dec (length z) (rows * cols)) as [Q|Q]; [exact Q|exfalso]. unfold tv2d_call in Ez. change (@length RN z) with (@length R z) in Ez. rewrite (proj2 (Nat.eqb_neq _ _) Q) in Ez. discriminate Ez. }
  rewrite (tv2d_call_R rows cols z alpha Lz) in Ez. injection Ez as <-. exists (alpha * tv2 rows cols x). split; [apply tv2d_call_R; congruence|]. specialize (A z ltac:(congruence)). unfold prox_obj in A. lra.
Qed.
Lemma main_C87_tv2d_converges : forall (pinf ninf step : R) (rows cols : nat) (w : list R) (tol : R) (max_iter : nat), 0 <= step -> (1 <= rows)%nat -> (1 <= cols)%nat -> length w = (rows * cols)%nat -> 0 < tol ->
  dot w w / (tol * tol) < INR max_iter -> exists x, prox_tv2d (K:=RN) pinf ninf w step rows cols max_iter tol = Ok (x, false).
Proof.
  intros pinf ninf step rows cols w tol max_iter Hs Hr Hc L Ht Hn. assert (Hp : 0 < tol * tol) by (apply Rmult_lt_0_compat; exact Ht).
  assert (Hq : dot w w < INR max_iter * (tol * tol)). { apply (Rmult_lt_compat_r _ _ _ Hp) in Hn. unfold Rdiv in Hn. rewrite Rmult_assoc, Rinv_l in Hn by lra. lra. }
  assert (Hm : (1 <= max_iter)%nat). { destruct max_iter; [|lia]. pose proof (dot_self_nonneg w). cbn in Hq. lra. }
  destruct (prox_tv2d_R pinf ninf step rows cols w Hs Hr Hc L tol max_iter Hm) as (x & b & E & _ & H). exists x. destruct b; [|exact E]. specialize (H eq_refl (Rlt_le _ _ Ht)). lra.
Qed.
Lemma main_C17_operator : forall (rows cols : nat) (x : list R), length x = (rows * cols)%nat -> exists L, tv2d_rows (K:=RN) rows cols = Ok L /\
  Forall (fun r : list R => length r = length x) L /\ l1 (map (fun r => dot r x) L) = tv2 rows cols x.
Proof. exact tv2d_op. Qed.
Lemma main_C17_penalty : forall (rows cols : nat) (alpha : R) (x : list R), length x = (rows * cols)%nat -> tv2d_call (K:=RN) alpha rows cols x = Ok (alpha * tv2 rows cols x).
Proof. intros. apply tv2d_call_R. assumption. Qed.
