(** * FloatNan: what becomes of a nan *)
From Coq Require Import ZArith Reals Lra Lia Bool List.
From Coq Require Import Floats.SpecFloat.
From Verif Require Import Num Vec ModelUtils ModelConstraint ModelPenalty ModelProxGrad FloatBase FloatProx RVec.
Import ListNotations.
Local Open Scope R_scope.

Lemma main_C112_prox_refuted : forall (alpha step : F64) (x : list F64) i,
  (i < length x)%nat -> nisnan (nth i x n0) = true ->
  nth i (l1norm_prox alpha x step) n0 = n0.
Proof.
  intros alpha step x i Hi Hn. unfold l1norm_prox.
  rewrite (nth_indep _ _ (soft_thr (K:=F64) (nmul F64 alpha step) n0)) by (rewrite map_length; exact Hi).
  rewrite map_nth. rewrite (nan_eq _ Hn). apply soft_thr_nan.
Qed.

(** all coordinates nan: the prox returns the zero vector *)
Lemma prox_all_nan alpha step (v : list F64) : Forall (fun a => nisnan a = true) v ->
  l1norm_prox alpha v step = vzeros (length v).
Proof.
  unfold l1norm_prox, vzeros. induction 1 as [|a v Ha Hv IH]; [reflexivity|].
  cbn [map length repeat]. rewrite IH, (nan_eq _ Ha), soft_thr_nan. reflexivity.
Qed.
Lemma mul_nan_r (s : F64) : nmul F64 s S754_nan = S754_nan.
Proof. destruct s; reflexivity. Qed.
Lemma sub_nan_r (s : F64) : nsub F64 s S754_nan = S754_nan.
Proof. destruct s; reflexivity. Qed.
Lemma add_nan_r (s : F64) : nadd F64 s S754_nan = S754_nan.
Proof. destruct s; reflexivity. Qed.
Lemma step_all_nan (s : F64) : forall (x g : list F64),
  Forall (fun a => nisnan a = true) g -> Forall (fun a => nisnan a = true) (vsub x (vscale s g)).
Proof.
  intros x g Hg. revert x. induction Hg as [|a g Ha Hg IH]; intros [|b x]; try constructor.
  - rewrite (nan_eq _ Ha), mul_nan_r, sub_nan_r. reflexivity.
  - apply IH.
Qed.

Lemma vnorm_zeros n (s : F64) : fin s -> 0 < fv s ->
  vnorm (vdivs (vsub (vzeros n) (vzeros n)) s) = @n0 F64.
Proof.
  intros Fs Hs.
  assert (E : vdivs (vsub (vzeros n) (vzeros n)) s = @vzeros F64 n).
  { unfold vdivs, vsub, vzeros. induction n as [|n IH]; [reflexivity|].
    cbn [repeat map2 map]. f_equal; [|exact IH].
    destruct Fs as [H1 _]. destruct s as [b|b| |b m e]; try discriminate H1.
    - exfalso. unfold fv in Hs. simpl in Hs. lra.
    - destruct b; [|reflexivity]. exfalso. unfold fv in Hs. simpl in Hs.
      pose proof (Float_prop.F2R_lt_0 Zaux.radix2 (Defs.Float Zaux.radix2 (Zneg m) e) (eq_refl _)). lra. }
  rewrite E. unfold vnorm, vdot, vsum.
  assert (E2 : vmul (vzeros n) (vzeros n) = @vzeros F64 n).
  { clear. unfold vmul, vzeros. induction n as [|n IH]; [reflexivity|]. cbn [repeat map2]. f_equal. exact IH. }
  rewrite E2.
  assert (E3 : fold_left (nadd F64) (vzeros n) n0 = n0).
  { clear. unfold vzeros. induction n as [|n IH]; [reflexivity|]. cbn [repeat fold_left]. exact IH. }
  rewrite E3. reflexivity.
Qed.

Lemma vzeros_length n : length (@vzeros F64 n) = n.
Proof. apply repeat_length. Qed.
Lemma vsub_length (x y : list F64) : length (vsub x y) = Nat.min (length x) (length y).
Proof. unfold vsub. revert y. induction x as [|a x IH]; intros [|b y]; try reflexivity. cbn. f_equal. apply IH. Qed.
Lemma vscale_length (c : F64) (x : list F64) : length (vscale c x) = length x.
Proof. apply map_length. Qed.

(** A gradient of nan's: the solver with the L1 penalty reports success at the zero vector. *)
Lemma main_C112_solver_refuted : forall (fg : list F64 -> F64 * list F64) (alpha s tol factor : F64)
    (max_iter max_bt : nat) (tc : bool) (x0 : list F64),
  (forall x, length (snd (fg x)) = length x /\ Forall (fun a => nisnan a = true) (snd (fg x))) ->
  fin s -> 0 < fv s -> fin tol -> 0 < fv tol -> (0 < max_iter)%nat -> (0 < max_bt)%nat ->
  exists r, minimize_pg (K:=F64) fg (l1norm_prox alpha) None (SCallable (K:=F64) (fun _ => s))
              tol max_iter max_bt factor false tc x0 = Ok r /\
    r_success r = true /\ r_x r = vzeros (length x0).
Proof.
  intros fg alpha s tol factor max_iter max_bt tc x0 Hfg Fs Hs Ft Ht Hm Hb.
  assert (Hstep : forall x : list F64,
    prox_step (K:=F64) (l1norm_prox alpha) x (snd (fg x)) s = vzeros (length x)).
  { intros x. unfold prox_step. destruct (Hfg x) as [Hl Hn]. rewrite prox_all_nan by (apply step_all_nan, Hn).
    f_equal. rewrite vsub_length, vscale_length, Hl. apply Nat.min_id. }
  assert (H0 : forall n, nltb F64 (vnorm (vdivs (vsub (vzeros n) (vzeros n)) s)) tol = true).
  { intros n. rewrite vnorm_zeros by assumption. rewrite ltb_fin by (assumption || apply fin_0).
    apply Rltb_true. rewrite fv_0. exact Ht. }
  unfold minimize_pg. destruct max_bt as [|mb]; [lia|]. cbn [Nat.eqb].
  destruct (fg x0) as [f0 g0] eqn:E0. destruct max_iter as [|mi]; [lia|].
  assert (Eg : g0 = snd (fg x0)) by (rewrite E0; reflexivity). subst g0.
  cbn [pg_loop call_cb st_log pg_step st_x st_grad bind st_cert].
  rewrite Hstep.
  destruct (nltb F64 (vnorm (vdivs (vsub x0 (vzeros (length x0))) s)) tol).
  - eexists. split; [reflexivity|]. split; reflexivity.
  - cbn [Nat.leb st_n]. cbn [st_x st_f st_grad st_step st_certs st_log st_iters].
    rewrite Hstep, vzeros_length, H0.
    eexists. split; [reflexivity|]. split; reflexivity.
Qed.

(** ** The part that holds: a successful run returns no nan *)
Lemma fold_add_nan (l : list F64) : fold_left (nadd F64) l S754_nan = S754_nan.
Proof. induction l as [|a l IH]; [reflexivity|]. cbn [fold_left]. exact IH. Qed.
Lemma sum_nan (l : list F64) : forall acc, In S754_nan l -> fold_left (nadd F64) l acc = S754_nan.
Proof.
  induction l as [|a l IH]; intros acc [].
  - subst a. cbn [fold_left]. rewrite add_nan_r. apply fold_add_nan.
  - cbn [fold_left]. apply IH. assumption.
Qed.
Lemma norm_nan (d : list F64) i : (i < length d)%nat -> nth i d n0 = S754_nan -> vnorm d = S754_nan.
Proof.
  intros Hi Hn. unfold vnorm, vdot, vsum. rewrite sum_nan; [reflexivity|].
  unfold vmul. revert i Hi Hn. induction d as [|a d IH]; intros i Hi Hn; [simpl in Hi; lia|].
  cbn [map2 In]. destruct i as [|i]; cbn [nth] in Hn.
  - left. rewrite Hn. reflexivity.
  - right. apply (IH i); [apply Nat.succ_lt_mono, Hi|exact Hn].
Qed.
Lemma cert_no_nan (x xn : list F64) (s tol : F64) i :
  length xn = length x -> (i < length x)%nat ->
  nltb F64 (vnorm (vdivs (vsub x xn) s)) tol = true -> nisnan (nth i xn n0) = false.
Proof.
  intros Hl Hi Hc. destruct (nisnan (nth i xn n0)) eqn:En; [|reflexivity]. exfalso.
  apply nan_eq in En.
  rewrite (norm_nan _ i) in Hc; [discriminate Hc| |].
  - unfold vdivs. rewrite map_length, vsub_length. lia.
  - clear Hc. unfold vdivs, vsub. revert xn i Hl Hi En.
    induction x as [|a x IH]; intros [|b xn] i Hl Hi En; try (simpl in *; lia).
    cbn [map2 map]. destruct i as [|i]; cbn [nth] in En |- *.
    + rewrite En, sub_nan_r. reflexivity.
    + apply IH; [apply Nat.succ_inj, Hl|apply Nat.succ_lt_mono, Hi|exact En].
Qed.

Section Success.
Variable fg : list F64 -> F64 * list F64.
Variable prox : list F64 -> F64 -> list F64.
Variable cb : option (list (event F64) -> bool).
Variable step : strategy F64.
Variables tol factor : F64.
Variables max_iter max_bt : nat.
Hypothesis Hg : forall x, length (snd (fg x)) = length x.
Hypothesis Hp : forall x s, length (prox x s) = length x.

Lemma prox_step_length x g s : length g = length x -> length (prox_step (K:=F64) prox x g s) = length x.
Proof. intros H. unfold prox_step. rewrite Hp, vsub_length, vscale_length, H. apply Nat.min_id. Qed.
Lemma backtrack_length k : forall x fk g sp s xn prev ev, length g = length x ->
  length xn = length x -> length (snd prev) = length x ->
  length (ls_x (backtrack (K:=F64) fg prox factor k x fk g sp s xn prev ev)) = length x /\
  length (snd (ls_fg (backtrack (K:=F64) fg prox factor k x fk g sp s xn prev ev))) = length x.
Proof.
  induction k as [|k IH]; intros x fk g sp s xn prev ev Hgx Hx Hpv; cbn [backtrack].
  - split; assumption.
  - destruct (nleb F64 _ _).
    + split; [exact Hx|]. cbn [ls_fg]. rewrite Hg. exact Hx.
    + apply IH; [exact Hgx| |rewrite Hg; exact Hx]. apply prox_step_length. exact Hgx.
Qed.
Lemma pg_step_shape tc s log s' : length (st_grad s) = length (st_x s) ->
  pg_step (K:=F64) fg prox step max_bt factor tc s log = Ok s' ->
  length (st_x s') = length (st_x s) /\ length (st_grad s') = length (st_x s) /\
  exists ss, st_cert s' = Some (vnorm (vdivs (vsub (st_x s) (st_x s')) ss)).
Proof.
  intros Hl. unfold pg_step. destruct step as [f| | |].
  - intros E. injection E as <-. cbn [st_x st_grad st_cert].
    split; [apply prox_step_length, Hl|]. split; [|eexists; reflexivity].
    rewrite Hg. apply prox_step_length, Hl.
  - destruct (st_step s) as [s0|]; [|discriminate]. intros E. injection E as <-.
    cbn [st_x st_grad st_cert].
    destruct (backtrack_length max_bt (st_x s) (st_f s) (st_grad s) s0 (nmul F64 s0 (nlit 11 10))
      (prox_step prox (st_x s) (st_grad s) s0) (st_f s, st_grad s) []) as [H1 H2];
      [exact Hl|apply prox_step_length, Hl|exact Hl|].
    split; [exact H1|]. split; [exact H2|]. eexists; reflexivity.
  - discriminate.
  - discriminate.
Qed.
Lemma pg_loop_no_nan fuel : forall tc s r, length (st_grad s) = length (st_x s) ->
  pg_loop (K:=F64) fg prox cb step tol max_iter max_bt factor fuel tc s = Ok r -> r_success r = true ->
  length (r_x r) = length (st_x s) /\
  forall i, (i < length (st_x s))%nat -> nisnan (nth i (r_x r) n0) = false.
Proof.
  induction fuel as [|fuel IH]; intros tc s r Hl; cbn [pg_loop]; [discriminate|].
  destruct (call_cb cb (st_log s) (pg_locals s)) as [stop log1].
  destruct stop; [intros E; injection E as <-; discriminate|].
  destruct (pg_step fg prox step max_bt factor tc s log1) as [s'|e] eqn:Es; cbn [bind]; [|discriminate].
  destruct (pg_step_shape _ _ _ _ Hl Es) as (L1 & L2 & ss & Hc). rewrite Hc.
  destruct (nltb F64 _ tol) eqn:Et.
  - intros E _. injection E as <-. cbn [pg_return r_x]. split; [exact L1|].
    intros i Hi. eapply cert_no_nan; [exact L1|exact Hi|exact Et].
  - destruct (Nat.leb max_iter (st_n s')); [intros E; injection E as <-; discriminate|].
    intros E Hs. apply IH in E; [|cbn [st_x st_grad]; exact (eq_trans L2 (eq_sym L1))|exact Hs].
    destruct E as [H1 H2]. cbn [st_x] in H1, H2.
    rewrite L1 in H1, H2. split; assumption.
Qed.
End Success.

Lemma main_C112_success_partial : forall (fg : list F64 -> F64 * list F64) (prox : list F64 -> F64 -> list F64)
    cb step tol factor (max_iter max_bt : nat) (tc : bool) (x0 : list F64) r,
  (forall x, length (snd (fg x)) = length x) -> (forall x s, length (prox x s) = length x) ->
  minimize_pg (K:=F64) fg prox cb step tol max_iter max_bt factor false tc x0 = Ok r ->
  r_success r = true ->
  length (r_x r) = length x0 /\ Forall (fun a => nisnan a = false) (r_x r).
Proof.
  intros fg prox cb step tol factor max_iter max_bt tc x0 r Hg Hp. unfold minimize_pg.
  destruct (Nat.eqb max_bt 0); [discriminate|].
  destruct (fg x0) as [f0 g0] eqn:E0. intros E Hs.
  assert (Hl : length g0 = length x0) by (pose proof (Hg x0) as H; rewrite E0 in H; exact H).
  apply pg_loop_no_nan in E; [|exact Hg|exact Hp|exact Hl|exact Hs]. destruct E as [H1 H2].
  cbn [st_x] in H1, H2. split; [exact H1|].
  apply Forall_nth. intros i d Hi. rewrite (nth_indep _ _ n0) by exact Hi.
  apply H2. rewrite <- H1. exact Hi.
Qed.

(** LinfBall.prox keeps every nan: see [main_C111_clip]. *)

(** The default step rule, on a function whose value and gradient are nan everywhere. *)
Definition nan_fg (x : list F64) : F64 * list F64 := (S754_nan, map (fun _ => S754_nan) x).
Lemma main_C112_backtracking_refuted :
  exists r, minimize_pg (K:=F64) nan_fg (l1norm_prox n1) None (SBacktracking (K:=F64))
     (nlit 1 1000000) 500 100 (nlit 6 10) false false [n1] = Ok r /\ r_success r = true /\ r_x r = [n0].
Proof.
  match goal with |- exists r, ?m = _ /\ _ =>
    assert (H : match m with
                | Ok r => r_success r && match r_x r with [S754_zero false] => true | _ => false end
                | Err _ => false end = true) by (vm_compute; reflexivity);
    destruct m as [r|e]; [|discriminate H]
  end.
  exists r. split; [reflexivity|]. apply andb_prop in H. destruct H as [H1 H2]. split; [exact H1|].
  destruct (r_x r) as [|a [|b l]]; try discriminate H2.
  - destruct a as [[|]| | |]; try discriminate H2. reflexivity.
  - destruct a as [[|]| | |]; discriminate H2.
Qed.
