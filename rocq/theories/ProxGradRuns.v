(** * Concrete runs used as non-vacuity examples in PropsProxGrad.v *)
From Coq Require Import ZArith QArith Reals List Bool Lra Lia.
From Verif Require Import Num Vec Spec RVec ConvexFacts ModelUtils ModelProxGrad ProxGradFacts ProxGradConv ProxGradAcc ProxGradMain.
Import ListNotations.
Open Scope R_scope.

Lemma two_step_run (K : Num) (fg : vec K -> K * vec K) prox s tol factor x0 x1 x2 :
  prox_step prox x0 (snd (fg x0)) s = x1 -> prox_step prox x1 (snd (fg x1)) s = x2 ->
  nltb K (vnorm (vdivs (vsub x0 x1) s)) tol = false -> nltb K (vnorm (vdivs (vsub x1 x2) s)) tol = true ->
  exists r, minimize_pg fg prox None (SCallable (fun _ => s)) tol 1 1 factor false false x0 = Ok r /\
  r_success r = true /\ length (r_iters r) = 2%nat /\ Forall (fun it => it_found it = true) (r_iters r).
Proof.
  intros E1 E2 C1 C2. unfold minimize_pg. cbn [Nat.eqb init_step].
  destruct (fg x0) as [f0 g0] eqn:Ef. cbn [snd] in E1.
  lazy beta iota zeta delta [pg_loop call_cb pg_step bind st_cert st_x st_grad st_n st_iters st_log fst snd]. rewrite E1, C1.
  lazy beta iota zeta delta [Nat.leb st_x st_grad st_f st_n].
  change (let (_, y) := fg x1 in y) with (snd (fg x1)).
  rewrite E2, C2. eexists; split; [reflexivity|]. cbn. repeat constructor.
Qed.
Lemma sq_run_success : exists r,
  minimize_pg (K:=RN) (fun x => (sq x, x)) (fun x _ => x) None (SCallable (K:=RN) (fun _ => 1)) 1 1 1 (6 / 10) false false [3; 4] = Ok r /\
  r_success r = true /\ length (r_iters r) = 2%nat /\ Forall (fun it => it_found it = true) (r_iters r).
Proof.
  apply (two_step_run RN) with (x1 := [0; 0]) (x2 := [0; 0]); cbn [snd].
  - unfold prox_step. rewrite vscale_R, vsub_R. unfold smul, vminus, lin. simpl. repeat (f_equal; try ring).
  - unfold prox_step. rewrite vscale_R, vsub_R. unfold smul, vminus, lin. simpl. repeat (f_equal; try ring).
  - rewrite vnorm_R, vsub_R. unfold vdivs. rn. apply Rltb_false. unfold norm2, dot, vminus, lin, Rsum. simpl.
    rewrite <- sqrt_1 at 1. apply sqrt_le_1_alt. lra.
  - rewrite vnorm_R, vsub_R. unfold vdivs. rn. apply Rltb_iff. unfold norm2, dot, vminus, lin, Rsum. simpl.
    rewrite <- sqrt_1. apply sqrt_lt_1_alt. lra.
Qed.
Lemma acc_loop_moves (K : Num) (fg : vec K -> K * vec K) prox h tol mi mb factor tc : forall fuel a r,
  acc_loop fg prox None (SCallable h) tol mi mb factor fuel tc a = Ok r -> r_iters r <> [].
Proof.
  induction fuel as [|fuel IH]; intros a r H; cbn [acc_loop call_cb] in H; [discriminate H|].
  match type of H with context [acc_step ?a1 ?a2 ?a3 ?a4 ?a5 ?a6 ?a7 ?a8 ?a9] =>
    set (a' := acc_step a1 a2 a3 a4 a5 a6 a7 a8 a9) in * end.
  assert (E : st_iters (ac_st a') <> []) by (unfold a', acc_step; discriminate).
  destruct (match st_cert (ac_st a') with Some c => nltb K c tol | None => false end).
  { injection H as <-. exact E. }
  destruct (Nat.leb mi (st_n (ac_st a'))). { injection H as <-. exact E. }
  exact (IH _ _ H).
Qed.
Lemma fista_run (K : Num) (fg : vec K -> K * vec K) prox h tol mi mb factor x0 : mb <> 0%nat ->
  exists r, minimize_pg fg prox None (SCallable h) tol mi mb factor true false x0 = Ok r /\ r_iters r <> [].
Proof.
  intros Hb. destruct (main_C40_accelerated K fg prox None (SCallable h) tol mi mb factor false x0 Hb) as (r & H & _).
  exists r. split; auto. unfold minimize_pg in H. destruct (Nat.eqb mb 0); [discriminate H|].
  exact (acc_loop_moves _ _ _ _ _ _ _ _ _ _ _ _ H).
Qed.
Lemma sq_fista_run : forall x0 : list R, is_min (length x0) (fun _ => True) (fun y => sq y + 0) (repeat 0 (length x0)) /\
  exists r, minimize_pg (K:=RN) (fun x => (sq x, x)) (fun x _ => x) None (SCallable (K:=RN) (fun _ => 1)) 0 1 1 (6 / 10) true false x0 = Ok r /\
  r_iters r <> [].
Proof.
  intros x0. split; [|apply (fista_run RN); auto].
  split; [apply repeat_length|]. split; auto. intros y Hy _. unfold sq.
  assert (0 <= dot y y) by apply dot_self_nonneg.
  replace (dot (repeat 0 (length x0)) (repeat 0 (length x0))) with 0; [lra|].
  symmetry. generalize (length x0) as m. induction m; simpl; [reflexivity|]. rewrite IHm. ring.
Qed.

(** copt/proximal_gradient.py:113-114 *)
Lemma main_C39_backtracking_rejected : forall (K : Num) (fg : vec K -> K * vec K) (prox : vec K -> K -> vec K)
  (cb : option (list (event K) -> bool)) (step : strategy K) (tol : K) (max_iter : nat) (factor : K) (acc tc : bool) (x0 : vec K),
  minimize_pg fg prox cb step tol max_iter 0 factor acc tc x0 = Err ValueError.
Proof. reflexivity. Qed.
