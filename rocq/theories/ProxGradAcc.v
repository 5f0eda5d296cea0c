(** * The accelerated branch: what the iterates are, and the FISTA rate *)
From Coq Require Import Reals List Bool Lra Lia Psatz.
From Verif Require Import Num Vec Spec RVec ConvexFacts ModelUtils ModelProxGrad ProxGradFacts ProxGradConv.
Import ListNotations.

Section AccGeneric.
Context {K : Num}.
Local Open Scope num_scope.
Variable fg : vec K -> K * vec K.
Variable prox : vec K -> K -> vec K.
Variable cb : option (list (event K) -> bool).
Variable step : strategy K.
Variable tol : K.
Variable max_iter max_bt : nat.
Variable factor : K.
Variable tc : bool.

(** the momentum parameters *)
Fixpoint tseq (k : nat) : K := match k with O => n1 | S k' => t_next (tseq k') end.
(** the point at which the next gradient is taken, from the iterations so far (newest first) *)
Definition acc_point (x0 : vec K) (l : list (iter K)) : vec K :=
  match l with
  | [] => x0
  | it :: rest => extrap (tseq (length rest)) (it_next it) (last_point x0 rest)
  end.
Fixpoint acc_chain (x0 : vec K) (l : list (iter K)) : Prop :=
  match l with
  | [] => True
  | it :: rest => it_x it = acc_point x0 rest /\ it_grad it = snd (fg (it_x it)) /\ it_f it = fst (fg (it_x it)) /\
      it_next it = prox (vsub (it_x it) (vscale (it_prox it) (it_grad it))) (it_prox it) /\
      it_step it = it_prox it /\
      (step = SBacktracking -> it_found it = true ->
         fst (fg (it_next it)) <=? bt_rhs (it_f it) (it_grad it) (vsub (it_next it) (it_x it)) (it_step it) = true) /\
      (forall h, step = SCallable h -> exists log, it_prox it = h log) /\
      acc_chain x0 rest
  end.
Lemma acc_backtrack_spec yk grad : forall k s xn ev xo so fo eo, 
  acc_backtrack fg prox factor k yk grad s xn ev = (xo, so, fo, eo) -> xn = prox_step prox yk grad s ->
  xo = prox_step prox yk grad so /\
  (fo = true -> fst (fg xo) <=? bt_rhs (fst (fg yk)) grad (vsub xo yk) so = true).
Proof.
  induction k as [|k IH]; intros s xn ev xo so fo eo H E; simpl in H.
  - injection H as <- <- <- <-. split; auto. discriminate.
  - destruct (fst (fg xn) <=? bt_rhs (fst (fg yk)) grad (vsub xn yk) s) eqn:Et.
    + injection H as <- <- <- <-. auto.
    + eapply IH; [exact H|auto].
Qed.

(** the certificate reported after the iterations [l] *)
Definition acc_cert (x0 : vec K) (l : list (iter K)) : option K :=
  match l with
  | [] => None
  | it :: rest => Some (vnorm (vdivs (vsub (last_point x0 rest)
      (prox (vsub (it_next it) (vscale (it_step it) (snd (fg (it_next it))))) (it_step it))) (it_step it)))
  end.
Record acc_inv (x0 : vec K) (a : @acc_state K) : Prop := mkAccInv {
  ai_chain : acc_chain x0 (st_iters (ac_st a));
  ai_x : st_x (ac_st a) = last_point x0 (st_iters (ac_st a));
  ai_y : ac_yk a = acc_point x0 (st_iters (ac_st a));
  ai_t : ac_tk a = tseq (length (st_iters (ac_st a)));
  ai_cert : st_cert (ac_st a) = acc_cert x0 (st_iters (ac_st a))
}.
Lemma acc_step_inv x0 a log : acc_inv x0 a ->
  acc_inv x0 (acc_step fg prox step max_bt factor tc a (snd (fg (ac_yk a))) log).
Proof.
  intros [Hc Hx Hy Ht Hce]. unfold acc_step. destruct step as [h| | |] eqn:Est.
  - constructor; simpl; auto.
    + repeat split; auto; try congruence. intros h' Hh. assert (h' = h) by congruence. subst h'. eexists; reflexivity.
    + rewrite Ht, Hx. reflexivity.
    + rewrite Ht. reflexivity.
    + rewrite Hx. reflexivity.
  - destruct (st_step (ac_st a)) as [s0|]; [|constructor; auto].
    destruct (acc_backtrack _ _ _ _ _ _ _ _) as [[[xn ss] fd] ev] eqn:E.
    destruct (acc_backtrack_spec _ _ _ _ _ _ _ _ _ _ E eq_refl) as [A B].
    constructor; simpl; auto.
    + repeat split; auto. intros; congruence.
    + rewrite Ht, Hx. reflexivity.
    + rewrite Ht. reflexivity.
    + rewrite Hx. reflexivity.
  - constructor; simpl; auto.
  - constructor; simpl; auto.
Qed.
Lemma acc_loop_inv x0 : forall fuel a r, acc_inv x0 a ->
  acc_loop fg prox cb step tol max_iter max_bt factor fuel tc a = Ok r ->
  acc_chain x0 (r_iters r) /\ r_x r = last_point x0 (r_iters r) /\ r_cert r = acc_cert x0 (r_iters r).
Proof.
  induction fuel as [|fuel IH]; intros a r Hi H; cbn [acc_loop] in H; [discriminate|].
  set (s := ac_st a) in *.
  set (log0 := EvEval (ac_yk a) :: st_log s) in *.
  set (s0 := mkPg (st_x s) (st_f s) (snd (fg (ac_yk a))) (st_step s) (st_n s) (st_cert s) (st_certs s) log0 (st_iters s)) in *.
  destruct (call_cb cb log0 (pg_locals s0)) as [stop log1].
  destruct stop. { injection H as <-. simpl. destruct Hi; auto. }
  set (a0 := mkAcc s0 (ac_tk a) (ac_yk a)) in *.
  assert (Hi0 : acc_inv x0 a0) by (destruct Hi; constructor; auto).
  pose proof (acc_step_inv x0 a0 log1 Hi0) as Hi'. change (ac_yk a0) with (ac_yk a) in Hi'.
  set (a' := acc_step fg prox step max_bt factor tc a0 (snd (fg (ac_yk a))) log1) in *.
  destruct (match st_cert (ac_st a') with Some c => c <? tol | None => false end).
  { injection H as <-. simpl. destruct Hi'; auto. }
  destruct (Nat.leb max_iter (st_n (ac_st a'))). { injection H as <-. simpl. destruct Hi'; auto. }
  eapply IH; [|exact H]. destruct Hi'; constructor; auto.
Qed.
Theorem acc_iterates3 x0 r :
  minimize_pg fg prox cb step tol max_iter max_bt factor true tc x0 = Ok r ->
  acc_chain x0 (r_iters r) /\ r_x r = last_point x0 (r_iters r) /\ r_cert r = acc_cert x0 (r_iters r).
Proof.
  unfold minimize_pg. destruct (Nat.eqb max_bt 0); [discriminate|]. intros H.
  eapply acc_loop_inv; [|exact H]. constructor; simpl; auto.
Qed.

Theorem acc_iterates x0 r :
  minimize_pg fg prox cb step tol max_iter max_bt factor true tc x0 = Ok r ->
  acc_chain x0 (r_iters r) /\ r_x r = last_point x0 (r_iters r).
Proof. intros H. destruct (acc_iterates3 _ _ H) as (A & B & _). auto. Qed.

(** an unrecognised strategy makes the accelerated loop spin *)
Lemma acc_loop_noop : (step = SOther \/ step = SFixed) -> cb = None ->
  forall fuel a, st_cert (ac_st a) = None -> (st_n (ac_st a) <= max_iter)%nat -> (max_iter - st_n (ac_st a) < fuel)%nat ->
  exists r, acc_loop fg prox cb step tol max_iter max_bt factor fuel tc a = Ok r /\
    r_x r = st_x (ac_st a) /\ r_success r = false /\ r_cert r = None /\ r_nit r = max_iter /\
    r_step r = st_step (ac_st a) /\ r_iters r = st_iters (ac_st a).
Proof.
  intros Hst Hcb. rewrite Hcb. induction fuel as [|fuel IH]; intros a Hc Hm Hf; cbn [acc_loop]; [lia|].
  cbn [call_cb].
  set (s := ac_st a) in *.
  match goal with |- context [acc_step ?a1 ?a2 ?a3 ?a4 ?a5 ?a6 ?a7 ?a8 ?a9] =>
       set (a' := acc_step a1 a2 a3 a4 a5 a6 a7 a8 a9) in * end.
  assert (E : st_x (ac_st a') = st_x s /\ st_cert (ac_st a') = None /\ st_n (ac_st a') = st_n s /\ st_step (ac_st a') = st_step s
     /\ st_iters (ac_st a') = st_iters s).
  { unfold a', acc_step. destruct Hst as [-> | ->]; simpl; auto. }
  destruct E as (E1 & E2 & E3 & E4 & E5). rewrite E2.
  destruct (Nat.leb_spec max_iter (st_n (ac_st a'))).
  - eexists; split; [reflexivity|]. simpl. repeat split; auto; lia.
  - destruct (IH (mkAcc
         (mkPg (st_x (ac_st a')) (st_f (ac_st a')) (st_grad (ac_st a')) (st_step (ac_st a'))
            (S (st_n (ac_st a'))) None (st_certs (ac_st a')) (st_log (ac_st a')) (st_iters (ac_st a')))
         (ac_tk a') (ac_yk a'))) as (r & A & B); simpl; auto; try lia.
    exists r. split; [rewrite <- A; reflexivity|]. simpl in B.
    rewrite E1, E4, E5 in B. exact B.
Qed.
End AccGeneric.

Open Scope R_scope.

(** ** FISTA rate *)
Definition tR (k : nat) : R := @tseq RN k.
Lemma tR_S k : tR (S k) = (1 + sqrt (1 + 4 * tR k * tR k)) / 2.
Proof. reflexivity. Qed.
Lemma tR_rec k : 1 <= tR k /\ tR (S k) * tR (S k) - tR (S k) = tR k * tR k /\ tR k + / 2 <= tR (S k).
Proof.
  assert (P : forall k, 1 <= tR k -> tR (S k) * tR (S k) - tR (S k) = tR k * tR k /\ tR k + / 2 <= tR (S k)).
  { intros j Hj. rewrite tR_S.
    assert (H0 : 0 <= 1 + 4 * tR j * tR j) by nra.
    pose proof (sqrt_sqrt _ H0) as E. pose proof (sqrt_pos (1 + 4 * tR j * tR j)) as Hp.
    set (q := sqrt (1 + 4 * tR j * tR j)) in *. split; [|].
    - replace ((1 + q) / 2 * ((1 + q) / 2) - (1 + q) / 2) with ((q * q - 1) / 4) by field. rewrite E. field.
    - assert (2 * tR j <= q); [|lra].
      unfold q. rewrite <- (sqrt_square (2 * tR j)) by lra. apply sqrt_le_1; nra. }
  assert (Q : 1 <= tR k).
  { induction k; [unfold tR; simpl; lra|]. destruct (P k IHk). lra. }
  destruct (P k Q). auto.
Qed.
Lemma tR_lower k : (INR k + 2) / 2 <= tR k.
Proof.
  induction k.
  - unfold tR; simpl. lra.
  - destruct (tR_rec k) as (_ & _ & H). rewrite S_INR. lra.
Qed.

Section Fista.
Variable n : nat.
Variable f : list R -> R.
Variable gradf : list R -> list R.
Variable dom : list R -> Prop.
Variable g : list R -> R.
Variable prox : list R -> R -> list R.
Hypothesis Hgl : forall x, length x = n -> length (gradf x) = n.
Hypothesis Hg : convex_on n dom g.
Hypothesis Hprox : forall x s, length x = n -> 0 < s -> is_prox_on dom g s x (prox x s).
Hypothesis Hfo : first_order n f gradf.
Variable xs : list R.
Hypothesis Hxs : is_min n dom (fun y => f y + g y) xs.

Let F y := f y + g y.

(** accepted accelerated step from y *)
Definition acc_good (it : iter RN) : Prop :=
  0 < it_prox it /\ accepted f gradf it.

Lemma extrap_R (t : R) (a b : list R) :
  extrap (K:=RN) t a b = vplus a (smul ((t - 1) / ((1 + sqrt (1 + 4 * t * t)) / 2)) (vminus a b)).
Proof. unfold extrap. rewrite vadd_R, vscale_R, vsub_R. reflexivity. Qed.

Lemma weighted_identity t (y xp x z : list R) : length y = n -> length xp = n -> length x = n -> length z = n ->
  t * ((t - 1) * (dist2 y x - dist2 xp x) + (dist2 y z - dist2 xp z)) =
  dist2 (lin t y (- (t - 1)) x) z - dist2 (lin t xp (- (t - 1)) x) z.
Proof.
  intros. ipx.
  rewrite !(dot_comm x y), !(dot_comm x xp), !(dot_comm z y), !(dot_comm z xp), !(dot_comm z x). ring.
Qed.

(** [nonincr l]: the steps never increase over time ([l] is newest first) *)
Fixpoint nonincr (l : list (iter RN)) : Prop :=
  match l with
  | it :: ((it' :: _) as rest) => it_prox it <= it_prox it' /\ nonincr rest
  | _ => True
  end.
Definition momentum (x0 : list R) (l : list (iter RN)) : list R :=
  match l with
  | [] => x0
  | it :: rest => let t := tR (length rest) in lin t (it_next it) (- (t - 1)) (last_point (K:=RN) x0 rest)
  end.
Definition energy (x0 : list R) (l : list (iter RN)) : R :=
  match l with
  | [] => 0
  | it :: rest => 2 * it_prox it * (tR (length rest) * tR (length rest)) * (F (it_next it) - F xs)
  end.

Lemma acc_lengths step x0 : length x0 = n -> forall l : list (iter RN),
  acc_chain (K:=RN) (fgR f gradf) prox step x0 l -> Forall acc_good l ->
  length (last_point (K:=RN) x0 l) = n /\ length (acc_point (K:=RN) x0 l) = n /\
  (l <> [] -> dom (last_point (K:=RN) x0 l)).
Proof.
  intros Hx0. induction l as [|it l IH]; intros Hc HG.
  - simpl. repeat split; auto; congruence.
  - destruct Hc as (Ex & Eg & Ef & En & Est & Hacc & _ & Hc).
    assert (G12 := Forall_inv HG). assert (G3 := Forall_inv_tail HG). destruct G12 as [G1 G2].
    destruct (IH Hc G3) as (L1 & L2 & L3).
    assert (Hly : length (it_x it) = n) by (rewrite Ex; auto).
    rewrite vscale_R, vsub_R in En. cbn [fgR snd] in Eg. rewrite Eg in En.
    pose proof (Hgl _ Hly) as Hlg.
    assert (Hl0 : length (vminus (it_x it) (smul (it_prox it) (gradf (it_x it)))) = n) by (rn; leng).
    pose proof (Hprox _ _ Hl0 G1) as Hpx. rewrite <- En in Hpx.
    assert (Hln : length (it_next it) = n) by (destruct Hpx as [A _]; eapply eq_trans; [exact A|auto]).
    split; [exact Hln|]. split.
    { cbn [acc_point]. rewrite extrap_R. rn. leng. }
    intros _. destruct Hpx as (_ & A & _); exact A.
Qed.

Lemma fista_step s s' t t' v v' D1 D2 Z : 0 < s -> s <= s' -> 0 <= v -> 1 <= t -> t * t - t = t' * t' ->
  2 * s * (v' - 0) <= D1 -> 2 * s * (v' - v) <= D2 ->
  t * ((t - 1) * D2 + D1) <= Z ->
  2 * s * (t * t) * v' <= 2 * s' * (t' * t') * v + Z.
Proof.
  intros Hs Hss Hv Ht Et H1 H2 HZ.
  assert (A : (t - 1) * (2 * s * (v' - v)) <= (t - 1) * D2) by (apply Rmult_le_compat_l; lra).
  assert (B : t * ((t - 1) * (2 * s * (v' - v)) + 2 * s * (v' - 0)) <= t * ((t - 1) * D2 + D1)).
  { apply Rmult_le_compat_l; lra. }
  assert (C : 2 * s * (t' * t') * v <= 2 * s' * (t' * t') * v).
  { apply Rmult_le_compat_r; auto. apply Rmult_le_compat_r; [|lra]. nra. }
  assert (E : t * ((t - 1) * (2 * s * (v' - v)) + 2 * s * (v' - 0)) = 2 * s * (t * t) * v' - 2 * s * (t * t - t) * v) by ring.
  rewrite E, Et in B. lra.
Qed.

Lemma fista_energy step x0 : length x0 = n -> forall l : list (iter RN),
  acc_chain (K:=RN) (fgR f gradf) prox step x0 l -> Forall acc_good l -> nonincr l ->
  energy x0 l + dist2 (momentum x0 l) xs <= dist2 x0 xs.
Proof.
  intros Hx0. destruct Hxs as (Hls & Hds & Hmin).
  induction l as [|it l IH]; intros Hc HG Hn.
  - simpl. lra.
  - pose proof (acc_lengths step x0 Hx0 _ Hc HG) as (Hln & _ & _).
    destruct Hc as (Ex & Eg & Ef & En & Est & Hacc & _ & Hc).
    assert (G12 := Forall_inv HG). assert (G3 := Forall_inv_tail HG). destruct G12 as [G1 G2].
    assert (Hn' : nonincr l) by (destruct l; simpl in *; tauto).
    pose proof (IH Hc G3 Hn') as L4.
    pose proof (acc_lengths step x0 Hx0 _ Hc G3) as (L1 & L2 & L3).
    assert (Hly : length (it_x it) = n) by (rewrite Ex; auto).
    rewrite vscale_R, vsub_R in En. cbn [fgR snd] in Eg. rewrite Eg in En.
    pose proof (Hgl _ Hly) as Hlg. cbn [last_point] in Hln.
    assert (Hl0 : length (vminus (it_x it) (smul (it_prox it) (gradf (it_x it)))) = n) by (rn; leng).
    pose proof (Hprox _ _ Hl0 G1) as Hpx. rewrite <- En in Hpx.
    assert (Hpt : forall z, length z = n -> dom z ->
       2 * it_prox it * (F (it_next it) - F z) <= dist2 (it_x it) z - dist2 (it_next it) z).
    { intros z Hz Hdz.
      pose proof (pg_fundamental n dom g f gradf (it_prox it) (it_step it) (it_x it) z Hg Hly Hz Hdz Hlg G1
         ltac:(rewrite Est; apply Rle_refl) (it_next it) Hpx G2) as P.
      pose proof (Hfo _ _ Hly Hz) as Q. unfold F.
      apply Rle_trans with (2 * it_prox it * ((dist2 (it_x it) z - dist2 (it_next it) z) / (2 * it_prox it))).
      - apply Rmult_le_compat_l; [rn; lra|]. rn; lra.
      - right. assert (forall a p : R, 0 < p -> 2 * p * (a / (2 * p)) = a) as Hf by (intros; field; lra).
        apply Hf; auto. }
    pose proof (Hpt xs Hls Hds) as P1.
    set (k := length l) in *. cbn [momentum energy]. fold k.
    destruct (tR_rec k) as (T1 & _ & _).
    destruct l as [|it' l'].
    + (* first iteration *)
      simpl in Ex. unfold k. cbn [length]. replace (tR 0) with 1 by reflexivity.
      cbn [last_point].
      replace (lin 1 (it_next it) (- (1 - 1)) x0) with (it_next it).
      2:{ apply (list_ext _ _ 0); [rn; leng|]. intros i Hi. rewrite nth_lin by (rn; lia). rn. ring. }
      rewrite Ex in P1. rn. lra.
    + set (x := last_point (K:=RN) x0 (it' :: l')) in *.
      assert (Hdx : dom x) by (apply L3; discriminate).
      pose proof (Hpt x L1 Hdx) as P2.
      set (t := tR k) in *.
      pose proof (weighted_identity t (it_x it) (it_next it) x xs Hly Hln L1 Hls) as W.
      set (k' := length l') in *.
      assert (Ek : k = S k') by reflexivity.
      destruct (tR_rec k') as (T1' & T2 & _). rewrite <- Ek in T2. fold t in T2.
      assert (Em : lin t (it_x it) (- (t - 1)) x = momentum x0 (it' :: l')).
      { cbn [momentum]. fold k'.
        assert (Ey : it_x it = vplus (it_next it') (smul ((tR k' - 1) / t) (vminus (it_next it') (last_point (K:=RN) x0 l')))).
        { rewrite Ex. cbn [acc_point]. fold k'. rewrite extrap_R.
          unfold t. rewrite Ek, tR_S. reflexivity. }
        assert (Hl' : length (last_point (K:=RN) x0 l') = n).
        { destruct Hc as (_ & _ & _ & _ & _ & _ & _ & Hc'). inversion G3.
          apply (acc_lengths step x0 Hx0 l'); auto. }
        rewrite Ey. unfold x. cbn [last_point]. unfold x in L1; cbn [last_point] in L1. rn.
        apply (list_ext _ _ 0).
        - leng.
        - intros i Hi.
          rewrite !nth_lin by leng. rewrite nth_vplus by leng. rewrite nth_smul, nth_vminus by leng.
          field. lra. }
      rewrite Em in W.
      cbn [energy] in L4. fold k' in L4.
      change (last_point x0 (it' :: l')) with (it_next it') in *.
      simpl in Hn. destruct Hn as [Hs _].
      assert (Hv : 0 <= F x - F xs) by (pose proof (Hmin x L1 Hdx); unfold F; lra).
      pose proof (fista_step (it_prox it) (it_prox it') t (tR k') (F x - F xs) (F (it_next it) - F xs)
        (dist2 (it_x it) xs - dist2 (it_next it) xs) (dist2 (it_x it) x - dist2 (it_next it) x)
        _ G1 Hs Hv T1 T2 ltac:(rewrite Rminus_0_r; exact P1)
        ltac:(replace (F (it_next it) - F xs - (F x - F xs)) with (F (it_next it) - F x) by ring; exact P2)
        (Req_le _ _ W)) as Q.
      change (last_point x0 l') with (last_point (K:=RN) x0 l') in *.
      change (it_next it') with x in L4.
      unfold x in *. cbn [last_point] in *. rn. lra.
Qed.

Theorem fista_rate step x0 l : length x0 = n ->
  acc_chain (K:=RN) (fgR f gradf) prox step x0 l -> Forall acc_good l -> nonincr l ->
  forall it rest, l = it :: rest ->
  F (it_next it) - F xs <= 2 * dist2 x0 xs / (it_prox it * (INR (length l) + 1) ^ 2).
Proof.
  intros Hx0 Hc HG Hn it rest ->.
  pose proof (fista_energy step x0 Hx0 _ Hc HG Hn) as E. cbn [energy] in E.
  assert (G1 := proj1 (Forall_inv HG)).
  pose proof (dist2_nonneg (momentum x0 (it :: rest)) xs) as D.
  pose proof (tR_lower (length rest)) as T.
  cbn [length]. rewrite S_INR. set (N := INR (length rest)) in *.
  assert (HN : 0 <= N) by apply pos_INR.
  set (v := F (it_next it) - F xs) in *. set (t := tR (length rest)) in *.
  assert (Hv : 0 <= v).
  { destruct Hxs as (A & B & C). pose proof (acc_lengths step x0 Hx0 _ Hc HG) as (L1 & _ & L3).
    cbn [last_point] in *. specialize (C _ L1 (L3 ltac:(discriminate))). unfold v, F. lra. }
  set (s := it_prox it : R) in *. set (d := dist2 x0 xs) in *.
  assert (Hle : s * (N + 1 + 1) ^ 2 * v <= 2 * d).
  { assert ((N + 1 + 1) ^ 2 <= 4 * (t * t)) by nra.
    apply Rle_trans with (s * (4 * (t * t)) * v).
    - apply Rmult_le_compat_r; auto. apply Rmult_le_compat_l; [apply Rlt_le; exact G1|auto].
    - rn. nra. }
  assert (Hp : 0 < s * (N + 1 + 1) ^ 2) by (apply Rmult_lt_0_compat; [exact G1|nra]).
  apply Rmult_le_reg_l with (s * (N + 1 + 1) ^ 2); auto.
  replace (s * (N + 1 + 1) ^ 2 * (2 * d / (s * (N + 1 + 1) ^ 2))) with (2 * d); [exact Hle|].
  field. split; [nra|]. apply Rgt_not_eq; exact G1.
Qed.
End Fista.
