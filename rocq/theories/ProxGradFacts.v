(** * Control-flow facts about the proximal gradient solver, for every arithmetic *)
From Coq Require Import ZArith Bool List Lia.
From Verif Require Import Num Vec ModelUtils ModelProxGrad.
Import ListNotations.
Set Implicit Arguments.

Section Generic.
Context {K : Num}.
Local Open Scope num_scope.
Variable fg : vec K -> K * vec K.
Variable prox : vec K -> K -> vec K.
Variable cb : option (list (event K) -> bool).
Variable step : strategy K.
Variable tol : K.
Variable max_iter max_bt : nat.
Variable factor : K.
Variable tc : bool.

Definition last_point (x0 : vec K) (l : list (iter K)) : vec K :=
  match l with [] => x0 | it :: _ => it_next it end.
Fixpoint chain (x0 : vec K) (l : list (iter K)) : Prop :=
  match l with
  | [] => True
  | it :: rest => it_x it = last_point x0 rest /\ chain x0 rest
  end.
Definition cert_of (it : iter K) : K := vnorm (vdivs (vsub (it_x it) (it_next it)) (it_step it)).
Definition head_found (l : list (iter K)) : Prop :=
  match l with [] => True | it :: _ => it_found it = true end.

(** reduction of the step size by the line search *)
Fixpoint reduce (s : K) (j : nat) : K := match j with O => s | S j' => reduce (s * factor) j' end.

(** one iteration taken from the state [s0] of step_size *)
Definition iter_ok (it : iter K) : Prop :=
  it_next it = prox (vsub (it_x it) (vscale (it_prox it) (it_grad it))) (it_prox it) /\
  (it_step it = it_prox it \/ it_step it = it_prox it * nlit 11 10).
Definition iter_ls (s0 : option K) (it : iter K) : Prop :=
  match step with
  | SCallable f => (exists log, it_prox it = f log) /\ it_prox it = it_step it /\ it_found it = true
  | _ => exists s j, s0 = Some s /\ (j <= max_bt)%nat /\
      ((j = 0)%nat -> it_prox it = s) /\ ((j > 0)%nat -> it_prox it = it_step it) /\
      it_step it = reduce (s * nlit 11 10) j /\
      (it_found it = true -> (j < max_bt)%nat /\
        fst (fg (it_next it)) <=? bt_rhs (it_f it) (it_grad it) (vsub (it_next it) (it_x it)) (it_step it) = true) /\
      (* every rejected trial failed its test *)
      (forall i, (i < j)%nat -> exists xt,
         xt = prox_step prox (it_x it) (it_grad it) (if Nat.eqb i 0 then s else reduce (s * nlit 11 10) i) /\
         fst (fg xt) <=? bt_rhs (it_f it) (it_grad it) (vsub xt (it_x it)) (reduce (s * nlit 11 10) i) = false) /\
      (it_found it = false -> j = max_bt)
  end.
Definition step_after (s0 : option K) (l : list (iter K)) : option K :=
  match l with [] => s0 | it :: _ => Some (it_step it) end.
Fixpoint ls_chain (s0 : option K) (l : list (iter K)) : Prop :=
  match l with
  | [] => True
  | it :: rest => iter_ok it /\ iter_ls (step_after s0 rest) it /\
      (head_found rest -> (it_f it, it_grad it) = fg (it_x it)) /\
      ls_chain s0 rest
  end.

Lemma reduce_S s j : reduce s (S j) = reduce s j * factor.
Proof. revert s; induction j; intros s; simpl; auto. rewrite <- IHj. reflexivity. Qed.

Lemma backtrack_spec k x fk grad : forall s sp xn prev ev o,
  backtrack fg prox factor k x fk grad sp s xn prev ev = o -> xn = prox_step prox x grad sp ->
  exists j, (j <= k)%nat /\ ls_step o = reduce s j /\ ls_x o = prox_step prox x grad (ls_prox o) /\
    ((j = 0)%nat -> ls_prox o = sp) /\ ((j > 0)%nat -> ls_prox o = ls_step o) /\
    (ls_found o = true -> (j < k)%nat /\ ls_fg o = fg (ls_x o) /\
       fst (fg (ls_x o)) <=? bt_rhs fk grad (vsub (ls_x o) x) (ls_step o) = true) /\
    (forall i, (i < j)%nat -> exists xt,
         xt = prox_step prox x grad (if Nat.eqb i 0 then sp else reduce s i) /\
         fst (fg xt) <=? bt_rhs fk grad (vsub xt x) (reduce s i) = false) /\
    (ls_found o = false -> j = k) /\
    (exists n, ls_evals o = n ++ ev).
Proof.
  induction k as [|k IH]; intros s sp xn prev ev o Ho Hxn; simpl in Ho.
  - exists 0%nat; subst o; simpl.
    repeat split; auto; try lia; try discriminate. exists []; auto.
  - destruct (fst (fg xn) <=? bt_rhs fk grad (vsub xn x) s) eqn:E.
    + exists 0%nat; subst o; simpl.
      repeat split; auto; try lia; try discriminate. exists [xn]; auto.
    + destruct (IH _ _ _ _ _ _ Ho eq_refl) as (j & Hj & Hs & Hx & H0 & H1 & Hf & Hr & He & n & Hn).
      exists (S j); simpl. split; [lia|]. split; [auto|]. split; [auto|].
      split; [lia|]. split.
      { intros _. destruct j; [rewrite H0, Hs by auto; reflexivity|apply H1; lia]. }
      split. { intros F; destruct (Hf F) as (A & B & C); repeat split; auto; lia. }
      split.
      { intros [|i] Hi.
        - exists xn; split; auto.
        - destruct (Hr i ltac:(lia)) as (xt & A & B). exists xt; split; auto.
          rewrite A. simpl. destruct i; reflexivity. }
      split. { intros F; rewrite (He F); auto. }
      exists (n ++ [xn]). rewrite Hn, <- app_assoc; reflexivity.
Qed.

(** the invariant of the state at the top of the loop *)
Record pg_inv (x0 : vec K) (s0 : option K) (s : pg_state K) : Prop := mkInv {
  i_chain : chain x0 (st_iters s);
  i_x : st_x s = last_point x0 (st_iters s);
  i_ls : ls_chain s0 (st_iters s);
  i_fresh : head_found (st_iters s) -> (st_f s, st_grad s) = fg (st_x s);
  i_step : st_step s = step_after s0 (st_iters s);
  i_cert : st_cert s = match st_iters s with [] => None | it :: _ => Some (cert_of it) end;
  i_certs : st_certs s = if tc then map cert_of (st_iters s) else []
}.

Lemma pg_step_inv x0 s0 s log s' :
  pg_inv x0 s0 s ->
  pg_step fg prox step max_bt factor tc s log = Ok s' ->
  pg_inv x0 s0 s' /\ st_n s' = st_n s /\ (exists it, st_iters s' = it :: st_iters s /\ st_cert s' = Some (cert_of it)) /\
  (exists new, st_log s' = new ++ log).
Proof.
  intros [Hc Hx Hl Hf Hs Hce Hces] H.
  unfold pg_step in H. destruct step as [f| | |] eqn:Est; try discriminate.
  - injection H as H; subst s'; simpl.
    split; [|split; [auto|split; [eexists; split; reflexivity|]]].
    + constructor; simpl; auto.
      * repeat split; auto; unfold iter_ls; rewrite ?Est; simpl; auto. repeat split; auto. eexists; reflexivity.
      * intros _. symmetry; apply surjective_pairing.
      * rewrite Hces; destruct tc; reflexivity.
    + eexists (_ :: [_]); reflexivity.
  - destruct (st_step s) as [s1|] eqn:E1; [|discriminate].
    injection H as H.
    remember (line_search fg prox max_bt factor (st_x s) (st_f s) (st_grad s) s1) as o eqn:Eo.
    symmetry in Eo. unfold line_search in Eo.
    destruct (backtrack_spec _ _ _ _ _ Eo eq_refl) as (j & Hj & A & B & C0 & C1 & D & E & F & n & G).
    subst s'; simpl.
    split; [|split; [auto|split; [eexists; split; reflexivity|]]].
    + constructor; simpl; auto.
      * split; [|split; [|split]]; auto.
        -- split; simpl; [exact B|]. destruct j; [right|left; symmetry; apply C1; lia].
           rewrite A, C0; auto.
        -- unfold iter_ls; rewrite Est; simpl. exists s1, j.
           repeat split; auto; try (apply D; auto).
      * intros Hff. rewrite <- surjective_pairing. apply D; auto.
      * rewrite Hces; destruct tc; reflexivity.
    + eexists; reflexivity.
Qed.

Definition stopped_by_cb (r : pg_result K) : Prop :=
  exists c l log', cb = Some c /\ r_log r = EvCallback l :: log' /\ c (r_log r) = true /\
    lc_x l = r_x r /\ lc_n l = r_nit r.

Lemma pg_loop_inv x0 s0 : forall fuel s r,
  pg_inv x0 s0 s -> st_n s = length (st_iters s) -> (st_n s <= max_iter)%nat ->
  pg_loop fg prox cb step tol max_iter max_bt factor fuel tc s = Ok r ->
  exists sf, pg_inv x0 s0 sf /\ r = pg_return sf (r_success r) false /\ (r_nit r <= max_iter)%nat /\
    (r_success r = true -> exists it, hd_error (r_iters r) = Some it /\ cert_of it <? tol = true /\
        length (r_iters r) = S (r_nit r)) /\
    (r_success r = false -> (stopped_by_cb r /\ length (r_iters r) = r_nit r) \/
       (r_nit r = max_iter /\ length (r_iters r) = S max_iter /\
        exists it, hd_error (r_iters r) = Some it /\ cert_of it <? tol = false)).
Proof.
  induction fuel as [|fuel IH]; intros s r Hi Hn Hm H; simpl in H; [discriminate|].
  unfold call_cb in H.
  set (stop_log := match cb with Some c => (c (EvCallback (pg_locals s) :: st_log s), EvCallback (pg_locals s) :: st_log s) | None => (false, st_log s) end) in H.
  destruct stop_log as [stop log1] eqn:Esl. subst stop_log.
  destruct stop.
  - injection H as H; subst r; simpl.
    eexists (mkPg (st_x s) (st_f s) (st_grad s) (st_step s) (st_n s) (st_cert s) (st_certs s) log1 (st_iters s)).
    split; [destruct Hi; constructor; auto|].
    split; [reflexivity|]. split; [auto|]. split; [discriminate|].
    intros _. left. split; [|auto].
    destruct cb as [c|] eqn:Ecb; [|discriminate].
    injection Esl as E1 E2. exists c, (pg_locals s), (st_log s). subst log1. simpl. repeat split; auto.
  - destruct (pg_step fg prox step max_bt factor tc s log1) as [s'|e] eqn:Es'; [|discriminate].
    simpl in H.
    destruct (pg_step_inv _ Hi Es') as (Hi' & Hn' & (it & Hit & Hcert) & Hlog).
    rewrite Hcert in H.
    destruct (cert_of it <? tol) eqn:Et.
    + injection H as H; subst r; simpl. exists s'. split; [auto|]. split; [reflexivity|].
      split; [lia|]. split; [|discriminate].
      intros _. exists it. rewrite Hit. simpl. repeat split; auto. lia.
    + destruct (Nat.leb_spec max_iter (st_n s')).
      * injection H as HH; subst r; simpl. exists s'. split; [auto|]. split; [reflexivity|].
        split; [lia|]. split; [discriminate|].
        intros _. right. rewrite Hit; simpl. repeat split; try lia. exists it; auto.
      * apply IH in H; auto.
        -- destruct Hi'; constructor; simpl; auto. congruence.
        -- simpl. rewrite Hit; simpl. lia.
Qed.

Lemma pg_loop_fuel : forall fuel s, (st_n s <= max_iter)%nat -> (max_iter - st_n s < fuel)%nat ->
  pg_loop fg prox cb step tol max_iter max_bt factor fuel tc s <> Err OutOfFuel.
Proof.
  induction fuel as [|fuel IH]; intros s Hm Hf; simpl; [lia|].
  destruct (call_cb cb (st_log s) (pg_locals s)) as [stop log1].
  destruct stop; [discriminate|].
  destruct (pg_step fg prox step max_bt factor tc s log1) as [s'|e] eqn:Es'.
  - simpl.
    assert (st_n s' = st_n s).
    { unfold pg_step in Es'. destruct step; try discriminate.
      - injection Es' as <-; auto.
      - destruct (st_step s); [|discriminate]. injection Es' as <-; auto. }
    destruct (st_cert s'); [|discriminate].
    destruct (c <? tol); [discriminate|].
    destruct (Nat.leb_spec max_iter (st_n s')); [discriminate|].
    apply IH; simpl; lia.
  - simpl. intros [= ->]. unfold pg_step in Es'. destruct step; try discriminate.
    destruct (st_step s); discriminate.
Qed.

Lemma init_inv x0 : forall f0 g0, fg x0 = (f0, g0) -> 
  pg_inv x0 (init_step fg step x0) (mkPg x0 f0 g0 (init_step fg step x0) 0 None [] [EvEval x0] []).
Proof. intros. constructor; simpl; auto. destruct tc; auto. Qed.

Theorem pg_main x0 r :
  minimize_pg fg prox cb step tol max_iter max_bt factor false tc x0 = Ok r ->
  exists sf, pg_inv x0 (init_step fg step x0) sf /\ r = pg_return sf (r_success r) false /\ (r_nit r <= max_iter)%nat /\
    (r_success r = true -> exists it, hd_error (r_iters r) = Some it /\ cert_of it <? tol = true /\
        length (r_iters r) = S (r_nit r)) /\
    (r_success r = false -> (stopped_by_cb r /\ length (r_iters r) = r_nit r) \/
       (r_nit r = max_iter /\ length (r_iters r) = S max_iter /\
        exists it, hd_error (r_iters r) = Some it /\ cert_of it <? tol = false)).
Proof.
  unfold minimize_pg. destruct (Nat.eqb max_bt 0); [discriminate|].
  destruct (fg x0) as [f0 g0] eqn:E. intros H.
  eapply pg_loop_inv; [exact (init_inv E)|auto|simpl; lia|exact H].
Qed.

Theorem pg_terminates x0 :
  minimize_pg fg prox cb step tol max_iter max_bt factor false tc x0 <> Err OutOfFuel.
Proof.
  unfold minimize_pg. destruct (Nat.eqb max_bt 0); [discriminate|].
  destruct (fg x0) as [f0 g0]. apply pg_loop_fuel; simpl; lia.
Qed.

(** which runs raise *)
Theorem pg_ok x0 : max_bt <> 0%nat -> (match step with SCallable _ | SBacktracking => True | _ => False end) ->
  exists r, minimize_pg fg prox cb step tol max_iter max_bt factor false tc x0 = Ok r.
Proof.
  intros Hb Hst.
  assert (G : forall fuel s, (step = SBacktracking -> st_step s <> None) -> (st_n s <= max_iter)%nat -> (max_iter - st_n s < fuel)%nat ->
     exists r, pg_loop fg prox cb step tol max_iter max_bt factor fuel tc s = Ok r).
  { induction fuel as [|fuel IH]; intros s Hs Hm Hf; simpl; [lia|].
    destruct (call_cb cb (st_log s) (pg_locals s)) as [stop log1].
    destruct stop; [eexists; reflexivity|].
    assert (exists s', pg_step fg prox step max_bt factor tc s log1 = Ok s' /\ st_n s' = st_n s /\ st_step s' <> None /\ st_cert s' <> None) as (s' & E & En & Est & Ec).
    { unfold pg_step. destruct step; try contradiction.
      - eexists; split; [reflexivity|]; simpl; repeat split; discriminate.
      - destruct (st_step s) eqn:E; [|exfalso; apply Hs; auto].
        eexists; split; [reflexivity|]; simpl; repeat split; discriminate. }
    rewrite E; simpl. destruct (st_cert s'); [|congruence].
    destruct (c <? tol); [eexists; reflexivity|].
    destruct (Nat.leb_spec max_iter (st_n s')); [eexists; reflexivity|].
    apply IH; simpl; auto; lia. }
  unfold minimize_pg. apply Nat.eqb_neq in Hb. rewrite Hb.
  destruct (fg x0) as [f0 g0]. apply G; simpl; try lia.
  unfold init_step. intros ->. discriminate.
Qed.

(** ** the accelerated branch *)
Lemma acc_loop_spec : forall fuel a r,
  (st_n (ac_st a) <= max_iter)%nat -> length (st_iters (ac_st a)) <= st_n (ac_st a) ->
  acc_loop fg prox cb step tol max_iter max_bt factor fuel tc a = Ok r ->
  (r_nit r <= max_iter)%nat /\ (length (r_iters r) <= S (r_nit r))%nat /\
  (r_success r = true -> exists c, r_cert r = Some c /\ c <? tol = true) /\
  (r_success r = false -> stopped_by_cb r \/
      (r_nit r = max_iter /\ forall c, r_cert r = Some c -> c <? tol = false)).
Proof.
  induction fuel as [|fuel IH]; intros a r Hm Hl H; cbn [acc_loop] in H; [discriminate|].
  set (s := ac_st a) in *.
  set (log0 := EvEval (ac_yk a) :: st_log s) in *.
  set (s0 := mkPg (st_x s) (st_f s) (snd (fg (ac_yk a))) (st_step s) (st_n s) (st_cert s) (st_certs s) log0 (st_iters s)) in *.
  unfold call_cb in H.
  set (stop_log := match cb with Some c => (c (EvCallback (pg_locals s0) :: log0), EvCallback (pg_locals s0) :: log0) | None => (false, log0) end) in H.
  destruct stop_log as [stop log1] eqn:Esl. subst stop_log.
  destruct stop.
  - injection H as H; subst r; simpl.
    split; [auto|]. split; [lia|]. split; [discriminate|].
    intros _. left.
    destruct cb as [c|] eqn:Ecb; [|discriminate].
    injection Esl as E1 E2. exists c, (pg_locals s0), log0. subst log1. simpl. repeat split; auto.
  - set (a' := acc_step fg prox step max_bt factor tc (mkAcc s0 (ac_tk a) (ac_yk a)) (snd (fg (ac_yk a))) log1) in *.
    assert (Hn' : st_n (ac_st a') = st_n s /\ length (st_iters (ac_st a')) <= S (length (st_iters s))).
    { unfold a', acc_step. destruct step; simpl; auto.
      destruct (st_step s); simpl; auto.
      destruct (acc_backtrack _ _ _ _ _ _ _ _) as [[[? ?] ?] ?]; simpl; auto. }
    destruct Hn' as [Hn' Hl'].
    destruct (match st_cert (ac_st a') with Some c => c <? tol | None => false end) eqn:Et.
    + injection H as H; subst r; simpl.
      split; [lia|]. split; [lia|]. split; [|discriminate].
      intros _. destruct (st_cert (ac_st a')) as [c|]; [|discriminate]. exists c; auto.
    + destruct (Nat.leb_spec max_iter (st_n (ac_st a'))).
      * injection H as HH; subst r; simpl. split; [lia|]. split; [lia|]. split; [discriminate|].
        intros _. right. split; [lia|]. intros c Hc. rewrite Hc in Et. exact Et.
      * apply IH in H; simpl; auto; try lia.
Qed.

Theorem acc_main x0 r :
  minimize_pg fg prox cb step tol max_iter max_bt factor true tc x0 = Ok r ->
  (r_nit r <= max_iter)%nat /\ (length (r_iters r) <= S (r_nit r))%nat /\
  (r_success r = true -> exists c, r_cert r = Some c /\ c <? tol = true) /\
  (r_success r = false -> stopped_by_cb r \/
      (r_nit r = max_iter /\ forall c, r_cert r = Some c -> c <? tol = false)).
Proof.
  unfold minimize_pg. destruct (Nat.eqb max_bt 0); [discriminate|]. intros H.
  apply acc_loop_spec in H; simpl; auto; lia.
Qed.

Theorem acc_ok x0 : max_bt <> 0%nat ->
  exists r, minimize_pg fg prox cb step tol max_iter max_bt factor true tc x0 = Ok r.
Proof.
  intros Hb. unfold minimize_pg. apply Nat.eqb_neq in Hb. rewrite Hb.
  assert (G : forall fuel a, (st_n (ac_st a) <= max_iter)%nat -> (max_iter - st_n (ac_st a) < fuel)%nat ->
     exists r, acc_loop fg prox cb step tol max_iter max_bt factor fuel tc a = Ok r).
  { induction fuel as [|fuel IH]; intros a Hm Hf; cbn [acc_loop]; [lia|].
    set (s := ac_st a) in *.
    set (log0 := EvEval (ac_yk a) :: st_log s) in *.
    set (s0 := mkPg (st_x s) (st_f s) (snd (fg (ac_yk a))) (st_step s) (st_n s) (st_cert s) (st_certs s) log0 (st_iters s)) in *.
    destruct (call_cb cb log0 (pg_locals s0)) as [stop log1].
    destruct stop; [eexists; reflexivity|].
    set (a' := acc_step fg prox step max_bt factor tc (mkAcc s0 (ac_tk a) (ac_yk a)) (snd (fg (ac_yk a))) log1) in *.
    assert (Hn' : st_n (ac_st a') = st_n s).
    { unfold a', acc_step. destruct step; simpl; auto.
      destruct (st_step s); simpl; auto.
      destruct (acc_backtrack _ _ _ _ _ _ _ _) as [[[? ?] ?] ?]; simpl; auto. }
    destruct (match st_cert (ac_st a') with Some c => c <? tol | None => false end); [eexists; reflexivity|].
    destruct (Nat.leb_spec max_iter (st_n (ac_st a'))); [eexists; reflexivity|].
    apply IH; simpl; lia. }
  apply G; simpl; lia.
Qed.

(** init_lipschitz *)
Definition pow10 (L : K) (k : nat) : K := Nat.iter k (fun l => l * nofZ K 10) L.
Lemma iter_comm k (L : K) : Nat.iter k (fun l : K => l * nofZ K 10) (L * nofZ K 10) = Nat.iter (S k) (fun l => l * nofZ K 10) L.
Proof. induction k; simpl; auto. simpl in IHk. rewrite IHk. reflexivity. Qed.
Lemma init_lip_loop_spec x0 g0 f0 : forall k L,
  exists j, (j <= k)%nat /\
    init_lip_loop fg k x0 g0 f0 L (fst (fg (lip_trial x0 g0 L))) = pow10 L j /\
    (forall i, (i < j)%nat -> fst (fg (lip_trial x0 g0 (pow10 L i))) <=? f0 = false) /\
    (j = k \/ fst (fg (lip_trial x0 g0 (pow10 L j))) <=? f0 = true).
Proof.
  induction k as [|k IH]; intros L; simpl.
  - exists 0%nat; simpl; repeat split; auto; intros; lia.
  - destruct (fst (fg (lip_trial x0 g0 L)) <=? f0) eqn:E.
    + exists 0%nat; simpl. repeat split; auto; try lia.
    + destruct (IH (L * nofZ K 10)) as (j & Hj & A & B & C).
      exists (S j). unfold pow10 in *. rewrite A. rewrite iter_comm.
      split; [lia|]. split; [auto|]. split.
      * intros [|i] Hi; [exact E|]. specialize (B i ltac:(lia)). rewrite iter_comm in B. exact B.
      * rewrite iter_comm in C. destruct C as [->|C]; [left; auto|right; exact C].
Qed.
Theorem init_lipschitz_spec x0 :
  let L k := pow10 (nlit 1 1000) k in
  exists j, (j <= 100)%nat /\ init_lipschitz fg x0 = L j /\
    (forall i, (i < j)%nat -> fst (fg (vsub x0 (vscale (n1 / L i) (snd (fg x0))))) <=? fst (fg x0) = false) /\
    (j = 100%nat \/ fst (fg (vsub x0 (vscale (n1 / L j) (snd (fg x0))))) <=? fst (fg x0) = true).
Proof.
  cbv zeta. unfold init_lipschitz. destruct (fg x0) as [f0 g0] eqn:E. cbn [fst snd].
  exact (init_lip_loop_spec x0 g0 f0 100 (nlit 1 1000)).
Qed.
End Generic.

(** ** A callback that returns False is the last event of the run *)
Section Quiet.
Context {K : Num}.
Variable c : list (event K) -> bool.
Fixpoint quiet (log : list (event K)) : Prop :=
  match log with
  | [] => True
  | e :: log' => (match e with EvCallback _ => c log = false | _ => True end) /\ quiet log'
  end.
Lemma quiet_app pre l log' : quiet (pre ++ EvCallback l :: log') -> c (EvCallback l :: log') = false.
Proof. induction pre as [|e pre IH]; simpl; intros [A B]; auto. Qed.
Lemma quiet_evals ev log : quiet log -> quiet (map EvEval ev ++ log).
Proof. intros H; induction ev; simpl; auto. Qed.
(** either nothing stopped, or the stopping callback is the newest event *)
Definition quiet_tail (r : pg_result K) : Prop :=
  quiet (r_log r) \/
  (exists l log', r_log r = EvCallback l :: log' /\ quiet log' /\ c (r_log r) = true /\
     r_x r = lc_x l /\ r_success r = false).

Variable fg : vec K -> K * vec K.
Variable prox : vec K -> K -> vec K.
Variable step : strategy K.
Variable tol : K.
Variable max_iter max_bt : nat.
Variable factor : K.
Variable tc : bool.

Lemma pg_loop_quiet : forall fuel s r, quiet (st_log s) ->
  pg_loop fg prox (Some c) step tol max_iter max_bt factor fuel tc s = Ok r -> quiet_tail r.
Proof.
  induction fuel as [|fuel IH]; intros s r Hq H; simpl in H; [discriminate|].
  destruct (c (EvCallback (pg_locals s) :: st_log s)) eqn:Ec.
  - injection H as <-. right. eexists _, _. simpl. repeat split; eauto.
  - destruct (pg_step fg prox step max_bt factor tc s _) as [s'|e] eqn:Es'; [|discriminate].
    assert (quiet (st_log s')).
    { unfold pg_step in Es'. destruct step; try discriminate.
      - injection Es' as <-. simpl. auto.
      - destruct (st_step s); [|discriminate]. injection Es' as <-. simpl.
        apply quiet_evals. simpl; auto. }
    simpl in H. destruct (st_cert s'); [|discriminate].
    destruct (nltb K c0 tol). { injection H as <-; left; auto. }
    destruct (Nat.leb max_iter (st_n s')). { injection H as <-; left; auto. }
    eapply IH; [|exact H]; auto.
Qed.
Lemma acc_loop_quiet : forall fuel a r, quiet (st_log (ac_st a)) ->
  acc_loop fg prox (Some c) step tol max_iter max_bt factor fuel tc a = Ok r -> quiet_tail r.
Proof.
  induction fuel as [|fuel IH]; intros a r Hq H; cbn [acc_loop call_cb] in H; [discriminate|].
  match type of H with context [if c ?l then _ else _] => destruct (c l) eqn:Ec end.
  - injection H as <-. right. eexists _, _. simpl. repeat split; eauto.
  - match type of H with context [acc_step ?a1 ?a2 ?a3 ?a4 ?a5 ?a6 ?a7 ?a8 ?a9] =>
       set (a' := acc_step a1 a2 a3 a4 a5 a6 a7 a8 a9) in * end.
    assert (quiet (st_log (ac_st a'))).
    { unfold a', acc_step. destruct step; simpl; auto.
      destruct (st_step (ac_st a)); simpl; auto.
      destruct (acc_backtrack _ _ _ _ _ _ _ _) as [[[? ?] ?] ev]; simpl.
      split; auto. apply quiet_evals. simpl; auto. }
    destruct (match st_cert (ac_st a') with Some c => nltb K c tol | None => false end).
    { injection H as <-; left; auto. }
    destruct (Nat.leb max_iter (st_n (ac_st a'))). { injection H as <-; left; auto. }
    eapply IH; [|exact H]; auto.
Qed.
Lemma pg_quiet acc x0 r :
  minimize_pg fg prox (Some c) step tol max_iter max_bt factor acc tc x0 = Ok r -> quiet_tail r.
Proof.
  unfold minimize_pg. destruct (Nat.eqb max_bt 0); [discriminate|]. destruct acc; intros H.
  - eapply acc_loop_quiet; [|exact H]; simpl; auto.
  - destruct (fg x0). eapply pg_loop_quiet; [|exact H]; simpl; auto.
Qed.
Theorem pg_callback_stops acc x0 r pre l log' :
  minimize_pg fg prox (Some c) step tol max_iter max_bt factor acc tc x0 = Ok r ->
  r_log r = pre ++ EvCallback l :: log' -> c (EvCallback l :: log') = true ->
  pre = [] /\ r_x r = lc_x l /\ r_success r = false.
Proof.
  intros H Hl Hc. destruct (pg_quiet _ _ H) as [Q|(l1 & lg & E & Q & Ec & Ex & Es)].
  - rewrite Hl in Q. apply quiet_app in Q. congruence.
  - destruct pre as [|e pre].
    + simpl in Hl. rewrite E in Hl. injection Hl as -> ->. auto.
    + rewrite E in Hl. simpl in Hl. injection Hl as E1 E2. subst lg. apply quiet_app in Q. congruence.
Qed.
End Quiet.
