(** * Traces of the splitting solvers (for every arithmetic) *)
From Coq Require Import ZArith Reals List Bool Lra Lia.
From Verif Require Import Num Vec Spec RVec ConvexFacts ModelUtils ModelSplitting.
Import ListNotations.

(** ** three-operator splitting *)
Section TS.
Context {K : Num}.
Variable fg : vec K -> K * vec K.
Variables prox_1 prox_2 : vec K -> K -> vec K.
Variable tol : K.
Variable ls : bool.
Variable max_bt : nat.
Variable factor : K.
Variable hL : option K.
Variable cb : option (list (ts_locals K) -> bool).

Notation body z u s := (ts_body fg prox_1 prox_2 ls max_bt factor hL (mkTsS z u s [] [])).
Notation loop := (ts_loop fg prox_1 prox_2 tol ls max_bt factor hL cb).

Definition ts_prev (z0 u0 : vec K) (s0 : K) (older : list (ts_iter K)) : vec K * vec K * K :=
  match older with [] => (z0, u0, s0) | p :: _ => (ti_znext p, ti_unext p, ti_out p) end.
Fixpoint ts_chain (z0 u0 : vec K) (s0 : K) (l : list (ts_iter K)) : Prop :=
  match l with
  | [] => True
  | i :: older =>
      (let '(z, u, s) := ts_prev z0 u0 s0 older in i = body z u s) /\ ts_chain z0 u0 s0 older
  end.
Definition ts_local (it : nat) (i : ts_iter K) : ts_locals K :=
  mkTsL (ti_x i) (ti_znext i) (ti_unext i) (ti_out i) it (ti_cert i).
Fixpoint ts_full_log (l : list (ts_iter K)) : list (ts_locals K) :=
  match l with [] => [] | i :: older => ts_local (length older) i :: ts_full_log older end.

(** no stopping condition held in these iterations *)
Fixpoint ts_quiet (l : list (ts_iter K)) : Prop :=
  match l with
  | [] => True
  | i :: older =>
      Nat.ltb 0 (length older) && nltb K (ti_cert i) tol = false /\
      (forall c, cb = Some c -> c (ts_full_log l) = false) /\ ts_quiet older
  end.

Record ts_good (z0 u0 : vec K) (s0 : K) (bound : nat) (r : ts_result K) : Prop := {
  tg_ex : exists i older, tr_iters r = i :: older /\
    tr_x r = ti_x i /\ tr_cert r = ti_cert i /\ tr_stepsize r = ti_out i /\
    tr_nit r = length older /\ ts_quiet older /\
    match tr_exit r with
    | TsCallback => tr_success r = false /\ exists c, cb = Some c /\ c (tr_log r) = true
    | TsTol => tr_success r = true /\ (0 < tr_nit r)%nat /\ nltb K (ti_cert i) tol = true /\
               (forall c, cb = Some c -> c (tr_log r) = false)
    | TsMaxIter => tr_success r = false /\ S (tr_nit r) = bound /\ ts_quiet (i :: older)
    end;
  tg_chain : ts_chain z0 u0 s0 (tr_iters r);
  tg_log : tr_log r = match cb with None => [] | Some _ => ts_full_log (tr_iters r) end;
  tg_nit : (tr_nit r < bound)%nat
}.

Lemma ts_loop_good z0 u0 s0 k : forall it s r,
  ts_chain z0 u0 s0 (ts_iters s) -> ts_quiet (ts_iters s) ->
  (ts_z s, ts_u s, ts_step s) = ts_prev z0 u0 s0 (ts_iters s) ->
  length (ts_iters s) = it ->
  ts_log s = match cb with None => [] | Some _ => ts_full_log (ts_iters s) end ->
  loop k it s = Ok r -> ts_good z0 u0 s0 (it + k) r.
Proof.
  induction k as [|k IH]; intros it s r Hch Hq Hs Hit Hlog H; [discriminate|].
  cbn [ts_loop] in H.
  set (i := ts_body fg prox_1 prox_2 ls max_bt factor hL s) in *.
  assert (Hi : i = body (ts_z s) (ts_u s) (ts_step s)) by reflexivity.
  assert (Hchi : ts_chain z0 u0 s0 (i :: ts_iters s)).
  { split; auto. destruct (ts_prev z0 u0 s0 (ts_iters s)) as [[a b] c]. injection Hs as <- <- <-. exact Hi. }
  clearbody i.
  set (logn := match cb with None => [] | Some _ => ts_full_log (i :: ts_iters s) end).
  assert (E : match cb with
      | Some c => (c (mkTsL (ti_x i) (ti_znext i) (ti_unext i) (ti_out i) it (ti_cert i) :: ts_log s),
                   mkTsL (ti_x i) (ti_znext i) (ti_unext i) (ti_out i) it (ti_cert i) :: ts_log s)
      | None => (false, ts_log s) end = (match cb with None => false | Some c => c logn end, logn)).
  { unfold logn. destruct cb; rewrite Hlog; auto. subst it; reflexivity. }
  rewrite E in H. clear E.
  destruct (match cb with None => false | Some c => c logn end) eqn:Ecb.
  - injection H as <-. split; cbn; auto.
    + exists i, (ts_iters s). repeat split; auto. destruct cb as [c|]; [|discriminate]. eauto.
    + lia.
  - assert (Hcb : forall c, cb = Some c -> c (ts_full_log (i :: ts_iters s)) = false).
    { intros c Ec. unfold logn in Ecb. rewrite Ec in Ecb. auto. }
    destruct (Nat.ltb 0 it && nltb K (ti_cert i) tol) eqn:Et.
    + injection H as <-. split; cbn [tr_iters tr_x tr_cert tr_stepsize tr_nit tr_exit tr_success tr_log]; auto.
      * exists i, (ts_iters s). apply andb_prop in Et. destruct Et as [Et1 Et2]. apply Nat.ltb_lt in Et1.
        repeat split; auto. intros c Ec. unfold logn. specialize (Hcb c Ec). rewrite Ec. auto.
      * lia.
    + assert (Hq' : ts_quiet (i :: ts_iters s)).
      { split; [subst it; exact Et|]. split; auto. }
      destruct k as [|k'].
      * injection H as <-. split; cbn [tr_iters tr_x tr_cert tr_stepsize tr_nit tr_exit tr_success tr_log]; auto.
        -- exists i, (ts_iters s). repeat split; auto; try lia; apply Hq'.
        -- lia.
      * apply IH in H.
        -- replace (it + S (S k'))%nat with (S it + S k')%nat by lia. exact H.
        -- exact Hchi.
        -- exact Hq'.
        -- reflexivity.
        -- cbn [ts_iters length]; lia.
        -- reflexivity.
Qed.

Lemma ts_from_good max_iter x0 step r :
  three_split_from fg prox_1 prox_2 tol max_iter ls max_bt factor hL cb x0 step = Ok r ->
  let z := prox_2 x0 step in
  ts_good z (vzeros (length (prox_1 (vsub z (vscale step (snd (fg z)))) step))) step max_iter r.
Proof.
  intros H z. unfold three_split_from in H. fold z in H.
  change max_iter with (0 + max_iter)%nat.
  eapply ts_loop_good; [| | | | |exact H]; cbn; auto. destruct cb; auto.
Qed.

Lemma ts_chain_split z0 u0 s0 l newer i older : l = newer ++ i :: older -> ts_chain z0 u0 s0 l ->
  (let '(z, u, s) := ts_prev z0 u0 s0 older in i = body z u s) /\ ts_chain z0 u0 s0 older.
Proof.
  intros ->. induction newer as [|j newer IH]; cbn [app ts_chain]; [tauto|]. intros [_ H]. auto.
Qed.
Lemma ts_quiet_split l newer i older : l = newer ++ i :: older -> ts_quiet l ->
  Nat.ltb 0 (length older) && nltb K (ti_cert i) tol = false /\
      (forall c, cb = Some c -> c (ts_full_log (i :: older)) = false) /\ ts_quiet older.
Proof.
  intros ->. induction newer as [|j newer IH]; cbn [app ts_quiet]; [tauto|]. intros (_ & _ & H). auto.
Qed.

(** ** the line search *)
Notation search := (ts_search fg prox_1 factor).
Lemma ts_search_spec k z u fk grad : forall s,
  let o := search k z u fk grad s in
  exists j, (j <= k)%nat /\ tl_prox o = Nat.iter j (fun t => nmul K t factor) s /\
    tl_x o = prox_1 (vsub z (vscale (tl_prox o) (vadd u grad))) (tl_prox o) /\
    tl_norm o = vnorm (vsub (tl_x o) z) /\
    tl_tol o = nsub K (fst (fg (tl_x o)))
        (nadd K (nadd K fk (vdot grad (vsub (tl_x o) z))) (ndiv K (nsq (tl_norm o)) (nmul K (nofZ K 2) (tl_prox o)))) /\
    (if tl_found o then nleb K (tl_tol o) ls_EPS = true /\ tl_step o = tl_prox o
     else nleb K (tl_tol o) ls_EPS = false /\ tl_step o = nmul K (tl_prox o) factor /\ j = k) /\
    (forall i, (i < j)%nat ->
       let t := Nat.iter i (fun t => nmul K t factor) s in
       let x := prox_1 (vsub z (vscale t (vadd u grad))) t in
       nleb K (nsub K (fst (fg x)) (nadd K (nadd K fk (vdot grad (vsub x z)))
            (ndiv K (nsq (vnorm (vsub x z))) (nmul K (nofZ K 2) t)))) ls_EPS = false).
Proof.
  induction k as [|k IH]; intros s o; subst o; cbn [ts_search];
  match goal with |- context [if ?c then _ else _] => destruct c eqn:E end.
  1,2: exists 0%nat; cbn; repeat split; auto; intros; lia.
  - exists 0%nat; cbn; repeat split; auto; try lia; intros; lia.
  - destruct (IH (nmul K s factor)) as (j & Hj & Hp & Hx & Hn & Ht & Hf & Hi).
    assert (It : forall m t, Nat.iter m (fun t => nmul K t factor) (nmul K t factor) = Nat.iter (S m) (fun t => nmul K t factor) t).
    { induction m; intros; cbn; auto. f_equal. apply IHm. }
    exists (S j). split; [lia|]. split; [rewrite Hp; apply It|].
    do 3 (split; [assumption|]).
    split.
    + destruct (tl_found _); [auto|]. destruct Hf as (A & B & C). repeat split; auto.
    + intros [|i] Hlt; [cbn; exact E|]. rewrite <- It. apply (Hi i); lia.
Qed.
End TS.

(** ** primal-dual *)
Section PD.
Context {K : Num}.
Variable fg : vec K -> K * vec K.
Variables prox_1 prox_2 : vec K -> K -> vec K.
Variables matvec rmatvec : vec K -> vec K.
Variable tol : K.
Variable ls : bool.
Variable fuel : nat.
Variable ratio : K.
Variable cb : option (list (pd_locals K) -> bool).
Variable max_iter : nat.

Notation loop := (pd_loop fg prox_1 prox_2 matvec rmatvec tol ls fuel ratio cb max_iter).
Notation primal := (pd_primal fg prox_1 matvec rmatvec ls fuel ratio).

Record pd_st : Type := mkPdSt { q_x : vec K; q_y : vec K; q_sigma : K; q_tau : K; q_theta : K }.
Definition pd_prev (s0 : pd_st) (older : list (pd_iter K)) : pd_st :=
  match older with
  | [] => s0
  | p :: _ => mkPdSt (ps_x (pi_step p)) (pi_ynext p) (ps_sigma (pi_step p)) (ps_tau (pi_step p)) (ps_theta (pi_step p))
  end.
Definition pd_link (s : pd_st) (i : pd_iter K) : Prop :=
  pi_x i = q_x s /\ pi_y i = q_y s /\ pi_grad i = snd (fg (q_x s)) /\ pi_tau i = q_tau s /\ pi_theta i = q_theta s /\
  pi_ynext i = pd_prox_2_conj prox_2 (vadd (q_y s) (vscale (q_tau s) (matvec (q_x s)))) (q_tau s) /\
  primal (q_x s) (q_y s) (pi_ynext i) (fst (fg (q_x s))) (snd (fg (q_x s))) (q_sigma s) (q_tau s) (q_theta s) = Ok (pi_step i) /\
  pi_incr i = nadd K (vnorm (vsub (ps_x (pi_step i)) (q_x s))) (vnorm (vsub (pi_ynext i) (q_y s))).
Fixpoint pd_chain (s0 : pd_st) (l : list (pd_iter K)) : Prop :=
  match l with [] => True | i :: older => pd_link (pd_prev s0 older) i /\ pd_chain s0 older end.
(** norm_incr after the iterations [l] *)
Fixpoint pd_last (l : list (pd_iter K)) : option K :=
  match l with
  | [] => None
  | i :: older => if Nat.eqb (Nat.modulo (length older) 100) 0 then Some (pi_incr i) else pd_last older
  end.
Definition below (o : option K) : bool := match o with Some c => nltb K c tol | None => false end.
Fixpoint pd_full_log (l : list (pd_iter K)) : list (pd_locals K) :=
  match l with
  | [] => []
  | i :: older => mkPdL (ps_x (pi_step i)) (pi_ynext i) (length older) (pd_last l) :: pd_full_log older
  end.
Fixpoint pd_quiet (l : list (pd_iter K)) : Prop :=
  match l with
  | [] => True
  | i :: older => below (pd_last l) = false /\ (forall c, cb = Some c -> c (pd_full_log l) = false) /\ pd_quiet older
  end.
Definition pd_logof (l : list (pd_iter K)) := match cb with None => [] | Some _ => pd_full_log l end.

Record pd_good (s0 : pd_st) (bound : nat) (r : pd_result K) : Prop := {
  pg_ex : exists i older, pr_iters r = i :: older /\
    pr_x r = ps_x (pi_step i) /\ pr_y r = pi_ynext i /\ pr_cert r = pd_last (i :: older) /\ pr_step r = ps_sigma (pi_step i) /\
    pr_nit r = length older /\ pd_quiet older /\
    match pr_exit r with
    | PdCallback => pr_success r = false /\ pr_log r = pd_logof (i :: older) /\ below (pr_cert r) = false /\
                    exists c, cb = Some c /\ c (pr_log r) = true
    | PdTol => pr_success r = true /\ below (pr_cert r) = true /\ pr_log r = pd_logof older
    | PdMaxIter => pr_success r = false /\ S (pr_nit r) = bound /\ pr_log r = pd_logof (i :: older) /\ pd_quiet (i :: older)
    end;
  pg_chain : pd_chain s0 (pr_iters r);
  pg_nit : (pr_nit r < bound)%nat;
  pg_warn : pr_warned r = Nat.leb max_iter (pr_nit r)
}.

Lemma pd_search_fg fl x y yn fk grad tau : forall tn o,
  pd_search fg prox_1 matvec rmatvec ratio fl x y yn fk grad tau tn = Ok o -> ps_fg o = fg (ps_x o).
Proof.
  induction fl as [|fl IH]; intros tn o H; [discriminate|]. cbn [pd_search] in H.
  destruct (nleb K _ (nlit 1 10000000000)); [injection H as <-; reflexivity|].
  destruct (nleb K _ _); [injection H as <-; reflexivity|]. eapply IH; eauto.
Qed.
Lemma pd_primal_fg x y yn fk grad sg tau th o : primal x y yn fk grad sg tau th = Ok o -> ps_fg o = fg (ps_x o).
Proof.
  unfold pd_primal. destruct ls; intros H; [eapply pd_search_fg; eauto|]. injection H as <-. reflexivity.
Qed.

Lemma pd_loop_good s0 k : forall it s r,
  pd_chain s0 (pd_iters s) -> pd_quiet (pd_iters s) ->
  mkPdSt (pd_x s) (pd_y s) (pd_sigma s) (pd_tau s) (pd_theta s) = pd_prev s0 (pd_iters s) ->
  (pd_f s, pd_grad s) = fg (pd_x s) -> pd_norm s = pd_last (pd_iters s) ->
  length (pd_iters s) = it -> pd_log s = pd_logof (pd_iters s) ->
  loop k it s = Ok r -> pd_good s0 (it + k) r.
Proof.
  induction k as [|k IH]; intros it s r Hch Hq Hs Hfg Hno Hit Hlog H; [discriminate|].
  cbn [pd_loop] in H. apply bind_ok in H. destruct H as (o & Ho & H).
  set (yn := pd_prox_2_conj prox_2 _ _) in *.
  set (incr := nadd K _ _) in H.
  set (i := mkPdI (pd_x s) (pd_y s) (pd_grad s) (pd_tau s) (pd_theta s) yn o incr) in *.
  assert (Hfo : ps_fg o = fg (ps_x o)) by (eapply pd_primal_fg; exact Ho).
  assert (E1 : fst (fg (pd_x s)) = pd_f s) by (rewrite <- Hfg; reflexivity).
  assert (E2 : snd (fg (pd_x s)) = pd_grad s) by (rewrite <- Hfg; reflexivity).
  assert (Hchi : pd_chain s0 (i :: pd_iters s)).
  { split; auto. rewrite <- Hs. unfold pd_link; cbn. rewrite E1, E2. repeat split; auto. }
  assert (Hn : (if Nat.eqb (Nat.modulo it 100) 0 then Some incr else pd_norm s) = pd_last (i :: pd_iters s)).
  { cbn [pd_last]. rewrite Hit, Hno. reflexivity. }
  assert (Efg : (fst (ps_fg o), snd (ps_fg o)) = fg (ps_x o)) by (rewrite Hfo; destruct (fg (ps_x o)); reflexivity).
  rewrite Hn in H.
  assert (Ei1 : ps_x o = ps_x (pi_step i)) by reflexivity.
  assert (Ei2 : yn = pi_ynext i) by reflexivity.
  assert (Ei3 : o = pi_step i) by reflexivity.
  assert (Hpr : mkPdSt (ps_x o) yn (ps_sigma o) (ps_tau o) (ps_theta o) = pd_prev s0 (i :: pd_iters s)) by reflexivity.
  clearbody i.
  change (match pd_last (i :: pd_iters s) with Some c => nltb K c tol | None => false end)
    with (below (pd_last (i :: pd_iters s))) in H.
  destruct (below (pd_last (i :: pd_iters s))) eqn:Eb.
  - injection H as <-. split; cbn [pd_finish pr_iters pr_x pr_y pr_cert pr_step pr_nit pr_exit pr_success pr_log pr_warned
      pd_x pd_y pd_norm pd_sigma pd_log pd_iters]; auto; [|lia].
    exists i, (pd_iters s). rewrite <- Ei3. repeat split; auto.
  - assert (Ecb : match cb with
       | Some c => (c (mkPdL (ps_x o) yn it (pd_last (i :: pd_iters s)) :: pd_log s), mkPdL (ps_x o) yn it (pd_last (i :: pd_iters s)) :: pd_log s)
       | None => (false, pd_log s) end
       = (match cb with None => false | Some c => c (pd_logof (i :: pd_iters s)) end, pd_logof (i :: pd_iters s))).
    { rewrite Hlog. unfold pd_logof. destruct cb; auto. cbn [pd_full_log]. rewrite Hit, <- Ei1, <- Ei2. reflexivity. }
    rewrite Ecb in H. clear Ecb.
    destruct (match cb with None => false | Some c => c (pd_logof (i :: pd_iters s)) end) eqn:Ecb.
    + injection H as <-. split; cbn [pd_finish pr_iters pr_x pr_y pr_cert pr_step pr_nit pr_exit pr_success pr_log pr_warned
      pd_x pd_y pd_norm pd_sigma pd_log pd_iters]; auto; [|lia].
      exists i, (pd_iters s). rewrite <- Ei3. repeat split; auto. destruct cb; [|discriminate]. eauto.
    + assert (Hq' : pd_quiet (i :: pd_iters s)).
      { split; [exact Eb|]. split; auto. intros c Ec. unfold pd_logof in Ecb. rewrite Ec in Ecb. exact Ecb. }
      destruct k as [|k'].
      * injection H as <-. split; cbn [pd_finish pr_iters pr_x pr_y pr_cert pr_step pr_nit pr_exit pr_success pr_log pr_warned
        pd_x pd_y pd_norm pd_sigma pd_log pd_iters]; auto; [|lia].
        exists i, (pd_iters s). rewrite <- Ei3. repeat split; auto; try lia; apply Hq'.
      * apply IH in H; auto.
        -- replace (it + S (S k'))%nat with (S it + S k')%nat by lia. exact H.
        -- cbn [pd_iters length]; lia.
Qed.
End PD.
