(** * Main theorems about minimize_primal_dual (statements re-exported in PropsSplitting.v) *)
From Coq Require Import ZArith QArith Reals List Bool Lra Lia Psatz.
From Verif Require Import Num Vec Spec RVec ConvexFacts ModelUtils ModelSplitting SplittingFacts ProxGradFacts ProxGradMain
  SplittingMain SplittingThree SplittingConv.
Import ListNotations.
Open Scope R_scope.

(** ** control flow, for every arithmetic *)
Definition pd_mv {K : Num} (L : option ((vec K -> vec K) * (vec K -> vec K))) (x : vec K) : vec K :=
  match L with Some (a, _) => a x | None => x end.
Definition pd_rmv {K : Num} (L : option ((vec K -> vec K) * (vec K -> vec K))) (x : vec K) : vec K :=
  match L with Some (_, b) => b x | None => x end.
Definition pd_tau0 {K : Num} (step : K) (step2 : option K) : K :=
  match step2 with None => nmul K (nlit 1 2) step | Some t => t end.
Definition pd_ratio {K : Num} (step : K) (step2 : option K) : K :=
  match step2 with None => nlit 1 2 | Some t => ndiv K t step end.
Definition pd_px {K : Num} (p : option (vec K -> K -> vec K)) (x : vec K) (s : K) : vec K :=
  match p with Some q => q x s | None => x end.

Lemma pd_solver_good {K : Num} (fg : vec K -> K * vec K) x0 p1 p2 L tol max_iter cb (step : K) step2 ls mls fuel (r : pd_result K) :
  minimize_primal_dual fg x0 p1 p2 L tol max_iter cb step step2 ls mls fuel = Ok r ->
  (0 < mls)%nat /\
  pd_good fg (pd_px p1) (pd_px p2) (pd_mv L) (pd_rmv L) tol ls fuel (pd_ratio step step2) cb max_iter
    (mkPdSt x0 (pd_mv L x0) step (pd_tau0 step step2) n1) max_iter r.
Proof.
  unfold minimize_primal_dual.
  replace (match L with Some l => l | None => (fun x => x, fun x => x) end) with (pd_mv L, pd_rmv L)
    by (destruct L as [[a b]|]; reflexivity).
  destruct (Nat.eqb_spec mls 0) as [|Hb]; [discriminate|].
  replace (match step2 with None => _ | Some t => _ end) with (pd_tau0 step step2, pd_ratio step step2)
    by (destruct step2; reflexivity).
  replace (match p1 with Some p => p | None => fun x _ => x end) with (pd_px p1) by (destruct p1; reflexivity).
  replace (match p2 with Some p => p | None => fun x _ => x end) with (pd_px p2) by (destruct p2; reflexivity).
  destruct (fg x0) as [f0 g0] eqn:E. intros H. split; [lia|].
  change max_iter with (0 + max_iter)%nat at 2.
  eapply pd_loop_good; [| | | | | | |exact H]; cbn; auto. destruct cb; reflexivity.
Qed.

Lemma below_last {K : Num} (tol : K) cb i older : pd_quiet tol cb older ->
  below tol (pd_last (i :: older)) = true ->
  Nat.modulo (length older) 100 = 0%nat /\ pd_last (i :: older) = Some (pi_incr i).
Proof.
  intros Hq Hb. cbn [pd_last] in *. destruct (Nat.eqb_spec (Nat.modulo (length older) 100) 0) as [E|E]; [auto|].
  exfalso. destruct older as [|j older]; [cbn in Hb; discriminate|]. destruct Hq as [Hq _]. rewrite Hq in Hb. discriminate.
Qed.
Lemma pd_full_log_length {K : Num} (l : list (pd_iter K)) : length (pd_full_log l) = length l.
Proof. induction l; cbn [pd_full_log length]; auto. Qed.

Lemma main_C53_success : forall (K : Num) (fg : vec K -> K * vec K) x0 p1 p2 L (tol : K) max_iter cb (step : K) step2 ls mls fuel (r : pd_result K),
  minimize_primal_dual fg x0 p1 p2 L tol max_iter cb step step2 ls mls fuel = Ok r ->
  (pr_nit r < max_iter)%nat /\ length (pr_iters r) = S (pr_nit r) /\
  (exists i older, pr_iters r = i :: older /\ pr_x r = ps_x (pi_step i) /\ pr_y r = pi_ynext i /\
     pi_x i = match older with [] => x0 | p :: _ => ps_x (pi_step p) end /\
     pi_y i = match older with [] => match L with Some (mv, _) => mv x0 | None => x0 end | p :: _ => pi_ynext p end /\
     (pr_success r = true ->
        let incr := nadd K (vnorm (vsub (pr_x r) (pi_x i))) (vnorm (vsub (pr_y r) (pi_y i))) in
        pr_cert r = Some incr /\ nltb K incr tol = true /\ Nat.modulo (pr_nit r) 100 = 0%nat)) /\
  (pr_success r = false ->
     (exists c, cb = Some c /\ c (pr_log r) = true /\ length (pr_log r) = S (pr_nit r)) \/ S (pr_nit r) = max_iter) /\
  (pr_success r = false -> forall c, pr_cert r = Some c -> nltb K c tol = false).
Proof.
  intros K fg x0 p1 p2 L tol max_iter cb step step2 ls mls fuel r H.
  destruct (pd_solver_good _ _ _ _ _ _ _ _ _ _ _ _ _ _ H) as [_ [(i & older & Ei & Ex & Ey & Ec & Est & En & Hq & Hex) Hch Hn Hw]].
  rewrite Ei in Hch. destruct Hch as [(L1 & L2 & _ & _ & _ & _ & _ & L8) _].
  split; [exact Hn|]. split; [rewrite Ei; cbn; lia|]. split; [|split].
  - exists i, older. split; [exact Ei|]. split; [exact Ex|]. split; [exact Ey|].
    split; [rewrite L1; destruct older; reflexivity|].
    split; [rewrite L2; destruct older; [destruct L as [[a b]|]|]; reflexivity|].
    intros E. destruct (pr_exit r); destruct Hex as [Es Hex]; rewrite Es in E; try discriminate.
    destruct Hex as [Hb _]. rewrite Ec in Hb. destruct (below_last _ _ _ _ Hq Hb) as [M E1].
    cbv zeta. rewrite Ec, E1, Ex, Ey, L1, L2, <- L8. split; [reflexivity|]. split; [rewrite E1 in Hb; exact Hb|rewrite En; exact M].
  - intros E. destruct (pr_exit r); destruct Hex as [Es Hex]; rewrite Es in E; try discriminate.
    + destruct Hex as (El & _ & c & Ecb & Hc). left. exists c. split; [exact Ecb|]. split; [exact Hc|].
      rewrite El. unfold pd_logof. rewrite Ecb, pd_full_log_length. cbn; lia.
    + right. apply Hex.
  - intros E c Hc. destruct (pr_exit r); destruct Hex as [Es Hex]; rewrite Es in E; try discriminate.
    + destruct Hex as (_ & Hb & _). rewrite Hc in Hb. exact Hb.
    + destruct Hex as (_ & _ & Hqq & _). rewrite <- Ec, Hc in Hqq. exact Hqq.
Qed.

Lemma main_C54_warning_refuted : forall (K : Num) (fg : vec K -> K * vec K) x0 p1 p2 L (tol : K) max_iter cb (step : K) step2 ls mls fuel (r : pd_result K),
  minimize_primal_dual fg x0 p1 p2 L tol max_iter cb step step2 ls mls fuel = Ok r -> pr_warned r = false.
Proof.
  intros K fg x0 p1 p2 L tol max_iter cb step step2 ls mls fuel r H.
  destruct (pd_solver_good _ _ _ _ _ _ _ _ _ _ _ _ _ _ H) as [_ [_ _ Hn Hw]]. rewrite Hw. apply Nat.leb_gt. exact Hn.
Qed.

Lemma pd_loop_ok {K : Num} (fg : vec K -> K * vec K) p1 p2 mv rmv tol fuel ratio cb mx k : forall it s,
  exists r, pd_loop fg p1 p2 mv rmv tol false fuel ratio cb mx (S k) it s = Ok r.
Proof.
  induction k as [|k IH]; intros it s; [|remember (S k) as k1 eqn:Ek]; cbn [pd_loop]; unfold pd_primal; cbn [bind];
    match goal with |- context [if ?b then Ok (pd_finish _ _ _ _ _) else _] => destruct b; [eauto|] end;
    destruct (match cb with None => _ | Some _ => _ end) as [stop log]; destruct stop; eauto.
  subst k1. apply IH.
Qed.
Lemma main_C54_errors : forall (K : Num) (fg : vec K -> K * vec K) x0 p1 p2 L (tol : K) max_iter cb (step : K) step2 ls mls fuel,
  let run := minimize_primal_dual fg x0 p1 p2 L tol max_iter cb step step2 ls mls fuel in
  (mls = 0%nat -> run = Err ValueError) /\
  ((0 < mls)%nat -> max_iter = 0%nat -> run = Err UnboundLocalError) /\
  (* without line search the run always completes *)
  ((0 < mls)%nat -> (0 < max_iter)%nat -> ls = false -> exists r, run = Ok r).
Proof.
  intros. unfold run, minimize_primal_dual. destruct (match L with Some l => l | None => _ end) as [mv rmv].
  split; [intros ->; reflexivity|].
  split; intros Hb; (destruct (Nat.eqb_spec mls 0); [lia|]);
    destruct (match step2 with None => _ | Some t => _ end) as [tau ratio]; destruct (fg x0) as [f0 g0].
  - intros ->. reflexivity.
  - intros Hm ->. destruct max_iter as [|k]; [lia|]. apply pd_loop_ok.
Qed.

(** outcome of the line search *)
Lemma pd_search_spec {K : Num} (fg : vec K -> K * vec K) (p1 : vec K -> K -> vec K) mv rmv ratio fuel (x y yn : vec K) fk grad tau : forall tn o,
  pd_search fg p1 mv rmv ratio fuel x y yn fk grad tau tn = Ok o ->
  exists j, (j < fuel)%nat /\
    let t := Nat.iter j (fun t => nmul K t (nlit 9 10)) tn in
    ps_theta o = ndiv K t tau /\ ps_sigma o = nmul K ratio t /\
    ps_ybar o = vadd yn (vscale (ps_theta o) (vsub yn y)) /\
    ps_x o = p1 (vsub x (vscale (ps_sigma o) (vadd (rmv (ps_ybar o)) grad))) (ps_sigma o) /\
    let incr := vnorm (vsub (mv (ps_x o)) (mv x)) in
    ((nleb K incr (nlit 1 10000000000) = true /\ ps_tau o = tau) \/
     (nleb K incr (nlit 1 10000000000) = false /\ ps_tau o = t /\
      nleb K (ndiv K (nadd K (nmul K (nmul K (ps_sigma o) t) (nsq incr))
          (nmul K (nmul K (nofZ K 2) (ps_sigma o)) (nsub K (nsub K (fst (fg (ps_x o))) fk) (vdot grad (vsub (ps_x o) x))))) (nlit 1 2))
        (nsq incr) = true)).
Proof.
  induction fuel as [|fuel IH]; intros tn o H; [discriminate|]. cbn [pd_search] in H.
  match type of H with (if ?c then _ else _) = _ => destruct c eqn:E1 end.
  { injection H as <-. exists 0%nat. cbn. repeat split; auto; lia. }
  match type of H with (if ?c then _ else _) = _ => destruct c eqn:E2 end.
  { injection H as <-. exists 0%nat. cbn. repeat split; auto; lia. }
  destruct (IH _ _ H) as (j & Hj & Hrest). exists (S j). split; [lia|].
  assert (It : forall m t, Nat.iter m (fun t => nmul K t (nlit 9 10)) (nmul K t (nlit 9 10)) = Nat.iter (S m) (fun t => nmul K t (nlit 9 10)) t).
  { induction m; intros; cbn; auto. f_equal. apply IHm. }
  rewrite It in Hrest. exact Hrest.
Qed.

Section PDR.
Variables n m : nat.
Variable f : vec RN -> RN.
Variable gradf : vec RN -> vec RN.
Variables domg domh : list R -> Prop.
Variables g h : list R -> R.
Variables p1 p2 : vec RN -> RN -> vec RN.
Variables mv rmv : vec RN -> vec RN.
Variable ls : bool.
Variable fuel : nat.
Variable ratio : RN.
Hypothesis Hg : convex_on n domg g.
Hypothesis Hh : convex_on m domh h.
Hypothesis Hp1 : forall x s, length x = n -> 0 < s -> is_prox_on domg g s x (p1 x s).
Hypothesis Hp2 : forall x s, length x = m -> 0 < s -> is_prox_on domh h s x (p2 x s).
Hypothesis Hgl : forall x, length x = n -> length (gradf x) = n.
Hypothesis Hmv : forall x, length x = n -> length (mv x) = m.
Hypothesis Hrmv : forall y, length y = m -> length (rmv y) = n.
Hypothesis Hr : 0 < ratio.
Notation fg := (fun x => (f x, gradf x)).

Record pd_facts (i : pd_iter RN) : Prop := {
  pf_lx : length (pi_x i) = n; pf_ly : length (pi_y i) = m;
  pf_lxn : length (ps_x (pi_step i)) = n; pf_lyn : length (pi_ynext i) = m; pf_lyb : length (ps_ybar (pi_step i)) = m;
  pf_tau : 0 < pi_tau i; pf_sigma : 0 < ps_sigma (pi_step i); pf_taun : 0 < ps_tau (pi_step i); pf_thetan : 0 < ps_theta (pi_step i);
  pf_ybar : exists th, 0 < th /\ ps_ybar (pi_step i) = vplus (pi_ynext i) (smul th (vminus (pi_ynext i) (pi_y i))) /\
     th = (if ls then ps_theta (pi_step i) else 1);
  pf_x : ps_x (pi_step i) = p1 (vminus (pi_x i) (smul (ps_sigma (pi_step i)) (vplus (rmv (ps_ybar (pi_step i))) (gradf (pi_x i))))) (ps_sigma (pi_step i));
  pf_sh : subgrad m domh h (vplus (mv (pi_x i)) (smul (/ pi_tau i) (vminus (pi_y i) (pi_ynext i)))) (pi_ynext i);
  pf_sg : subgrad n domg g (ps_x (pi_step i))
     (vminus (smul (/ ps_sigma (pi_step i)) (vminus (pi_x i) (ps_x (pi_step i)))) (vplus (rmv (ps_ybar (pi_step i))) (gradf (pi_x i))));
  pf_incr : pi_incr i = norm2 (vminus (ps_x (pi_step i)) (pi_x i)) + norm2 (vminus (pi_ynext i) (pi_y i))
}.

Lemma pd_link_facts (s : @pd_st RN) i : pd_link fg p1 p2 mv rmv ls fuel ratio s i ->
  length (q_x s) = n -> length (q_y s) = m -> 0 < q_sigma s -> 0 < q_tau s -> 0 < q_theta s ->
  pd_facts i /\ (ls = false -> ps_sigma (pi_step i) = q_sigma s /\ ps_tau (pi_step i) = q_tau s).
Proof.
  intros (Ex & Ey & Eg & Et & Eth & Eyn & Hst & Hin) Lx Ly Hs Ht Hth. cbn [fst snd] in *.
  set (q := vplus (q_y s) (smul (q_tau s) (mv (q_x s)))) in *.
  pose proof (Hmv _ Lx) as Lmx. pose proof (Hgl _ Lx) as Lgx.
  assert (Lq : length q = m) by (unfold q; lengr).
  assert (Eyn' : pi_ynext i = vminus q (smul (q_tau s) (p2 (smul (/ q_tau s) q) (1 / q_tau s)))).
  { rewrite Eyn. unfold pd_prox_2_conj. rewrite vadd_R, vscale_R. fold q. rewrite vdivs_R, vscale_R, vsub_R. reflexivity. }
  set (p := p2 (smul (/ q_tau s) q) (1 / q_tau s)) in *.
  assert (Hinv : 0 < 1 / q_tau s) by (apply Rdiv_lt_0_compat; [lra|exact Ht]).
  assert (Pp : is_prox_on domh h (1 / q_tau s) (smul (/ q_tau s) q) p) by (apply Hp2; [lengr|exact Hinv]).
  assert (Lp : length p = m) by (destruct Pp as [A _]; eapply eq_trans; [exact A|lengr]).
  assert (Lyn : length (pi_ynext i) = m) by (rewrite Eyn'; lengr).
  assert (Sh : subgrad m domh h (vplus (mv (q_x s)) (smul (/ q_tau s) (vminus (q_y s) (pi_ynext i)))) (pi_ynext i)).
  { pose proof (fun L => prox_subgrad m domh h _ _ _ Hh L Pp Hinv) as S. specialize (S ltac:(lengr)).
    replace (vplus (mv (q_x s)) (smul (/ q_tau s) (vminus (q_y s) (pi_ynext i)))) with p.
    2:{ rewrite Eyn'. apply list_ext with (d := 0); [lengr|]. intros k _. unfold q.
        repeat (first [rewrite nth_smul | rewrite nth_vminus by lengr | rewrite nth_vplus by lengr]). field. rn; lra. }
    replace (pi_ynext i) with (smul (/ (1 / q_tau s)) (vminus (smul (/ q_tau s) q) p)); [exact S|].
    rewrite Eyn'. apply list_ext with (d := 0); [lengr|]. intros k _.
    repeat (first [rewrite nth_smul | rewrite nth_vminus by lengr | rewrite nth_vplus by lengr]). field. rn; lra. }
  (* the primal step *)
  assert (P : exists th, 0 < th /\ th = (if ls then ps_theta (pi_step i) else 1) /\
    ps_ybar (pi_step i) = vplus (pi_ynext i) (smul th (vminus (pi_ynext i) (q_y s))) /\
    0 < ps_sigma (pi_step i) /\ 0 < ps_tau (pi_step i) /\ 0 < ps_theta (pi_step i) /\
    ps_x (pi_step i) = p1 (vminus (q_x s) (smul (ps_sigma (pi_step i)) (vplus (rmv (ps_ybar (pi_step i))) (gradf (q_x s))))) (ps_sigma (pi_step i)) /\
    (ls = false -> ps_sigma (pi_step i) = q_sigma s /\ ps_tau (pi_step i) = q_tau s)).
  { unfold pd_primal in Hst. destruct ls.
    - destruct (pd_search_spec _ _ _ _ _ _ _ _ _ _ _ _ _ _ Hst) as (j & _ & Eth' & Esg & Eyb & Exn & Hc). cbv zeta in Hc.
      set (tn := nmul RN (q_tau s) (nadd RN n1 (nsqrt RN (nadd RN n1 (q_theta s)))) ) in *.
      assert (Htn : 0 < ndiv RN tn (nofZ RN 2)).
      { unfold tn. rn. pose proof (sqrt_pos (1 + q_theta s)).
        apply Rdiv_lt_0_compat; [|lra]. apply Rmult_lt_0_compat; lra. }
      assert (Htj : 0 < Nat.iter j (fun t => nmul RN t (nlit 9 10)) (ndiv RN tn (nofZ RN 2))).
      { apply (iter_factor (9 / 10) (ndiv RN tn (nofZ RN 2)) j); [lra|exact Htn]. }
      assert (Hth' : 0 < ps_theta (pi_step i)) by (rewrite Eth'; apply Rdiv_lt_0_compat; [exact Htj|exact Ht]).
      exists (ps_theta (pi_step i)). split; [exact Hth'|]. split; [reflexivity|].
      split; [rewrite Eyb at 1; rewrite vsub_R, vscale_R, vadd_R; reflexivity|].
      split; [rewrite Esg; apply Rmult_lt_0_compat; [exact Hr|exact Htj]|].
      split; [destruct Hc as [[_ ->]|(_ & -> & _)]; [exact Ht|exact Htj]|].
      split; [exact Hth'|]. split; [|discriminate].
      rewrite Exn at 1. rewrite vadd_R, vscale_R, vsub_R. reflexivity.
    - injection Hst as Hst. rewrite <- Hst. cbn [ps_ybar ps_sigma ps_tau ps_theta ps_x].
      exists 1. split; [lra|]. split; [reflexivity|].
      split. { rewrite vscale_R, vsub_R. apply list_ext with (d := 0); [lengr|]. intros k _.
        repeat (first [rewrite nth_smul | rewrite nth_vminus by lengr | rewrite nth_vplus by lengr]). rn. ring. }
      split; [exact Hs|]. split; [exact Ht|]. split; [exact Hth|]. split; [|auto].
      rewrite (vadd_R (rmv _)), (vsub_R (q_x s)). reflexivity. }
  destruct P as (th & Hthp & Eth2 & Eyb & Hsn & Htn & Hthn & Exn & Hfix).
  assert (Lyb : length (ps_ybar (pi_step i)) = m) by (rewrite Eyb; lengr).
  pose proof (Hrmv _ Lyb) as Lrm.
  assert (Pg : is_prox_on domg g (ps_sigma (pi_step i))
     (vminus (q_x s) (smul (ps_sigma (pi_step i)) (vplus (rmv (ps_ybar (pi_step i))) (gradf (q_x s))))) (ps_x (pi_step i))).
  { rewrite Exn. apply Hp1; [lengr|exact Hsn]. }
  assert (Lxn : length (ps_x (pi_step i)) = n) by (destruct Pg as [A _]; eapply eq_trans; [exact A|lengr]).
  split; [|exact Hfix]. constructor; rewrite ?Ex, ?Ey, ?Et; auto.
  - exists th. auto.
  - pose proof (fun L => prox_subgrad n domg g _ _ _ Hg L Pg Hsn) as S. specialize (S ltac:(lengr)).
    replace (vminus (smul (/ ps_sigma (pi_step i)) (vminus (q_x s) (ps_x (pi_step i)))) (vplus (rmv (ps_ybar (pi_step i))) (gradf (q_x s))))
      with (smul (/ ps_sigma (pi_step i)) (vminus (vminus (q_x s) (smul (ps_sigma (pi_step i)) (vplus (rmv (ps_ybar (pi_step i))) (gradf (q_x s))))) (ps_x (pi_step i)))).
    exact S.
    apply list_ext with (d := 0); [lengr|]. intros k _.
    repeat (first [rewrite nth_smul | rewrite nth_vminus by lengr | rewrite nth_vplus by lengr]). field. rn; lra.
  - rewrite Hin, !vnorm_R, !vsub_R. reflexivity.
Qed.

Lemma pd_chain_facts (s0 : @pd_st RN) l : pd_chain fg p1 p2 mv rmv ls fuel ratio s0 l ->
  length (q_x s0) = n -> length (q_y s0) = m -> 0 < q_sigma s0 -> 0 < q_tau s0 -> 0 < q_theta s0 ->
  Forall pd_facts l /\
  (length (q_x (pd_prev s0 l)) = n /\ length (q_y (pd_prev s0 l)) = m /\ 0 < q_sigma (pd_prev s0 l) /\
   0 < q_tau (pd_prev s0 l) /\ 0 < q_theta (pd_prev s0 l)) /\
  (ls = false -> q_sigma (pd_prev s0 l) = q_sigma s0 /\ q_tau (pd_prev s0 l) = q_tau s0).
Proof.
  intros Hc Lx Ly Hs Ht Hth. induction l as [|i l IH]; [cbn; split; [constructor|]; repeat split; auto|].
  destruct Hc as [Hi Hc]. destruct (IH Hc) as (HF & (A & B & C & D & E) & HFix).
  destruct (pd_link_facts _ _ Hi A B C D E) as [F Fx].
  split; [constructor; auto|]. cbn [pd_prev q_x q_y q_sigma q_tau q_theta].
  split; [repeat split; apply F|]. intros El. destruct (HFix El) as [G1 G2]. destruct (Fx El) as [G3 G4]. split; [rewrite G3; exact G1|rewrite G4; exact G2].
Qed.
End PDR.
