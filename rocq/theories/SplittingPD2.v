(** * minimize_primal_dual over the reals: optimality residuals, fixed points, convergence *)
From Coq Require Import ZArith QArith Reals List Bool Lra Lia Psatz.
From Verif Require Import Num Vec Spec RVec ConvexFacts ModelUtils ModelSplitting SplittingFacts ProxGradFacts ProxGradMain
  SplittingMain SplittingThree SplittingConv SplittingPD.
Import ListNotations.
Open Scope R_scope.

Lemma pd_tau0_pos (step : RN) (step2 : option RN) : 0 < step -> match step2 with Some t => 0 < t | None => True end ->
  0 < @pd_tau0 RN step step2 /\ 0 < @pd_ratio RN step step2.
Proof.
  intros Hs H2. unfold pd_tau0, pd_ratio, nlit. destruct step2 as [t|]; rn.
  - split; [exact H2|]. apply Rdiv_lt_0_compat; auto.
  - split; [|lra]. lra.
Qed.

Lemma pd_unpack n m (f : vec RN -> RN) (gradf : vec RN -> vec RN) domg domh g h (p1 p2 : option (vec RN -> RN -> vec RN))
  (L : option ((vec RN -> vec RN) * (vec RN -> vec RN))) (x0 : vec RN) (tol : RN) max_iter cb (step : RN) step2 ls mls fuel (r : pd_result RN) :
  convex_on n domg g -> convex_on m domh h ->
  (forall x s, length x = n -> 0 < s -> is_prox_on domg g s x (pd_px p1 x s)) ->
  (forall x s, length x = m -> 0 < s -> is_prox_on domh h s x (pd_px p2 x s)) ->
  (forall x, length x = n -> length (gradf x) = n) ->
  (forall x, length x = n -> length (pd_mv L x) = m) -> (forall y, length y = m -> length (pd_rmv L y) = n) ->
  length x0 = n -> 0 < step -> match step2 with Some t => 0 < t | None => True end ->
  minimize_primal_dual (fun x => (f x, gradf x)) x0 p1 p2 L tol max_iter cb step step2 ls mls fuel = Ok r ->
  Forall (pd_facts n m gradf domg domh g h (pd_px p1) (pd_mv L) (pd_rmv L) ls) (pr_iters r) /\
  (ls = false -> Forall (fun i => pi_tau i = @pd_tau0 RN step step2 /\ ps_sigma (pi_step i) = step) (pr_iters r)).
Proof.
  intros Hg Hh Hp1 Hp2 Hgl Hmv Hrmv Lx Hs H2 H.
  destruct (pd_tau0_pos step step2 Hs H2) as [Ht Hr].
  destruct (pd_solver_good _ _ _ _ _ _ _ _ _ _ _ _ _ _ H) as [_ [_ Hch _ _]].
  revert Hch. generalize (pr_iters r) as l. intros l Hch.
  pose proof (pd_chain_facts n m f gradf domg domh g h _ _ _ _ ls fuel _ Hg Hh Hp1 Hp2 Hgl Hmv Hrmv Hr _ _ Hch Lx (Hmv _ Lx) Hs Ht Rlt_0_1)
    as (HF & _). split; [exact HF|].
  intros El. induction l as [|i l IH]; [constructor|]. destruct Hch as [Hi Hch].
  pose proof (pd_chain_facts n m f gradf domg domh g h _ _ _ _ ls fuel _ Hg Hh Hp1 Hp2 Hgl Hmv Hrmv Hr _ _ Hch Lx (Hmv _ Lx) Hs Ht Rlt_0_1)
    as (HF' & (A & B & C & D & E) & HFix).
  constructor; [|apply IH; auto].
  destruct (pd_link_facts n m f gradf domg domh g h _ _ _ _ ls fuel _ Hg Hh Hp1 Hp2 Hgl Hmv Hrmv Hr _ _ Hi A B C D E) as [_ F].
  destruct (F El) as [F1 F2]. destruct (HFix El) as [G1 G2].
  destruct Hi as (_ & _ & _ & Et & _). split.
  - rewrite Et. exact G2.
  - rewrite F1. exact G1.
Qed.

Lemma main_C52_residual : forall n m (f : vec RN -> RN) (gradf : vec RN -> vec RN) domg domh g h (p1 p2 : option (vec RN -> RN -> vec RN))
  (L : option ((vec RN -> vec RN) * (vec RN -> vec RN))) (x0 : vec RN) (tol : RN) max_iter cb (step : RN) step2 ls mls fuel (r : pd_result RN) (M : R),
  let mv x := match L with Some (a, _) => a x | None => x end in
  let rmv y := match L with Some (_, b) => b y | None => y end in
  convex_on n domg g -> convex_on m domh h ->
  (forall x s, length x = n -> 0 < s -> is_prox_on domg g s x (match p1 with Some p => p x s | None => x end)) ->
  (forall x s, length x = m -> 0 < s -> is_prox_on domh h s x (match p2 with Some p => p x s | None => x end)) ->
  (forall x, length x = n -> length (gradf x) = n) ->
  (forall x, length x = n -> length (mv x) = m) -> (forall y, length y = m -> length (rmv y) = n) ->
  (forall a b, length a = m -> length b = m -> norm2 (vminus (rmv a) (rmv b)) <= M * norm2 (vminus a b)) -> 0 <= M ->
  length x0 = n -> 0 < step -> match step2 with Some t => 0 < t | None => True end ->
  minimize_primal_dual (fun x => (f x, gradf x)) x0 p1 p2 L tol max_iter cb step step2 ls mls fuel = Ok r ->
  forall i, In i (pr_iters r) ->
  let x := pi_x i in let x' := ps_x (pi_step i) in let y := pi_y i in let y' := pi_ynext i in
  let dx := norm2 (vminus x' x) in let dy := norm2 (vminus y' y) in
  0 < pi_tau i /\ 0 < ps_sigma (pi_step i) /\
  exists a v th, subgrad m domh h a y' /\ norm2 (vminus a (mv x)) = dy / pi_tau i /\
    subgrad n domg g x' v /\ 0 < th /\ (ls = false -> th = 1) /\
    norm2 (vplus (vplus (gradf x) (rmv y')) v) <= dx / ps_sigma (pi_step i) + M * th * dy.
Proof.
  intros n m f gradf domg domh g h p1 p2 L x0 tol max_iter cb step step2 ls mls fuel r M mv rmv
    Hg Hh Hp1 Hp2 Hgl Hmv Hrmv HM HM0 Lx Hs H2 H i Hi x x' y y' dx dy.
  destruct (pd_unpack n m f gradf domg domh g h p1 p2 L x0 tol max_iter cb step step2 ls mls fuel r Hg Hh Hp1 Hp2 Hgl Hmv Hrmv Lx Hs H2 H) as [HF _].
  pose proof (proj1 (Forall_forall _ _) HF i Hi) as F. destruct F. fold x y x' y' in pf_lx, pf_ly, pf_lxn, pf_lyn, pf_ybar, pf_sh, pf_sg.
  change (pd_mv L) with mv in pf_sh. change (pd_rmv L) with rmv in pf_sg.
  pose proof (Hmv _ pf_lx) as Lmx. pose proof (Hrmv _ pf_lyn) as Lry. pose proof (Hrmv _ pf_lyb) as Lryb. pose proof (Hgl _ pf_lx) as Lgx.
  destruct pf_ybar as (th & Hth & Eyb & Eth).
  split; [exact pf_tau|]. split; [exact pf_sigma|].
  exists (vplus (mv x) (smul (/ pi_tau i) (vminus y y'))).
  exists (vminus (smul (/ ps_sigma (pi_step i)) (vminus x x')) (vplus (rmv (ps_ybar (pi_step i))) (gradf x))).
  exists th. split; [exact pf_sh|]. split.
  { replace (vminus (vplus (mv x) (smul (/ pi_tau i) (vminus y y'))) (mv x)) with (smul (/ pi_tau i) (vminus y y')).
    2:{ apply list_ext with (d := 0); [lengr|]. intros k _.
        repeat (first [rewrite nth_smul | rewrite nth_vminus by lengr | rewrite nth_vplus by lengr]). ring. }
    rewrite norm2_smul, Rabs_pos_eq by (left; apply Rinv_0_lt_compat; exact pf_tau).
    unfold dy. rewrite (norm2_sym y' y) by lengr. unfold Rdiv. ring. }
  split; [exact pf_sg|]. split; [exact Hth|]. split; [intros E; rewrite E in Eth; exact Eth|].
  replace (vplus (vplus (gradf x) (rmv y')) (vminus (smul (/ ps_sigma (pi_step i)) (vminus x x')) (vplus (rmv (ps_ybar (pi_step i))) (gradf x))))
    with (lin (- / ps_sigma (pi_step i)) (vminus x' x) (-1) (vminus (rmv (ps_ybar (pi_step i))) (rmv y'))).
  2:{ apply list_ext with (d := 0); [lengr|]. intros k _. rewrite nth_lin by lengr.
      repeat (first [rewrite nth_smul | rewrite nth_vminus by lengr | rewrite nth_vplus by lengr]). ring. }
  eapply Rle_trans; [apply norm2_triangle; lengr|].
  rewrite Rabs_Ropp, Rabs_pos_eq by (left; apply Rinv_0_lt_compat; exact pf_sigma).
  rewrite Rabs_left by lra. fold dx.
  assert (B : norm2 (vminus (rmv (ps_ybar (pi_step i))) (rmv y')) <= M * th * dy).
  { eapply Rle_trans; [apply HM; assumption|]. rewrite Rmult_assoc. apply Rmult_le_compat_l; [exact HM0|].
    replace (vminus (ps_ybar (pi_step i)) y') with (smul th (vminus y' y)).
    2:{ rewrite Eyb. apply list_ext with (d := 0); [lengr|]. intros k _.
        repeat (first [rewrite nth_smul | rewrite nth_vminus by lengr | rewrite nth_vplus by lengr]). ring. }
    rewrite norm2_smul, Rabs_pos_eq by lra. fold dy. lra. }
  unfold Rdiv. lra.
Qed.

Lemma main_C52_fixed_point : forall n m (f : vec RN -> RN) (gradf : vec RN -> vec RN) domg domh g h (p1 p2 : option (vec RN -> RN -> vec RN))
  (L : option ((vec RN -> vec RN) * (vec RN -> vec RN))) (x0 : vec RN) (tol : RN) max_iter cb (step : RN) step2 ls mls fuel (r : pd_result RN),
  let mv x := match L with Some (a, _) => a x | None => x end in
  let rmv y := match L with Some (_, b) => b y | None => y end in
  convex_on n domg g -> convex_on m domh h -> first_order n f gradf ->
  (forall x s, length x = n -> 0 < s -> is_prox_on domg g s x (match p1 with Some p => p x s | None => x end)) ->
  (forall x s, length x = m -> 0 < s -> is_prox_on domh h s x (match p2 with Some p => p x s | None => x end)) ->
  (forall x, length x = n -> length (gradf x) = n) ->
  (forall x, length x = n -> length (mv x) = m) -> (forall y, length y = m -> length (rmv y) = n) ->
  (* rmatvec is the transpose of matvec *)
  (forall x y, length x = n -> length y = m -> dot (mv x) y = dot x (rmv y)) ->
  length x0 = n -> 0 < step -> match step2 with Some t => 0 < t | None => True end ->
  minimize_primal_dual (fun x => (f x, gradf x)) x0 p1 p2 L tol max_iter cb step step2 ls mls fuel = Ok r ->
  forall i, In i (pr_iters r) -> ps_x (pi_step i) = pi_x i -> pi_ynext i = pi_y i ->
  is_min n (fun x => domg x /\ domh (mv x)) (fun x => f x + g x + h (mv x)) (pi_x i) /\
  subgrad m domh h (mv (pi_x i)) (pi_y i).
Proof.
  intros n m f gradf domg domh g h p1 p2 L x0 tol max_iter cb step step2 ls mls fuel r mv rmv
    Hg Hh Hfo Hp1 Hp2 Hgl Hmv Hrmv Hadj Lx Hs H2 H i Hi Ex Ey.
  destruct (pd_unpack n m f gradf domg domh g h p1 p2 L x0 tol max_iter cb step step2 ls mls fuel r Hg Hh Hp1 Hp2 Hgl Hmv Hrmv Lx Hs H2 H) as [HF _].
  pose proof (proj1 (Forall_forall _ _) HF i Hi) as F. destruct F.
  change (pd_mv L) with mv in pf_sh. change (pd_rmv L) with rmv in pf_sg.
  rewrite Ex in pf_sg. rewrite Ey in pf_sh, pf_ybar.
  set (x := pi_x i) in *. set (y := pi_y i) in *.
  pose proof (Hmv _ pf_lx) as Lmx. pose proof (Hrmv _ pf_ly) as Lry. pose proof (Hgl _ pf_lx) as Lgx.
  destruct pf_ybar as (th & _ & Eyb & _).
  assert (Eyb' : ps_ybar (pi_step i) = y).
  { rewrite Eyb. apply list_ext with (d := 0); [lengr|]. intros k _.
    repeat (first [rewrite nth_smul | rewrite nth_vminus by lengr | rewrite nth_vplus by lengr]). ring. }
  rewrite Eyb' in pf_sg.
  assert (Sh : subgrad m domh h (mv x) y).
  { replace (mv x) with (vplus (mv x) (smul (/ pi_tau i) (vminus y y))); [exact pf_sh|].
    apply list_ext with (d := 0); [lengr|]. intros k _.
    repeat (first [rewrite nth_smul | rewrite nth_vminus by lengr | rewrite nth_vplus by lengr]). ring. }
  split; [|exact Sh].
  destruct Sh as (_ & Dh & Sh). destruct pf_sg as (Lv & Dg & Sg).
  split; [exact pf_lx|]. split; [split; assumption|]. intros w Lw [Dgw Dhw].
  pose proof (Hfo x w pf_lx Lw) as A. pose proof (Sg w Lw Dgw) as B. pose proof (Hmv _ Lw) as Lmw. pose proof (Sh (mv w) Lmw Dhw) as C.
  assert (E1 : dot y (vminus (mv w) (mv x)) = dot (rmv y) (vminus w x)).
  { rewrite (dot_comm (rmv y)). unfold vminus. rewrite dot_lin_r by lengr. rewrite dot_lin_l by lengr.
    rewrite <- !(fun u Lu => Hadj u y Lu pf_ly) by assumption. rewrite !(dot_comm y). reflexivity. }
  assert (E2 : dot (vminus (smul (/ ps_sigma (pi_step i)) (vminus x x)) (vplus (rmv y) (gradf x))) (vminus w x)
      = - dot (rmv y) (vminus w x) - dot (gradf x) (vminus w x)).
  { replace (vminus (smul (/ ps_sigma (pi_step i)) (vminus x x)) (vplus (rmv y) (gradf x))) with (smul (-1) (vplus (rmv y) (gradf x))).
    2:{ apply list_ext with (d := 0); [lengr|]. intros k _.
        repeat (first [rewrite nth_smul | rewrite nth_vminus by lengr | rewrite nth_vplus by lengr]). ring. }
    rewrite dot_smul_l. unfold vplus. rewrite dot_lin_l by lengr. ring. }
  rewrite E2 in B. rewrite E1 in C. rn. lra.
Qed.

(** ** one step with fixed step sizes (Condat-Vu) *)
Lemma quad_bound (al be M d e : R) : 0 < al -> 0 < be -> 0 <= M -> M * M < al * be -> 0 <= d -> 0 <= e ->
  let k := (al * be - M * M) / (al + be) in
  k / 2 * ((d + e) * (d + e)) <= al * (d * d) + be * (e * e) - 2 * (M * (d * e)) /\ 0 < k.
Proof.
  intros Ha Hb HM HMM Hd He k.
  assert (Hk : 0 < k) by (apply Rdiv_lt_0_compat; lra). split; [|exact Hk].
  assert (Ek : k * (al + be) = al * be - M * M) by (unfold k; field; lra). clearbody k.
  assert (Hka : k < al).
  { apply Rmult_lt_reg_r with (al + be); [lra|]. rewrite Ek. nra. }
  (* (al - k)(be - k) >= M^2 *)
  assert (P : M * M <= (al - k) * (be - k)) by nra.
  assert (Q : 0 <= (al - k) * (d * d) + (be - k) * (e * e) - 2 * (M * (d * e))).
  { apply Rmult_le_reg_l with (al - k); [lra|]. rewrite Rmult_0_r.
    replace ((al - k) * ((al - k) * (d * d) + (be - k) * (e * e) - 2 * (M * (d * e))))
      with (((al - k) * d - M * e) * ((al - k) * d - M * e) + ((al - k) * (be - k) - M * M) * (e * e)) by ring.
    apply Rplus_le_le_0_compat; [apply Rle_0_sqr|]. apply Rmult_le_pos; [lra|apply Rle_0_sqr]. }
  assert (R2 : (d + e) * (d + e) <= 2 * (d * d + e * e)) by (pose proof (Rle_0_sqr (d - e)) as Z; unfold Rsqr in Z; lra).
  assert (k / 2 * ((d + e) * (d + e)) <= k / 2 * (2 * (d * d + e * e))) by (apply Rmult_le_compat_l; lra). lra.
Qed.

Section CV.
Variables n m : nat.
Variable f : list R -> R.
Variable gradf : list R -> list R.
Variables domg domh : list R -> Prop.
Variables g h : list R -> R.
Variables mv rmv : list R -> list R.
Variables sg tau Lf M : R.
Variables xs ys : list R.
Hypothesis HLf : 0 < Lf.
Hypothesis Hsg : 0 < sg.
Hypothesis Htau : 0 < tau.
Hypothesis Hfo : first_order n f gradf.
Hypothesis Hsm : smooth_upper n Lf f gradf.
Hypothesis Hgl : forall x, length x = n -> length (gradf x) = n.
Hypothesis Hmv : forall x, length x = n -> length (mv x) = m.
Hypothesis Hrmv : forall y, length y = m -> length (rmv y) = n.
Hypothesis Hadj : forall x y, length x = n -> length y = m -> dot (mv x) y = dot x (rmv y).
Hypothesis HM : forall x y, length x = n -> length y = n -> norm2 (vminus (mv x) (mv y)) <= M * norm2 (vminus x y).
Hypothesis HM0 : 0 <= M.
Hypothesis Hcond : 0 < / sg - Lf / 2 /\ M * M < (/ sg - Lf / 2) * / tau.
Hypothesis Lxs : length xs = n.
Hypothesis Lys : length ys = m.
Hypothesis Sh : subgrad m domh h (mv xs) ys.
Hypothesis Sg : subgrad n domg g xs (smul (-1) (vplus (rmv ys) (gradf xs))).

Definition pdV (x y : list R) : R :=
  dist2 x xs / sg + dist2 y ys / tau + 2 * dot (vminus (mv x) (mv xs)) (vminus y ys).

Lemma pdV_nonneg x y : length x = n -> length y = m -> 0 <= pdV x y.
Proof.
  intros Lx Ly. destruct Hcond as [Ha Hm]. unfold pdV.
  pose proof (dot_ge_norm (vminus (mv x) (mv xs)) (vminus y ys)) as D. pose proof (HM x xs Lx Lxs) as B.
  rewrite !dist2_dot by lia. rewrite <- !norm2_sq.
  set (a := norm2 (vminus x xs)) in *. set (b := norm2 (vminus y ys)) in *.
  assert (Ha0 : 0 <= a) by apply norm2_nonneg. assert (Hb0 : 0 <= b) by apply norm2_nonneg.
  assert (Ht : 0 < / tau) by (apply Rinv_0_lt_compat; auto).
  destruct (quad_bound (/ sg - Lf / 2) (/ tau) M a b Ha Ht HM0 Hm Ha0 Hb0) as [Q K].
  assert (norm2 (vminus (mv x) (mv xs)) * b <= M * (a * b)) by (replace (M * (a * b)) with ((M * a) * b) by ring; apply Rmult_le_compat_r; assumption).
  set (k := (_ - M * M) / _) in Q, K.
  assert (0 <= k / 2 * ((a + b) * (a + b))) by (apply Rmult_le_pos; [lra|apply Rle_0_sqr]).
  assert (0 <= Lf / 2 * (a * a)) by (apply Rmult_le_pos; [lra|apply Rle_0_sqr]).
  unfold Rdiv at 1 2. lra.
Qed.

Lemma pd_step_decrease x y x' y' : length x = n -> length y = m -> length x' = n -> length y' = m ->
  subgrad m domh h (vplus (mv x) (smul (/ tau) (vminus y y'))) y' ->
  subgrad n domg g x' (vminus (smul (/ sg) (vminus x x')) (vplus (rmv (vplus y' (smul 1 (vminus y' y)))) (gradf x))) ->
  let k := ((/ sg - Lf / 2) * / tau - M * M) / ((/ sg - Lf / 2) + / tau) in
  let incr := norm2 (vminus x' x) + norm2 (vminus y' y) in
  pdV x' y' + k / 2 * (incr * incr) <= pdV x y.
Proof.
  intros Lx Ly Lx' Ly' Sh' Sg' k incr. destruct Hcond as [Hal Hmm].
  pose proof (Hmv _ Lx) as Lmx. pose proof (Hmv _ Lx') as Lmx'. pose proof (Hmv _ Lxs) as Lmxs.
  pose proof (Hgl _ Lx) as Lgx. pose proof (Hgl _ Lxs) as Lgxs.
  set (yb := vplus y' (smul 1 (vminus y' y))) in *. assert (Lyb : length yb = m) by (unfold yb; leng).
  pose proof (Hrmv _ Lyb) as Lryb. pose proof (Hrmv _ Lys) as Lrys.
  pose proof (cocoercive n f gradf Lf HLf Hfo Hsm Hgl x xs Lx Lxs) as C.
  pose proof (subgrad_mono m domh h _ _ _ _ Sh' Sh ltac:(leng) Lmxs) as M1.
  pose proof (subgrad_mono n domg g _ _ _ _ Sg' Sg Lx' Lxs) as M2.
  set (d := vminus x' x). assert (Ld : length d = n) by (unfold d; leng).
  set (e := vminus y' y). assert (Le : length e = m) by (unfold e; leng).
  set (xt := vminus x' xs). assert (Lxt : length xt = n) by (unfold xt; leng).
  set (yt := vminus y' ys). assert (Lyt : length yt = m) by (unfold yt; leng).
  set (A := vminus (mv x) (mv xs)). assert (LA : length A = m) by (unfold A; leng).
  set (A' := vminus (mv x') (mv xs)). assert (LA' : length A' = m) by (unfold A'; leng).
  set (D := vminus (gradf x) (gradf xs)) in *. assert (LD : length D = n) by (unfold D; leng).
  (* M1 *)
  assert (E1 : dot (vminus y' ys) (vminus (vplus (mv x) (smul (/ tau) (vminus y y'))) (mv xs)) = dot yt A - / tau * dot yt e).
  { replace (vminus (vplus (mv x) (smul (/ tau) (vminus y y'))) (mv xs)) with (vminus A (smul (/ tau) e)).
    2:{ apply list_ext with (d := 0); [unfold A, e; leng|]. intros i _. unfold A, e.
        repeat (first [rewrite nth_smul | rewrite nth_vminus by leng | rewrite nth_vplus by leng]). ring. }
    fold yt. clearbody yt A e. ipx. ring. }
  rewrite E1 in M1.
  (* M2 *)
  assert (Er : dot (vminus (rmv yb) (rmv ys)) xt = dot yt A' + dot e A').
  { rewrite dot_comm. unfold vminus at 1. rewrite dot_lin_r by lia. unfold xt, vminus. rewrite !dot_lin_l by lia.
    rewrite <- !(fun u v Lu Lv => Hadj u v Lu Lv) by assumption.
    unfold A', yt, e, yb, vminus. ipx. rewrite !(dot_comm y'), !(dot_comm ys), !(dot_comm y). ring. }
  assert (E2 : dot (vminus (vminus (smul (/ sg) (vminus x x')) (vplus (rmv yb) (gradf x))) (smul (-1) (vplus (rmv ys) (gradf xs)))) (vminus x' xs)
     = - / sg * dot d xt - (dot yt A' + dot e A') - dot D xt).
  { rewrite <- Er. replace (vminus (vminus (smul (/ sg) (vminus x x')) (vplus (rmv yb) (gradf x))) (smul (-1) (vplus (rmv ys) (gradf xs))))
      with (vminus (vminus (smul (- / sg) d) (vminus (rmv yb) (rmv ys))) D).
    2:{ apply list_ext with (d := 0); [unfold d, D; leng|]. intros i _. unfold d, D.
        repeat (first [rewrite nth_smul | rewrite nth_vminus by leng | rewrite nth_vplus by leng]). ring. }
    fold xt. clearbody xt d D. ipx. ring. }
  rewrite E2 in M2.
  (* D xt = D (x - xs) + D d *)
  assert (E3 : dot D xt = dot D (vminus x xs) + dot D d).
  { replace xt with (vplus (vminus x xs) d).
    2:{ apply list_ext with (d := 0); [unfold d, xt; leng|]. intros i _. unfold d, xt.
        repeat (first [rewrite nth_smul | rewrite nth_vminus by leng | rewrite nth_vplus by leng]). ring. }
    clearbody d D. ipx. ring. }
  assert (Y : - dot D (vminus x xs) - dot D d <= Lf / 4 * dot d d).
  { pose proof (dot_quad D d (Lf / 2)) as Q. apply Rmult_le_reg_l with Lf; [auto|]. nra. }
  (* V' - V *)
  assert (E4 : pdV x y = pdV x' y' - (2 * dot d xt - dot d d) / sg - (2 * dot e yt - dot e e) / tau - 2 * dot yt A' + 2 * dot yt A - 2 * dot e A).
  { unfold pdV. fold A A' yt.
    assert (F1 : dist2 x xs = dist2 x' xs - (2 * dot d xt - dot d d)).
    { unfold d, xt. ipx. rewrite !(dot_comm x x'), !(dot_comm xs x'), !(dot_comm xs x). ring. }
    assert (F2 : dist2 y ys = dist2 y' ys - (2 * dot e yt - dot e e)).
    { unfold e, yt. ipx. rewrite !(dot_comm y y'), !(dot_comm ys y'), !(dot_comm ys y). ring. }
    assert (F3 : dot A (vminus y ys) = dot yt A - dot e A).
    { rewrite (dot_comm A). unfold yt, e. clearbody A. ipx. ring. }
    rewrite F1, F2, F3, (dot_comm A' yt). unfold Rdiv. ring. }
  rewrite E4.
  assert (E5 : dot e A' - dot e A = dot e (vminus (mv x') (mv x))).
  { unfold A, A'. clearbody e. ipx. ring. }
  pose proof (dot_ge_norm e (vminus (mv x') (mv x))) as CS. pose proof (HM x' x Lx' Lx) as B. fold d in B.
  assert (N1 : dot d d = norm2 d * norm2 d) by (symmetry; apply norm2_sq).
  assert (N2 : dot e e = norm2 e * norm2 e) by (symmetry; apply norm2_sq).
  assert (Hd0 : 0 <= norm2 d) by apply norm2_nonneg. assert (He0 : 0 <= norm2 e) by apply norm2_nonneg.
  assert (Ht : 0 < / tau) by (apply Rinv_0_lt_compat; auto).
  destruct (quad_bound (/ sg - Lf / 2) (/ tau) M (norm2 d) (norm2 e) Hal Ht HM0 Hmm Hd0 He0) as [Q K].
  fold k in Q, K. unfold incr. fold d e.
  assert (CS2 : - (M * (norm2 d * norm2 e)) <= dot e (vminus (mv x') (mv x))).
  { assert (norm2 e * norm2 (vminus (mv x') (mv x)) <= M * (norm2 d * norm2 e)).
    { replace (M * (norm2 d * norm2 e)) with (norm2 e * (M * norm2 d)) by ring. apply Rmult_le_compat_l; auto. }
    lra. }
  rewrite E3 in M2. unfold Rdiv at 2 3. rewrite N1 in Y.
  assert (T1 : (2 * dot d xt - dot d d) * / sg = 2 * (/ sg * dot d xt) - / sg * (norm2 d * norm2 d)) by (rewrite N1; ring).
  assert (T2 : (2 * dot e yt - dot e e) * / tau = 2 * (/ tau * dot yt e) - / tau * (norm2 e * norm2 e)).
  { rewrite N2, (dot_comm e yt). ring. }
  rewrite T1, T2. clearbody k d e xt yt A A' D. clear - M1 M2 Y E5 CS2 Q K. lra.
Qed.
End CV.

Lemma main_C80_fixed_step_converges : forall n m (f : vec RN -> RN) (gradf : vec RN -> vec RN) domg domh g h (p1 p2 : option (vec RN -> RN -> vec RN))
  (L : option ((vec RN -> vec RN) * (vec RN -> vec RN))) (x0 : vec RN) (tol : RN) max_iter (step : RN) step2 mls fuel (Lf M : R) (xs ys : list R),
  let mv x := match L with Some (a, _) => a x | None => x end in
  let rmv y := match L with Some (_, b) => b y | None => y end in
  let tau := match step2 with Some t => t | None => / 2 * step end in
  convex_on n domg g -> convex_on m domh h -> first_order n f gradf -> smooth_upper n Lf f gradf -> 0 < Lf ->
  (forall x s, length x = n -> 0 < s -> is_prox_on domg g s x (match p1 with Some p => p x s | None => x end)) ->
  (forall x s, length x = m -> 0 < s -> is_prox_on domh h s x (match p2 with Some p => p x s | None => x end)) ->
  (forall x, length x = n -> length (gradf x) = n) ->
  (forall x, length x = n -> length (mv x) = m) -> (forall y, length y = m -> length (rmv y) = n) ->
  (forall x y, length x = n -> length y = m -> dot (mv x) y = dot x (rmv y)) ->
  (forall x y, length x = n -> length y = n -> norm2 (vminus (mv x) (mv y)) <= M * norm2 (vminus x y)) -> 0 <= M ->
  length x0 = n -> 0 < step -> 0 < tau -> 0 < tol -> (0 < mls)%nat ->
  (* the Condat-Vu step-size condition *)
  0 < / step - Lf / 2 -> M * M < (/ step - Lf / 2) * / tau ->
  (* a saddle point *)
  length xs = n -> length ys = m -> subgrad m domh h (mv xs) ys -> subgrad n domg g xs (smul (-1) (vplus (rmv ys) (gradf xs))) ->
  (* enough iterations *)
  let k := ((/ step - Lf / 2) * / tau - M * M) / ((/ step - Lf / 2) + / tau) in
  dist2 x0 xs / step + dist2 (mv x0) ys / tau + 2 * dot (vminus (mv x0) (mv xs)) (vminus (mv x0) ys)
    < INR ((max_iter + 99) / 100) * (k / 2 * (tol * tol)) ->
  exists r, minimize_primal_dual (fun x => (f x, gradf x)) x0 p1 p2 L tol max_iter None step step2 false mls fuel = Ok r /\
    pr_success r = true.
Proof.
  intros n m f gradf domg domh g h p1 p2 L x0 tol max_iter step step2 mls fuel Lf M xs ys mv rmv tau
    Hg Hh Hfo Hsm HLf Hp1 Hp2 Hgl Hmv Hrmv Hadj HM HM0 Lx Hs Ht Htol Hmls Hc1 Hc2 Lxs Lys Sh Sg k Hmany.
  pose proof (pdV_nonneg n m mv step tau Lf M xs ys HLf Ht HM HM0 (conj Hc1 Hc2) Lxs Lys) as Vnn.
  assert (Hk : 0 < k).
  { apply Rdiv_lt_0_compat; [rn; lra|]. assert (0 < / tau) by (apply Rinv_0_lt_compat; exact Ht). rn; lra. }
  assert (Hmi : (0 < max_iter)%nat).
  { destruct max_iter; [|lia]. exfalso. cbn in Hmany. rewrite Rmult_0_l in Hmany.
    pose proof (Vnn x0 (mv x0) Lx (Hmv _ Lx)) as V. unfold pdV in V. rn. lra. }
  destruct (proj2 (proj2 (main_C54_errors RN (fun x => (f x, gradf x)) x0 p1 p2 L tol max_iter None step step2 false mls fuel)) Hmls Hmi eq_refl)
    as (r & Hr).
  exists r. split; [exact Hr|]. destruct (pr_success r) eqn:Esu; auto. exfalso.
  assert (H2 : match step2 with Some t => 0 < t | None => True end) by (unfold tau in Ht; destruct step2; auto).
  destruct (pd_unpack n m f gradf domg domh g h p1 p2 L x0 tol max_iter None step step2 false mls fuel r Hg Hh Hp1 Hp2 Hgl Hmv Hrmv Lx Hs H2 Hr) as [HF Hfix].
  specialize (Hfix eq_refl).
  assert (Et0 : @pd_tau0 RN step step2 = tau).
  { unfold pd_tau0, tau, nlit. destruct step2; rn; auto. lra. }
  rewrite Et0 in Hfix.
  destruct (pd_solver_good _ _ _ _ _ _ _ _ _ _ _ _ _ _ Hr) as [_ [(i & older & Ei & _ & _ & _ & _ & En & Hq & Hex) Hch Hn _]].
  destruct (pr_exit r); destruct Hex as [Es Hex]; rewrite Es in Esu; try discriminate.
  { destruct Hex as (_ & _ & c & Ec & _). discriminate. }
  destruct Hex as (Hnit & _ & Hqq). rewrite <- Ei in Hqq.
  change (pd_mv L) with mv in Hch. change (pd_rmv L) with rmv in Hch. change (pd_mv L) with mv in HF. change (pd_rmv L) with rmv in HF.
  set (s0 := mkPdSt x0 (mv x0) step (@pd_tau0 RN step step2) n1) in *.
  assert (Main : forall l, pd_quiet tol None l ->
     Forall (pd_facts n m gradf domg domh g h (pd_px p1) mv rmv false) l ->
     Forall (fun i : pd_iter RN => pi_tau i = tau /\ ps_sigma (pi_step i) = step) l ->
     pd_chain (fun x => (f x, gradf x)) (pd_px p1) (pd_px p2) mv rmv false fuel (@pd_ratio RN step step2) s0 l ->
     length (q_x (pd_prev s0 l)) = n /\ length (q_y (pd_prev s0 l)) = m /\
     pdV mv step tau xs ys (q_x (pd_prev s0 l)) (q_y (pd_prev s0 l)) + INR ((length l + 99) / 100) * (k / 2 * (tol * tol))
       <= pdV mv step tau xs ys x0 (mv x0)).
  { induction l as [|j l IH]; intros Ql Fl Xl Cl.
    - cbn. split; [exact Lx|]. split; [exact (Hmv _ Lx)|]. rn. lra.
    - destruct Cl as [Hj Cl]. pose proof (Forall_inv Fl) as F. destruct (Forall_inv Xl) as [Etj Esj].
      destruct Ql as (Qj & _ & Ql).
      destruct (IH Ql (Forall_inv_tail Fl) (Forall_inv_tail Xl) Cl) as (Lxp & Lyp & V).
      destruct Hj as (Ex & Ey & _).
      destruct F. rewrite Ex in pf_lx, pf_sh, pf_sg, pf_incr. rewrite Ey in pf_ly, pf_ybar, pf_sh, pf_incr. rewrite Etj in pf_sh. rewrite Esj in pf_sg.
      destruct pf_ybar as (th & _ & Eyb & Eth). rewrite Eth in Eyb. rewrite Eyb in pf_sg.
      pose proof (pd_step_decrease n m f gradf domg domh g h mv rmv step tau Lf M xs ys HLf Ht Hfo Hsm Hgl Hmv Hrmv Hadj HM HM0 (conj Hc1 Hc2)
         Lxs Lys Sh Sg _ _ _ _ pf_lx pf_ly pf_lxn pf_lyn pf_sh pf_sg) as Dec.
      cbv zeta in Dec. fold k in Dec. rewrite <- pf_incr in Dec.
      cbn [pd_prev q_x q_y]. split; [exact pf_lxn|]. split; [exact pf_lyn|].
      assert (Hinc : 0 <= pi_incr j).
      { rewrite pf_incr. apply Rplus_le_le_0_compat; apply norm2_nonneg. }
      cbn [length]. cbn [pd_last] in Qj.
      destruct (Nat.eqb_spec (Nat.modulo (length l) 100) 0) as [E|E].
      + assert (Eq : ((S (length l) + 99) / 100 = S ((length l + 99) / 100))%nat).
        { pose proof (Nat.div_mod_eq (length l) 100) as Dm. rewrite E in Dm.
          set (q := (length l / 100)%nat) in *. assert (El : length l = (q * 100)%nat) by lia. rewrite El.
          replace (S (q * 100) + 99)%nat with (0 + (S q) * 100)%nat by lia.
          replace (q * 100 + 99)%nat with (99 + q * 100)%nat by lia.
          rewrite !Nat.div_add by lia. reflexivity. }
        rewrite Eq, S_INR.
        assert (Q' : tol <= pi_incr j).
        { cbn [below] in Qj. change (nltb RN (pi_incr j) tol) with (Rltb (pi_incr j) tol) in Qj.
          destruct (Rltb_spec (pi_incr j) tol); [discriminate|assumption]. }
        assert (k / 2 * (tol * tol) <= k / 2 * (pi_incr j * pi_incr j)).
        { apply Rmult_le_compat_l; [lra|]. apply Rmult_le_compat; try exact Q'; left; exact Htol. }
        set (c := INR _) in *. rn. lra.
      + assert (Eq : ((S (length l) + 99) / 100 = (length l + 99) / 100)%nat).
        { pose proof (Nat.div_mod_eq (length l) 100) as Dm. pose proof (Nat.mod_upper_bound (length l) 100 ltac:(lia)) as Ub.
          set (q := (length l / 100)%nat) in *. set (t := (length l mod 100)%nat) in *.
          assert (El : length l = (t + q * 100)%nat) by lia. rewrite El.
          replace (S (t + q * 100) + 99)%nat with (t + (S q) * 100)%nat by lia.
          replace (t + q * 100 + 99)%nat with ((t - 1) + (S q) * 100)%nat by lia.
          rewrite !Nat.div_add by lia. rewrite !Nat.div_small by lia. reflexivity. }
        rewrite Eq.
        assert (0 <= k / 2 * (pi_incr j * pi_incr j)) by (apply Rmult_le_pos; [lra|apply Rmult_le_pos; exact Hinc]).
        set (c := INR _) in *. rn. lra. }
  destruct (Main (pr_iters r) Hqq HF Hfix Hch) as (A & B & V).
  pose proof (Vnn _ _ A B) as V0.
  replace (length (pr_iters r)) with max_iter in V by (rewrite Ei; cbn; lia).
  unfold pdV at 2 in V. set (c := INR _) in *. rn. lra.
Qed.
