(** * Line searches of the splitting solvers: what is accepted, termination, step-size updates *)
From Coq Require Import ZArith QArith Reals List Bool Lra Lia Psatz.
From Verif Require Import Num Vec Spec RVec ConvexFacts ModelUtils ModelSplitting SplittingFacts ProxGradFacts ProxGradMain
  SplittingMain SplittingThree SplittingThree2 SplittingConv SplittingPD SplittingPD2.
Import ListNotations.
Open Scope R_scope.

(** ** more fuel does not change the outcome *)
Lemma pd_search_more {K : Num} (fg : vec K -> K * vec K) (p1 : vec K -> K -> vec K) mv rmv ratio fuel (x y yn : vec K) fk grad tau :
  forall fuel' tn o, (fuel <= fuel')%nat -> pd_search fg p1 mv rmv ratio fuel x y yn fk grad tau tn = Ok o ->
  pd_search fg p1 mv rmv ratio fuel' x y yn fk grad tau tn = Ok o.
Proof.
  induction fuel as [|fuel IH]; intros [|fuel'] tn o Hle H; try discriminate H; [lia|]. cbn [pd_search] in *.
  destruct (nleb K _ (nlit 1 10000000000)); [exact H|]. destruct (nleb K _ (nsq _)); [exact H|].
  apply IH; [lia|exact H].
Qed.

Section Term.
Variables n m : nat.
Variable f : vec RN -> RN.
Variable gradf : vec RN -> vec RN.
Variables p1 p2 : vec RN -> RN -> vec RN.
Variables mv rmv : vec RN -> vec RN.
Variable ratio : RN.
Variables Lf c : R.
Hypothesis HLf : 0 <= Lf.
Hypothesis Hp1 : forall x s, length x = n -> length (p1 x s) = n.
Hypothesis Hp2 : forall x s, length x = m -> length (p2 x s) = m.
Hypothesis Hgl : forall x, length x = n -> length (gradf x) = n.
Hypothesis Hmv : forall x, length x = n -> length (mv x) = m.
Hypothesis Hrmv : forall y, length y = m -> length (rmv y) = n.
Hypothesis Hsm : smooth_upper n Lf f gradf.
Hypothesis Hbelow : forall x y, length x = n -> length y = n -> norm2 (vminus x y) <= c * norm2 (vminus (mv x) (mv y)).
Hypothesis Hr : 0 < ratio.
Notation fg := (fun x => (f x, gradf x)).

Definition tn_ok : R := Rmin 1 (/ (2 * ratio * (1 + Lf * (c * c)))).
Lemma tn_ok_pos : 0 < tn_ok.
Proof.
  apply Rmin_glb_lt; [lra|]. apply Rinv_0_lt_compat.
  assert (0 <= Lf * (c * c)) by (apply Rmult_le_pos; [exact HLf|apply Rle_0_sqr]).
  assert (0 < 1 + Lf * (c * c)) by lra. apply Rmult_lt_0_compat; [rn; lra|exact H0].
Qed.

Lemma pd_search_accepts fuel (x y yn : vec RN) (tau tn : RN) : length x = n -> length y = m -> length yn = m -> 0 < tn <= tn_ok ->
  exists o, pd_search fg p1 mv rmv ratio (S fuel) x y yn (f x) (gradf x) tau tn = Ok o.
Proof.
  intros Lx Ly Lyn [Ht0 Ht]. cbn [pd_search].
  set (xn := p1 _ _).
  assert (Lxn : length xn = n).
  { unfold xn. apply Hp1. rewrite vsub_R, vscale_R, vadd_R. set (yb := vadd _ _).
    assert (Lyb : length yb = m) by (unfold yb; rewrite vadd_R, vscale_R, vsub_R; lengr).
    pose proof (Hrmv _ Lyb). pose proof (Hgl _ Lx). lengr. }
  clearbody xn. destruct (nleb RN _ (nlit 1 10000000000)); [eauto|].
  match goal with |- exists o, (if ?b then _ else _) = _ => destruct b eqn:E; [eauto|] end. exfalso.
  revert E. change (nleb RN) with Rleb. cbn [fst snd]. rewrite vdot_R, vnorm_R, !vsub_R. unfold nsq, nlit. rn.
  set (t := norm2 (vminus (mv xn) (mv x))).
  pose proof (Hsm x xn Lx Lxn) as S. pose proof (Hbelow xn x Lxn Lx) as B. fold t in B.
  rewrite dist2_dot in S by lengr. rewrite <- norm2_sq in S.
  assert (T0 : 0 <= t) by apply norm2_nonneg. pose proof (norm2_nonneg (vminus xn x)) as D0.
  set (d := norm2 (vminus xn x)) in *. set (D := f xn - f x - dot (gradf x) (vminus xn x)) in *.
  assert (HD : D <= Lf / 2 * (c * c) * (t * t)).
  { assert (d * d <= (c * t) * (c * t)) by (apply Rmult_le_compat; assumption).
    assert (Lf / 2 * (d * d) <= Lf / 2 * ((c * t) * (c * t))) by (apply Rmult_le_compat_l; lra). unfold D. rn. nra. }
  clearbody D. assert (Hs : 0 < ratio * tn) by (apply Rmult_lt_0_compat; assumption).
  assert (A1 : tn <= 1) by (eapply Rle_trans; [exact Ht|apply Rmin_l]).
  assert (A2 : tn <= / (2 * ratio * (1 + Lf * (c * c)))) by (eapply Rle_trans; [exact Ht|apply Rmin_r]).
  assert (P0 : 0 <= Lf * (c * c)) by (apply Rmult_le_pos; [exact HLf|apply Rle_0_sqr]).
  assert (A3 : 2 * (ratio * tn) * (1 + Lf * (c * c)) <= 1).
  { assert (P : 0 < 2 * ratio * (1 + Lf * (c * c))) by (apply Rmult_lt_0_compat; [rn; lra|lra]).
    apply Rmult_le_compat_r with (r := 2 * ratio * (1 + Lf * (c * c))) in A2; [|lra]. rewrite Rinv_l in A2 by lra. rn. lra. }
  match goal with |- Rleb ?a ?b = false -> _ => intros E; enough (X : a <= b) by (apply Rleb_iff in X; clear - E X; congruence); clear E end.
  replace ((ratio * tn * tn * (t * t) + 2 * (ratio * tn) * D) / (1 / 2)) with (2 * (ratio * tn) * (tn * (t * t) + 2 * D)) by field.
  assert (tn * (t * t) + 2 * D <= (1 + Lf * (c * c)) * (t * t)).
  { assert (tn * (t * t) <= 1 * (t * t)) by (apply Rmult_le_compat_r; [apply Rle_0_sqr|exact A1]). lra. }
  eapply Rle_trans; [apply Rmult_le_compat_l; [lra|exact H]|].
  rewrite <- Rmult_assoc. rewrite <- (Rmult_1_l (t * t)) at 2. apply Rmult_le_compat_r; [apply Rle_0_sqr|exact A3].
Qed.

Lemma pd_search_terminates (x y yn : vec RN) (tau : RN) : length x = n -> length y = m -> length yn = m -> forall tn : RN, 0 < tn ->
  exists N o, pd_search fg p1 mv rmv ratio N x y yn (f x) (gradf x) tau tn = Ok o.
Proof.
  intros Lx Ly Lyn tn Htn.
  destruct (pow_lt_1_zero (9 / 10) ltac:(rewrite Rabs_pos_eq; lra) (tn_ok / tn)) as (j & Hj).
  { apply Rdiv_lt_0_compat; [apply tn_ok_pos|exact Htn]. }
  specialize (Hj j (le_n _)). rewrite Rabs_pos_eq in Hj by (apply pow_le; lra).
  assert (Hs : tn * (9 / 10) ^ j <= tn_ok).
  { apply Rmult_lt_compat_l with (r := tn) in Hj; [|exact Htn]. replace (tn * (tn_ok / tn)) with tn_ok in Hj by (field; rn; lra). lra. }
  clear Hj. revert tn Htn Hs. induction j as [|j IH]; intros tn Htn Hs.
  - exists 1%nat. apply pd_search_accepts; auto. cbn in Hs. rn. lra.
  - destruct (IH (tn * (9 / 10))) as (N & o & E); [lra|cbn [pow] in Hs; rn; lra|].
    exists (S N). cbn [pd_search]. destruct (nleb RN _ (nlit 1 10000000000)); [eauto|]. destruct (nleb RN _ (nsq _)); [eauto|].
    exists o. exact E.
Qed.

Definition pd_inv (s : pd_state RN) : Prop :=
  length (pd_x s) = n /\ length (pd_y s) = m /\ pd_f s = f (pd_x s) /\ pd_grad s = gradf (pd_x s) /\ 0 < pd_tau s /\ 0 < pd_theta s.

Lemma pd_primal_terminates (s : pd_state RN) (yn : vec RN) : pd_inv s -> length yn = m ->
  exists N o, (forall fuel, (N <= fuel)%nat ->
     pd_primal fg p1 mv rmv true fuel ratio (pd_x s) (pd_y s) yn (pd_f s) (pd_grad s) (pd_sigma s) (pd_tau s) (pd_theta s) = Ok o) /\
   length (ps_x o) = n /\ ps_fg o = fg (ps_x o) /\ 0 < ps_tau o /\ 0 < ps_theta o.
Proof.
  intros (Lx & Ly & Ef & Eg & Ht & Hth) Lyn. unfold pd_primal. rewrite Ef, Eg.
  set (tn := ndiv RN _ _).
  assert (Htn : 0 < tn).
  { unfold tn. rn. apply Rdiv_lt_0_compat; [|lra]. apply Rmult_lt_0_compat; [exact Ht|].
    pose proof (sqrt_pos (1 + pd_theta s)). rn. lra. }
  clearbody tn.
  destruct (pd_search_terminates (pd_x s) (pd_y s) yn (pd_tau s) Lx Ly Lyn tn Htn) as (N & o & E).
  exists N, o. split; [intros fuel Hf; exact (pd_search_more _ _ _ _ _ _ _ _ _ _ _ _ _ _ _ Hf E)|].
  assert (Efg : ps_fg o = fg (ps_x o)).
  { clear Htn. revert tn E. induction N as [|N IH]; intros tn E; [discriminate E|]. cbn [pd_search] in E.
    match type of E with (if ?b then _ else _) = _ => destruct b end; [injection E as <-; reflexivity|].
    match type of E with (if ?b then _ else _) = _ => destruct b end; [injection E as <-; reflexivity|].
    exact (IH _ E). }
  destruct (pd_search_spec _ _ _ _ _ _ _ _ _ _ _ _ _ _ E) as (j & _ & E1 & E2 & E3 & E4 & E5).
  assert (It : Nat.iter j (fun t => nmul RN t (nlit 9 10)) tn = tn * (9 / 10) ^ j).
  { clear. generalize (iter_pow (9 / 10) tn j). unfold nlit. rn. auto. }
  rewrite It in *.
  assert (Hp : 0 < tn * (9 / 10) ^ j) by (apply Rmult_lt_0_compat; [exact Htn|apply pow_lt; lra]).
  split; [|split; [exact Efg|split]].
  - rewrite E4. apply Hp1.
    assert (Lyb : length (ps_ybar o) = m) by (rewrite E3, vadd_R, vscale_R, vsub_R; lengr).
    pose proof (Hrmv _ Lyb). pose proof (Hgl _ Lx). rewrite vsub_R, vscale_R, vadd_R. lengr.
  - destruct E5 as [[_ ->] | (_ & -> & _)]; assumption.
  - rewrite E1. rn. apply Rdiv_lt_0_compat; assumption.
Qed.

Lemma pd_loop_terminates tol cb mx k : forall it s, pd_inv s ->
  exists N, forall fuel, (N <= fuel)%nat -> exists r, pd_loop fg p1 p2 mv rmv tol true fuel ratio cb mx (S k) it s = Ok r.
Proof.
  induction k as [|k IH]; intros it s Hs.
  all: set (yn := pd_prox_2_conj p2 (vadd (pd_y s) (vscale (pd_tau s) (mv (pd_x s)))) (pd_tau s)).
  all: assert (Lyn : length yn = m) by
    (destruct Hs as (Lx & Ly & _); unfold yn, pd_prox_2_conj; pose proof (Hmv _ Lx);
     set (w := vadd _ _); assert (Lw : length w = m) by (unfold w; rewrite vadd_R, vscale_R; lengr);
     rewrite vsub_R, vscale_R; set (q := p2 _ _);
     assert (length q = m) by (unfold q; apply Hp2; rewrite vdivs_R; lengr); lengr).
  all: destruct (pd_primal_terminates s yn Hs Lyn) as (N & o & Ho & L1 & E1 & T1 & T2).
  - exists N. intros fuel Hf. cbn [pd_loop]. fold yn. rewrite (Ho fuel Hf). cbn [bind].
    match goal with |- context [if ?b then Ok (pd_finish _ _ _ _ _) else _] => destruct b; [eauto|] end.
    destruct (match cb with None => _ | Some _ => _ end) as [stop log]. destruct stop; eauto.
  - set (incr := nadd RN (vnorm (vsub (ps_x o) (pd_x s))) (vnorm (vsub yn (pd_y s)))).
    set (ni := if Nat.eqb (Nat.modulo it 100) 0 then Some incr else pd_norm s).
    set (i := mkPdI (pd_x s) (pd_y s) (pd_grad s) (pd_tau s) (pd_theta s) yn o incr).
    set (log' := match cb with None => pd_log s | Some c => mkPdL (ps_x o) yn it ni :: pd_log s end).
    set (s2 := mkPdS (ps_x o) yn (fst (ps_fg o)) (snd (ps_fg o)) (ps_sigma o) (ps_tau o) (ps_theta o) ni log' (i :: pd_iters s)).
    destruct (IH (S it) s2) as (N2 & H2).
    { unfold pd_inv, s2. cbn [pd_x pd_y pd_f pd_grad pd_tau pd_theta]. rewrite E1. cbn [fst snd]. auto 10. }
    exists (Nat.max N N2). intros fuel Hf. destruct (H2 fuel ltac:(lia)) as (r & Hr2).
    remember (S k) as k1 eqn:Ek. cbn [pd_loop]. fold yn. rewrite (Ho fuel ltac:(lia)). cbn [bind].
    fold incr. fold ni.
    match goal with |- context [if ?b then Ok (pd_finish _ _ _ _ _) else _] => destruct b; [eauto|] end.
    destruct cb as [cc|].
    + destruct (cc _); [eauto|]. subst k1. exists r. exact Hr2.
    + subst k1. exists r. exact Hr2.
Qed.
End Term.

Lemma main_C82_terminates_partial : forall n m (f : vec RN -> RN) (gradf : vec RN -> vec RN) (p1 p2 : option (vec RN -> RN -> vec RN))
  (L : option ((vec RN -> vec RN) * (vec RN -> vec RN))) (x0 : vec RN) (tol : RN) max_iter cb (step : RN) step2 ls mls (Lf c : R),
  let mv x := match L with Some (a, _) => a x | None => x end in
  let rmv y := match L with Some (_, b) => b y | None => y end in
  (forall x s, length x = n -> length (match p1 with Some p => p x s | None => x end) = n) ->
  (forall x s, length x = m -> length (match p2 with Some p => p x s | None => x end) = m) ->
  (forall x, length x = n -> length (gradf x) = n) ->
  (forall x, length x = n -> length (mv x) = m) -> (forall y, length y = m -> length (rmv y) = n) ->
  0 <= Lf -> smooth_upper n Lf f gradf ->
  (* L is bounded below *)
  (forall x y, length x = n -> length y = n -> norm2 (vminus x y) <= c * norm2 (vminus (mv x) (mv y))) ->
  length x0 = n -> 0 < step -> match step2 with Some t => 0 < t | None => True end ->
  (0 < mls)%nat -> (0 < max_iter)%nat ->
  exists N, forall fuel, (N <= fuel)%nat ->
    exists r, minimize_primal_dual (fun x => (f x, gradf x)) x0 p1 p2 L tol max_iter cb step step2 ls mls fuel = Ok r.
Proof.
  intros n m f gradf p1 p2 L x0 tol max_iter cb step step2 ls mls Lf c mv rmv Hp1 Hp2 Hgl Hmv Hrmv HLf Hsm Hb Lx Hs H2 Hm Hi.
  destruct ls; [|exists 0%nat; intros fuel _; apply (main_C54_errors RN _ x0 p1 p2 L tol max_iter cb step step2 false mls fuel); auto].
  destruct max_iter as [|k]; [lia|].
  destruct (pd_tau0_pos step step2 Hs H2) as [Ht Hr].
  set (q1 := match p1 with Some p => p | None => fun x _ => x end).
  set (q2 := match p2 with Some p => p | None => fun x _ => x end).
  destruct (pd_loop_terminates n m f gradf q1 q2 mv rmv (@pd_ratio RN step step2) Lf c HLf) with (tol := tol) (cb := cb) (mx := S k) (k := k) (it := 0%nat)
    (s := mkPdS x0 (mv x0) (f x0) (gradf x0) step (@pd_tau0 RN step step2) (@n1 RN) None [] []) as (N & HN); auto.
  - intros x s E. unfold q1. specialize (Hp1 x s E). destruct p1; exact Hp1.
  - intros x s E. unfold q2. specialize (Hp2 x s E). destruct p2; exact Hp2.
  - unfold pd_inv. cbn. split; [exact Lx|]. split; [exact (Hmv _ Lx)|]. split; [reflexivity|]. split; [reflexivity|]. split; [exact Ht|lra].
  - exists N. intros fuel Hf. destruct (HN fuel Hf) as (r & E). exists r.
    unfold minimize_primal_dual. destruct (Nat.eqb_spec mls 0); [lia|].
    unfold mv, rmv in E. unfold pd_tau0, pd_ratio in E.
    destruct L as [[a b]|]; destruct step2; exact E.
Qed.

(** max_iter_ls is never used, and a NaN makes the loop endless *)
Definition nanf : F64 := SpecFloat.S754_nan.
Lemma f64_sub_nan (a : F64) : nsub F64 a nanf = nanf. Proof. destruct a; reflexivity. Qed.
Lemma f64_add_nan (a : F64) : nadd F64 a nanf = nanf. Proof. destruct a; reflexivity. Qed.
Lemma f64_mul_nan (a : F64) : nmul F64 a nanf = nanf. Proof. destruct a; reflexivity. Qed.
Lemma f64_le_nan (a : F64) : nleb F64 a nanf = false. Proof. destruct a; reflexivity. Qed.
Lemma main_C82_unbounded_refuted : exists (fg : vec F64 -> F64 * vec F64) (x0 : vec F64),
  forall tol max_iter cb step step2 mls fuel, (0 < mls)%nat -> (0 < max_iter)%nat ->
  minimize_primal_dual fg x0 None None None tol max_iter cb step step2 true mls fuel = Err OutOfFuel.
Proof.
  exists (fun _ => (nanf, [nanf])), [n0]. intros tol max_iter cb step step2 mls fuel Hm Hi.
  unfold minimize_primal_dual. destruct (Nat.eqb_spec mls 0); [lia|]. destruct max_iter as [|k]; [lia|].
  destruct (match step2 with None => _ | Some _ => _ end) as [tau ratio].
  cbn [pd_loop]. unfold pd_primal. cbn [pd_x pd_y pd_f pd_grad pd_tau pd_theta pd_sigma].
  set (yn := pd_prox_2_conj _ _ _).
  assert (Eyn : exists v, yn = [v]).
  { unfold yn, pd_prox_2_conj. cbn. eexists; reflexivity. }
  destruct Eyn as (v & ->). generalize (ndiv F64 (nmul F64 tau (nadd F64 n1 (nsqrt F64 (nadd F64 n1 n1)))) (nofZ F64 2)).
  intros tn.
  assert (E : pd_search (fun _ => (nanf, [nanf])) (fun x _ => x) (fun x : vec F64 => x) (fun x => x) ratio fuel [n0] [n0] [v] nanf [nanf] tau tn = Err OutOfFuel).
  { revert tn. induction fuel as [|fuel IH]; intros tn; [reflexivity|]. cbn [pd_search].
    assert (Ex : vsub [n0] (vscale (nmul F64 ratio tn) (vadd (vadd [v] (vscale (ndiv F64 tn tau) (vsub [v] [n0]))) [nanf])) = [nanf]).
    { set (w := vadd [v] _). assert (Ew : exists q, w = [q]) by (eexists; reflexivity). destruct Ew as (q & ->).
      change (vadd [q] [nanf]) with [nadd F64 q nanf]. rewrite f64_add_nan.
      change (vscale (nmul F64 ratio tn) [nanf]) with [nmul F64 (nmul F64 ratio tn) nanf]. rewrite f64_mul_nan. reflexivity. }
    rewrite Ex. replace (vnorm (vsub [nanf] [n0])) with nanf by (vm_compute; reflexivity).
    replace (nsq nanf) with nanf by (vm_compute; reflexivity). rewrite !f64_le_nan.
    replace (nleb F64 nanf (nlit 1 10000000000)) with false by (vm_compute; reflexivity). exact (IH _). }
  rewrite E. reflexivity.
Qed.

(** ** what the primal-dual line search accepts *)
Lemma main_C79_accepted_partial : forall (f : vec RN -> RN) (gradf : vec RN -> vec RN) (p1 p2 : option (vec RN -> RN -> vec RN))
  (L : option ((vec RN -> vec RN) * (vec RN -> vec RN))) (x0 : vec RN) (tol : RN) max_iter cb (step : RN) step2 mls fuel (r : pd_result RN) (M : R),
  let mv x := match L with Some (a, _) => a x | None => x end in
  0 <= M -> (forall x y, norm2 (vminus (mv x) (mv y)) <= M * norm2 (vminus x y)) ->
  minimize_primal_dual (fun x => (f x, gradf x)) x0 p1 p2 L tol max_iter cb step step2 true mls fuel = Ok r ->
  forall i, In i (pr_iters r) ->
  let x := pi_x i in let x' := ps_x (pi_step i) in let s := ps_sigma (pi_step i) in let t := ps_tau (pi_step i) in
  let dL := vminus (mv x') (mv x) in let d := vminus x' x in
  (norm2 dL <= / 10 ^ 10 /\ t = pi_tau i) \/
  (s * t * dot dL dL + 2 * s * (f x' - f x - dot (gradf x) d) <= / 2 * dot dL dL /\
   s * t * dot dL dL + 2 * s * (f x' - f x - dot (gradf x) d) <= M * M / 2 * dot d d).
Proof.
  intros f gradf p1 p2 L x0 tol max_iter cb step step2 mls fuel r M mv HM0 HM H i Hi x x' s t dL d.
  destruct (pd_solver_good _ _ _ _ _ _ _ _ _ _ _ _ _ _ H) as [_ [_ Hch _ _]].
  destruct (in_split _ _ Hi) as (newer & older & Ei).
  assert (Hl : exists st, pd_link (fun x => (f x, gradf x)) (pd_px p1) (pd_px p2) (pd_mv L) (pd_rmv L) true fuel (@pd_ratio RN step step2) st i).
  { rewrite Ei in Hch. clear - Hch. induction newer as [|j newer IH]; [destruct Hch; eauto|destruct Hch; auto]. }
  destruct Hl as (st & Ex & Ey & Eg & Et & Eth & Eyn & Hst & _).
  unfold pd_primal in Hst. destruct (pd_search_spec _ _ _ _ _ _ _ _ _ _ _ _ _ _ Hst) as (j & _ & E1 & E2 & E3 & E4 & E5).
  change (pd_mv L) with mv in E5. cbv zeta in E5. cbn [fst snd] in E5. rewrite <- Ex, <- ?Et in E5.
  fold x x' s t in E5. rewrite !vnorm_R, !vsub_R in E5. fold dL in E5.
  destruct E5 as [[A B] | (A & B & C)].
  - left. split; [|rewrite B; reflexivity]. change (nleb RN) with Rleb in A. apply Rleb_iff in A. unfold nlit in A. rn.
    replace (/ 10 ^ 10) with (1 / 10000000000) by lra. exact A.
  - right. assert (P : s * t * dot dL dL + 2 * s * (f x' - f x - dot (gradf x) d) <= / 2 * dot dL dL).
    { rewrite <- B in C. rewrite vdot_R in C. change (nleb RN) with Rleb in C. apply Rleb_iff in C. unfold nsq, nlit in C. rn.
      rewrite norm2_sq in C. fold d in C. clear - C. lra. }
    split; [exact P|]. eapply Rle_trans; [exact P|].
    rewrite <- !norm2_sq. pose proof (norm2_nonneg dL) as N1. pose proof (norm2_nonneg d) as N2. pose proof (HM x' x) as B2. fold dL d in B2.
    assert (norm2 dL * norm2 dL <= (M * norm2 d) * (M * norm2 d)) by (apply Rmult_le_compat; assumption). lra.
Qed.

(** ** step-size updates of minimize_three_split with h_Lipschitz *)
Lemma main_C81_update_partial : forall (f : vec RN -> RN) (gradf : vec RN -> vec RN) (x0 : vec RN) p1 p2 (tol : RN) max_iter cb ls st max_bt
  (factor h : RN) (r : ts_result RN),
  0 < factor <= 1 ->
  minimize_three_split (fun x => (f x, gradf x)) x0 p1 p2 tol max_iter cb ls st max_bt factor (Some h) = Ok r ->
  forall i, In i (tr_iters r) -> 0 < ti_in i ->
  let d := vminus (ti_x i) (ti_z i) in
  (ti_ls i = false -> ti_out i = ti_in i) /\
  (ti_ls i = true -> ti_out i <= 102 / 100 * ti_step i) /\
  (ti_ls i = true -> h = 0 -> ti_out i = 102 / 100 * ti_step i) /\
  (ti_ls i = true ->
     f (ti_x i) <= f (ti_z i) + dot (gradf (ti_z i)) d + dot d d / (2 * ti_prox i) ->
     ti_step i <= ti_out i).
Proof.
  intros f gradf x0 p1 p2 tol max_iter cb ls st max_bt factor h r Hf H i Hi Hin d.
  destruct (in_split _ _ Hi) as (newer & older & Ei).
  destruct (ts_solver_good _ _ _ _ _ _ _ _ _ _ _ _ _ H) as [Hb [_ Hch _ _]]. cbv zeta in Hch.
  destruct (ts_chain_split _ _ _ _ _ _ _ _ _ _ _ _ _ _ Ei Hch) as [Hbd _].
  destruct (ts_prev _ _ _ older) as [[zp up] sp].
  match type of Hbd with i = ts_body _ ?a ?b ?c _ _ _ _ => pose proof (ts_body_spec (fun x => (f x, gradf x)) a b c max_bt factor (Some h) zp up sp Hb) as B end.
  cbv zeta in B. rewrite <- Hbd in B.
  destruct B as (Bz & Bu & Bs & Bl & Bx & Bzn & Bun & Bc & Bf & Bt).
  split; [intros E; rewrite Bs; apply Bf, E|].
  destruct (ti_ls i); [|split; [discriminate|]; split; discriminate].
  destruct (Bt eq_refl) as (j & A1 & A2 & A3 & A4 & A5). clear Bt Bf. cbn [fst snd] in A5. rewrite <- Bz in *.
  rewrite vdot_R, vnorm_R, vsub_R in A5. fold d in A5. rewrite <- Bs in A2.
  assert (B : 0 < ti_prox i <= ti_in i) by (rewrite A2; exact (iter_factor factor (ti_in i) j Hf Hin)).
  assert (Hpos : 0 < ti_step i).
  { destruct (ti_found i); [destruct A4 as [_ ->]; lra|]. destruct A4 as (_ & _ & ->).
    apply (mul_le1 (ti_prox i) factor); [lra|exact Hf]. }
  unfold ts_update in A5. unfold nsq in A5. set (e := nsub RN _ _) in A5.
  change (neqb RN h n0) with (Reqb h 0) in A5. destruct (Reqb_spec h 0) as [Eh|Eh].
  - unfold nlit in A5. rn. split; [intros _; rewrite A5; lra|]. split; [intros _ _; rewrite A5; lra|]. intros _ _. rewrite A5. lra.
  - unfold nminpy in A5. change (nltb RN) with Rltb in A5. unfold nlit in A5. rn.
    match type of A5 with _ = (if Rltb ?a ?b then _ else _) => set (v := a) in A5; set (u := b) in A5 end. clear A3 A4.
    assert (Hv : v = 102 / 100 * ti_step i) by (unfold v; field).
    split; [|split; [intros _ E; contradiction|]].
    + intros _. rewrite A5. destruct (Rltb_spec v u); lra.
    + intros _ He. rewrite A5.
      assert (Hu : ti_step i <= sqrt (ti_step i * ti_step i + 2 * ti_step i / (h * h) * - e)).
      { apply Rsqr_incr_0_var; [|apply sqrt_pos]. rewrite Rsqr_sqrt.
        2:{ apply Rplus_le_le_0_compat; [apply Rle_0_sqr|]. apply Rmult_le_pos.
            - left. apply Rdiv_lt_0_compat; [lra|]. apply Rsqr_pos_lt in Eh. exact Eh.
            - unfold e. rn. rewrite norm2_sq. lra. }
        unfold Rsqr. assert (0 <= 2 * ti_step i / (h * h) * - e); [|lra].
        apply Rmult_le_pos.
        - left. apply Rdiv_lt_0_compat; [lra|]. apply Rsqr_pos_lt in Eh. exact Eh.
        - unfold e. rn. rewrite norm2_sq. lra. }
      destruct (Rltb_spec v u); [rewrite Hv; lra|exact Hu].
Qed.
