(** * minimize_sfw, variants SAG, SAGA and MHK, any batch size: mean rates over all sequences of batches *)
From Coq Require Import Reals Lra Lia List Bool ZArith Permutation.
From Verif Require Import Num Vec Spec SpecSparse RVec ConvexFacts ModelConstraint ModelPenalty PenaltyFacts PenaltyFacts2 ModelUtilsArr UtilsMain
  ModelFrankWolfe FrankWolfeConv FrankWolfeMain ModelRandomized SpecFiniteSum RandomizedFacts RandomizedProx RandomizedSaga ModelSfw SpecSfw SpecSfwMean SfwFacts SfwStep SfwMain SfwMain2 SfwMain3 SfwRate SfwRate2 SfwMean SfwMean2.
Import ListNotations.
Local Open Scope R_scope.

Lemma init_goodV (P : problem RN) V (dom : list R -> Prop) (x0 : list R) s0 : problem_wf P -> length x0 = p_d P -> dom x0 -> sfw_init (K:=RN) P V x0 None = Ok s0 ->
  goodV P V dom s0 /\ sw_t s0 = 0%nat /\ sw_x s0 = x0 /\ sw_dual s0 = zeros (p_n P).
Proof.
  intros W L0 Hx Es. destruct (init_facts P V x0 None s0 W L0 Es) as (Ex & Hd & Ha & Hact & Ht & Ws & _).
  split; [|auto]. split.
  - split; [exact Ws|]. split; [exact Hact|]. rewrite Ex. exact Hx.
  - intros j Hj. rewrite Ha, Hd, nth_zeros. unfold dual_sum. symmetry. apply Rsum_zero. intros i _. rewrite nth_zeros. ring.
Qed.

Lemma bal_oks n bs Bt c : balanced n bs c Bt -> forall w, Forall (fun b => In b Bt) w -> Forall (batch_ok n bs) w.
Proof.
  intros (F & _) w Fw. rewrite Forall_forall in F. eapply Forall_impl; [|exact Fw]. intros b Hi. destruct (F b Hi) as (F1 & N1 & L1).
  split; [exact F1|]. split; [exact N1|lia].
Qed.
Lemma curv_nonneg (P : problem RN) (f : R -> R -> R) (dom : list R -> Prop) (C : R) (y : list R) : curvature (p_d P) dom (mean_loss P f) (grad_list P) C ->
  length y = p_d P -> dom y -> 0 <= C.
Proof.
  intros HC Ly Hy. specialize (HC y y 1 Ly Ly Hy Hy ltac:(lra)).
  assert (E1 : lin (1 - 1) y 1 y = y). { apply list_ext with (d := 0); [leng|]. intros i Hi. rewrite nth_lin by reflexivity. lra. }
  assert (E2 : vminus y y = zeros (p_d P)). { apply list_ext with (d := 0); [leng|]. intros i Hi. rewrite nth_vminus by reflexivity. rewrite nth_zeros. lra. }
  rewrite E1, E2, dot_zeros_r in HC. lra.
Qed.

Section Core.
Variable pow23 : R -> R.
Variable P : problem RN.
Variable f : R -> R -> R.
Variable V : sfw_variant.
Variable lmo : lmo_fun RN.
Variable lipschitz : option RN.
Variables bs max_iter c : nat.
Variable tol : R.
Variable x0 y : list R.
Variable Bt : list (list nat).
Variable dom : list R -> Prop.
Variables C Dinf D1 L : R.
Hypothesis W : problem_wf P.
Hypothesis HV : V = SAG \/ V = SAGA \/ V = MHK.
Hypothesis Hb : (1 <= bs <= p_n P)%nat.
Hypothesis Hc : convex_set (p_d P) dom.
Hypothesis Hl : lmo_exact (p_d P) dom lmo.
Hypothesis Hconv : convex_loss P f.
Hypothesis HC : curvature (p_d P) dom (mean_loss P f) (grad_list P) C.
Hypothesis HDinf : forall u v i, length u = p_d P -> length v = p_d P -> dom u -> dom v -> (i < p_n P)%nat -> Rabs (adot P i u - adot P i v) <= Dinf.
Hypothesis HD1 : forall u v, length u = p_d P -> length v = p_d P -> dom u -> dom v ->
  Rsum (map (fun i => Rabs (adot P i u - adot P i v)) (seq 0 (p_n P))) <= D1.
Hypothesis HL : forall p q b, Rabs (p_fd P p b - p_fd P q b) <= L * Rabs (p - q).
Hypothesis HL0 : 0 <= L.
Hypothesis HBt : balanced (p_n P) bs c Bt.
Hypothesis HN : (1 <= length Bt)%nat.
Hypothesis L0 : length x0 = p_d P.
Hypothesis Hx : dom x0.
Hypothesis Ly : length y = p_d P.
Hypothesis Hy : dom y.
Hypothesis Hm : (1 <= max_iter)%nat.
Hypothesis Ht : tol <= 0.
Hypothesis Hrho : forall t, 0 <= rhoV V pow23 t <= 1.
Local Notation n := (p_n P).
Variables eb hb : nat -> R.
Hypothesis He0 : / INR n * Rsum (map (fun i => Rabs (loss_deriv P x0 i)) (seq 0 n)) <= eb 0%nat.
Hypothesis Hes : forall t, (1 - rhoV V pow23 t * theta P bs) * eb t + gamV V t * (L * D1 / INR n) <= eb (S t).
Hypothesis Hh0 : mean_loss P f x0 - mean_loss P f y <= hb 0%nat.
Hypothesis Hhs : forall t, (1 - gamV V t) * hb t + gamV V t * (Dinf * (kappa V bs * eb t)) + gamV V t * gamV V t / 2 * C <= hb (S t).
Lemma mean_core : let nb := (n / bs)%nat in
  exists res : list (list nat) -> sfw_result RN,
    (forall w, In w (seqs Bt (nb * max_iter)) ->
       minimize_sfw (K:=RN) pow23 P lmo V SSublinear lipschitz bs tol Vanilla max_iter (batch_draws nb w) x0 = Ok (res w)) /\
    / INR (length Bt ^ (nb * max_iter)) * Rsum (map (fun w => mean_loss P f (sr_x (res w)) - mean_loss P f y) (seqs Bt (nb * max_iter)))
    <= hb (nb * max_iter)%nat.
Proof.
  intros nb. assert (Hn : (1 <= n)%nat) by lia.
  assert (Hi : exists s0, sfw_init (K:=RN) P V x0 None = Ok s0) by (destruct HV as [-> | [-> | ->]]; eexists; reflexivity). destruct Hi as (s0 & Es).
  destruct (init_goodV P V dom x0 s0 W L0 Hx Es) as (G0 & T0 & Ex & Ed).
  assert (Hnb : (nb * bs <= n)%nat) by (unfold nb; rewrite Nat.mul_comm; apply Nat.mul_div_le; lia).
  set (T := (nb * max_iter)%nat).
  assert (Hrun : forall w, In w (seqs Bt T) -> exists r,
    minimize_sfw (K:=RN) pow23 P lmo V SSublinear lipschitz bs tol Vanilla max_iter (batch_draws nb w) x0 = Ok r /\ sr_x r = sw_x (stV pow23 P V lmo lipschitz bs s0 w)).
  { intros w Hw. apply seqs_in in Hw as (Lw & F).
    destruct (epochsV pow23 P V lmo lipschitz bs dom W Hn HV Hb Hc Hl tol Ht nb w Hnb (bal_oks (p_n P) bs Bt c HBt w F) max_iter 0 s0 [] Hm) as (r & Er & Hr & _).
    - rewrite Lw. unfold T. lia.
    - exact G0.
    - exists r. split.
      + unfold minimize_sfw. cbn [bind]. change (@length (carrier RN) x0) with (length x0). rewrite L0, Nat.eqb_refl. cbn [negb].
        destruct HV as [EV | [EV | EV]]; rewrite EV in *; exact (bind_use _ _ _ _ Es Er).
      + rewrite Hr. cbn [Nat.mul skipn]. rewrite firstn_all2 by (rewrite Lw; unfold T; lia). reflexivity. }
  set (dflt := mkSfwR (K:=RN) [] false 0 [] s0).
  exists (fun w => match minimize_sfw (K:=RN) pow23 P lmo V SSublinear lipschitz bs tol Vanilla max_iter (batch_draws nb w) x0 with Ok r => r | Err _ => dflt end).
  split. { intros w Hw. destruct (Hrun w Hw) as (r & -> & _). reflexivity. }
  assert (Hq : 0 < INR (length Bt ^ T)) by (apply lt_0_INR; pose proof (Nat.pow_nonzero (length Bt) T); lia).
  apply Rmult_le_reg_l with (INR (length Bt ^ T)); [exact Hq|]. rewrite <- Rmult_assoc, Rinv_r, Rmult_1_l by lra.
  eapply Rle_trans; [apply Req_le|apply (mean_hV pow23 P f V lmo lipschitz bs dom C Dinf D1 L) with (c := c) (y := y) (s0 := s0) (eb := eb); try assumption].
  - f_equal. apply map_ext_in. intros w Hw. unfold hV. destruct (Hrun w Hw) as (r & -> & ->). reflexivity.
  - unfold EV, stV. cbn [fold_left]. rewrite Ed, Ex. eapply Rle_trans; [apply Req_le|exact He0]. unfold errV. rewrite <- Rsum_map_mult. f_equal. apply map_ext. intros i.
    unfold gap_i. rewrite nth_zeros. assert (Hp : 0 < INR n) by (apply lt_0_INR; lia).
    replace (dscale P V * 0 - / INR n * loss_deriv P x0 i) with (- (/ INR n * loss_deriv P x0 i)) by ring.
    rewrite Rabs_Ropp, Rabs_mult, (Rabs_pos_eq (/ INR n)) by (left; apply Rinv_0_lt_compat; exact Hp). reflexivity.
  - unfold hV, stV. cbn [fold_left]. rewrite Ex. exact Hh0.
Qed.
End Core.

Lemma theta_T (P : problem RN) bs : (1 <= bs <= p_n P)%nat -> let T := INR (p_n P) / INR bs in 1 <= T /\ theta P bs = / T /\ 0 < INR bs /\ 0 < INR (p_n P).
Proof.
  intros Hb T. assert (0 < INR bs) by (apply lt_0_INR; lia). assert (0 < INR (p_n P)) by (apply lt_0_INR; lia). assert (INR bs <= INR (p_n P)) by (apply le_INR; lia).
  split; [|split; [|split; assumption]].
  - unfold T. apply Rmult_le_reg_r with (INR bs); [lra|]. unfold Rdiv. rewrite Rmult_assoc, Rinv_l by lra. lra.
  - unfold theta, T. field. lra.
Qed.

(** ** SAG and SAGA *)
Lemma main_C108_mean_rate : forall (pow23 : R -> R) (P : problem RN) (f : R -> R -> R) (V : sfw_variant) (kap : R) lmo lipschitz bs c batches tol max_iter x0 (dom : list R -> Prop) (C Dinf D1 L B : R) (y : list R),
  V = SAG /\ kap = 1 \/ V = SAGA /\ kap = 1 + INR bs ->
  problem_wf P -> (1 <= bs <= p_n P)%nat -> balanced (p_n P) bs c batches -> batches <> [] ->
  convex_set (p_d P) dom -> lmo_exact (p_d P) dom lmo -> convex_loss P f ->
  curvature (p_d P) dom (mean_loss P f) (grad_list P) C ->
  (forall u v i, length u = p_d P -> length v = p_d P -> dom u -> dom v -> (i < p_n P)%nat -> Rabs (adot P i u - adot P i v) <= Dinf) ->
  (forall u v, length u = p_d P -> length v = p_d P -> dom u -> dom v ->
     Rsum (map (fun i => Rabs (adot P i u - adot P i v)) (seq 0 (p_n P))) <= D1) ->
  0 <= L -> (forall p q b, Rabs (p_fd P p b - p_fd P q b) <= L * Rabs (p - q)) ->
  2 * Rsum (map (fun i => Rabs (loss_deriv P x0 i)) (seq 0 (p_n P))) <= INR bs * B -> 4 * INR (p_n P) * L * D1 <= INR bs * INR bs * B ->
  length x0 = p_d P -> dom x0 -> length y = p_d P -> dom y -> (1 <= max_iter)%nat -> tol <= 0 ->
  let nb := (p_n P / bs)%nat in
  exists res : list (list nat) -> sfw_result RN,
    (forall w, In w (seqs batches (nb * max_iter)) ->
       minimize_sfw (K:=RN) pow23 P lmo V SSublinear lipschitz bs tol Vanilla max_iter (batch_draws nb w) x0 = Ok (res w)) /\
    / INR (length batches ^ (nb * max_iter)) *
      Rsum (map (fun w => mean_loss P f (sr_x (res w)) - mean_loss P f y) (seqs batches (nb * max_iter)))
    <= 2 * (C + kap * Dinf * B) / (INR (nb * max_iter) + 2).
Proof.
  intros pow23 P f V kap lmo lipschitz bs c Bt tol max_iter x0 dom C Dinf D1 L B y HV W Hb HBt HN Hc Hl Hconv HC HDinf HD1 HL0 HL HB1 HB2 L0 Hx Ly Hy Hm Ht nb.
  destruct (theta_T P bs Hb) as (HT & Eth & Hbp & Hnp). remember (INR (p_n P) / INR bs) as T eqn:ET.
  assert (HN' : (1 <= length Bt)%nat) by (destruct Bt; [congruence|cbn; lia]).
  assert (HB : 0 <= B).
  { assert (0 <= INR bs * B); [|nra]. eapply Rle_trans; [|exact HB1]. apply Rmult_le_pos; [lra|].
    generalize (seq 0 (p_n P)). intros l. induction l as [|a l IH]; cbn [map Rsum]; [lra|]. apply Rplus_le_le_0_compat; [apply Rabs_pos|exact IH]. }
  assert (HD : 0 <= Dinf). { specialize (HDinf y y 0%nat Ly Ly Hy Hy ltac:(lia)). rewrite Rminus_eq_0, Rabs_R0 in HDinf. exact HDinf. }
  assert (HC0 : 0 <= C) by (apply (curv_nonneg P f dom C y); assumption).
  assert (Ek : kap = kappa V bs) by (destruct HV as [(-> & ->)|(-> & ->)]; reflexivity).
  assert (Hk : 0 <= kap) by (destruct HV as [(_ & ->)|(_ & ->)]; lra).
  assert (Eg : forall t, gamV V t = 2 / (INR t + 2)) by (intros t; destruct HV as [(-> & _)|(-> & _)]; reflexivity).
  assert (Er : forall t, rhoV V pow23 t = 1) by (intros t; destruct HV as [(-> & _)|(-> & _)]; reflexivity).
  set (M := C + kap * Dinf * B). assert (HM : 0 <= M) by (unfold M; pose proof (Rmult_le_pos _ _ (Rmult_le_pos _ _ Hk HD) HB); lra).
  set (hb := fun k => match k with O => mean_loss P f x0 - mean_loss P f y | S _ => 2 * M / (INR k + 2) end).
  destruct (mean_core pow23 P f V lmo lipschitz bs max_iter c tol x0 y Bt dom C Dinf D1 L W ltac:(destruct HV as [(-> & _)|(-> & _)]; auto) Hb Hc Hl Hconv HC HDinf HD1 HL HL0 HBt HN' L0 Hx Ly Hy Hm Ht
    ltac:(intros t; rewrite Er; lra) (fun k => B / (INR k + 2 * T)) hb) as (res & H1 & H2).
  - cbn [INR]. apply Rmult_le_reg_r with (2 * T); [lra|]. replace (B / (0 + 2 * T) * (2 * T)) with B by (field; lra).
    apply Rmult_le_reg_l with (INR bs); [lra|]. eapply Rle_trans; [apply Req_le|exact HB1]. rewrite ET. field. lra.
  - intros t. rewrite Er, Eg, Eth, Rmult_1_l, S_INR. pose proof (pos_INR t) as Ht0.
    pose proof (rate_E_arith B (INR t) T Ht0 HT HB) as Ha.
    assert (Ha2 : L * D1 / INR (p_n P) <= B / (4 * (T * T))).
    { apply Rmult_le_reg_r with (4 * (T * T) * (INR bs * INR bs)); [repeat apply Rmult_lt_0_compat; lra|].
      replace (B / (4 * (T * T)) * (4 * (T * T) * (INR bs * INR bs))) with (INR bs * INR bs * B) by (field; lra).
      eapply Rle_trans; [apply Req_le|exact HB2]. rewrite ET. field. lra. }
    assert (Hg : 0 < 2 / (INR t + 2)) by (apply Rdiv_lt_0_compat; lra).
    apply (Rmult_le_compat_l (2 / (INR t + 2))) in Ha2; [|lra].
    apply (Rmult_le_compat_l (/ T)) in Ha; [|left; apply Rinv_0_lt_compat; lra].
    replace (/ T * (T * (B / (INR t + 1 + 2 * T)))) with (B / (INR t + 1 + 2 * T)) in Ha by (field; lra).
    eapply Rle_trans; [|exact Ha]. 
    replace (/ T * ((T - 1) * (B / (INR t + 2 * T)) + 2 / (INR t + 2) * (B / (4 * T)))) with ((1 - / T) * (B / (INR t + 2 * T)) + 2 / (INR t + 2) * (B / (4 * (T * T)))) by (field; lra).
    lra.
  - unfold hb. lra.
  - intros t. rewrite Eg, <- Ek. pose proof (pos_INR t) as Ht0.
    assert (Hbb : B / (INR t + 2 * T) <= B / (INR t + 2)) by (apply Rmult_le_compat_l; [exact HB|apply Rinv_le_contravar; lra]).
    assert (Hg : 0 < 2 / (INR t + 2)) by (apply Rdiv_lt_0_compat; lra).
    assert (Hh : 2 / (INR t + 2) * (Dinf * (kap * (B / (INR t + 2 * T)))) <= 2 / (INR t + 2) * (kap * Dinf * B / (INR t + 2))).
    { apply Rmult_le_compat_l; [lra|]. replace (kap * Dinf * B / (INR t + 2)) with (Dinf * (kap * (B / (INR t + 2)))) by (unfold Rdiv; ring).
      apply Rmult_le_compat_l; [exact HD|]. apply Rmult_le_compat_l; [exact Hk|exact Hbb]. }
    assert (Hz : (1 - 2 / (INR t + 2)) * hb t = (1 - 2 / (INR t + 2)) * (2 * M / (INR t + 2))).
    { destruct t as [|t]; [|reflexivity]. cbn [INR]. replace (1 - 2 / (0 + 2)) with 0 by field. lra. }
    rewrite Hz. eapply Rle_trans; [apply Rplus_le_compat_r, Rplus_le_compat_l, Hh|]. cbn [hb]. rewrite S_INR. set (s := INR t) in *.
    replace ((1 - 2 / (s + 2)) * (2 * M / (s + 2)) + 2 / (s + 2) * (kap * Dinf * B / (s + 2)) + 2 / (s + 2) * (2 / (s + 2)) / 2 * C)
      with (2 * M * ((s + 1) / ((s + 2) * (s + 2)))) by (unfold M; field; lra).
    replace (2 * M / (s + 1 + 2)) with (2 * M * / (s + 3)) by (unfold Rdiv; do 2 f_equal; lra).
    apply Rmult_le_compat_l; [lra|]. apply Rmult_le_reg_r with ((s + 2) * (s + 2) * (s + 3)); [repeat apply Rmult_lt_0_compat; lra|].
    replace ((s + 1) / ((s + 2) * (s + 2)) * ((s + 2) * (s + 2) * (s + 3))) with ((s + 1) * (s + 3)) by (field; lra).
    replace (/ (s + 3) * ((s + 2) * (s + 2) * (s + 3))) with ((s + 2) * (s + 2)) by (field; lra). nra.
  - exists res. split; [exact H1|]. eapply Rle_trans; [exact H2|]. unfold hb, nb.
    assert (1 <= p_n P / bs)%nat by (apply Nat.div_le_lower_bound; lia).
    destruct (p_n P / bs * max_iter)%nat eqn:Eq; [nia|]. apply Rle_refl.
Qed.

(** ** MHK *)
Definition cr (x : R) : R := Rpower x (1 / 3).
Lemma cr_pos x : 0 < cr x.
Proof. apply exp_pos. Qed.
Lemma cr_cube x : 0 < x -> cr x * cr x * cr x = x.
Proof. intros Hx. unfold cr. rewrite <- !Rpower_plus. replace (1 / 3 + 1 / 3 + 1 / 3) with 1 by field. apply Rpower_1, Hx. Qed.
Lemma cr_sq x : Rpower x (2 / 3) = cr x * cr x.
Proof. unfold cr. rewrite <- Rpower_plus. f_equal. field. Qed.
Lemma cube_le a b : 0 <= b -> a * a * a <= b * b * b -> 0 <= a -> a <= b.
Proof. intros Hb H Ha. destruct (Rle_lt_dec a b) as [|Hlt]; [assumption|]. exfalso. assert (b * b * b < a * a * a); [|lra]. 
  assert (b * b <= a * b) by nra. assert (a * b <= a * a) by nra. assert (b * b * b <= a * a * b) by nra. assert (a * a * b < a * a * a); [|lra]. apply Rmult_lt_compat_l; nra. Qed.
(** cube roots of 2/m and 2/(m+1) *)
Lemma cr_step m : 0 < m -> let u := cr (2 / m) in let v := cr (2 / (m + 1)) in u - v <= u * u * u * u / 6.
Proof.
  intros Hm u v. assert (Hu : u * u * u = 2 / m) by (apply cr_cube, Rdiv_lt_0_compat; lra).
  assert (Hv : v * v * v = 2 / (m + 1)) by (apply cr_cube, Rdiv_lt_0_compat; lra).
  assert (Pu : 0 < u) by apply cr_pos. assert (Pv : 0 < v) by apply cr_pos.
  assert (Hvu : v <= u).
  { apply cube_le; try lra. rewrite Hu, Hv. apply Rmult_le_compat_l; [lra|]. apply Rinv_le_contravar; lra. }
  assert (Hd : u * u * u - v * v * v = (u * u * u) * (v * v * v) / 2) by (rewrite Hu, Hv; field; lra).
  assert (H3 : (u - v) * (3 * (v * v)) <= (u * u * u) * (v * v * v) / 2).
  { rewrite <- Hd. replace (u * u * u - v * v * v) with ((u - v) * (u * u + u * v + v * v)) by ring. apply Rmult_le_compat_l; nra. }
  assert (H4 : u - v <= u * u * u * v / 6).
  { apply Rmult_le_reg_r with (3 * (v * v)); [nra|]. lra. }
  assert (u * u * u * v <= u * u * u * u); [|lra]. apply Rmult_le_compat_l; [|exact Hvu]. apply Rmult_le_pos; [|lra]. nra.
Qed.
Lemma main_C109_mean_rate : forall (pow23 : R -> R) (P : problem RN) (f : R -> R -> R) lmo lipschitz bs c batches tol max_iter x0 (dom : list R -> Prop) (C Dinf D1 L B M : R) (y : list R),
  (forall x, 0 < x -> pow23 x = Rpower x (2 / 3)) ->
  problem_wf P -> (1 <= bs <= p_n P)%nat -> balanced (p_n P) bs c batches -> batches <> [] ->
  convex_set (p_d P) dom -> lmo_exact (p_d P) dom lmo -> convex_loss P f ->
  curvature (p_d P) dom (mean_loss P f) (grad_list P) C ->
  (forall u v i, length u = p_d P -> length v = p_d P -> dom u -> dom v -> (i < p_n P)%nat -> Rabs (adot P i u - adot P i v) <= Dinf) ->
  (forall u v, length u = p_d P -> length v = p_d P -> dom u -> dom v ->
     Rsum (map (fun i => Rabs (adot P i u - adot P i v)) (seq 0 (p_n P))) <= D1) ->
  0 <= L -> (forall p q b, Rabs (p_fd P p b - p_fd P q b) <= L * Rabs (p - q)) ->
  2 * Rsum (map (fun i => Rabs (loss_deriv P x0 i)) (seq 0 (p_n P))) <= INR bs * B -> 2 * INR (p_n P) * L * D1 <= INR bs * INR bs * B ->
  2 * (mean_loss P f x0 - mean_loss P f y) <= M -> 2 * (C + Dinf * B) <= M ->
  length x0 = p_d P -> dom x0 -> length y = p_d P -> dom y -> (1 <= max_iter)%nat -> tol <= 0 ->
  let nb := (p_n P / bs)%nat in
  exists res : list (list nat) -> sfw_result RN,
    (forall w, In w (seqs batches (nb * max_iter)) ->
       minimize_sfw (K:=RN) pow23 P lmo MHK SSublinear lipschitz bs tol Vanilla max_iter (batch_draws nb w) x0 = Ok (res w)) /\
    / INR (length batches ^ (nb * max_iter)) *
      Rsum (map (fun w => mean_loss P f (sr_x (res w)) - mean_loss P f y) (seqs batches (nb * max_iter)))
    <= M * Rpower (2 / (INR (nb * max_iter) + 8)) (1 / 3).
Proof.
  intros pow23 P f lmo lipschitz bs c Bt tol max_iter x0 dom C Dinf D1 L B M y Hpow W Hb HBt HN Hc Hl Hconv HC HDinf HD1 HL0 HL HB1 HB2 HM1 HM2 L0 Hx Ly Hy Hm Ht nb.
  destruct (theta_T P bs Hb) as (HT & Eth & Hbp & Hnp). remember (INR (p_n P) / INR bs) as T eqn:ET.
  assert (HN' : (1 <= length Bt)%nat) by (destruct Bt; [congruence|cbn; lia]).
  assert (HB : 0 <= B).
  { assert (0 <= INR bs * B); [|nra]. eapply Rle_trans; [|exact HB1]. apply Rmult_le_pos; [lra|].
    generalize (seq 0 (p_n P)). intros l. induction l as [|a l IH]; cbn [map Rsum]; [lra|]. apply Rplus_le_le_0_compat; [apply Rabs_pos|exact IH]. }
  assert (HD : 0 <= Dinf). { specialize (HDinf y y 0%nat Ly Ly Hy Hy ltac:(lia)). rewrite Rminus_eq_0, Rabs_R0 in HDinf. exact HDinf. }
  assert (HC0 : 0 <= C) by (apply (curv_nonneg P f dom C y); assumption).
  assert (HM : 0 <= M) by (pose proof (Rmult_le_pos _ _ HD HB); lra).
  set (q := fun k : nat => cr (2 / (INR k + 8))). set (p := fun k : nat => cr (2 / (INR k + 8 * (T * T * T)))).
  assert (HT3 : 1 <= T * T * T) by (assert (1 <= T * T) by nra; nra).
  assert (Pq : forall k, 0 < q k) by (intros; apply cr_pos). assert (Pp : forall k, 0 < p k) by (intros; apply cr_pos).
  assert (Cq : forall k, q k * q k * q k = 2 / (INR k + 8)) by (intros k; pose proof (pos_INR k); apply cr_cube, Rdiv_lt_0_compat; lra).
  assert (Cp : forall k, p k * p k * p k = 2 / (INR k + 8 * (T * T * T))) by (intros k; pose proof (pos_INR k); apply cr_cube, Rdiv_lt_0_compat; lra).
  assert (Er : forall t, rhoV MHK pow23 t = q t * q t).
  { intros t. unfold rhoV. pose proof (pos_INR t). rewrite Hpow by (apply Rdiv_lt_0_compat; lra). apply cr_sq. }
  assert (Eg : forall t, gamV MHK t = q t * q t * q t) by (intros t; rewrite Cq; reflexivity).
  assert (Q1 : forall k, q k <= 1).
  { intros k. apply cube_le; [lra| |left; apply Pq]. rewrite Cq. pose proof (pos_INR k). apply Rmult_le_reg_r with (INR k + 8); [lra|]. unfold Rdiv. rewrite Rmult_assoc, Rinv_l by lra. lra. }
  assert (Qp : forall k, p k <= q k).
  { intros k. apply cube_le; [left; apply Pq| |left; apply Pp]. rewrite Cq, Cp. pose proof (pos_INR k). apply Rmult_le_compat_l; [lra|]. apply Rinv_le_contravar; lra. }
  assert (Qt : forall k, q k <= T * p k).
  { intros k. pose proof (Pp k). apply cube_le; [nra| |left; apply Pq]. replace (T * p k * (T * p k) * (T * p k)) with (T * T * T * (p k * p k * p k)) by ring. rewrite Cq, Cp.
    pose proof (pos_INR k). set (T3 := T * T * T) in *. apply Rmult_le_reg_r with ((INR k + 8) * (INR k + 8 * T3)); [apply Rmult_lt_0_compat; lra|].
    replace (2 / (INR k + 8) * ((INR k + 8) * (INR k + 8 * T3))) with (2 * (INR k + 8 * T3)) by (field; lra).
    replace (T3 * (2 / (INR k + 8 * T3)) * ((INR k + 8) * (INR k + 8 * T3))) with (2 * T3 * (INR k + 8)) by (field; lra). nra. }
  assert (P0 : forall k, T * p k <= 1).
  { intros k. pose proof (Pp k). apply cube_le; [lra| |nra]. replace (T * p k * (T * p k) * (T * p k)) with (T * T * T * (p k * p k * p k)) by ring. rewrite Cp.
    pose proof (pos_INR k). set (T3 := T * T * T) in *. apply Rmult_le_reg_r with (INR k + 8 * T3); [lra|].
    replace (T3 * (2 / (INR k + 8 * T3)) * (INR k + 8 * T3)) with (2 * T3) by (field; lra). lra. }
  assert (Pz : 1 <= 2 * T * p 0%nat).
  { pose proof (Pp 0%nat). apply cube_le; [nra| |lra]. replace (2 * T * p 0%nat * (2 * T * p 0%nat) * (2 * T * p 0%nat)) with (8 * (T * T * T) * (p 0%nat * p 0%nat * p 0%nat)) by ring. rewrite Cp.
    cbn [INR]. set (T3 := T * T * T) in *. replace (8 * T3 * (2 / (0 + 8 * T3))) with 2 by (field; lra). lra. }
  assert (Qz : 1 <= 2 * q 0%nat).
  { pose proof (Pq 0%nat). apply cube_le; [nra| |lra]. replace (2 * q 0%nat * (2 * q 0%nat) * (2 * q 0%nat)) with (8 * (q 0%nat * q 0%nat * q 0%nat)) by ring. rewrite Cq.
    cbn [INR]. lra. }
  destruct (mean_core pow23 P f MHK lmo lipschitz bs max_iter c tol x0 y Bt dom C Dinf D1 L W ltac:(auto) Hb Hc Hl Hconv HC HDinf HD1 HL HL0 HBt HN' L0 Hx Ly Hy Hm Ht
    ltac:(intros t; rewrite Er; pose proof (Pq t); pose proof (Q1 t); nra) (fun k => B * p k) (fun k => M * q k)) as (res & H1 & H2).
  - assert (He : / INR (p_n P) * Rsum (map (fun i => Rabs (loss_deriv P x0 i)) (seq 0 (p_n P))) * (2 * T) <= B).
    { apply Rmult_le_reg_l with (INR bs); [lra|]. eapply Rle_trans; [apply Req_le|exact HB1]. rewrite ET. field. lra. }
    apply Rmult_le_reg_r with (2 * T); [lra|]. eapply Rle_trans; [exact He|]. replace (B * p 0%nat * (2 * T)) with (B * (2 * T * p 0%nat)) by ring. nra.
  - intros t. rewrite Er, Eg, Eth. assert (Ha2 : L * D1 / INR (p_n P) <= B / (2 * (T * T))).
    { apply Rmult_le_reg_r with (2 * (T * T) * (INR bs * INR bs)); [repeat apply Rmult_lt_0_compat; lra|].
      replace (B / (2 * (T * T)) * (2 * (T * T) * (INR bs * INR bs))) with (INR bs * INR bs * B) by (field; lra).
      eapply Rle_trans; [apply Req_le|exact HB2]. rewrite ET. field. lra. }
    assert (Hs : p t - p (S t) <= p t * p t * p t * p t / 6).
    { unfold p. rewrite S_INR. pose proof (pos_INR t). replace (INR t + 1 + 8 * (T * T * T)) with ((INR t + 8 * (T * T * T)) + 1) by ring. apply cr_step. lra. }
    pose proof (Pq t) as A1. pose proof (Pp t) as A2. pose proof (Qp t) as A3. pose proof (Qt t) as A4. pose proof (P0 t) as A5.
    set (a := q t) in *. set (u := p t) in *. set (v := p (S t)) in *.
    (* a*a*u/T - u^4/6 >= a^3 / (2 T^2) *)
    assert (Hi1 : u * u * u * u <= a * a * u * / T).
    { assert (u <= / T). { apply Rmult_le_reg_l with T; [lra|]. rewrite Rinv_r by lra. exact A5. }
      assert (u * u <= a * a) by nra. replace (u * u * u * u) with ((u * u) * (u * u)) by ring. replace (a * a * u * / T) with ((a * a) * (u * / T)) by ring.
      apply Rmult_le_compat; nra. }
    assert (Hi2 : a * a * a * / T <= a * a * u).
    { apply Rmult_le_reg_r with T; [lra|]. rewrite Rmult_assoc, Rinv_l, Rmult_1_r by lra. assert (0 <= a * a) by nra. nra. }
    assert (HiT : 0 < / T) by (apply Rinv_0_lt_compat; lra).
    assert (Hi3 : a * a * a * (/ T * / T) <= a * a * u * / T).
    { replace (a * a * a * (/ T * / T)) with (a * a * a * / T * / T) by ring. apply Rmult_le_compat_r; lra. }
    assert (Hi4 : a * a * a * (L * D1 / INR (p_n P)) <= B * (a * a * a * (/ T * / T)) / 2).
    { replace (B * (a * a * a * (/ T * / T)) / 2) with (a * a * a * (B / (2 * (T * T)))) by (field; lra). apply Rmult_le_compat_l; [|exact Ha2]. assert (0 < a * a) by nra. nra. }
    pose proof (Rmult_le_compat_l _ _ _ HB Hi3) as Hi5. pose proof (Rmult_le_compat_l _ _ _ HB Hi1) as Hi6. pose proof (Rmult_le_compat_l _ _ _ HB Hs) as Hi7.
    assert (0 <= B * (a * a * u * / T)). { apply Rmult_le_pos; [exact HB|]. apply Rmult_le_pos; [|lra]. apply Rmult_le_pos; nra. }
    replace ((1 - a * a * / T) * (B * u)) with (B * u - B * (a * a * u * / T)) by ring. lra.
  - assert (mean_loss P f x0 - mean_loss P f y <= M / 2) by lra. nra.
  - intros t. rewrite Eg. cbn [kappa]. rewrite Rmult_1_l.
    assert (Hs : q t - q (S t) <= q t * q t * q t * q t / 6).
    { unfold q. rewrite S_INR. pose proof (pos_INR t). replace (INR t + 1 + 8) with ((INR t + 8) + 1) by ring. apply cr_step. lra. }
    pose proof (Pq t) as A1. pose proof (Qp t) as A3. pose proof (Q1 t) as A4. set (a := q t) in *. set (u := p t) in *. set (v := q (S t)) in *.
    assert (H0 : 0 <= a * a * a) by (assert (0 < a * a) by nra; nra).
    pose proof (Rmult_le_pos _ _ HD HB) as HDB.
    assert (Hi1 : a * a * a * (Dinf * (B * u)) <= a * a * a * (a * (Dinf * B))).
    { apply Rmult_le_compat_l; [exact H0|]. rewrite <- Rmult_assoc, (Rmult_comm a). apply Rmult_le_compat_l; assumption. }
    assert (Hi2 : a * a * a * (a * a * a) / 2 * C <= a * a * a * (a * (C / 2))).
    { replace (a * a * a * (a * a * a) / 2 * C) with (a * a * a * (a * a * a * (C / 2))) by field. apply Rmult_le_compat_l; [exact H0|]. apply Rmult_le_compat_r; [lra|]. nra. }
    pose proof (Rmult_le_compat_l _ _ _ HM Hs) as Hi7.
    assert (Hi8 : a * a * a * a * (2 * (C + Dinf * B)) <= a * a * a * a * M) by (apply Rmult_le_compat_l; [nra|exact HM2]).
    assert (H4 : 0 <= a * a * a * a) by nra.
    pose proof (Rmult_le_pos _ _ H4 HDB). pose proof (Rmult_le_pos _ _ H4 HC0).
    replace ((1 - a * a * a) * (M * a)) with (M * a - a * a * a * a * M) by ring. lra.
  - exists res. split; [exact H1|exact H2].
Qed.
