(** * minimize_sfw, variant SAG: one step in terms of the errors of the dual variables *)
From Coq Require Import Reals Lra Lia List Bool ZArith Permutation.
From Verif Require Import Num Vec Spec SpecSparse RVec ConvexFacts ModelConstraint ModelPenalty PenaltyFacts PenaltyFacts2 ModelUtilsArr UtilsMain
  ModelFrankWolfe FrankWolfeConv FrankWolfeMain ModelRandomized SpecFiniteSum RandomizedFacts RandomizedProx ModelSfw SpecSfw SfwFacts SfwStep SfwMain SfwMain2.
Import ListNotations.
Local Open Scope R_scope.

(** sum over the samples of the error of the dual variables at x *)
Definition dual_err (P : problem RN) (dual x : list R) : R :=
  Rsum (map (fun i => Rabs (nth i dual 0 - / INR (p_n P) * loss_deriv P x i)) (seq 0 (p_n P))).

Lemma Rsum_map_swap {A B} (f : A -> B -> R) la lb :
  Rsum (map (fun a => Rsum (map (f a) lb)) la) = Rsum (map (fun b => Rsum (map (fun a => f a b) la)) lb).
Proof.
  induction la as [|a la IH]; cbn [map Rsum].
  - symmetry. apply Rsum_zero. reflexivity.
  - rewrite IH, <- Rsum_map_plus. reflexivity.
Qed.
Lemma Rsum_map_minus {A} (f g : A -> R) l : Rsum (map (fun a => f a - g a) l) = Rsum (map f l) - Rsum (map g l).
Proof. induction l as [|a l IH]; cbn [map Rsum]; [lra|rewrite IH; lra]. Qed.
Lemma dot_seq (u v : list R) m : length u = m -> length v = m -> dot u v = Rsum (map (fun j => nth j u 0 * nth j v 0) (seq 0 m)).
Proof.
  revert v m. induction u as [|a u IH]; intros [|b v] m Lu Lv; cbn in Lu, Lv; subst m; try discriminate Lv; [reflexivity|].
  cbn [length seq map Rsum dot nth]. f_equal. rewrite <- seq_shift, map_map. injection Lv as Lv. apply (IH v (length u) eq_refl Lv).
Qed.
Lemma adot_dot (P : problem RN) (w : nat -> R) (v : list R) : length v = p_d P ->
  Rsum (map (fun j => Rsum (map (fun i => w i * ent P i j) (seq 0 (p_n P))) * nth j v 0) (seq 0 (p_d P)))
  = Rsum (map (fun i => w i * adot P i v) (seq 0 (p_n P))).
Proof.
  intros Lv. unfold adot. transitivity (Rsum (map (fun j => Rsum (map (fun i => w i * (ent P i j * nth j v 0)) (seq 0 (p_n P)))) (seq 0 (p_d P)))).
  - f_equal. apply map_ext. intros j. rewrite Rmult_comm, <- Rsum_map_mult. f_equal. apply map_ext. intros i. ring.
  - rewrite Rsum_map_swap. f_equal. apply map_ext. intros i. rewrite Rsum_map_mult. reflexivity.
Qed.
Lemma adot_lin (P : problem RN) i a (u : list R) b (v : list R) : length u = length v ->
  adot P i (lin a u b v) = a * adot P i u + b * adot P i v.
Proof.
  intros L. unfold adot. rewrite <- !Rsum_map_mult, <- Rsum_map_plus. f_equal. apply map_ext. intros c. rewrite nth_lin by exact L. ring.
Qed.
Lemma adot_vminus (P : problem RN) i (u v : list R) : length u = length v -> adot P i (vminus u v) = adot P i u - adot P i v.
Proof. intros L. unfold vminus. rewrite adot_lin by exact L. ring. Qed.
Lemma Rabs_le_inv' x y : Rabs x <= y -> - y <= x <= y.
Proof. intros H. pose proof (Rle_abs x). pose proof (Rle_abs (- x)). rewrite Rabs_Ropp in *. lra. Qed.
Lemma Rabs_Rsum {A} (f : A -> R) l : Rabs (Rsum (map f l)) <= Rsum (map (fun a => Rabs (f a)) l).
Proof. induction l as [|a l IH]; cbn [map Rsum]; [rewrite Rabs_R0; lra|]. eapply Rle_trans; [apply Rabs_triang|]. lra. Qed.

Section Rate.
Variable P : problem RN.
Variable f : R -> R -> R.
Hypothesis W : problem_wf P.
Hypothesis Hn : (1 <= p_n P)%nat.
Local Notation n := (p_n P).
Local Notation d := (p_d P).
Lemma grad_list_len x : length (grad_list P x) = d.
Proof. unfold grad_list. rewrite map_length, seq_length. reflexivity. Qed.
Lemma grad_list_nth x j : (j < d)%nat -> nth j (grad_list P x) 0 = grad_F P x j.
Proof.
  intros Hj. unfold grad_list. rewrite (nth_indep _ 0 (grad_F P x 0%nat)) by (rewrite map_length, seq_length; exact Hj).
  rewrite (map_nth (grad_F P x)), seq_nth by exact Hj. reflexivity.
Qed.
Lemma grad_dot x v : length v = d -> dot (grad_list P x) v = / INR n * Rsum (map (fun i => loss_deriv P x i * adot P i v) (seq 0 n)).
Proof.
  intros Lv. rewrite (dot_seq _ _ d (grad_list_len x) Lv), <- (adot_dot P (loss_deriv P x) v Lv), <- Rsum_map_mult. f_equal.
  apply map_ext_in. intros j Hj. apply in_seq in Hj. rewrite grad_list_nth by lia. unfold grad_F, mean_row. ring.
Qed.
Lemma agg_dot dual agg v : length agg = d -> length v = d -> (forall j, (j < d)%nat -> nth j agg 0 = dual_sum P dual j) ->
  dot agg v = Rsum (map (fun i => nth i dual 0 * adot P i v) (seq 0 n)).
Proof.
  intros La Lv H. rewrite (dot_seq _ _ d La Lv), <- (adot_dot P (fun i => nth i dual 0) v Lv). f_equal.
  apply map_ext_in. intros j Hj. apply in_seq in Hj. rewrite H by lia. reflexivity.
Qed.
(** the aggregate differs from the gradient by the errors of the dual variables *)
Lemma agg_error dual agg x v Dinf : length agg = d -> length v = d -> (forall j, (j < d)%nat -> nth j agg 0 = dual_sum P dual j) ->
  (forall i, (i < n)%nat -> Rabs (adot P i v) <= Dinf) ->
  Rabs (dot agg v - dot (grad_list P x) v) <= dual_err P dual x * Dinf.
Proof.
  intros La Lv H HD. rewrite (agg_dot dual agg v La Lv H), (grad_dot x v Lv). unfold dual_err.
  replace (Rsum (map (fun i => nth i dual 0 * adot P i v) (seq 0 n)) - / INR n * Rsum (map (fun i => loss_deriv P x i * adot P i v) (seq 0 n)))
    with (Rsum (map (fun i => (nth i dual 0 - / INR n * loss_deriv P x i) * adot P i v) (seq 0 n))).
  2:{ rewrite <- Rsum_map_mult, <- Rsum_map_minus. f_equal. apply map_ext. intros i. ring. }
  eapply Rle_trans; [apply Rabs_Rsum|]. rewrite (Rmult_comm _ Dinf), <- Rsum_map_mult. apply Rsum_le_map. intros i Hi. apply in_seq in Hi.
  rewrite Rabs_mult, Rmult_comm. apply Rmult_le_compat_r; [apply Rabs_pos|]. apply HD. lia.
Qed.

Section OneStep.
Variable pow23 : R -> R.
Variable lmo : lmo_fun RN.
Variable lipschitz : option RN.
Variable bs : nat.
Variable dom : list R -> Prop.
Variables C Dinf D1 L : R.
Hypothesis Hb : (1 <= bs)%nat.
Hypothesis Hc : convex_set d dom.
Hypothesis Hl : lmo_exact d dom lmo.
Hypothesis Hconv : convex_loss P f.
Hypothesis HC : curvature d dom (mean_loss P f) (grad_list P) C.
Hypothesis HDinf : forall u v i, length u = d -> length v = d -> dom u -> dom v -> (i < n)%nat -> Rabs (adot P i u - adot P i v) <= Dinf.
Hypothesis HD1 : forall u v, length u = d -> length v = d -> dom u -> dom v ->
  Rsum (map (fun i => Rabs (adot P i u - adot P i v)) (seq 0 n)) <= D1.
Hypothesis HL : forall p q b, Rabs (p_fd P p b - p_fd P q b) <= L * Rabs (p - q).
Local Notation stepf := (sfw_step (K:=RN) pow23 P lmo SAG SSublinear lipschitz bs).
Definition good (s : sfw_state RN) : Prop :=
  feas P SAG dom s /\ forall j, (j < d)%nat -> nth j (sw_agg s : list R) 0 = dual_sum P (sw_dual s) j.

Lemma convex_at x y : length x = d -> length y = d -> dot (grad_list P x) (vminus y x) <= mean_loss P f y - mean_loss P f x.
Proof.
  intros Lx Ly. rewrite grad_dot by leng. unfold mean_loss. rewrite <- Rmult_minus_distr_l, <- Rsum_map_minus.
  apply Rmult_le_compat_l; [left; apply Rinv_0_lt_compat, lt_0_INR; lia|].
  apply Rsum_le_map. intros i _. rewrite adot_vminus by (rewrite Lx, Ly; reflexivity). unfold loss_deriv.
  pose proof (Hconv (adot P i x) (adot P i y) (nth i (p_b P) 0)). lra.
Qed.
Lemma good_step it batch s r : good s -> batch_ok n bs batch -> stepf it batch s = Ok r ->
  good (si_next r) /\ si_gamma r = 2 / (INR (sw_t s) + 2) /\ sw_t (si_next r) = sw_t s /\
  (forall i, ~ In i batch -> nth i (sw_dual (si_next r) : list R) 0 = nth i (sw_dual s : list R) 0) /\
  (forall i, In i batch -> nth i (sw_dual (si_next r) : list R) 0 = / INR n * loss_deriv P (sw_x s) i) /\
  exists dir : list R, length dir = d /\ dom (vplus (sw_x s) dir) /\ sw_x (si_next r) = lin (1 - si_gamma r) (sw_x s) (si_gamma r) (vplus (sw_x s) dir) /\
    forall y : list R, length y = d -> dom y -> dot (sw_agg (si_next r)) dir <= dot (sw_agg (si_next r)) (vminus y (sw_x s)).
Proof.
  intros (G & Ha) Hbt E. pose proof Hbt as (F & N & _). pose proof (lmo_exact_feasible _ _ _ Hl) as Hf.
  pose proof (sub_gamma pow23 P lmo SAG SSublinear lipschitz bs dom W Hb Hf it batch s r eq_refl ltac:(discriminate) G Hbt E) as Hg0.
  pose proof (feas_step pow23 P lmo SAG SSublinear lipschitz bs dom W Hc Hf it batch s r G Hbt E ltac:(lra)) as G'.
  destruct (step_inv pow23 P lmo SAG SSublinear lipschitz bs W it batch s r (proj1 G) (feas_sized P lmo SAG dom Hf s G) F N E)
    as (_ & _ & _ & _ & (Lxn & Ldn & Lan & _) & Ht & Hout & Hagg & (lf & _ & _ & Hin) & (Lest & Hest) & Ec & Lo & Hg & Hxn & _).
  destruct (G) as ((Lx & Ld & La & _) & _ & Hx).
  assert (He : si_est r = sw_agg (si_next r)).
  { apply list_ext with (d := 0); [exact (eq_trans Lest (eq_sym Lan))|]. intros j Hj. apply Hest. rewrite <- Lest. exact Hj. }
  split.
  { split; [exact G'|]. intros j Hj. etransitivity; [exact (Hagg j Hj)|]. etransitivity; [apply (f_equal2 Rplus (Ha j Hj) eq_refl)|].
    rewrite (Rsum_sub_seq (fun i => (nth i (sw_dual (si_next r)) 0 - nth i (sw_dual s) 0) * ent P i j) n batch N F).
    - unfold dual_sum. rewrite <- Rsum_map_plus. f_equal. apply map_ext. intros i. change (carrier RN) with R. ring.
    - intros i _ Hi. etransitivity; [apply (f_equal2 Rmult (f_equal2 Rminus (Hout i Hi) eq_refl) eq_refl)|]. change (carrier RN) with R. ring. }
  split. { rewrite Hg. unfold gamma_of, sfw_sizes. cbn [fst]. rewrite nofnat_R, plus_INR. rn. cbn [INR]. reflexivity. }
  split; [exact Ht|]. split; [exact Hout|]. split; [exact Hin|].
  exists (lmo_dir (si_lmo r)). split; [exact Lo|].
  destruct (Hl (vopp (K:=RN) (si_est r)) (sw_x s) (sw_active s) (eq_trans (map_length _ _) Lest) Lx Hx) as (o' & E' & _ & (Lm & Hm & Hmax) & _).
  rewrite Ec in E'. injection E' as <-. split; [exact Hm|].
  split. { etransitivity; [exact Hxn|]. apply lin_step. exact (eq_trans Lx (eq_sym Lo)). }
  intros y Ly Hy. specialize (Hmax y (eq_trans (eq_trans Ly (eq_sym Lest)) (eq_sym (map_length _ (si_est r)))) Hy).
  rewrite vopp_R, !dot_smul_l in Hmax. unfold vplus in Hmax. rewrite dot_lin_r in Hmax.
  2:{ exact (eq_trans Lx (eq_sym Lest)). } 2:{ exact (eq_trans Lo (eq_sym Lest)). }
  unfold vminus. rewrite dot_lin_r by (first [exact (eq_trans Ly (eq_sym Lan))|exact (eq_trans Lx (eq_sym Lan))]). rewrite He in Hmax. lra.
Qed.
Lemma value_step_gen it batch s r y : good s -> batch_ok n bs batch -> stepf it batch s = Ok r -> length y = d -> dom y ->
  let g := 2 / (INR (sw_t s) + 2) in
  exists sp : list R, length sp = d /\ dom sp /\ forall Dm, (forall i, (i < n)%nat -> Rabs (adot P i sp - adot P i y) <= Dm) ->
  mean_loss P f (sw_x (si_next r)) - mean_loss P f y <=
    (1 - g) * (mean_loss P f (sw_x s) - mean_loss P f y) + g * (dual_err P (sw_dual (si_next r)) (sw_x s) * Dm) + g * g / 2 * C.
Proof.
  intros G Hbt E Ly Hy g. destruct (good_step it batch s r G Hbt E) as (((Wn & _ & _) & Han) & Hg & _ & _ & _ & dir & Ldir & Hdd & Hxn & Hmin).
  destruct (G) as (((Lx & _) & _ & Hx) & _). specialize (Hmin y Ly Hy).
  assert (Hgr : 0 <= g <= 1).
  { unfold g. pose proof (pos_INR (sw_t s)). split; [apply Rlt_le, Rdiv_lt_0_compat; lra|]. apply Rmult_le_reg_r with (INR (sw_t s) + 2); [lra|].
    unfold Rdiv. rewrite Rmult_assoc, Rinv_l, Rmult_1_r, Rmult_1_l by lra. lra. }
  fold g in Hg. rewrite Hg in Hxn.
  assert (Lpd : length (vplus (sw_x s) dir) = d) by (apply vplus_len; assumption).
  pose proof (HC (sw_x s) (vplus (sw_x s) dir) g Lx Lpd Hx Hdd Hgr) as Hcur. rewrite <- Hxn in Hcur.
  pose proof (convex_at (sw_x s) y Lx Ly) as Hcv.
  set (sp := vplus (sw_x s) dir) in *. exists sp. split; [exact Lpd|]. split; [exact Hdd|]. intros Dm HDm.
  assert (Hd1 : dot (grad_list P (sw_x s)) (vminus sp (sw_x s)) = dot (grad_list P (sw_x s)) (vminus y (sw_x s)) + dot (grad_list P (sw_x s)) (vminus sp y)).
  { unfold vminus. rewrite !dot_lin_r by (rewrite grad_list_len; assumption). ring. }
  destruct Wn as (_ & Ldn & Lan & _).
  assert (Ldir2 : dot (sw_agg (si_next r)) (vminus sp y) <= 0).
  { unfold vminus in *. rewrite dot_lin_r in * by (first [exact (eq_trans Ly (eq_sym Lan))|exact (eq_trans Lx (eq_sym Lan))|exact (eq_trans Lpd (eq_sym Lan))]).
    unfold sp, vplus. rewrite dot_lin_r by (first [exact (eq_trans Lx (eq_sym Lan))|exact (eq_trans Ldir (eq_sym Lan))]). lra. }
  assert (Lsy : length (vminus sp y) = d) by leng.
  pose proof (agg_error (sw_dual (si_next r)) (sw_agg (si_next r)) (sw_x s) (vminus sp y) Dm Lan Lsy Han) as He.
  assert (HDi : forall i, (i < n)%nat -> Rabs (adot P i (vminus sp y)) <= Dm).
  { intros i Hi. rewrite adot_vminus by (rewrite Lpd, Ly; reflexivity). apply HDm; auto. }
  specialize (He HDi). apply Rabs_le_inv' in He.
  set (e := dual_err P (sw_dual (si_next r)) (sw_x s) * Dm) in *.
  assert (H2 : g * dot (grad_list P (sw_x s)) (vminus sp (sw_x s)) <= g * (mean_loss P f y - mean_loss P f (sw_x s) + e)).
  { apply Rmult_le_compat_l; [lra|]. lra. }
  lra.
Qed.
Lemma value_step it batch s r y : good s -> batch_ok n bs batch -> stepf it batch s = Ok r -> length y = d -> dom y ->
  let g := 2 / (INR (sw_t s) + 2) in
  mean_loss P f (sw_x (si_next r)) - mean_loss P f y <=
    (1 - g) * (mean_loss P f (sw_x s) - mean_loss P f y) + g * (dual_err P (sw_dual (si_next r)) (sw_x s) * Dinf) + g * g / 2 * C.
Proof.
  intros G Hbt E Ly Hy g. destruct (value_step_gen it batch s r y G Hbt E Ly Hy) as (sp & Ls & Hs & H). apply H. intros i Hi. apply HDinf; assumption.
Qed.
Lemma value_step0 it batch s r y : good s -> batch_ok n bs batch -> stepf it batch s = Ok r -> length y = d -> dom y ->
  dual_err P (sw_dual (si_next r)) (sw_x s) = 0 ->
  let g := 2 / (INR (sw_t s) + 2) in
  mean_loss P f (sw_x (si_next r)) - mean_loss P f y <= (1 - g) * (mean_loss P f (sw_x s) - mean_loss P f y) + g * g / 2 * C.
Proof.
  intros G Hbt E Ly Hy Hz g. destruct (value_step_gen it batch s r y G Hbt E Ly Hy) as (sp & Ls & Hs & H).
  specialize (H (Rsum (map (fun i => Rabs (adot P i sp - adot P i y)) (seq 0 n)))). rewrite Hz, Rmult_0_l, Rmult_0_r, Rplus_0_r in H. apply H.
  intros i Hi. assert (Hin : In i (seq 0 n)) by (apply in_seq; lia). revert Hin. generalize (seq 0 n). clear.
  induction l as [|a l IH]; intros Hin; [destruct Hin|]. cbn [map Rsum].
  assert (Hp : 0 <= Rsum (map (fun i => Rabs (adot P i sp - adot P i y)) l)).
  { clear. induction l as [|b l IH]; cbn [map Rsum]; [lra|]. pose proof (Rabs_pos (adot P b sp - adot P b y)). lra. }
  destruct Hin as [->|Hin]; [lra|]. specialize (IH Hin). pose proof (Rabs_pos (adot P a sp - adot P a y)). lra.
Qed.
Lemma dual_err_move (dual x x' : list R) : length x = d -> length x' = d ->
  dual_err P dual x' <= dual_err P dual x + / INR n * (L * Rsum (map (fun i => Rabs (adot P i x' - adot P i x)) (seq 0 n))).
Proof.
  intros Lx Lx'. unfold dual_err. rewrite <- !Rsum_map_mult, <- Rsum_map_plus. apply Rsum_le_map. intros i _.
  assert (Hp : 0 < / INR n) by (apply Rinv_0_lt_compat, lt_0_INR; lia).
  replace (nth i dual 0 - / INR n * loss_deriv P x' i) with ((nth i dual 0 - / INR n * loss_deriv P x i) + / INR n * (loss_deriv P x i - loss_deriv P x' i)) by ring.
  eapply Rle_trans; [apply Rabs_triang|]. apply Rplus_le_compat_l. rewrite Rabs_mult, (Rabs_pos_eq (/ INR n)) by lra.
  apply Rmult_le_compat_l; [lra|]. unfold loss_deriv. eapply Rle_trans; [apply HL|].
  rewrite (Rabs_minus_sym (adot P i x)). lra.
Qed.
Lemma err_step it batch s r : good s -> batch_ok n bs batch -> stepf it batch s = Ok r -> 0 <= L ->
  dual_err P (sw_dual (si_next r)) (sw_x (si_next r)) <= dual_err P (sw_dual (si_next r)) (sw_x s) + / INR n * (L * (2 / (INR (sw_t s) + 2) * D1)).
Proof.
  intros G Hbt E HL0. destruct (good_step it batch s r G Hbt E) as (((Wn & _ & _) & _) & Hg & _ & _ & _ & dir & Ldir & Hdd & Hxn & _).
  destruct (G) as (((Lx & _) & _ & Hx) & _). destruct Wn as (Lxn & _).
  eapply Rle_trans; [apply (dual_err_move _ (sw_x s) (sw_x (si_next r)) Lx Lxn)|]. apply Rplus_le_compat_l.
  assert (Hp : 0 < / INR n) by (apply Rinv_0_lt_compat, lt_0_INR; lia).
  apply Rmult_le_compat_l; [lra|]. apply Rmult_le_compat_l; [exact HL0|]. rewrite Hg in Hxn.
  set (g := 2 / (INR (sw_t s) + 2)) in *. 
  assert (Hgr : 0 <= g) by (unfold g; pose proof (pos_INR (sw_t s)); apply Rlt_le, Rdiv_lt_0_compat; lra).
  assert (Lpd : length (vplus (sw_x s) dir) = d) by (apply vplus_len; assumption).
  specialize (HD1 (vplus (sw_x s) dir) (sw_x s) Lpd Lx Hdd Hx).
  eapply Rle_trans; [|apply Rmult_le_compat_l; [exact Hgr|exact HD1]]. rewrite <- Rsum_map_mult. apply Req_le. f_equal. apply map_ext. intros i.
  rewrite Hxn, adot_lin by (rewrite Lpd; exact Lx).
  replace ((1 - g) * adot P i (sw_x s) + g * adot P i (vplus (sw_x s) dir) - adot P i (sw_x s)) with (g * (adot P i (vplus (sw_x s) dir) - adot P i (sw_x s))) by ring.
  rewrite Rabs_mult, (Rabs_pos_eq g Hgr). reflexivity.
Qed.
End OneStep.
End Rate.
