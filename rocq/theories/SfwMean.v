(** * minimize_sfw, variants SAG, SAGA and MHK, any batch size: one step in terms of the errors of the dual variables *)
From Coq Require Import Reals Lra Lia List Bool ZArith Permutation.
From Verif Require Import Num Vec Spec SpecSparse RVec ConvexFacts ModelConstraint ModelPenalty PenaltyFacts PenaltyFacts2 ModelUtilsArr UtilsMain
  ModelFrankWolfe FrankWolfeConv FrankWolfeMain ModelRandomized SpecFiniteSum RandomizedFacts RandomizedProx ModelSfw SpecSfw SfwFacts SfwStep SfwMain SfwMain2 SfwRate.
Import ListNotations.
Local Open Scope R_scope.

Section OneStep.
Variable P : problem RN.
Variable f : R -> R -> R.
Variable V : sfw_variant.
Variable pow23 : R -> R.
Variable lmo : lmo_fun RN.
Variable lipschitz : option RN.
Variable bs : nat.
Variable dom : list R -> Prop.
Variables C Dinf D1 L : R.
Hypothesis W : problem_wf P.
Hypothesis Hn : (1 <= p_n P)%nat.
Hypothesis HV : V = SAG \/ V = SAGA \/ V = MHK.
Hypothesis Hb : (1 <= bs)%nat.
Hypothesis Hc : convex_set (p_d P) dom.
Hypothesis Hl : lmo_exact (p_d P) dom lmo.
Hypothesis Hconv : convex_loss P f.
Hypothesis HC : curvature (p_d P) dom (mean_loss P f) (grad_list P) C.
Hypothesis HDinf : forall u v i, length u = p_d P -> length v = p_d P -> dom u -> dom v -> (i < p_n P)%nat -> Rabs (adot P i u - adot P i v) <= Dinf.
Hypothesis HD1 : forall u v, length u = p_d P -> length v = p_d P -> dom u -> dom v ->
  Rsum (map (fun i => Rabs (adot P i u - adot P i v)) (seq 0 (p_n P))) <= D1.
Hypothesis HL : forall p q b, Rabs (p_fd P p b - p_fd P q b) <= L * Rabs (p - q).
Hypothesis HL0 : 0 <= L.
Local Notation n := (p_n P).
Local Notation d := (p_d P).
Local Notation stepf := (sfw_step (K:=RN) pow23 P lmo V SSublinear lipschitz bs).

(** MHK keeps dual variables that are n times those of SAG *)
Definition dscale : R := match V with MHK => / INR n | _ => 1 end.
Definition gamV (t : nat) : R := match V with MHK => 2 / (INR t + 8) | _ => 2 / (INR t + 2) end.
Definition rhoV (t : nat) : R := match V with MHK => pow23 (2 / (INR t + 8)) | _ => 1 end.
Definition kapV : R := match V with SAGA => INR (n - 1) | _ => 0 end.
Definition goodV (s : sfw_state RN) : Prop :=
  feas P V dom s /\ forall j, (j < d)%nat -> nth j (sw_agg s : list R) 0 = dual_sum P (sw_dual s) j.
(** error of one dual variable, and of all of them, at the point x *)
Definition gap_i (dual x : list R) (i : nat) : R := dscale * nth i dual 0 - / INR n * loss_deriv P x i.
Definition errV (dual x : list R) : R := Rsum (map (fun i => Rabs (gap_i dual x i)) (seq 0 n)).
Definition errB (dual x : list R) (batch : list nat) : R := Rsum (map (fun i => Rabs (gap_i dual x i)) batch).

Lemma gamV_range t : 0 < gamV t <= 1.
Proof.
  unfold gamV. pose proof (pos_INR t).
  assert (forall a, 2 <= a -> 0 < 2 / (INR t + a) <= 1).
  { intros a Ha. split; [apply Rdiv_lt_0_compat; lra|]. apply Rmult_le_reg_r with (INR t + a); [lra|]. unfold Rdiv. rewrite Rmult_assoc, Rinv_l by lra. lra. }
  destruct V; apply H0; lra.
Qed.
Lemma good_stepV it batch s r : goodV s -> batch_ok n bs batch -> stepf it batch s = Ok r ->
  goodV (si_next r) /\ si_gamma r = gamV (sw_t s) /\ sw_t (si_next r) = sw_t s /\
  (forall i, ~ In i batch -> nth i (sw_dual (si_next r) : list R) 0 = nth i (sw_dual s : list R) 0) /\
  (forall i, In i batch -> gap_i (sw_dual (si_next r)) (sw_x s) i = (1 - rhoV (sw_t s)) * gap_i (sw_dual s) (sw_x s) i) /\
  (length (si_est r) = d /\ forall j, (j < d)%nat -> nth j (si_est r : list R) 0 = nth j (sw_agg (si_next r) : list R) 0 + kapV * (nth j (sw_agg (si_next r) : list R) 0 - nth j (sw_agg s : list R) 0)) /\
  exists dir : list R, length dir = d /\ dom (vplus (sw_x s) dir) /\ sw_x (si_next r) = lin (1 - si_gamma r) (sw_x s) (si_gamma r) (vplus (sw_x s) dir) /\
    forall y : list R, length y = d -> dom y -> dot (si_est r) dir <= dot (si_est r) (vminus y (sw_x s)).
Proof.
  intros (G & Ha) Hbt E. pose proof Hbt as (F & N & _). pose proof (lmo_exact_feasible _ _ _ Hl) as Hf.
  assert (HV0 : V <> OtherSfw) by (intros Z; rewrite Z in HV; intuition discriminate).
  pose proof (sub_gamma pow23 P lmo V SSublinear lipschitz bs dom W Hb Hf it batch s r eq_refl HV0 G Hbt E) as Hg0.
  pose proof (feas_step pow23 P lmo V SSublinear lipschitz bs dom W Hc Hf it batch s r G Hbt E ltac:(lra)) as G'.
  destruct (step_inv pow23 P lmo V SSublinear lipschitz bs W it batch s r (proj1 G) (feas_sized P lmo V dom Hf s G) F N E)
    as (_ & _ & _ & _ & (Lxn & Ldn & Lan & _) & Ht & Hout & Hagg & (lf & Hin) & (Lest & Hest) & Ec & Lo & Hg & Hxn & _).
  destruct (G) as ((Lx & Ld & La & _) & _ & Hx).
  split.
  { split; [exact G'|]. intros j Hj. etransitivity; [exact (Hagg j Hj)|]. etransitivity; [apply (f_equal2 Rplus (Ha j Hj) eq_refl)|].
    rewrite (Rsum_sub_seq (fun i => (nth i (sw_dual (si_next r)) 0 - nth i (sw_dual s) 0) * ent P i j) n batch N F).
    - unfold dual_sum. rewrite <- Rsum_map_plus. f_equal. apply map_ext. intros i. change (carrier RN) with R. ring.
    - intros i _ Hi. etransitivity; [apply (f_equal2 Rmult (f_equal2 Rminus (Hout i Hi) eq_refl) eq_refl)|]. change (carrier RN) with R. ring. }
  split.
  { rewrite Hg. unfold gamma_of, sfw_sizes, gamV. destruct HV as [-> | [-> | ->]]; cbn [fst]; rewrite nofnat_R, plus_INR; rn; cbn [INR]; f_equal; ring. }
  split; [exact Ht|]. split; [exact Hout|]. split.
  { intros i Hi. unfold gap_i, dscale, rhoV. unfold dual_facts, agg_size, sfw_sizes in Hin. 
    assert (Hp : INR n <> 0) by (apply not_0_INR; lia).
    destruct HV as [EV | [EV | EV]]; rewrite EV in *; cbn [snd] in Hin.
    - destruct Hin as (_ & _ & Hin). etransitivity; [apply (f_equal2 Rminus (f_equal2 Rmult eq_refl (Hin i Hi)) eq_refl)|]. ring.
    - destruct Hin as (_ & _ & Hin). etransitivity; [apply (f_equal2 Rminus (f_equal2 Rmult eq_refl (Hin i Hi)) eq_refl)|]. ring.
    - destruct Hin as (_ & _ & a & Ea & Hin). injection Ea as <-. etransitivity; [apply (f_equal2 Rminus (f_equal2 Rmult eq_refl (Hin i Hi)) eq_refl)|].
      rewrite <- INR_IZR_INZ, plus_INR. replace (INR 8) with 8 by (cbn [INR]; ring). change (carrier RN) with R. ring. }
  split.
  { split; [exact Lest|]. intros j Hj. etransitivity; [exact (Hest j Hj)|]. unfold kapV. destruct HV as [EV | [EV | EV]]; rewrite EV; change (carrier RN) with R; ring. }
  exists (lmo_dir (si_lmo r)). split; [exact Lo|].
  destruct (Hl (vopp (K:=RN) (si_est r)) (sw_x s) (sw_active s) (eq_trans (map_length _ _) Lest) Lx Hx) as (o' & E' & _ & (Lm & Hm & Hmax) & _).
  rewrite Ec in E'. injection E' as <-. split; [exact Hm|].
  split. { etransitivity; [exact Hxn|]. apply lin_step. exact (eq_trans Lx (eq_sym Lo)). }
  intros y Ly Hy. specialize (Hmax y (eq_trans (eq_trans Ly (eq_sym Lest)) (eq_sym (map_length _ (si_est r)))) Hy).
  rewrite vopp_R, !dot_smul_l in Hmax. unfold vplus in Hmax. rewrite dot_lin_r in Hmax.
  2:{ exact (eq_trans Lx (eq_sym Lest)). } 2:{ exact (eq_trans Lo (eq_sym Lest)). }
  unfold vminus. rewrite dot_lin_r by (first [exact (eq_trans Ly (eq_sym Lest))|exact (eq_trans Lx (eq_sym Lest))]). lra.
Qed.
Lemma errB_nonneg dual x l : 0 <= errB dual x l.
Proof. unfold errB. induction l as [|a l IH]; cbn [map Rsum]; [lra|]. apply Rplus_le_le_0_compat; [apply Rabs_pos|exact IH]. Qed.
Lemma errV_nonneg dual x : 0 <= errV dual x.
Proof. apply (errB_nonneg dual x (seq 0 n)). Qed.
(** the error after the update of a batch *)
Lemma errV_upd (dual dual' x : list R) batch rho : Forall (fun i => (i < n)%nat) batch -> NoDup batch -> 0 <= rho <= 1 ->
  (forall i, ~ In i batch -> nth i dual' 0 = nth i dual 0) ->
  (forall i, In i batch -> gap_i dual' x i = (1 - rho) * gap_i dual x i) ->
  errV dual' x = errV dual x - rho * errB dual x batch.
Proof.
  intros F N Hr Hout Hin.
  assert (H : errB dual x batch * rho = Rsum (map (fun i => Rabs (gap_i dual x i) - Rabs (gap_i dual' x i)) batch)).
  { unfold errB. rewrite Rmult_comm, <- Rsum_map_mult. f_equal. apply map_ext_in. intros i Hi. rewrite (Hin i Hi), Rabs_mult, (Rabs_pos_eq (1 - rho)) by lra. ring. }
  rewrite (Rmult_comm rho), H. rewrite (Rsum_sub_seq (fun i => Rabs (gap_i dual x i) - Rabs (gap_i dual' x i)) n batch N F).
  - unfold errV. rewrite Rsum_map_minus. ring.
  - intros i _ Hi. unfold gap_i. rewrite (Hout i Hi). ring.
Qed.
Lemma sum_gap (dual x v : list R) l : dscale * Rsum (map (fun i => nth i dual 0 * adot P i v) l) - / INR n * Rsum (map (fun i => loss_deriv P x i * adot P i v) l)
  = Rsum (map (fun i => gap_i dual x i * adot P i v) l).
Proof. rewrite <- !Rsum_map_mult, <- Rsum_map_minus. f_equal. apply map_ext. intros i. unfold gap_i. ring. Qed.
Lemma sum_gap_bound (dual x v : list R) l D : (forall i, In i l -> Rabs (adot P i v) <= D) ->
  Rabs (Rsum (map (fun i => gap_i dual x i * adot P i v) l)) <= errB dual x l * D.
Proof.
  intros HD. eapply Rle_trans; [apply Rabs_Rsum|]. unfold errB. rewrite (Rmult_comm _ D), <- Rsum_map_mult. apply Rsum_le_map. intros i Hi.
  rewrite Rabs_mult, Rmult_comm. apply Rmult_le_compat_r; [apply Rabs_pos|]. apply HD, Hi.
Qed.
Lemma dscale_pos : 0 < dscale.
Proof. unfold dscale. assert (0 < / INR n) by (apply Rinv_0_lt_compat, lt_0_INR; lia). destruct V; lra. Qed.
Lemma kapV_nonneg : 0 <= kapV.
Proof. unfold kapV. pose proof (pos_INR (n - 1)). destruct V; lra. Qed.
Lemma est_errorV it batch s r v : goodV s -> batch_ok n bs batch -> stepf it batch s = Ok r -> length v = d -> 0 <= rhoV (sw_t s) <= 1 ->
  (forall i, (i < n)%nat -> Rabs (adot P i v) <= Dinf) ->
  Rabs (dscale * dot (si_est r) v - dot (grad_list P (sw_x s)) v) <= (errV (sw_dual s) (sw_x s) + (kapV - rhoV (sw_t s)) * errB (sw_dual s) (sw_x s) batch) * Dinf.
Proof.
  intros G Hbt E Lv Hrho HD. pose proof Hbt as (F & N & _).
  destruct (good_stepV it batch s r G Hbt E) as (((Wn & _) & Han) & _ & _ & Hout & Hin & (Lest & Hest) & _).
  destruct (G) as (((Lx & Ld & La & _) & _) & Hag). destruct Wn as (_ & Ldn & Lan & _).
  pose proof (errV_upd (sw_dual s) (sw_dual (si_next r)) (sw_x s) batch _ F N Hrho Hout Hin) as Hu.
  assert (He : dot (si_est r) v = dot (sw_agg (si_next r)) v + kapV * (dot (sw_agg (si_next r)) v - dot (sw_agg s) v)).
  { rewrite (dot_seq _ _ d Lest Lv), (dot_seq _ _ d Lan Lv), (dot_seq _ _ d La Lv), <- Rsum_map_minus, <- Rsum_map_mult, <- Rsum_map_plus. f_equal.
    apply map_ext_in. intros j Hj. apply in_seq in Hj. rewrite (Hest j ltac:(lia)). change (carrier RN) with R. ring. }
  rewrite He, (agg_dot P Hn (sw_dual (si_next r)) (sw_agg (si_next r)) v Lan Lv Han), (agg_dot P Hn (sw_dual s) (sw_agg s) v La Lv Hag), (grad_dot P Hn (sw_x s) v Lv).
  set (A' := Rsum (map (fun i => nth i (sw_dual (si_next r)) 0 * adot P i v) (seq 0 n))).
  set (A := Rsum (map (fun i => nth i (sw_dual s) 0 * adot P i v) (seq 0 n))).
  set (T := Rsum (map (fun i => loss_deriv P (sw_x s) i * adot P i v) (seq 0 n))).
  assert (H1 : Rabs (dscale * A' - / INR n * T) <= errV (sw_dual (si_next r)) (sw_x s) * Dinf).
  { unfold A', T. rewrite sum_gap. apply (sum_gap_bound (sw_dual (si_next r)) (sw_x s) v (seq 0 n) Dinf). intros i Hi. apply in_seq in Hi. apply HD. lia. }
  assert (H2 : Rabs (dscale * (A' - A)) <= errB (sw_dual s) (sw_x s) batch * Dinf).
  { assert (Z : dscale * (A' - A) = Rsum (map (fun i => gap_i (sw_dual (si_next r)) (sw_x s) i * adot P i v - gap_i (sw_dual s) (sw_x s) i * adot P i v) batch)).
    { rewrite (Rsum_sub_seq (fun i => gap_i (sw_dual (si_next r)) (sw_x s) i * adot P i v - gap_i (sw_dual s) (sw_x s) i * adot P i v) n batch N F).
      - rewrite Rsum_map_minus, <- !sum_gap. change (dscale * (A' - A) = (dscale * A' - / INR n * T) - (dscale * A - / INR n * T)). ring.
      - intros i _ Hi. unfold gap_i. rewrite (Hout i Hi). ring. }
    rewrite Z. eapply Rle_trans; [apply Rabs_Rsum|]. unfold errB. rewrite (Rmult_comm _ Dinf), <- Rsum_map_mult. apply Rsum_le_map. intros i Hi.
    rewrite (Hin i Hi). replace ((1 - rhoV (sw_t s)) * gap_i (sw_dual s) (sw_x s) i * adot P i v - gap_i (sw_dual s) (sw_x s) i * adot P i v)
      with (- (rhoV (sw_t s) * (adot P i v * gap_i (sw_dual s) (sw_x s) i))) by ring.
    rewrite Rabs_Ropp, !Rabs_mult, (Rabs_pos_eq (rhoV _)) by lra. rewrite Forall_forall in F. specialize (HD i (F i Hi)).
    pose proof (Rabs_pos (gap_i (sw_dual s) (sw_x s) i)) as Q1. pose proof (Rabs_pos (adot P i v)) as Q2.
    pose proof (Rmult_le_compat_r _ _ _ Q1 HD) as Q3. pose proof (Rmult_le_pos _ _ Q2 Q1) as Q4.
    pose proof (Rmult_le_compat_r _ _ _ Q4 (proj2 Hrho)). lra. }
  match goal with |- Rabs ?t <= ?b => change (Rabs (dscale * (A' + kapV * (A' - A)) - / INR n * T) <= b) end.
  replace (dscale * (A' + kapV * (A' - A)) - / INR n * T) with ((dscale * A' - / INR n * T) + kapV * (dscale * (A' - A))) by ring.
  eapply Rle_trans; [apply Rabs_triang|]. rewrite (Rabs_mult kapV), (Rabs_pos_eq kapV kapV_nonneg).
  rewrite Hu in H1. pose proof (Rmult_le_compat_l _ _ _ kapV_nonneg H2). lra.
Qed.
Lemma value_stepV it batch s r y : goodV s -> batch_ok n bs batch -> stepf it batch s = Ok r -> length y = d -> dom y -> 0 <= rhoV (sw_t s) <= 1 ->
  let g := gamV (sw_t s) in
  mean_loss P f (sw_x (si_next r)) - mean_loss P f y <=
    (1 - g) * (mean_loss P f (sw_x s) - mean_loss P f y)
    + g * ((errV (sw_dual s) (sw_x s) + (kapV - rhoV (sw_t s)) * errB (sw_dual s) (sw_x s) batch) * Dinf) + g * g / 2 * C.
Proof.
  intros G Hbt E Ly Hy Hrho g. destruct (good_stepV it batch s r G Hbt E) as (_ & Hg & _ & _ & _ & (Lest & _) & dir & Ldir & Hdd & Hxn & Hmin).
  destruct (G) as (((Lx & _) & _ & Hx) & _). specialize (Hmin y Ly Hy).
  pose proof (gamV_range (sw_t s)) as Hgr. fold g in Hgr, Hg. rewrite Hg in Hxn.
  assert (Lpd : length (vplus (sw_x s) dir) = d) by (apply vplus_len; assumption).
  pose proof (HC (sw_x s) (vplus (sw_x s) dir) g Lx Lpd Hx Hdd ltac:(lra)) as Hcur. rewrite <- Hxn in Hcur.
  pose proof (convex_at P f Hn bs Hb Hconv (sw_x s) y Lx Ly) as Hcv.
  set (sp := vplus (sw_x s) dir) in *.
  assert (Hd1 : dot (grad_list P (sw_x s)) (vminus sp (sw_x s)) = dot (grad_list P (sw_x s)) (vminus y (sw_x s)) + dot (grad_list P (sw_x s)) (vminus sp y)).
  { unfold vminus. rewrite !dot_lin_r by (rewrite grad_list_len; assumption). ring. }
  assert (Ldir2 : dot (si_est r) (vminus sp y) <= 0).
  { unfold vminus in *. rewrite dot_lin_r in * by (first [exact (eq_trans Ly (eq_sym Lest))|exact (eq_trans Lx (eq_sym Lest))|exact (eq_trans Lpd (eq_sym Lest))]).
    unfold sp, vplus. rewrite dot_lin_r by (first [exact (eq_trans Lx (eq_sym Lest))|exact (eq_trans Ldir (eq_sym Lest))]). lra. }
  assert (Lsy : length (vminus sp y) = d) by leng.
  assert (HDi : forall i, (i < n)%nat -> Rabs (adot P i (vminus sp y)) <= Dinf).
  { intros i Hi. rewrite adot_vminus by (rewrite Lpd, Ly; reflexivity). apply HDinf; auto. }
  pose proof (est_errorV it batch s r (vminus sp y) G Hbt E Lsy Hrho HDi) as He. apply Rabs_le_inv' in He.
  pose proof dscale_pos as Hs. assert (Hs2 : dscale * dot (si_est r) (vminus sp y) <= 0) by nra.
  set (e := (errV (sw_dual s) (sw_x s) + (kapV - rhoV (sw_t s)) * errB (sw_dual s) (sw_x s) batch) * Dinf) in *.
  assert (H2 : g * dot (grad_list P (sw_x s)) (vminus sp (sw_x s)) <= g * (mean_loss P f y - mean_loss P f (sw_x s) + e)).
  { apply Rmult_le_compat_l; [lra|]. lra. }
  lra.
Qed.
Lemma err_stepV it batch s r : goodV s -> batch_ok n bs batch -> stepf it batch s = Ok r -> 0 <= rhoV (sw_t s) <= 1 ->
  errV (sw_dual (si_next r)) (sw_x (si_next r)) <= errV (sw_dual s) (sw_x s) - rhoV (sw_t s) * errB (sw_dual s) (sw_x s) batch + / INR n * (L * (gamV (sw_t s) * D1)).
Proof.
  intros G Hbt E Hrho. pose proof Hbt as (F & N & _).
  destruct (good_stepV it batch s r G Hbt E) as (((Wn & _) & _) & Hg & _ & Hout & Hin & _ & dir & Ldir & Hdd & Hxn & _).
  destruct (G) as (((Lx & _) & _ & Hx) & _). destruct Wn as (Lxn & _).
  rewrite <- (errV_upd (sw_dual s) (sw_dual (si_next r)) (sw_x s) batch _ F N Hrho Hout Hin).
  assert (Hp : 0 < / INR n) by (apply Rinv_0_lt_compat, lt_0_INR; lia).
  pose proof (gamV_range (sw_t s)) as Hgr. rewrite Hg in Hxn. set (g := gamV (sw_t s)) in *.
  assert (Lpd : length (vplus (sw_x s) dir) = d) by (apply vplus_len; assumption).
  specialize (HD1 (vplus (sw_x s) dir) (sw_x s) Lpd Lx Hdd Hx).
  assert (Hm : Rsum (map (fun i => Rabs (adot P i (sw_x (si_next r)) - adot P i (sw_x s))) (seq 0 n)) <= g * D1).
  { eapply Rle_trans; [|apply Rmult_le_compat_l; [lra|exact HD1]]. rewrite <- Rsum_map_mult. apply Req_le. f_equal. apply map_ext. intros i.
    rewrite Hxn, adot_lin by (rewrite Lpd; exact Lx).
    replace ((1 - g) * adot P i (sw_x s) + g * adot P i (vplus (sw_x s) dir) - adot P i (sw_x s)) with (g * (adot P i (vplus (sw_x s) dir) - adot P i (sw_x s))) by ring.
    rewrite Rabs_mult, (Rabs_pos_eq g) by lra. reflexivity. }
  assert (H1 : errV (sw_dual (si_next r)) (sw_x (si_next r)) <= errV (sw_dual (si_next r)) (sw_x s) + / INR n * (L * Rsum (map (fun i => Rabs (adot P i (sw_x (si_next r)) - adot P i (sw_x s))) (seq 0 n)))).
  { unfold errV. rewrite <- !Rsum_map_mult, <- Rsum_map_plus. apply Rsum_le_map. intros i _. unfold gap_i.
    set (e1 := nth i (sw_dual (si_next r) : list R) 0).
    match goal with |- ?l <= ?rr => change (Rabs (dscale * e1 - / INR n * loss_deriv P (sw_x (si_next r)) i) <= rr) end.
    replace (dscale * e1 - / INR n * loss_deriv P (sw_x (si_next r)) i)
      with ((dscale * e1 - / INR n * loss_deriv P (sw_x s) i) + / INR n * (loss_deriv P (sw_x s) i - loss_deriv P (sw_x (si_next r)) i)) by ring.
    eapply Rle_trans; [apply Rabs_triang|]. apply Rplus_le_compat_l. rewrite Rabs_mult, (Rabs_pos_eq (/ INR n)) by lra.
    apply Rmult_le_compat_l; [lra|]. unfold loss_deriv. eapply Rle_trans; [apply HL|]. rewrite (Rabs_minus_sym (adot P i (sw_x s))). lra. }
  pose proof (Rmult_le_compat_l _ _ _ HL0 Hm) as H2. pose proof (Rmult_le_compat_l _ _ _ (Rlt_le _ _ Hp) H2). lra.
Qed.
End OneStep.
