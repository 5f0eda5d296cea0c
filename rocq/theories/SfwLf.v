(** * minimize_sfw, variant LF, any batch size: one step in terms of the errors of the running averages and of the unvisited dual variables *)
From Coq Require Import Reals Lra Lia List Bool ZArith Permutation.
From Verif Require Import Num Vec Spec SpecSparse RVec ConvexFacts ModelConstraint ModelPenalty PenaltyFacts PenaltyFacts2 ModelUtilsArr UtilsMain
  ModelFrankWolfe FrankWolfeConv FrankWolfeMain ModelRandomized SpecFiniteSum RandomizedFacts RandomizedProx ModelSfw SpecSfw SfwFacts SfwStep SfwMain SfwMain2 SfwRate SfwMean.
Import ListNotations.
Local Open Scope R_scope.

(** the step sizes of variant LF with m = n / batch_size *)
Definition alf (m t : R) : R := 2 * (2 * m + t) / ((t + 1) * (4 * m + t)).
Definition elf (m t : R) : R := 2 * m / (2 * m + t + 1).
Lemma elf_range m t : 1 <= m -> 0 <= t -> 0 < elf m t <= 1.
Proof.
  intros Hm Ht. unfold elf. split; [apply Rdiv_lt_0_compat; lra|]. apply Rmult_le_reg_r with (2 * m + t + 1); [lra|].
  unfold Rdiv. rewrite Rmult_assoc, Rinv_l by lra. lra.
Qed.

Section OneStep.
Variable P : problem RN.
Variable f : R -> R -> R.
Variable pow23 : R -> R.
Variable lmo : lmo_fun RN.
Variable lipschitz : option RN.
Variable bs : nat.
Variable dom : list R -> Prop.
Variables C Dinf L : R.
Hypothesis W : problem_wf P.
Hypothesis Hb : (1 <= bs <= p_n P)%nat.
Hypothesis Hc : convex_set (p_d P) dom.
Hypothesis Hl : lmo_exact (p_d P) dom lmo.
Hypothesis Hconv : convex_loss P f.
Hypothesis HC : curvature (p_d P) dom (mean_loss P f) (grad_list P) C.
Hypothesis HDinf : forall u v i, length u = p_d P -> length v = p_d P -> dom u -> dom v -> (i < p_n P)%nat -> Rabs (adot P i u - adot P i v) <= Dinf.
Hypothesis HL : forall p q b, Rabs (p_fd P p b - p_fd P q b) <= L * Rabs (p - q).
Hypothesis HL0 : 0 <= L.
Local Notation n := (p_n P).
Local Notation d := (p_d P).
Local Notation stepf := (sfw_step (K:=RN) pow23 P lmo LF SSublinear lipschitz bs).
Definition mLF : R := INR n / INR bs.
Local Notation m := mLF.
Definition goodL (s : sfw_state RN) : Prop :=
  goodV P LF dom s /\ forall i v, (i < n)%nat -> length v = d -> dom v -> Rabs (nth i (sw_sigma s : list R) 0 - adot P i v) <= Dinf.
(** the direction the oracle returns: it does not depend on the batch *)
Definition dirL (s : sfw_state RN) : list R := match call_lmo lmo (vopp (K:=RN) (sw_agg s)) (sw_x s) (sw_active s) with Ok o => lmo_dir o | Err _ => [] end.
Definition tgt (s : sfw_state RN) : list R := vplus (sw_x s) (dirL s).
(** the running average minus the value it follows; the distance to the target; the part of a dual variable not explained by the average *)
Definition xi (s : sfw_state RN) (i : nat) : R := nth i (sw_sigma s : list R) 0 - adot P i (sw_x s).
Definition gi (s : sfw_state RN) (i : nat) : R := adot P i (tgt s) - adot P i (sw_x s).
Definition un (s : sfw_state RN) (i : nat) : R := nth i (sw_dual s : list R) 0 - / INR n * p_fd P (nth i (sw_sigma s : list R) 0) (nth i (p_b P) 0).
Definition Vs (s : sfw_state RN) : R := Rsum (map (fun i => xi s i * xi s i) (seq 0 n)).
Definition As (s : sfw_state RN) : R := Rsum (map (fun i => Rabs (xi s i)) (seq 0 n)).
Definition Us (s : sfw_state RN) : R := Rsum (map (fun i => Rabs (un s i)) (seq 0 n)).

Lemma m_ge1 : 1 <= m.
Proof.
  unfold mLF. assert (0 < INR bs) by (apply lt_0_INR; lia). assert (INR bs <= INR n) by (apply le_INR; lia).
  apply Rmult_le_reg_r with (INR bs); [lra|]. unfold Rdiv. rewrite Rmult_assoc, Rinv_l by lra. lra.
Qed.
Lemma alf_range (t : nat) : 0 < alf m (INR t) <= 1.
Proof.
  pose proof (gamma_range pow23 LF bs n t (proj1 Hb) ltac:(lia) ltac:(discriminate)) as H. cbn [sfw_sizes fst] in H.
  rewrite !nofnat_R in H. exact H.
Qed.
Lemma good_stepL it batch s r : goodL s -> batch_ok n bs batch -> stepf it batch s = Ok r ->
  let a := alf m (INR (sw_t s)) in let e := elf m (INR (sw_t s)) in
  goodL (si_next r) /\ sw_t (si_next r) = sw_t s /\
  length (dirL s) = d /\ dom (tgt s) /\ sw_x (si_next r) = lin (1 - a) (sw_x s) a (tgt s) /\
  (forall y : list R, length y = d -> dom y -> dot (sw_agg s) (dirL s) <= dot (sw_agg s) (vminus y (sw_x s))) /\
  (forall i, ~ In i batch -> xi (si_next r) i = xi s i - a * gi s i /\ un (si_next r) i = un s i) /\
  (forall i, In i batch -> xi (si_next r) i = (1 - e) * xi s i + (e - a) * gi s i /\ un (si_next r) i = 0).
Proof.
  intros ((G & Ha) & Hsg) Hbt E a e. pose proof Hbt as (F & N & _). pose proof (lmo_exact_feasible _ _ _ Hl) as Hf.
  assert (HV0 : LF <> OtherSfw) by discriminate.
  pose proof (sub_gamma pow23 P lmo LF SSublinear lipschitz bs dom W (proj1 Hb) Hf it batch s r eq_refl HV0 G Hbt E) as Hg0.
  pose proof (feas_step pow23 P lmo LF SSublinear lipschitz bs dom W Hc Hf it batch s r G Hbt E ltac:(lra)) as G'.
  destruct (step_inv pow23 P lmo LF SSublinear lipschitz bs W it batch s r (proj1 G) (feas_sized P lmo LF dom Hf s G) F N E)
    as (_ & _ & _ & _ & (Lxn & Ldn & Lan & Lsn) & Ht & Hout & Hagg & (lf & Hin) & (Lest & Hest) & Ec & Lo & Hg & Hxn & _).
  destruct (G) as ((Lx & Ld & La & Ls) & _ & Hx).
  assert (Ee : si_est r = sw_agg s).
  { apply list_ext with (d := 0). - exact (eq_trans Lest (eq_sym La)). - intros j Hj. apply Hest. rewrite <- Lest. exact Hj. }
  rewrite Ee in Ec. assert (Ed : dirL s = lmo_dir (si_lmo r)) by (unfold dirL; rewrite Ec; reflexivity).
  assert (Eg : si_gamma r = a).
  { rewrite Hg. unfold gamma_of. cbn [sfw_sizes fst]. rewrite !nofnat_R. reflexivity. }
  unfold dual_facts, agg_size in Hin. cbn [sfw_sizes snd] in Hin. destruct Hin as (a' & o & Ea & _ & Eo & S1 & S2 & S3).
  injection Ea as <-. rewrite Ec in Eo. injection Eo as <-.
  assert (Ea : nofZ RN 2 * (nofnat (K:=RN) n / nofnat (K:=RN) bs) / (nofZ RN 2 * (nofnat (K:=RN) n / nofnat (K:=RN) bs) + nofnat (K:=RN) (sw_t s) + 1) = e).
  { rewrite !nofnat_R. reflexivity. }
  rewrite <- Ed in S2, Lo, Hxn. 
  destruct (Hl (vopp (K:=RN) (sw_agg s)) (sw_x s) (sw_active s) (eq_trans (map_length _ _) La) Lx Hx) as (o' & E' & _ & (Lm & Hm & Hmax) & _).
  rewrite Ec in E'. injection E' as <-. rewrite <- Ed in Hm, Hmax. fold (tgt s) in Hm, Hmax.
  assert (Ltg : length (tgt s) = d) by (apply vplus_len; [exact Lx|exact Lo]).
  rewrite Eg in Hxn.
  assert (Hxl : sw_x (si_next r) = lin (1 - a) (sw_x s) a (tgt s)).
  { etransitivity; [exact Hxn|]. apply lin_step. exact (eq_trans Lx (eq_sym Lo)). }
  assert (Hax : forall i, adot P i (sw_x (si_next r)) = adot P i (sw_x s) + a * gi s i).
  { intros i. rewrite Hxl, adot_lin by (rewrite Ltg; exact Lx). unfold gi. ring. }
  pose proof (elf_range m (INR (sw_t s)) m_ge1 (pos_INR _)) as He. fold e in He.
  assert (S2' : forall i, In i batch -> nth i (sw_sigma (si_next r) : list R) 0 = (1 - e) * nth i (sw_sigma s : list R) 0 + e * adot P i (tgt s)).
  { intros i Hi. etransitivity; [exact (S2 i Hi)|]. rewrite <- Ea. reflexivity. }
  assert (S1' : forall i, ~ In i batch -> nth i (sw_sigma (si_next r) : list R) 0 = nth i (sw_sigma s : list R) 0) by (intros i Hi; exact (S1 i Hi)).
  split.
  { split; [split; [exact G'|]|].
    - intros j Hj. etransitivity; [exact (Hagg j Hj)|]. etransitivity; [apply (f_equal2 Rplus (Ha j Hj) eq_refl)|].
      rewrite (Rsum_sub_seq (fun i => (nth i (sw_dual (si_next r)) 0 - nth i (sw_dual s) 0) * ent P i j) n batch N F).
      + unfold dual_sum. rewrite <- Rsum_map_plus. f_equal. apply map_ext. intros i. change (carrier RN) with R. ring.
      + intros i _ Hi. etransitivity; [apply (f_equal2 Rmult (f_equal2 Rminus (Hout i Hi) eq_refl) eq_refl)|]. change (carrier RN) with R. ring.
    - intros i v Hi Lv Hv. destruct (in_dec Nat.eq_dec i batch) as [Hib|Hib].
      + rewrite (S2' i Hib). pose proof (Hsg i v Hi Lv Hv) as Q1. pose proof (HDinf (tgt s) v i Ltg Lv Hm Hv Hi) as Q2.
        replace ((1 - e) * nth i (sw_sigma s : list R) 0 + e * adot P i (tgt s) - adot P i v)
          with ((1 - e) * (nth i (sw_sigma s : list R) 0 - adot P i v) + e * (adot P i (tgt s) - adot P i v)) by ring.
        eapply Rle_trans; [apply Rabs_triang|]. rewrite !Rabs_mult, (Rabs_pos_eq (1 - e)), (Rabs_pos_eq e) by lra.
        pose proof (Rmult_le_compat_l (1 - e) _ _ ltac:(lra) Q1). pose proof (Rmult_le_compat_l e _ _ ltac:(lra) Q2). lra.
      + rewrite (S1' i Hib). apply Hsg; assumption. }
  split; [exact Ht|]. split; [exact Lo|]. split; [exact Hm|]. split; [exact Hxl|]. split.
  { intros y Ly Hy. specialize (Hmax y (eq_trans (eq_trans Ly (eq_sym La)) (eq_sym (map_length _ (sw_agg s)))) Hy).
    rewrite vopp_R, !dot_smul_l in Hmax. unfold tgt, vplus in Hmax. rewrite dot_lin_r in Hmax.
    2:{ exact (eq_trans Lx (eq_sym La)). } 2:{ exact (eq_trans Lo (eq_sym La)). }
    unfold vminus. rewrite dot_lin_r by (first [exact (eq_trans Ly (eq_sym La))|exact (eq_trans Lx (eq_sym La))]). lra. }
  split.
  - intros i Hi. unfold xi, un. rewrite Hax, (S1' i Hi). split; [ring|].
    apply (f_equal2 Rminus (Hout i Hi) eq_refl).
  - intros i Hi. split.
    + unfold xi. rewrite Hax, (S2' i Hi). unfold gi. ring.
    + unfold un. etransitivity; [apply (f_equal2 Rminus (S3 i Hi) eq_refl)|]. change (carrier RN) with R. ring.
Qed.
Lemma xi_bound s i : goodL s -> (i < n)%nat -> Rabs (xi s i) <= Dinf.
Proof. intros (((Ws & _ & Hx) & _) & H) Hi. apply H; [exact Hi|apply Ws|exact Hx]. Qed.
Lemma gi_bound it batch s r i : goodL s -> batch_ok n bs batch -> stepf it batch s = Ok r -> (i < n)%nat -> Rabs (gi s i) <= Dinf.
Proof.
  intros G Hbt E Hi. destruct (good_stepL it batch s r G Hbt E) as (_ & _ & Ldir & Hd & _). destruct (G) as (((Ws & _ & Hx) & _) & _).
  apply HDinf; [apply vplus_len; [apply Ws|exact Ldir]|apply Ws|exact Hd|exact Hx|exact Hi].
Qed.
(** the gradient estimate of LF: the aggregate before the update *)
Lemma est_errorL s v : goodL s -> length v = d -> (forall i, (i < n)%nat -> Rabs (adot P i v) <= Dinf) ->
  Rabs (dot (sw_agg s) v - dot (grad_list P (sw_x s)) v) <= (Us s + / INR n * (L * As s)) * Dinf.
Proof.
  intros (((Ws & _ & Hx) & Hag) & _) Lv HD. destruct Ws as (Lx & Ld & La & _). assert (Hn : (1 <= n)%nat) by lia.
  assert (Hp : 0 < / INR n) by (apply Rinv_0_lt_compat, lt_0_INR; lia).
  rewrite (agg_dot P Hn (sw_dual s) (sw_agg s) v La Lv Hag), (grad_dot P Hn (sw_x s) v Lv).
  rewrite <- Rsum_map_mult, <- Rsum_map_minus. eapply Rle_trans; [apply Rabs_Rsum|].
  unfold Us, As. rewrite <- !Rsum_map_mult, <- Rsum_map_plus, (Rmult_comm _ Dinf), <- Rsum_map_mult. apply Rsum_le_map. intros i Hi. apply in_seq in Hi.
  set (u := un s i). set (z := / INR n * (p_fd P (nth i (sw_sigma s : list R) 0) (nth i (p_b P) 0) - loss_deriv P (sw_x s) i)).
  match goal with |- Rabs ?t <= _ => replace t with ((u + z) * adot P i v) end.
  2:{ unfold u, z, un. change (carrier RN) with R. ring. }
  assert (Hz : Rabs z <= / INR n * (L * Rabs (xi s i))).
  { unfold z. rewrite Rabs_mult, (Rabs_pos_eq (/ INR n)) by lra. apply Rmult_le_compat_l; [lra|]. unfold loss_deriv. apply HL. }
  rewrite Rabs_mult, Rmult_comm. apply Rmult_le_compat; [apply Rabs_pos|apply Rabs_pos|apply HD; lia|].
  eapply Rle_trans; [apply Rabs_triang|]. fold u. lra.
Qed.
Lemma value_stepL it batch s r y : goodL s -> batch_ok n bs batch -> stepf it batch s = Ok r -> length y = d -> dom y ->
  let g := alf m (INR (sw_t s)) in
  mean_loss P f (sw_x (si_next r)) - mean_loss P f y <=
    (1 - g) * (mean_loss P f (sw_x s) - mean_loss P f y) + g * ((Us s + / INR n * (L * As s)) * Dinf) + g * g / 2 * C.
Proof.
  intros G Hbt E Ly Hy g. destruct (good_stepL it batch s r G Hbt E) as (_ & _ & Ldir & Hdd & Hxn & Hmin & _).
  destruct (G) as (((Ws & _ & Hx) & _) & _). destruct Ws as (Lx & _ & La & _). specialize (Hmin y Ly Hy).
  pose proof (alf_range (sw_t s)) as Hgr. fold g in Hgr, Hxn. assert (Hn : (1 <= n)%nat) by lia.
  assert (Lpd : length (tgt s) = d) by (apply vplus_len; assumption).
  pose proof (HC (sw_x s) (tgt s) g Lx Lpd Hx Hdd ltac:(lra)) as Hcur. rewrite <- Hxn in Hcur.
  pose proof (convex_at P f Hn bs (proj1 Hb) Hconv (sw_x s) y Lx Ly) as Hcv.
  assert (Hd1 : dot (grad_list P (sw_x s)) (vminus (tgt s) (sw_x s)) = dot (grad_list P (sw_x s)) (vminus y (sw_x s)) + dot (grad_list P (sw_x s)) (vminus (tgt s) y)).
  { unfold vminus. rewrite !dot_lin_r by (rewrite grad_list_len; assumption). ring. }
  assert (Ldir2 : dot (sw_agg s) (vminus (tgt s) y) <= 0).
  { unfold vminus in *. rewrite dot_lin_r in * by (first [exact (eq_trans Ly (eq_sym La))|exact (eq_trans Lx (eq_sym La))|exact (eq_trans Lpd (eq_sym La))]).
    unfold tgt, vplus. rewrite dot_lin_r by (first [exact (eq_trans Lx (eq_sym La))|exact (eq_trans Ldir (eq_sym La))]). lra. }
  assert (Lsy : length (vminus (tgt s) y) = d) by leng.
  assert (HDi : forall i, (i < n)%nat -> Rabs (adot P i (vminus (tgt s) y)) <= Dinf).
  { intros i Hi. rewrite adot_vminus by (rewrite Lpd, Ly; reflexivity). apply HDinf; auto. }
  pose proof (est_errorL s (vminus (tgt s) y) G Lsy HDi) as He. apply Rabs_le_inv' in He.
  set (ee := (Us s + / INR n * (L * As s)) * Dinf) in *.
  assert (H2 : g * dot (grad_list P (sw_x s)) (vminus (tgt s) (sw_x s)) <= g * (mean_loss P f y - mean_loss P f (sw_x s) + ee)).
  { apply Rmult_le_compat_l; [lra|]. lra. }
  lra.
Qed.
(** the two error sums after a step: exact *)
Definition qin (a e : R) (s : sfw_state RN) (i : nat) : R := ((1 - e) * xi s i + (e - a) * gi s i) * ((1 - e) * xi s i + (e - a) * gi s i).
Definition qout (a : R) (s : sfw_state RN) (i : nat) : R := (xi s i - a * gi s i) * (xi s i - a * gi s i).
Lemma split_sum (A B : nat -> R) (Z : nat -> R) batch : Forall (fun i => (i < n)%nat) batch -> NoDup batch ->
  (forall i, ~ In i batch -> Z i = A i) -> (forall i, In i batch -> Z i = B i) ->
  Rsum (map Z (seq 0 n)) = Rsum (map A (seq 0 n)) + Rsum (map (fun i => B i - A i) batch).
Proof.
  intros F N H1 H2.
  assert (E : Rsum (map (fun i => B i - A i) batch) = Rsum (map (fun i => Z i - A i) batch)).
  { f_equal. apply map_ext_in. intros i Hi. rewrite (H2 i Hi). reflexivity. }
  rewrite E, (Rsum_sub_seq (fun i => Z i - A i) n batch N F).
  - rewrite Rsum_map_minus. ring.
  - intros i _ Hi. rewrite (H1 i Hi). ring.
Qed.
Lemma sums_stepL it batch s r : goodL s -> batch_ok n bs batch -> stepf it batch s = Ok r ->
  let a := alf m (INR (sw_t s)) in let e := elf m (INR (sw_t s)) in
  Vs (si_next r) = Rsum (map (qout a s) (seq 0 n)) + Rsum (map (fun i => qin a e s i - qout a s i) batch) /\
  Us (si_next r) = Us s + Rsum (map (fun i => 0 - Rabs (un s i)) batch).
Proof.
  intros G Hbt E a e. pose proof Hbt as (F & N & _). destruct (good_stepL it batch s r G Hbt E) as (_ & _ & _ & _ & _ & _ & Ho & Hi).
  split.
  - unfold Vs. apply split_sum; auto.
    + intros i Hn. destruct (Ho i Hn) as (-> & _). reflexivity.
    + intros i Hn. destruct (Hi i Hn) as (-> & _). reflexivity.
  - unfold Us. apply (split_sum (fun i => Rabs (un s i)) (fun _ => 0)); auto.
    + intros i Hn. destruct (Ho i Hn) as (_ & ->). reflexivity.
    + intros i Hn. destruct (Hi i Hn) as (_ & ->). apply Rabs_R0.
Qed.
End OneStep.
