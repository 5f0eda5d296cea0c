(** * FloatGroupMain: C130 *)
From Coq Require Import ZArith Reals Lra Lia Bool List.
From Coq Require Import Floats.SpecFloat.
From Flocq Require Import Core.Core IEEE754.BinarySingleNaN.
From Verif Require Import Num Vec Spec SpecSparse RVec ModelPenalty PenaltyFacts PenaltyFacts3 FloatBase FloatSum FloatLogistic FloatGradMain FloatNorm FloatL2 FloatL2Runs FloatGroup.
Import ListNotations.
Local Open Scope R_scope.

Lemma group_call_fun (alpha : R) groups n pen : (forall y : list R, length y = n -> @group_call RN alpha groups y = Ok (pen y)) ->
  forall pen', (forall y : list R, length y = n -> @group_call RN alpha groups y = Ok (pen' y)) -> forall y, length y = n -> pen y = pen' y.
Proof. intros H pen' H' y Hy. specialize (H y Hy). rewrite (H' y Hy) in H. injection H; auto. Qed.
Lemma prox_same (pen pen' : list R -> R) step (x p q : list R) : (forall y, length y = length x -> pen y = pen' y) -> is_prox pen step x p -> is_prox pen' step x q -> p = q.
Proof.
  intros E (Lp & _ & Hp & _) (Lq & _ & _ & Uq). apply Uq; [exact Lp|exact I|].
  specialize (Hp q Lq I). unfold prox_obj in *. rewrite <- !E by assumption. exact Hp.
Qed.
Lemma seg_In s k : In (Z.of_nat k) (seg_group s) <-> In k (seg_idx s).
Proof. unfold seg_group, seg_idx. rewrite in_map_iff. split; [intros (m & E & H); apply Nat2Z.inj in E; subst; exact H|intros H; exists k; auto]. Qed.
Lemma seg_vals (s : nat * nat) (x : list F64) : map (fun z => fv (nth (Z.to_nat z) x n0)) (seg_group s) = map fv (map (fun i => nth i x n0) (seg_idx s)).
Proof. unfold seg_group, seg_idx. rewrite !map_map. apply map_ext. intros k. rewrite Nat2Z.id. reflexivity. Qed.
Lemma gent_R (alpha step : R) (x : list F64) g k : @gent RN alpha step (map fv x) g k =
  (let N := norm2 (map fv (map (fun i => nth i x n0) g)) in if Rltb (alpha * step) N then (1 - alpha * step / N) * fv (nth k x n0) else 0).
Proof.
  unfold gent. cbv zeta. set (v := @vnorm RN _). assert (E : v = norm2 (map fv (map (fun i => nth i x n0) g))).
  2:{ clearbody v. rewrite E. set (N := norm2 _). cbn [nltb nmul nsub ndiv RN]. change (@n0 RN) with 0. rewrite <- fv_nth. destruct (Rltb (alpha * step) N); [|reflexivity]. unfold Rdiv. generalize (fv (nth k x n0)); intros o; change (@eq R (o - step * alpha * o * / N) ((1 - alpha * step * / N) * o)); ring. }
  unfold v. rewrite map_map. unfold vnorm. rewrite (vdot_R _). unfold norm2. f_equal. assert (E : map (fun i => fv (nth i x n0)) g = map (fun i => nth i (map fv x) 0) g) by (apply map_ext; intros i; apply fv_nth). rewrite E. reflexivity.
Qed.
Lemma main_C130_accuracy_partial : forall (alpha step : F64) groups (x : list F64) (pen : list R -> R) (p : list R),
  fin alpha -> fin step -> 0 <= fv alpha -> 0 <= fv step -> fv alpha * fv step <= powerRZ 2 500 ->
  group_init groups = Ok groups -> groups_within (length x) groups -> Forall fin x -> INR (length x) <= 2 ^ 48 ->
  (forall g, In g groups -> let N := norm2 (map (fun z => fv (nth (Z.to_nat z) x n0)) g) in
     N <= powerRZ 2 500 /\ (powerRZ 2 (-450) <= N \/ N = 0 \/ powerRZ 2 (-440) <= fv alpha * fv step)) ->
  (forall y : list R, length y = length x -> @group_call RN (fv alpha) groups y = Ok (pen y)) ->
  is_prox pen (fv step) (map fv x) p ->
  exists out, group_prox alpha groups x step = Ok out /\ length out = length x /\
    forall i, (i < length x)%nat -> fin (nth i out n0) /\
      Rabs (fv (nth i out n0) - nth i p 0) <= (8 * INR (length x) + 40) * / 2 ^ 53 * Rabs (fv (nth i x n0)) + powerRZ 2 (-618) /\
      ((forall g, In g groups -> ~ In (Z.of_nat i) g) -> nth i out n0 = nth i x n0).
Proof.
  intros alpha step groups x pen p Fa Fs Ha Hs Ht Hi Hw Fx Hn Hg Hpen Hp. rewrite powZ_bpow in Ht.
  assert (T0 : 0 <= fv alpha * fv step) by (apply Rmult_le_pos; assumption).
  destruct (group_prox_accepted (fv alpha) (fv step) groups (map fv x) Hi ltac:(rewrite map_length; exact Hw) T0) as (q & pen' & Eq & Hpen' & Hq & _).
  rewrite map_length in Hpen'. rewrite (prox_same pen pen' (fv step) (map fv x) p q) by (try assumption; rewrite map_length; apply (group_call_fun (fv alpha) groups); assumption).
  clear p pen pen' Hp Hpen Hpen' Hq. destruct (within_segs _ groups Hi Hw) as (segs & -> & Hs' & Hb).
  destruct (gp_all alpha step x segs 0 x Hs' Hb eq_refl (fun _ _ => eq_refl)) as (out & Eo & Lo & Io & Oo).
  destruct (gp_all (K:=RN) (fv alpha) (fv step) (map fv x) segs 0 (map fv x) Hs' ltac:(rewrite map_length; exact Hb) eq_refl (fun _ _ => eq_refl)) as (q' & Eq' & Lq & Iq & Oq).
  unfold group_prox in Eq. assert (q' = q) by (rewrite Eq' in Eq; injection Eq; auto). subst q'. clear Eq Eq'.
  exists out. split; [exact Eo|]. split; [exact Lo|]. intros i Hil. pose proof uro_pos as U. pose proof (pos_INR (length x)) as P.
  assert (Fi : fin (nth i x n0)) by (rewrite Forall_forall in Fx; apply Fx, nth_In, Hil).
  assert (T : 0 <= powerRZ 2 (-618)) by (rewrite powZ_bpow; left; apply bpow_gt_0). rewrite <- uro_pow.
  destruct (existsb (fun s => existsb (Nat.eqb i) (seg_idx s)) segs) eqn:E.
  - apply existsb_exists in E as (s & Hin & E). apply existsb_exists in E as (i' & Hii & E). apply Nat.eqb_eq in E. subst i'.
    split; [|split]; [| |intros Hno; exfalso; apply (Hno (seg_group s)); [apply in_map, Hin|apply seg_In, Hii]]; rewrite (Io s i Hin Hii); change (nth i q 0) with (nth i q (@n0 RN)); try rewrite (Iq s i Hin Hii), gent_R; cbv zeta.
    all: destruct (Hg (seg_group s) (in_map _ _ _ Hin)) as (N1 & N2); rewrite !powZ_bpow, seg_vals in *; unfold gent; fold (seg_idx s); set (xs := map (fun j => nth j x n0) (seg_idx s)) in *.
    all: assert (Fxs : Forall fin xs) by (unfold xs; rewrite Forall_map, Forall_forall; intros j Hj; rewrite Forall_forall in Fx; apply Fx, nth_In; apply in_seq in Hj; specialize (Hb s Hin); lia).
    all: assert (Lxs : (length xs <= length x)%nat) by (unfold xs, seg_idx; rewrite map_length, seq_length; specialize (Hb s Hin); lia).
    all: assert (Ho : In (nth i x n0) xs) by (unfold xs; apply (in_map (fun j => nth j x n0)), Hii).
    all: pose proof (le_INR _ _ Lxs) as Li; destruct (group_float alpha step xs (nth i x n0) Fa Fs Ha Hs Ht Fxs ltac:(lra) Ho N1 N2) as (Fr & Br); try exact Fr.
    eapply Rle_trans; [exact Br|]. unfold tiny. rewrite powZ_bpow. apply Rplus_le_compat_r, Rmult_le_compat_r; [apply Rabs_pos|]. unfold enorm. assert (INR (length xs) * uro <= INR (length x) * uro) by (apply Rmult_le_compat_r; lra). lra.
  - assert (No : forall s, In s segs -> ~ In i (seg_idx s)).
    { intros s Hin Hii. assert (existsb (fun s => existsb (Nat.eqb i) (seg_idx s)) segs = true); [|congruence]. apply existsb_exists. exists s. split; [exact Hin|]. apply existsb_exists. exists i. split; [exact Hii|apply Nat.eqb_refl]. }
    rewrite (Oo i No). change (nth i q 0) with (nth i q (@n0 RN)). rewrite (Oq i No). change (@n0 RN) with 0. rewrite <- fv_nth. split; [exact Fi|]. split; [|reflexivity].
    unfold Rminus. rewrite Rplus_opp_r, Rabs_R0. apply Rplus_le_le_0_compat; [|exact T]. apply Rmult_le_pos; [apply Rmult_le_pos; lra|apply Rabs_pos].
Qed.

(** ** groups with an entry of at least 2^512: the norm is inf *)
Lemma norm_inf (x : list F64) b : Forall fin x -> In b x -> bpow radix2 512 <= Rabs (fv b) -> vnorm x = (S754_infinity false : F64).
Proof.
  intros Fx Hb Hj. unfold vnorm. rewrite vdot_sq. assert (E : vsum (map nsq x) = (S754_infinity false : F64)); [|rewrite E; reflexivity].
  apply sum_inf.
  - rewrite Forall_map. eapply Forall_impl; [|exact Fx]. intros a Fa'. apply sq_nnf, Fa'.
  - right. split; [apply fin_0|rewrite fv_0; lra].
  - right. apply in_map_iff. exists b. split; [|exact Hb]. apply sq_nnf; [rewrite Forall_forall in Fx; apply Fx, Hb|].
    apply rnd_ge_repr; [apply repr_bpow; lia|]. unfold fbig. change 1024%Z with (512 + 512)%Z. rewrite bpow_plus.
    replace (fv b * fv b) with (Rabs (fv b) * Rabs (fv b)) by (rewrite <- Rabs_mult; apply Rabs_pos_eq, Rle_0_sqr).
    pose proof (bpow_gt_0 radix2 512). apply Rmult_le_compat; lra.
Qed.
Lemma mul_over' (x y : F64) : fin x -> fin y -> fbig <= Rabs (rnd (fv x * fv y)) -> exists s, nmul F64 x y = S754_infinity s.
Proof.
  intros Hx Hy H'.
  destruct (fin_B _ Hx) as (a & -> & Ha), (fin_B _ Hy) as (b & -> & Hb). cbn [nmul F64]. change f64_prec with 53%Z; change f64_emax with 1024%Z. rewrite mul_B. rewrite !fv_B in H'.
  generalize (Bmult_correct 53 1024 Hprec Hmax mode_NE a b). rewrite Rlt_bool_false by exact H'. intros ->. eexists. reflexivity.
Qed.
Lemma mul_over (x y : F64) : fin x -> fin y -> bpow radix2 1024 <= Rabs (fv x * fv y) -> exists s, nmul F64 x y = S754_infinity s.
Proof. intros Hx Hy H. apply mul_over'; try assumption. rewrite <- rnd_abs. apply rnd_ge_repr; [apply repr_bpow; lia|exact H]. Qed.
Lemma mul_comm_fin (x y : F64) : fin x -> fin y -> fin (nmul F64 x y) -> fin (nmul F64 y x).
Proof.
  intros Hx Hy Hm. destruct (Rlt_le_dec (Rabs (rnd (fv x * fv y))) fbig) as [H|H].
  - apply mul_fin; try assumption. rewrite Rmult_comm. exact H.
  - exfalso. destruct (mul_over' x y Hx Hy H) as (s & E). rewrite E in Hm. destruct Hm as (Q & _). discriminate Q.
Qed.
Lemma fin_lt_inf (x : F64) : fin x -> nltb F64 x (S754_infinity false) = true.
Proof. intros (Q & _). destruct x as [s|s| |s m e]; try reflexivity; discriminate Q. Qed.
Lemma fin_div_inf (x : F64) : fin x -> fin (ndiv F64 x (S754_infinity false)) /\ fv (ndiv F64 x (S754_infinity false)) = 0.
Proof. intros (Q & _). destruct x as [s|s| |s m e]; try discriminate Q; (split; [split; reflexivity|reflexivity]). Qed.
Lemma main_C130_overflow_partial : forall (alpha step : F64) groups (x : list F64) g j,
  fin alpha -> fin step -> fin (nmul F64 step alpha) -> group_init groups = Ok groups -> groups_within (length x) groups -> Forall fin x ->
  In g groups -> In (Z.of_nat j) g -> powerRZ 2 512 <= Rabs (fv (nth j x n0)) ->
  exists out, group_prox alpha groups x step = Ok out /\ length out = length x /\
    forall k, In (Z.of_nat k) g ->
      (Rabs (fv (nmul F64 step alpha) * fv (nth k x n0)) <= powerRZ 2 1023 -> fin (nth k out n0) /\ fv (nth k out n0) = fv (nth k x n0)) /\
      (powerRZ 2 1024 <= Rabs (fv (nmul F64 step alpha) * fv (nth k x n0)) -> nth k out n0 = S754_nan).
Proof.
  intros alpha step groups x g j Fa Fs Fu Hi Hw Fx Hg Hj Hbig. rewrite powZ_bpow in Hbig. destruct (within_segs _ groups Hi Hw) as (segs & -> & Hs' & Hb).
  destruct (gp_all alpha step x segs 0 x Hs' Hb eq_refl (fun _ _ => eq_refl)) as (out & Eo & Lo & Io & _).
  exists out. split; [exact Eo|]. split; [exact Lo|]. intros k Hk. apply in_map_iff in Hg as (s & <- & Hin). apply seg_In in Hk. apply seg_In in Hj.
  rewrite (Io s k Hin Hk). unfold gent. fold (seg_idx s). set (xs := map (fun i => nth i x n0) (seg_idx s)) in *.
  assert (Fk : forall i, In i (seg_idx s) -> fin (nth i x n0)) by (intros i Hi'; rewrite Forall_forall in Fx; apply Fx, nth_In; apply in_seq in Hi'; specialize (Hb s Hin); lia).
  assert (Fxs : Forall fin xs) by (unfold xs; rewrite Forall_map, Forall_forall; exact Fk).
  rewrite (norm_inf xs (nth j x n0) Fxs (in_map (fun i => nth i x n0) _ _ Hj) Hbig). specialize (Fk k Hk). set (o := nth k x n0) in *.
  assert (Ft : fin (nmul F64 alpha step)) by (apply mul_comm_fin; assumption).
  rewrite (fin_lt_inf _ Ft). rewrite !powZ_bpow. split; intros H.
  - destruct (mul_fin _ _ Fu Fk (rnd_fits _ H)) as (Fm & _). destruct (fin_div_inf _ Fm) as (Fd & Vd).
    assert (E : fv o - fv (ndiv F64 (nmul F64 (nmul F64 step alpha) o) (S754_infinity false)) = fv o) by (rewrite Vd; ring).
    destruct (sub_fin _ _ Fk Fd) as (Fr & Vr); [rewrite E, rnd_fin by exact Fk; apply fin_small, Fk|]. split; [exact Fr|]. rewrite Vr, E. apply rnd_fin, Fk.
  - destruct (mul_over _ _ Fu Fk H) as (b & ->). change (ndiv F64 (S754_infinity b) (S754_infinity false)) with (S754_nan : F64). destruct o; reflexivity.
Qed.
Lemma main_C130_refuted : exists (alpha step x : F64) (pen : list R -> R) (p : R),
  fin alpha /\ fin step /\ fin x /\ 0 < fv alpha /\ 0 < fv step /\ group_init [[0%Z]] = Ok [[0%Z]] /\
  (forall y : list R, length y = 1%nat -> @group_call RN (fv alpha) [[0%Z]] y = Ok (pen y)) /\
  is_prox pen (fv step) [fv x] [p] /\ 0 < p < fv x /\ group_prox alpha [[0%Z]] [x] step = Ok [S754_nan].
Proof.
  set (G := [[0%Z]]).
  assert (Hi : group_init G = Ok G) by reflexivity. assert (Hw : groups_within 1 G) by (unfold groups_within, G; constructor; [split; [discriminate|constructor; [cbn; lia|constructor]]|constructor]).
  assert (Va : fv (f2p 599) = bpow radix2 599) by apply fv_f2p. assert (Vx : fv (f2p 600) = bpow radix2 600) by apply fv_f2p. assert (V1 : fv (f2p 0) = 1) by apply fv_f2p.
  pose proof (bpow_gt_0 radix2 599) as P. assert (E2 : bpow radix2 600 = 2 * bpow radix2 599) by (change 600%Z with (1 + 599)%Z; rewrite bpow_plus; reflexivity).
  destruct (group_prox_accepted (fv (f2p 599)) (fv (f2p 0)) G [fv (f2p 600)] Hi Hw) as (q & pen & Eq & Hpen & Hq & _); [rewrite Va, V1; lra|].
  exists (f2p 599), (f2p 0), (f2p 600), pen, (bpow radix2 599). split; [split; reflexivity|]. split; [split; reflexivity|]. split; [split; reflexivity|].
  split; [rewrite Va; exact P|]. split; [rewrite V1; lra|]. split; [exact Hi|]. split; [exact Hpen|]. split; [|split; [rewrite Vx; lra|vm_compute; reflexivity]].
  assert (q = [bpow radix2 599]); [|subst q; exact Hq].
  destruct (gp_all (K:=RN) (fv (f2p 599)) (fv (f2p 0)) (map fv [f2p 600]) [(0, 1)%nat] 0 (map fv [f2p 600])) as (q' & Eq' & Lq & Iq & _); [repeat split; lia|intros s [<-|[]]; cbn; lia|reflexivity|reflexivity|].
  assert (q' = q) by (unfold group_prox in Eq; assert (Ok q' = Ok q) by exact (eq_trans (eq_sym Eq') Eq); congruence). subst q'.
  specialize (Iq (0, 1)%nat 0%nat (or_introl eq_refl) (or_introl eq_refl)). rewrite gent_R in Iq. cbv zeta in Iq. cbn [seq fst snd map nth] in Iq.
  assert (N : norm2 [fv (f2p 600)] = bpow radix2 600) by (rewrite Vx; unfold norm2; cbn [dot]; rewrite Rplus_0_r; apply sqrt_square; lra).
  rewrite N, Va, V1, Vx, Rltb_true in Iq by lra. destruct q as [|q0 [|? ?]]; cbn in Lq; try discriminate Lq. f_equal. cbn [nth] in Iq. transitivity ((1 - bpow radix2 599 * 1 / bpow radix2 600) * bpow radix2 600); [exact Iq|]. rewrite E2. clear - P. set (b := bpow radix2 599) in *. change (@eq R ((1 - b * 1 / (2 * b)) * (2 * b)) b). field. lra.
Qed.
(** a run: two groups and a free entry; the first group is shrunk, the second is set to zero *)
Lemma run_C130 : let x := [f2p 2; f2p 0; nopp F64 (f2p (-3)); f2p 5] : list F64 in group_init [[0; 1]; [2]]%Z = Ok [[0; 1]; [2]]%Z /\ groups_within (length x) [[0; 1]; [2]]%Z /\ Forall fin x /\
  exists a b, group_prox (f2p 0) [[0; 1]; [2]]%Z x (f2p (-1)) = Ok [a; b; n0; f2p 5] /\ 0 < fv b < fv (f2p 0) /\ fv (f2p 1) < fv a < fv (f2p 2).
Proof.
  cbv zeta. split; [reflexivity|]. split; [unfold groups_within; repeat (apply Forall_cons || apply Forall_nil || (split; [discriminate|])); cbn; lia|]. split; [repeat (apply Forall_cons || apply Forall_nil); split; reflexivity|].
  eexists. eexists. split; [vm_compute; reflexivity|]. rewrite !fv_f2p. unfold fv, SF2R, F2R. cbn. lra.
Qed.
