(** * FloatGroup: GroupL1.prox in binary64 *)
From Coq Require Import ZArith Reals Lra Lia Bool List.
From Coq Require Import Floats.SpecFloat.
From Flocq Require Import Core.Core IEEE754.BinarySingleNaN.
From Verif Require Import Num Vec Spec SpecSparse RVec ModelPenalty PenaltyFacts PenaltyFacts3 FloatBase FloatSum FloatLogistic FloatGradMain FloatNorm FloatL2 FloatL2Runs.
Import ListNotations.
Local Open Scope R_scope.

(** ** what group_prox writes, for every arithmetic *)
Section Generic.
Context {K : Num}.
Definition gent (alpha step : K) (x : list K) (g : list nat) (k : nat) : K :=
  let norm := vnorm (map (fun i => nth i x n0) g) in
  if nltb K (nmul K alpha step) norm then nsub K (nth k x n0) (ndiv K (nmul K (nmul K step alpha) (nth k x n0)) norm) else n0.
Lemma gp_one (alpha step : K) (x : list K) a l (out : list K) :
  (a + l <= length x)%nat -> length out = length x -> (forall k, In k (seq a l) -> nth k out n0 = nth k x n0) ->
  exists out', group_prox_one alpha x step (map Z.of_nat (seq a l)) out = Ok out' /\ length out' = length x /\
    (forall k, In k (seq a l) -> nth k out' n0 = gent alpha step x (seq a l) k) /\ (forall k, ~ In k (seq a l) -> nth k out' n0 = nth k out n0).
Proof.
  intros Hn Hlo Hsame. unfold group_prox_one, gent. rewrite group_idx_ok by exact Hn. cbn [bind].
  rewrite (gather_ok x _ n0) by (apply seq_lt, Hn). cbn [bind]. set (w := vnorm _). destruct (nltb K (nmul K alpha step) w).
  - rewrite (gather_ok out _ n0) by (apply seq_lt; lia). cbn [bind]. rewrite map_map.
    destruct (scatter_ok (fun k => nsub K (nth k out n0) (ndiv K (nmul K (nmul K step alpha) (nth k out n0)) w)) (seq a l) out) as (o & He & Hl & H1 & H2).
    { apply seq_NoDup. } { apply seq_lt; lia. }
    exists o. split; [exact He|]. split; [lia|]. split; intros k Hk; [|apply H2, Hk]. rewrite H1 by exact Hk. rewrite Hsame by exact Hk. reflexivity.
  - destruct (scatter_ok (fun _ => @n0 K) (seq a l) out) as (o & He & Hl & H1 & H2). { apply seq_NoDup. } { apply seq_lt; lia. }
    exists o. split; [exact He|]. split; [lia|]. split; intros k Hk; auto.
Qed.
Lemma gp_all (alpha step : K) (x : list K) : forall segs lo (out : list K),
  segs_ok lo segs -> (forall s, In s segs -> (fst s + snd s <= length x)%nat) -> length out = length x -> (forall k, (lo <= k)%nat -> nth k out n0 = nth k x n0) ->
  exists out', forM (map seg_group segs) (group_prox_one alpha x step) out = Ok out' /\ length out' = length x /\
    (forall s k, In s segs -> In k (seq (fst s) (snd s)) -> nth k out' n0 = gent alpha step x (seq (fst s) (snd s)) k) /\
    (forall k, (forall s, In s segs -> ~ In k (seq (fst s) (snd s))) -> nth k out' n0 = nth k out n0).
Proof.
  induction segs as [|[a l] segs IH]; intros lo out Hok Hb Hl Hs; cbn [map forM].
  - exists out. repeat split; auto. intros s k [].
  - destruct Hok as (H1 & H2 & H3). destruct (gp_one alpha step x a l out) as (o & He & Hlo & Hi & Ho).
    { apply (Hb (a, l)); left; reflexivity. } { exact Hl. } { intros k Hk. apply in_seq in Hk. apply Hs. lia. }
    unfold seg_group at 1; cbn [fst snd]. rewrite He. cbn [bind].
    destruct (IH (a + l)%nat o H3) as (o' & He' & Hl' & Hi' & Ho').
    { intros s Hin; apply Hb; right; exact Hin. } { exact Hlo. } { intros k Hk. rewrite Ho by (rewrite in_seq; lia). apply Hs; lia. }
    exists o'. split; [exact He'|]. split; [exact Hl'|]. split.
    + intros s k [<-|Hin] Hk; [|apply Hi'; assumption]. cbn [fst snd] in *. rewrite Ho'; [apply Hi, Hk|]. intros s Hin Hk'.
      destruct (segs_ok_in _ _ _ H3 Hin). apply in_seq in Hk. apply in_seq in Hk'. lia.
    + intros k Hk. rewrite Ho' by (intros s Hin; apply Hk; right; exact Hin). apply Ho. apply (Hk (a, l)). left; reflexivity.
Qed.
End Generic.

(** ** one entry, over the reals.  [T]: absolute error of the quotient; [z]: absolute error of the rounded threshold *)
Lemma group_entry (o N w e t tc m2 r T z : R) (cw cn : bool) : 0 < N -> Rabs o <= N -> 0 <= e <= / 15 -> 0 <= t -> 0 <= z <= / 1000 * N -> 0 <= T ->
  Rabs (w - N) <= e * N -> Rabs (tc - t) <= uro * t + z -> 0 <= tc ->
  (if cw then tc < w else w <= tc) -> (if cn then t < N else N <= t) ->
  (if cw then Rabs (m2 - tc * o / N) <= (2 * e + 3 * uro) * Rabs (tc * o / N) + T /\ Rabs (r - (o - m2)) <= uro * Rabs (o - m2) else r = 0) ->
  Rabs (r - (if cn then (1 - t / N) * o else 0)) <= (4 * e + 16 * uro) * Rabs o + (2 * T + 4 * z).
Proof.
  intros HN Ho He Ht Hz HT Hw Htc Tc0 Cw Cn Hr. pose proof uro_pos as U. assert (U1 : uro <= / 1000) by (rewrite uro_val; lra). apply Rabs_le_inv in Hw. apply Rabs_le_inv in Htc.
  assert (E15 : e * N <= / 15 * N) by (apply Rmult_le_compat_r; lra). assert (UT : uro * t <= / 1000 * t) by (apply Rmult_le_compat_r; lra).
  pose proof (Rabs_pos o) as O0. assert (eo : 0 <= e * Rabs o) by (apply Rmult_le_pos; lra). assert (uo : 0 <= uro * Rabs o) by (apply Rmult_le_pos; lra).
  set (c := t / N). assert (Hc : c * N = t) by (unfold c; field; lra). assert (C0 : 0 <= c) by (unfold c, Rdiv; apply Rmult_le_pos; [lra|left; apply Rinv_0_lt_compat; lra]).
  set (b := tc / N). assert (Hb : b * N = tc) by (unfold b; field; lra). assert (B0 : 0 <= b) by (unfold b, Rdiv; apply Rmult_le_pos; [lra|left; apply Rinv_0_lt_compat; lra]).
  set (y := z / N). assert (Hy : y * N = z) by (unfold y; field; lra). assert (Y0 : 0 <= y) by (unfold y, Rdiv; apply Rmult_le_pos; [lra|left; apply Rinv_0_lt_compat; lra]).
  assert (Y1 : y <= / 1000) by (apply Rmult_le_reg_r with N; [exact HN|rewrite Hy; lra]).
  assert (yo : y * Rabs o <= z) by (rewrite <- Hy; apply Rmult_le_compat_l; lra). assert (yo0 : 0 <= y * Rabs o) by (apply Rmult_le_pos; lra).
  assert (Bc : - (uro * c + y) <= b - c <= uro * c + y). { split; apply Rmult_le_reg_r with N; try exact HN; replace ((b - c) * N) with (tc - t) by (rewrite <- Hc, <- Hb; ring); [replace (- (uro * c + y) * N) with (- (uro * t + z)) by (rewrite <- Hc, <- Hy; ring)|replace ((uro * c + y) * N) with (uro * t + z) by (rewrite <- Hc, <- Hy; ring)]; lra. }
  assert (Uc : uro * c <= / 1000 * c) by (apply Rmult_le_compat_r; lra).
  destruct cw.
  - destruct Hr as (M2 & Mr). replace (tc * o / N) with (b * o) in M2 by (unfold b; field; lra). rewrite rabs_mul_pos in M2 by exact B0.
    assert (B1 : b <= 1 + e) by (apply Rmult_le_reg_r with N; [exact HN|rewrite Hb; lra]).
    assert (C1 : c <= 11 / 10) by lra. assert (Uc' : uro * c <= 11 / 10 * uro) by (rewrite Rmult_comm; apply Rmult_le_compat_r; lra).
    assert (bo : b * Rabs o <= 16 / 15 * Rabs o) by (apply Rmult_le_compat_r; lra).
    assert (K1 : (2 * e + 3 * uro) * (b * Rabs o) <= (2 * e + 3 * uro) * (16 / 15 * Rabs o)) by (apply Rmult_le_compat_l; lra).
    assert (K2 : Rabs ((b - c) * o) <= (11 / 10 * uro + y) * Rabs o) by (rewrite Rabs_mult; apply Rmult_le_compat_r; [lra|apply Rabs_le; lra]).
    assert (D1 : Rabs (m2 - c * o) <= (5 / 2 * e + 5 * uro) * Rabs o + T + z). { replace (m2 - c * o) with ((m2 - b * o) + (b - c) * o) by ring. eapply Rle_trans; [apply Rabs_triang|]. lra. }
    assert (eo15 : e * Rabs o <= / 15 * Rabs o) by (apply Rmult_le_compat_r; lra). assert (uo1 : uro * Rabs o <= / 1000 * Rabs o) by (apply Rmult_le_compat_r; lra).
    assert (D2 : Rabs (o - m2) <= 5 / 2 * Rabs o + T + z).
    { replace (o - m2) with ((1 - c) * o - (m2 - c * o)) by ring. eapply Rle_trans; [apply Rabs_triang|]. rewrite Rabs_Ropp, Rabs_mult.
      assert (Rabs (1 - c) <= 2) by (apply Rabs_le; lra). assert (Rabs (1 - c) * Rabs o <= 2 * Rabs o) by (apply Rmult_le_compat_r; lra). lra. }
    assert (D3 : uro * Rabs (o - m2) <= uro * (5 / 2 * Rabs o + T + z)) by (apply Rmult_le_compat_l; lra).
    assert (uT : uro * T <= / 1000 * T) by (apply Rmult_le_compat_r; lra). assert (uz : uro * z <= / 1000 * z) by (apply Rmult_le_compat_r; lra).
    assert (D4 : Rabs (r - (1 - c) * o) <= (5 / 2 * e + 8 * uro) * Rabs o + 3 / 2 * T + 3 / 2 * z).
    { replace (r - (1 - c) * o) with ((r - (o - m2)) - (m2 - c * o)) by ring. eapply Rle_trans; [apply Rabs_triang|]. rewrite Rabs_Ropp. lra. }
    destruct cn; [fold c; lra|]. assert (C2 : 1 <= c) by (apply Rmult_le_reg_r with N; [exact HN|rewrite Hc; lra]).
    assert (K5 : (c - 1) * Rabs o <= (e + 11 / 10 * uro + y) * Rabs o) by (apply Rmult_le_compat_r; lra).
    replace (r - 0) with ((r - (1 - c) * o) + - ((c - 1) * o)) by ring. eapply Rle_trans; [apply Rabs_triang|]. rewrite Rabs_Ropp, (rabs_mul_pos (c - 1)) by lra. lra.
  - subst r. destruct cn; [|replace (0 - 0) with 0 by ring; rewrite Rabs_R0; lra]. fold c.
    assert (C2 : c <= 1) by (apply Rmult_le_reg_r with N; [exact HN|rewrite Hc; lra]). assert (B2 : 1 - e <= b) by (apply Rmult_le_reg_r with N; [exact HN|rewrite Hb; lra]).
    assert (Uc' : uro * c <= uro * 1) by (apply Rmult_le_compat_l; lra).
    replace (0 - (1 - c) * o) with (- ((1 - c) * o)) by ring. rewrite Rabs_Ropp, rabs_mul_pos by lra.
    assert ((1 - c) * Rabs o <= (e + uro + y) * Rabs o) by (apply Rmult_le_compat_r; lra). lra.
Qed.

(** ** the norm of a group whose exact norm is zero or tiny *)
Lemma norm_zero (x : list F64) : Forall fin x -> sqs x = 0 -> fin (vnorm x) /\ fv (vnorm x) = 0.
Proof.
  intros Fx Hs. unfold vnorm. rewrite vdot_sq.
  assert (G : forall y : list F64, Forall fin y -> sqs y = 0 -> forall a : F64, fin a -> fv a = 0 -> fin (fold_left (nadd F64) (map nsq y) a) /\ fv (fold_left (nadd F64) (map nsq y) a) = 0).
  { assert (Z : Rabs (rnd 0) < fbig) by (apply rnd_fits; rewrite Rabs_R0; apply bpow_ge_0).
    assert (R0' : rnd 0 = 0) by (apply round_0; typeclasses eauto).
    intros y Fy. induction Fy as [|b y Fb Fy IH]; intros Hy a Fa Va; [split; assumption|]. unfold sqs in Hy; cbn [map Rsum] in Hy. fold (sqs y) in Hy.
    pose proof (sqs_pos y) as P. pose proof (Rle_0_sqr (fv b)) as Q. unfold Rsqr in Q. assert (Q' : fv b * fv b = 0) by lra. assert (P' : sqs y = 0) by lra.
    cbn [map fold_left]. destruct (mul_fin b b Fb Fb) as (Fm & Vm); [rewrite Q'; exact Z|]. rewrite Q', R0' in Vm. change (nmul F64 b b) with (nsq b) in *.
    destruct (add_fin a (nsq b) Fa Fm) as (Fs & Vs); [rewrite Va, Vm, Rplus_0_l; exact Z|]. rewrite Va, Vm, Rplus_0_l, R0' in Vs. apply IH; assumption. }
  destruct (G x Fx Hs n0 fin_0 fv_0) as (Fs & Vs). unfold vsum. destruct (sqrt_fin _ Fs) as (Fw & Vw); [rewrite Vs; lra|]. split; [exact Fw|]. rewrite Vw, Vs, sqrt_0. apply round_0; typeclasses eauto.
Qed.
Lemma sum_nnf (l : list F64) : Forall nnf l -> forall a, nnf a -> nnf (fold_left (nadd F64) l a).
Proof. induction 1 as [|b l Hb _ IH]; intros a Ha; [exact Ha|]. cbn [fold_left]. apply IH. apply add_nnf; assumption. Qed.
Lemma sumsq_pos (x : list F64) : Forall fin x -> fin (vsum (map nsq x)) -> 0 <= fv (vsum (map nsq x)).
Proof.
  intros Fx Fs. assert (N : nnf (vsum (map nsq x))).
  { apply sum_nnf; [|right; split; [exact fin_0|rewrite fv_0; lra]]. rewrite Forall_map. eapply Forall_impl; [|exact Fx]. intros a Fa. apply sq_nnf, Fa. }
  destruct N as [E|[_ N]]; [rewrite E in Fs; destruct (fin_B _ Fs) as (b & Eb & Fb); destruct b; discriminate|exact N].
Qed.
Lemma norm_tiny (x : list F64) : Forall fin x -> INR (length x) <= 2 ^ 48 -> sqs x <= bpow radix2 (-900) -> fin (vnorm x) /\ fv (vnorm x) <= bpow radix2 (-449).
Proof.
  intros Fx Hn Hs. unfold vnorm. rewrite vdot_sq, vsum_sq. set (n := length x) in *. set (N2 := sqs x) in *. pose proof uro_pos as U. pose proof (enorm_small n Hn) as En. pose proof (pos_INR n) as Pn.
  set (l := map (fun t : F64 => (t, t)) x). assert (El : length l = n) by (unfold l, n; apply map_length).
  assert (S1 : Rsum (map (fun pq : F64 * F64 => fv (fst pq) * fv (snd pq)) l) = N2) by (unfold l, N2, sqs; rewrite map_map; reflexivity).
  assert (S2 : Rsum (map (fun pq : F64 * F64 => Rabs (fv (fst pq) * fv (snd pq))) l) = N2).
  { rewrite <- S1. f_equal. apply map_ext_in. intros pq Hin. unfold l in Hin. apply in_map_iff in Hin as (t & <- & _). cbn [fst snd]. apply Rabs_pos_eq. apply Rle_0_sqr. }
  assert (B1 : bpow radix2 (-900) <= bpow radix2 1010) by (apply bpow_le; lia).
  assert (Fl : Forall (fun pq : F64 * F64 => fin (fst pq) /\ fin (snd pq)) l).
  { unfold l. rewrite Forall_map. eapply Forall_impl; [|exact Fx]. intros a Ha. split; exact Ha. }
  assert (Hn' : INR (length l) <= 2 ^ 50) by (rewrite El; lra).
  destruct (facc_fin l Fl Hn' ltac:(rewrite S2; lra)) as (Fs & _).
  assert (HD : Forall (fun pq : F64 * F64 => datum (fst pq) /\ datum (snd pq)) l) by (eapply Forall_impl; [|exact Fl]; intros a [A1 A2]; split; apply fin_datum; assumption).
  pose proof (facc_err0 l HD Fs) as Er. rewrite S1, S2, El in Er.
  assert (G : gam n <= 1).
  { unfold gam. pose proof (pow_lin (S n)) as Q. rewrite S_INR in Q. assert (2 * (INR n + 1) * uro <= 1) by (unfold enorm in En; lra). specialize (Q H). unfold enorm in En; lra. }
  assert (Un : und n <= bpow radix2 (-900)).
  { unfold und. pose proof (pow_lin n) as Q. assert (2 * INR n * uro <= 1) by (unfold enorm in En; lra). specialize (Q H).
    assert (P1 : 0 <= (1 + uro) ^ n <= 2) by (split; [apply pow_le; lra|lra]).
    apply Rle_trans with (2 ^ 48 * 2 * eta); [apply Rmult_le_compat_r; [left; apply eta_pos|]; apply Rmult_le_compat; lra|].
    replace (2 ^ 48 * 2) with (bpow radix2 49) by (cbn; ring). unfold eta. rewrite <- !bpow_plus. apply bpow_le. lia. }
  pose proof (sqs_pos x) as N0. fold N2 in N0. assert (gam n * N2 <= 1 * N2) by (apply Rmult_le_compat_r; lra).
  apply Rabs_le_inv in Er. assert (E4 : bpow radix2 (-898) = 4 * bpow radix2 (-900)) by (change (-898)%Z with (2 + -900)%Z; rewrite bpow_plus; reflexivity).
  assert (Su : fv (facc l n0) <= bpow radix2 (-898)) by lra.
  assert (S0 : 0 <= fv (facc l n0)). { pose proof (vsum_sq x) as V. fold l in V. rewrite <- V. apply sumsq_pos; [exact Fx|]. rewrite V. exact Fs. }
  destruct (sqrt_fin _ Fs S0) as (Fw & Vw). split; [exact Fw|]. rewrite Vw.
  rewrite <- (rnd_repr (bpow radix2 (-449))) by (apply repr_bpow; lia). apply rnd_le.
  replace (bpow radix2 (-449)) with (sqrt (bpow radix2 (-898))); [apply sqrt_le_1_alt, Su|]. replace (-898)%Z with (-449 + -449)%Z by lia. rewrite bpow_plus. apply sqrt_square. left; apply bpow_gt_0.
Qed.

(** ** one entry of one group, in binary64 *)
Definition tiny : R := powerRZ 2 (-618).
Lemma group_float (alpha step : F64) (xs : list F64) (o : F64) : fin alpha -> fin step -> 0 <= fv alpha -> 0 <= fv step -> fv alpha * fv step <= bpow radix2 500 ->
  Forall fin xs -> INR (length xs) <= 2 ^ 48 -> In o xs -> norm2 (map fv xs) <= bpow radix2 500 ->
  (bpow radix2 (-450) <= norm2 (map fv xs) \/ norm2 (map fv xs) = 0 \/ bpow radix2 (-440) <= fv alpha * fv step) ->
  let r := if nltb F64 (nmul F64 alpha step) (vnorm xs) then nsub F64 o (ndiv F64 (nmul F64 (nmul F64 step alpha) o) (vnorm xs)) else n0 in
  fin r /\ Rabs (fv r - (if Rltb (fv alpha * fv step) (norm2 (map fv xs)) then (1 - fv alpha * fv step / norm2 (map fv xs)) * fv o else 0)) <= (4 * enorm (length xs) + 16 * uro) * Rabs (fv o) + tiny.
Proof.
  intros Fa Fs Ha Hs Ht Fx Hn Ho HN Hc. set (n := length xs) in *. pose proof (enorm_small n Hn) as En. pose proof uro_pos as U. pose proof eta_pos as Et. assert (U1 : uro <= / 1000) by (rewrite uro_val; lra).
  set (N := norm2 (map fv xs)) in *. assert (EN : N = sqrt (sqs xs)) by (unfold N, norm2; rewrite sqs_dot; reflexivity).
  assert (N0 : 0 <= N) by (rewrite EN; apply sqrt_pos). assert (ES : sqs xs = N * N) by (rewrite EN; symmetry; apply sqrt_sqrt, sqs_pos).
  set (t := fv alpha * fv step) in *. assert (T0 : 0 <= t) by (apply Rmult_le_pos; assumption).
  assert (B5 : bpow radix2 500 <= bpow radix2 1023) by (apply bpow_le; lia).
  destruct (mul_fin alpha step Fa Fs) as (Ft & Vt); [apply rnd_fits; fold t; rewrite Rabs_pos_eq; lra|]. fold t in Vt.
  destruct (mul_fin step alpha Fs Fa) as (Fu & Vu); [apply rnd_fits; rewrite Rmult_comm; fold t; rewrite Rabs_pos_eq; lra|]. rewrite Rmult_comm in Vu. fold t in Vu.
  assert (Tiny0 : 0 <= tiny) by (unfold tiny; rewrite powZ_bpow; apply bpow_ge_0).
  assert (Z0 : 0 <= (4 * enorm n + 16 * uro) * Rabs (fv o) + tiny) by (apply Rplus_le_le_0_compat; [apply Rmult_le_pos; [lra|apply Rabs_pos]|exact Tiny0]).
  pose proof (rnd_err t) as Etc. rewrite (Rabs_pos_eq t) in Etc by exact T0. set (tc := rnd t) in *.
  assert (Tc0 : 0 <= tc). { unfold tc. replace 0 with (rnd 0) by (apply round_0; typeclasses eauto). apply rnd_le, T0. }
  assert (Low : fin (vnorm xs) -> fv (vnorm xs) <= tc -> N <= t -> fin (if nltb F64 (nmul F64 alpha step) (vnorm xs) then nsub F64 o (ndiv F64 (nmul F64 (nmul F64 step alpha) o) (vnorm xs)) else n0) /\
     Rabs (fv (if nltb F64 (nmul F64 alpha step) (vnorm xs) then nsub F64 o (ndiv F64 (nmul F64 (nmul F64 step alpha) o) (vnorm xs)) else n0) - (if Rltb t N then (1 - t / N) * fv o else 0)) <= (4 * enorm n + 16 * uro) * Rabs (fv o) + tiny).
  { intros Fw Lw LN. rewrite (ltb_fin _ _ Ft Fw), Vt, (Rltb_false tc) by exact Lw. rewrite (Rltb_false t N) by exact LN. split; [exact fin_0|]. rewrite fv_0, Rminus_0_r, Rabs_R0. exact Z0. }
  destruct (Rle_lt_dec (bpow radix2 (-450)) N) as [NL|NS].
  2:{ destruct Hc as [Hc|[Hc|Hc]]; [lra| |].
    - destruct (norm_zero xs Fx ltac:(rewrite ES, Hc; ring)) as (Fw & Vw). apply Low; [exact Fw|rewrite Vw; exact Tc0|rewrite Hc; exact T0].
    - destruct (norm_tiny xs Fx Hn) as (Fw & Vw). { rewrite ES. change (-900)%Z with (-450 + -450)%Z. rewrite bpow_plus. apply Rmult_le_compat; lra. }
      assert (Tc : bpow radix2 (-440) <= tc). { rewrite <- (rnd_repr (bpow radix2 (-440))) by (apply repr_bpow; lia). apply rnd_le, Hc. }
      assert (bpow radix2 (-449) <= bpow radix2 (-440)) by (apply bpow_le; lia). assert (bpow radix2 (-450) <= bpow radix2 (-440)) by (apply bpow_le; lia). apply Low; [exact Fw|lra|lra]. }
  clear Low Hc. assert (NP : 0 < N) by (pose proof (bpow_gt_0 radix2 (-450)); lra).
  assert (Hsq : bpow radix2 (-900) <= sqs xs <= bpow radix2 1000).
  { rewrite ES. change (-900)%Z with (-450 + -450)%Z. change 1000%Z with (500 + 500)%Z. rewrite !bpow_plus. pose proof (bpow_gt_0 radix2 (-450)). split; apply Rmult_le_compat; lra. }
  destruct (norm_err xs Fx Hn Hsq) as (Fw & Ew). rewrite <- EN in Ew. fold n in Ew. replace (nsqrt F64 (vsum (map nsq xs))) with (vnorm xs) in Fw, Ew by (unfold vnorm; rewrite vdot_sq; reflexivity).
  set (w := vnorm xs) in *. clearbody w. destruct (inv_near N (fv w) (enorm n) NP En Ew) as (Pw & B1 & _).
  assert (Fo : fin o) by (rewrite Forall_forall in Fx; apply Fx, Ho).
  assert (Ao : Rabs (fv o) <= N). { destruct (In_nth _ _ n0 Ho) as (k & _ & <-). pose proof (entry_le xs k) as Xi. rewrite ES in Xi. apply Rsqr_incr_0_var; [rewrite <- Rsqr_abs; exact Xi|lra]. }
  assert (I : / N <= bpow radix2 450). { replace (bpow radix2 450) with (/ bpow radix2 (-450)) by (rewrite <- bpow_opp; reflexivity). apply Rinv_le_contravar; [apply bpow_gt_0|exact NL]. }
  assert (EtN : eta / N <= bpow radix2 (-625)). { unfold Rdiv, eta. apply Rle_trans with (bpow radix2 (-1075) * bpow radix2 450); [apply Rmult_le_compat_l; [left; apply bpow_gt_0|exact I]|]. rewrite <- bpow_plus. apply bpow_le; lia. }
  assert (Z : 0 <= eta / N) by (unfold Rdiv; apply Rmult_le_pos; [lra|left; apply Rinv_0_lt_compat; lra]).
  assert (Es : eta <= bpow radix2 (-625)) by (unfold eta; apply bpow_le; lia). assert (E128 : tiny = 128 * bpow radix2 (-625)) by (unfold tiny; rewrite powZ_bpow; change (-618)%Z with (7 + -625)%Z; rewrite bpow_plus; reflexivity).
  pose proof (bpow_gt_0 radix2 (-625)) as P625.
  assert (Ez : eta <= / 1000 * N). { apply Rle_trans with (/ 1000 * bpow radix2 (-450)); [|apply Rmult_le_compat_l; lra]. apply Rle_trans with (bpow radix2 (-10 - 450 + -10)); [unfold eta; apply bpow_le; lia|]. replace (-10 - 450 + -10)%Z with (-20 + -450)%Z by lia. rewrite bpow_plus. apply Rmult_le_compat_r; [apply bpow_ge_0|]. cbn. lra. }
  rewrite (ltb_fin _ _ Ft Fw), Vt.
  assert (Main : let r := if Rltb tc (fv w) then nsub F64 o (ndiv F64 (nmul F64 (nmul F64 step alpha) o) w) else n0 in
    fin r /\ exists m2, if Rltb tc (fv w) then Rabs (m2 - tc * fv o / N) <= (2 * enorm n + 3 * uro) * Rabs (tc * fv o / N) + (2 * (eta / N) + eta) /\ Rabs (fv r - (fv o - m2)) <= uro * Rabs (fv o - m2) else fv r = 0).
  { destruct (Rltb tc (fv w)) eqn:C; [|split; [exact fin_0|exists 0; exact fv_0]]. apply Rltb_iff in C. cbv zeta.
    pose proof (Rabs_le_inv _ _ Ew) as Ew'. assert (E15 : enorm n * N <= / 15 * N) by (apply Rmult_le_compat_r; lra).
    assert (E1 : bpow radix2 501 = 2 * bpow radix2 500) by (change 501%Z with (1 + 500)%Z; rewrite bpow_plus; reflexivity).
    assert (Q1 : Rabs (tc * fv o) <= fv w * N) by (rewrite rabs_mul_pos by exact Tc0; apply Rmult_le_compat; try lra; apply Rabs_pos).
    assert (Bp : Rabs (tc * fv o) <= bpow radix2 1001).
    { eapply Rle_trans; [exact Q1|]. change 1001%Z with (501 + 500)%Z. rewrite bpow_plus. apply Rmult_le_compat; lra. }
    destruct (mul_fin _ _ Fu Fo) as (Fm & Vm); [rewrite Vu; apply rnd_fits; eapply Rle_trans; [exact Bp|apply bpow_le; lia]|]. rewrite Vu in Vm.
    pose proof (rnd_err (tc * fv o)) as Em. rewrite <- Vm in Em. set (m1 := nmul F64 (nmul F64 step alpha) o) in *.
    assert (E4 : bpow radix2 502 = 4 * bpow radix2 500) by (change 502%Z with (2 + 500)%Z; rewrite bpow_plus; reflexivity).
    assert (P20 : bpow radix2 (-625) <= / 4 * bpow radix2 500) by (replace (/ 4 * bpow radix2 500) with (bpow radix2 498); [apply bpow_le; lia|change 498%Z with (-2 + 500)%Z; rewrite bpow_plus; reflexivity]).
    assert (Bq : Rabs (fv m1 / fv w) <= bpow radix2 502).
    { unfold Rdiv. rewrite Rabs_mult, (Rabs_right (/ fv w)) by (left; apply Rinv_0_lt_compat; lra).
      assert (M1 : Rabs (fv m1) <= 2 * (fv w * N) + eta).
      { replace (fv m1) with ((fv m1 - tc * fv o) + tc * fv o) by ring. eapply Rle_trans; [apply Rabs_triang|]. pose proof (Rabs_pos (tc * fv o)) as Q0.
        assert (uro * Rabs (tc * fv o) <= 1 * Rabs (tc * fv o)) by (apply Rmult_le_compat_r; lra). lra. }
      apply Rle_trans with ((2 * (fv w * N) + eta) * / fv w); [apply Rmult_le_compat_r; [left; apply Rinv_0_lt_compat; lra|exact M1]|].
      replace ((2 * (fv w * N) + eta) * / fv w) with (2 * N + eta / N * (N / fv w)) by (field; lra).
      assert (eta / N * (N / fv w) <= eta / N * (15 / 14)) by (apply Rmult_le_compat_l; lra). lra. }
    destruct (div_fin m1 w Fm Fw ltac:(lra)) as (Fd & Vd); [apply rnd_fits; eapply Rle_trans; [exact Bq|apply bpow_le; lia]|].
    pose proof (rnd_err (fv m1 / fv w)) as Ed. rewrite <- Vd in Ed. set (m2 := ndiv F64 m1 w) in *.
    assert (Bm : Rabs (fv m2) <= bpow radix2 504).
    { replace (fv m2) with ((fv m2 - fv m1 / fv w) + fv m1 / fv w) by ring. eapply Rle_trans; [apply Rabs_triang|]. pose proof (Rabs_pos (fv m1 / fv w)) as Q0.
      assert (uro * Rabs (fv m1 / fv w) <= 1 * Rabs (fv m1 / fv w)) by (apply Rmult_le_compat_r; lra).
      assert (E6 : bpow radix2 504 = 16 * bpow radix2 500) by (change 504%Z with (4 + 500)%Z; rewrite bpow_plus; reflexivity). lra. }
    destruct (sub_fin o m2 Fo Fd) as (Fr & Vr).
    { apply rnd_fits. unfold Rminus. eapply Rle_trans; [apply Rabs_triang|]. rewrite Rabs_Ropp. apply Rle_trans with (bpow radix2 505); [|apply bpow_le; lia]. 
      assert (E7 : bpow radix2 505 = 2 * bpow radix2 504) by (change 505%Z with (1 + 504)%Z; rewrite bpow_plus; reflexivity). assert (bpow radix2 500 <= bpow radix2 504) by (apply bpow_le; lia). lra. }
    split; [exact Fr|]. exists (fv m2). split.
    - pose proof (l2_entry (tc * fv o) N (fv w) (enorm n) _ _ NP En Ew Em Ed). lra.
    - rewrite Vr. apply rnd_sub_err; apply fin_repr; assumption. }
  cbv zeta in Main. destruct Main as (Fr & m2 & Hr). cbv zeta. split; [exact Fr|].
  eapply Rle_trans; [apply (group_entry (fv o) N (fv w) (enorm n) t tc m2 _ (2 * (eta / N) + eta) eta (Rltb tc (fv w)) (Rltb t N)); try assumption; try lra|lra].
  - destruct (Rltb_spec tc (fv w)); lra.
  - destruct (Rltb_spec t N); lra.
Qed.
