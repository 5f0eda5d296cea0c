(** * FloatNorm: square roots and Euclidean norms in binary64 *)
From Coq Require Import ZArith Reals Lra Lia Bool List.
From Coq Require Import Floats.SpecFloat.
From Flocq Require Import Core.Core IEEE754.BinarySingleNaN.
From Verif Require Import Num Vec Spec SpecSparse RVec FloatBase FloatSum FloatLogistic FloatGradMain.
Import ListNotations.
Local Open Scope R_scope.

Lemma sqrt_B (x : bin) : SFsqrt 53 1024 (B2SF x) = B2SF (Bsqrt mode_NE x).
Proof.
  destruct x as [sx|[|]| |[|] mx ex Bx]; try reflexivity.
  simpl. rewrite B2SF_SF2B.
  set (melz := SFsqrt_core_binary _ _ _ _). case melz as [[mz ez] lz].
  apply binary_round_aux_eq.
Qed.
Lemma sqrt_fin (x : F64) : fin x -> 0 <= fv x -> fin (nsqrt F64 x) /\ fv (nsqrt F64 x) = rnd (sqrt (fv x)).
Proof.
  intros Hx. destruct (fin_B _ Hx) as (a & -> & Ha). rewrite fv_B. intros H0.
  cbn [nsqrt F64]. change f64_prec with 53%Z; change f64_emax with 1024%Z. rewrite sqrt_B.
  destruct (Bsqrt_correct 53 1024 Hprec Hmax mode_NE a) as (H1 & H2 & _).
  split; [|rewrite fv_B; exact H1]. apply fin_B2SF. rewrite H2.
  destruct a as [sa|sa| |[|] ma ea Ba]; try discriminate Ha; try reflexivity.
  exfalso. simpl in H0. pose proof (F2R_lt_0 radix2 (Float radix2 (Zneg ma) ea) (eq_refl _)). lra.
Qed.

Definition sqs (x : list F64) : R := Rsum (map (fun a => fv a * fv a) x).
Lemma sqs_pos x : 0 <= sqs x.
Proof. unfold sqs. induction x as [|a x IH]; cbn [map Rsum]; [lra|]. pose proof (Rle_0_sqr (fv a)) as H. unfold Rsqr in H. lra. Qed.
Lemma sqs_dot x : sqs x = dot (map fv x) (map fv x).
Proof. unfold sqs. induction x as [|a x IH]; cbn [map Rsum]; [reflexivity|]. rewrite IH. reflexivity. Qed.
Lemma sq_facc {K : Num} (x : list K) : forall a : K, fold_left (nadd K) (map nsq x) a = facc (map (fun t => (t, t)) x) a.
Proof. induction x as [|t x IH]; intros a; [reflexivity|]. cbn [map fold_left facc]. apply IH. Qed.
Lemma vsum_sq {K : Num} (x : list K) : vsum (map nsq x) = facc (map (fun t => (t, t)) x) n0.
Proof. apply sq_facc. Qed.
Lemma vdot_sq {K : Num} (x : list K) : vdot x x = vsum (map nsq x).
Proof. unfold vdot. f_equal. unfold vmul. induction x as [|a x IH]; [reflexivity|]. cbn [map2 map]. f_equal. exact IH. Qed.
Lemma entry_le x : forall i, fv (nth i x n0) * fv (nth i x n0) <= sqs x.
Proof.
  induction x as [|a x IH]; intros i.
  - replace (nth i [] n0) with (@n0 F64) by (destruct i; reflexivity). rewrite fv_0. unfold sqs; cbn. lra.
  - unfold sqs; cbn [map Rsum]. fold (sqs x). destruct i as [|i]; cbn [nth]; [pose proof (sqs_pos x); lra|]. specialize (IH i). pose proof (Rle_0_sqr (fv a)) as H. unfold Rsqr in H. lra.
Qed.

(** relative error of the computed norm of n entries *)
Definition enorm (n : nat) : R := (2 * INR n + 6) * uro.
Lemma enorm_small n : INR n <= 2 ^ 48 -> 0 <= enorm n <= / 15.
Proof.
  intros H. pose proof (pos_INR n). pose proof uro_pos as U. unfold enorm. split; [apply Rmult_le_pos; lra|].
  assert (E : uro * 2 ^ 48 = / 32) by (rewrite uro_pow; cbn; field). assert (U' : uro <= / 1000) by (rewrite uro_val; lra).
  assert (INR n * uro <= / 32) by (rewrite <- E, (Rmult_comm uro); apply Rmult_le_compat_r; lra).
  assert (uro <= / 1000000) by (rewrite uro_val; lra). lra.
Qed.
Lemma sqrt_rel (s N2 g : R) : 0 < N2 -> 0 <= g < 1 -> Rabs (s - N2) <= g * N2 -> Rabs (sqrt s - sqrt N2) <= g * sqrt N2.
Proof.
  intros H0 Hg Hs. assert (S0 : 0 <= s). { apply Rabs_le_inv in Hs. assert (g * N2 <= 1 * N2) by (apply Rmult_le_compat_r; lra). lra. }
  pose proof (sqrt_lt_R0 _ H0) as P. pose proof (sqrt_pos s) as Q. pose proof (sqrt_sqrt s S0) as E1. pose proof (sqrt_sqrt N2 ltac:(lra)) as E2.
  set (a := sqrt s) in *. set (b := sqrt N2) in *. rewrite <- E1, <- E2 in Hs.
  replace (a * a - b * b) with ((a - b) * (a + b)) in Hs by ring. rewrite Rabs_mult, (Rabs_right (a + b)) in Hs by lra.
  assert (Hc : Rabs (a - b) * b <= g * b * b). { eapply Rle_trans; [|replace (g * b * b) with (g * (b * b)) by ring; exact Hs]. apply Rmult_le_compat_l; [apply Rabs_pos|lra]. }
  apply Rmult_le_reg_r in Hc; assumption.
Qed.
Lemma norm_err (x : list F64) : Forall fin x -> INR (length x) <= 2 ^ 48 -> bpow radix2 (-900) <= sqs x <= bpow radix2 1000 ->
  let w := nsqrt F64 (vsum (map nsq x)) in fin w /\ Rabs (fv w - sqrt (sqs x)) <= enorm (length x) * sqrt (sqs x).
Proof.
  intros Fx Hn Hs w. set (n := length x) in *. set (N2 := sqs x) in *. pose proof uro_pos as U. pose proof (enorm_small n Hn) as En. pose proof (pos_INR n) as Pn.
  set (l := map (fun t : F64 => (t, t)) x). assert (El : length l = n) by (unfold l, n; apply map_length).
  assert (S1 : Rsum (map (fun pq : F64 * F64 => fv (fst pq) * fv (snd pq)) l) = N2) by (unfold l, N2, sqs; rewrite map_map; reflexivity).
  assert (S2 : Rsum (map (fun pq : F64 * F64 => Rabs (fv (fst pq) * fv (snd pq))) l) = N2).
  { rewrite <- S1. f_equal. apply map_ext_in. intros pq Hin. unfold l in Hin. apply in_map_iff in Hin as (t & <- & _). cbn [fst snd]. apply Rabs_pos_eq. apply Rle_0_sqr. }
  assert (B1 : bpow radix2 1000 <= bpow radix2 1010) by (apply bpow_le; lia).
  assert (Fl : Forall (fun pq : F64 * F64 => fin (fst pq) /\ fin (snd pq)) l).
  { unfold l. rewrite Forall_map. eapply Forall_impl; [|exact Fx]. intros a Ha. split; exact Ha. }
  assert (Hn' : INR (length l) <= 2 ^ 50) by (rewrite El; lra).
  destruct (facc_fin l Fl Hn' ltac:(rewrite S2; lra)) as (Fs & _).
  assert (HD : Forall (fun pq : F64 * F64 => datum (fst pq) /\ datum (snd pq)) l) by (eapply Forall_impl; [|exact Fl]; intros a [A1 A2]; split; apply fin_datum; assumption).
  pose proof (facc_err0 l HD Fs) as Er. rewrite S1, S2, El in Er. unfold w. rewrite vsum_sq. fold l. set (s := facc l n0) in *.
  assert (N0 : 0 < N2) by (eapply Rlt_le_trans; [apply (bpow_gt_0 radix2 (-900))|apply Hs]).
  assert (G : gam n <= (2 * INR n + 2) * uro).
  { unfold gam. pose proof (pow_lin (S n)) as Q. rewrite S_INR in Q. assert (2 * (INR n + 1) * uro <= 1) by (unfold enorm in En; lra). specialize (Q H). lra. }
  assert (Un : und n <= uro * N2).
  { apply Rle_trans with (bpow radix2 (-53) * bpow radix2 (-900)); [|apply Rmult_le_compat_l; [left; apply bpow_gt_0|apply Hs]].
    unfold und. pose proof (pow_lin n) as Q. assert (2 * INR n * uro <= 1) by (unfold enorm in En; lra). specialize (Q H).
    assert (P1 : 0 <= (1 + uro) ^ n <= 2) by (split; [apply pow_le; lra|lra]).
    apply Rle_trans with (2 ^ 48 * 2 * eta); [apply Rmult_le_compat_r; [left; apply eta_pos|]; apply Rmult_le_compat; lra|].
    replace (2 ^ 48 * 2) with (bpow radix2 49) by (cbn; ring). unfold eta. rewrite <- !bpow_plus. apply bpow_le. lia. }
  set (g := gam n + uro). pose proof (gam_pos n) as G0.
  assert (Hg : 0 <= g < 1) by (unfold g, enorm in *; lra).
  assert (Es : Rabs (fv s - N2) <= g * N2) by (unfold g; lra).
  pose proof (sqrt_rel (fv s) N2 g N0 Hg Es) as Eq.
  assert (S0 : 0 <= fv s) by (apply Rabs_le_inv in Es; assert (g * N2 <= 1 * N2) by (apply Rmult_le_compat_r; lra); lra).
  destruct (sqrt_fin s Fs S0) as (Fw & Vw). split; [exact Fw|]. rewrite Vw. pose proof (rnd_err (sqrt (fv s))) as Rr. pose proof (sqrt_pos (fv s)) as Ps. rewrite (Rabs_right (sqrt (fv s))) in Rr by lra.
  set (N := sqrt N2) in *. set (q := sqrt (fv s)) in *.
  assert (NL : bpow radix2 (-450) <= N).
  { unfold N. replace (bpow radix2 (-450)) with (sqrt (bpow radix2 (-900))); [apply sqrt_le_1_alt, Hs|]. replace (-900)%Z with (-450 + -450)%Z by lia. rewrite bpow_plus. apply sqrt_square. left; apply bpow_gt_0. }
  assert (Et : eta <= uro * N). { apply Rle_trans with (uro * bpow radix2 (-450)); [|apply Rmult_le_compat_l; lra]. unfold eta, uro. rewrite <- bpow_plus. apply bpow_le. lia. }
  assert (Hq : q <= 2 * N). { apply Rabs_le_inv in Eq. assert (g * N <= 1 * N) by (apply Rmult_le_compat_r; [pose proof (bpow_gt_0 radix2 (-450)); lra|lra]). lra. }
  assert (uro * q <= uro * (2 * N)) by (apply Rmult_le_compat_l; lra).
  replace (rnd q - N) with ((rnd q - q) + (q - N)) by ring. eapply Rle_trans; [apply Rabs_triang|].
  assert (g * N + 3 * uro * N <= enorm n * N). { rewrite <- Rmult_plus_distr_r. apply Rmult_le_compat_r; [pose proof (bpow_gt_0 radix2 (-450)); lra|]. unfold g, enorm. lra. }
  lra.
Qed.
