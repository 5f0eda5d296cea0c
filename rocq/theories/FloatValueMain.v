(** * Proofs for C136: the values of SquareLoss and HuberLoss over IEEE binary64 *)
From Coq Require Import Reals Lra Lia List Bool ZArith.
From Coq Require Import Floats.SpecFloat.
From Verif Require Import Num Vec Spec RVec SpecLoss LossScalar ModelTv ModelLoss LossFacts FloatBase FloatRuns FloatSum FloatSimplex2 FloatSimplex4 FloatLogistic FloatLogistic2 FloatNorm FloatGrad FloatGradMain FloatLoss FloatLossMain FloatValue.
From Flocq Require Import Core.Core IEEE754.BinarySingleNaN.
Import ListNotations.
Local Open Scope R_scope.

(** error of the sum of the samples: S for sample losses [f] that move by at most [m r e] when the residual r moves by e *)
Definition sum_err (m : R -> R -> R) (x : list F64) (rows : list (list F64)) (b : list F64) : R := terms (fun r c => m (rsd x r c) (rsd_err x r c)) rows b.
Definition sum_bound (f : R -> R) (m : R -> R -> R) (x : list F64) (rows : list (list F64)) (b : list F64) : R := terms (fun r c => f (rsd x r c)) rows b + sum_err m x rows b.
(** the bound of the theorems *)
Definition loss_val_err (N E C : R) (alpha : F64) (x : list F64) (n : nat) : R :=
  let X := dot (map fv x) (map fv x) in let Cx := csr_err (length x) X in
  (E + C) / INR n + Rabs (fv alpha) / 2 * Cx + 6 * / 2 ^ 53 * ((N + C) / INR n + Rabs (fv alpha) / 2 * (X + Cx)) + 8 * powerRZ 2 (-1075) * (1 + X + Cx).
Definition sq_move (r e : R) : R := e * (Rabs r + e / 2).
Definition sq_half (r : R) : R := / 2 * (r * r).
Definition sq_val_err (alpha : F64) (x : list F64) (rows : list (list F64)) (b : list F64) : R :=
  let N := sum_bound sq_half sq_move x rows b in
  loss_val_err N (sum_err sq_move x rows b) (csr_err (length rows) (2 * N)) alpha x (length rows).
Definition hub_val_err (alpha delta : F64) (x : list F64) (rows : list (list F64)) (b : list F64) : R :=
  let move := fun _ e => fv delta * e in
  let N := sum_bound (huber (fv delta)) move x rows b in
  let t := 2 * INR (length rows) * fv delta * powerRZ 2 (-1075) in
  loss_val_err N (sum_err move x rows b) (2 * csr_err (length rows) (2 * N + t) + 4 * / 2 ^ 53 * N + t) alpha x (length rows).

Section Samples.
Variables (f : R -> R) (m : R -> R -> R) (x : list F64).
Hypothesis Hm : forall r e z, Rabs (z - r) <= e -> Rabs (f z - f r) <= m r e.
Hypothesis Fx : Forall fin x.
Lemma val_samples : forall (rows : list (list F64)) (b : list F64), length b = length rows ->
  Forall (fun r => length r = length x) rows -> Forall (Forall fin) rows -> Forall fin b ->
  Forall fin (map2 (nsub F64) (map (fun r => vdot (K:=F64) r x) rows) b) ->
  Rabs (Rsum (map (fun t => f (fv t)) (map2 (nsub F64) (map (fun r => vdot (K:=F64) r x) rows) b)) - terms (fun r c => f (rsd x r c)) rows b) <= sum_err m x rows b.
Proof.
  unfold sum_err, terms. induction rows as [|r rows IH]; intros [|c b] Lb HR FR Fb Fz; cbn in Lb; try discriminate.
  - cbn. rewrite Rminus_0_r, Rabs_R0. lra.
  - pose proof (IH b (eq_add_S _ _ Lb) (Forall_inv_tail HR) (Forall_inv_tail FR) (Forall_inv_tail Fb) (Forall_inv_tail Fz)) as I. clear IH.
    cbn [map map2] in Fz. pose proof (Forall_inv Fz) as F0. cbn beta in F0.
    pose proof (Hm _ _ _ (rsd_ok x r c (Forall_inv HR) (Forall_inv FR) Fx (Forall_inv Fb) F0)) as E. cbn [map map2 Rsum].
    match goal with |- Rabs (?p + ?q - (?u + ?v)) <= _ => replace (p + q - (u + v)) with ((p - u) + (q - v)) by ring end.
    eapply Rle_trans; [apply Rabs_triang|]. lra.
Qed.
Lemma exact_loss : forall (rows : list (list F64)) (b : list F64), length b = length rows ->
  mean_loss (fun c t => f (t - c)) (map (map fv) rows) (map fv b) (map fv x) = terms (fun r c => f (rsd x r c)) rows b / INR (length rows).
Proof.
  intros rows b L. unfold mean_loss, terms. rewrite map_length. f_equal. revert b L. induction rows as [|r rows IH]; intros [|c b] L; cbn in L; try discriminate; [reflexivity|].
  cbn [map map2 combine Rsum fst snd]. rewrite (IH b (eq_add_S _ _ L)). reflexivity.
Qed.
End Samples.
Lemma comb_sq (z : list F64) : Rsum (map (fun pq : F64 * F64 => fv (fst pq) * fv (snd pq)) (combine z z)) = sqs z /\
  Rsum (map (fun pq : F64 * F64 => Rabs (fv (fst pq) * fv (snd pq))) (combine z z)) = sqs z.
Proof.
  unfold sqs. induction z as [|t z [I1 I2]]; cbn [combine map Rsum fst snd]; [split; reflexivity|]. rewrite I1, I2. split; [reflexivity|]. f_equal. apply Rabs_pos_eq, Rle_0_sqr.
Qed.
Lemma dot_err (z : list F64) k N : Forall fin z -> (length z <= k)%nat -> sqs z <= N -> fin (vdot (K:=F64) z z) -> Rabs (fv (vdot (K:=F64) z z) - sqs z) <= csr_err k N.
Proof.
  intros Fz Hk HN Fs. rewrite vdot_facc in *. destruct (comb_sq z) as [E1 E2]. pose proof (facc_err0 _ (fin_pairs_datum _ (combine_fin z z Fz Fz)) Fs) as H. rewrite E1, E2 in H.
  eapply Rle_trans; [exact H|]. apply csr_mono; [rewrite combine_length; lia|]. split; [apply sqs_pos|exact HN].
Qed.
(** the final combination *)
Lemma val_comb (r v Bv T S D X Cx al n N C E U e : R) : 1 <= n -> Rabs (v - T) <= C -> Rabs (T - S) <= E -> Bv <= N + C -> Rabs (D - X) <= Cx -> 0 <= X -> 0 <= U -> 0 <= e ->
  Rabs (r - (v / n + / 2 * (al * D))) <= U * (Bv / n + / 2 * Rabs (al * D)) + e * (1 + Rabs D) ->
  Rabs (r - (S / n + al / 2 * X)) <= (E + C) / n + Rabs al / 2 * Cx + U * ((N + C) / n + Rabs al / 2 * (X + Cx)) + e * (1 + X + Cx).
Proof.
  intros Hn H1 H2 H3 H4 PX PU Pe H. assert (I : 0 < / n) by (apply Rinv_0_lt_compat; lra). pose proof (Rabs_pos al) as Pa.
  assert (BD : Rabs D <= X + Cx) by (replace D with (X + (D - X)) by ring; eapply Rle_trans; [apply Rabs_triang|]; rewrite (Rabs_pos_eq X PX); lra).
  assert (BA : / 2 * Rabs (al * D) <= Rabs al / 2 * (X + Cx)) by (rewrite Rabs_mult; assert (Rabs al * Rabs D <= Rabs al * (X + Cx)) by (apply Rmult_le_compat_l; lra); lra).
  assert (BV : Bv / n <= (N + C) / n) by (unfold Rdiv; apply Rmult_le_compat_r; lra).
  assert (B1 : U * (Bv / n + / 2 * Rabs (al * D)) <= U * ((N + C) / n + Rabs al / 2 * (X + Cx))) by (apply Rmult_le_compat_l; lra).
  assert (B2 : e * (1 + Rabs D) <= e * (1 + X + Cx)) by (apply Rmult_le_compat_l; lra).
  assert (B3 : Rabs ((v - S) / n) <= (E + C) / n).
  { unfold Rdiv. rewrite Rabs_mult, (Rabs_right (/ n)) by lra. apply Rmult_le_compat_r; [lra|]. replace (v - S) with ((v - T) + (T - S)) by ring. eapply Rle_trans; [apply Rabs_triang|]. lra. }
  assert (B4 : Rabs (/ 2 * (al * (D - X))) <= Rabs al / 2 * Cx).
  { rewrite !Rabs_mult, (Rabs_right (/ 2)) by lra. assert (Rabs al * Rabs (D - X) <= Rabs al * Cx) by (apply Rmult_le_compat_l; lra). lra. }
  replace (r - (S / n + al / 2 * X)) with ((r - (v / n + / 2 * (al * D))) + ((v - S) / n + / 2 * (al * (D - X)))) by (unfold Rdiv; field; lra).
  eapply Rle_trans; [apply Rabs_triang|]. eapply Rle_trans; [apply Rplus_le_compat_l, Rabs_triang|]. lra.
Qed.
Lemma half_fin : fin (nlit (K:=F64) 1 2) /\ fv (nlit (K:=F64) 1 2) = / 2.
Proof. split; [apply fin_c; vm_compute; reflexivity|exact fhalf_v]. Qed.
Lemma sq_move_ok r e z : Rabs (z - r) <= e -> Rabs (sq_half z - sq_half r) <= sq_move r e.
Proof.
  intros H. unfold sq_half, sq_move. replace (/ 2 * (z * z) - / 2 * (r * r)) with ((z - r) * (r + (z - r) / 2)) by field. rewrite Rabs_mult.
  apply Rmult_le_compat; try apply Rabs_pos; [exact H|]. eapply Rle_trans; [apply Rabs_triang|]. unfold Rdiv. rewrite Rabs_mult, (Rabs_right (/ 2)) by lra. lra.
Qed.
Lemma huber_lip delta r z : 0 < delta -> Rabs (huber delta z - huber delta r) <= delta * Rabs (z - r).
Proof.
  intros Hd. assert (G : forall a c, a <= c -> Rabs (huber delta c - huber delta a) <= delta * (c - a)).
  { intros a c Hac. destruct (huber_cases delta a Hd) as [[A1 ->]|[[A1 ->]|[A1 ->]]]; destruct (huber_cases delta c Hd) as [[C1 ->]|[[C1 ->]|[C1 ->]]]; apply Rabs_le; split; try nra. }
  destruct (Rle_dec r z) as [L|L]; [rewrite (Rabs_right (z - r)) by lra; apply G, L|]. rewrite <- Rabs_Ropp, Ropp_minus_distr, (Rabs_left (z - r)) by lra.
  replace (- (z - r)) with (r - z) by ring. apply G. lra.
Qed.
Lemma sq_half_sum (z : list F64) : Rsum (map (fun t => sq_half (fv t)) z) = / 2 * sqs z.
Proof. unfold sqs, sq_half. induction z as [|t z IH]; cbn [map Rsum]; [lra|]. rewrite IH. lra. Qed.
Lemma main_C136_square : forall (A : matrix F64) (b : list F64) (alpha : F64) (x ax z : list F64),
  Forall (fun r => length r = m_cols A) (m_rows A) -> length b = length (m_rows A) -> b <> [] -> (Z.of_nat (length b) < 2 ^ 53)%Z ->
  Forall (Forall fin) (m_rows A) -> Forall fin b -> Forall fin x -> fin alpha ->
  mat_dot A x = Ok ax -> np_sub ax b = Ok z -> Forall fin z ->
  exists (L : F64) (g : list F64), sq_call A b alpha x = Ok L /\ sq_f_grad A b alpha x false = Ok (RLoss L) /\ sq_f_grad A b alpha x true = Ok (RPair L g) /\
    (fin L -> Rabs (fv L - ridge (fv alpha) (mean_loss sq_term (map (map fv) (m_rows A)) (map fv b)) (map fv x)) <= sq_val_err alpha x (m_rows A) b).
Proof.
  intros A b alpha x ax z HR Lb Nb Hbig FR Fb Fx Fa Hz Hs Fz.
  assert (Lz : length z = n_samples A).
  { destruct (resid_of A b x ax z Lb Hz Hs) as [_ ->]. rewrite map2_length, map_length. unfold n_samples. change (@length (vec F64) (m_rows A)) with (length (m_rows A)) in *. lia. }
  unfold sq_call, sq_f_grad. rewrite Hz. cbn [bind]. rewrite Hs. cbn [bind negb]. unfold tmat_dot. rewrite Lz, Nat.eqb_refl. cbn [bind].
  eexists. eexists. split; [reflexivity|]. split; [reflexivity|]. split; [reflexivity|]. clear Lz.
  destruct (resid_of A b x ax z Lb Hz Hs) as [Lx Ez].
  assert (HRx : Forall (fun r : list F64 => length r = length x) (m_rows A)) by (eapply Forall_impl; [|exact HR]; intros r Hr; exact (eq_trans Hr (eq_sym Lx))).
  pose proof (val_samples sq_half sq_move x sq_move_ok Fx (m_rows A) b Lb HRx FR Fb ltac:(rewrite <- Ez; exact Fz)) as VS. rewrite <- Ez, sq_half_sum in VS.
  assert (Lz : length z = length (m_rows A)) by (rewrite Ez, map2_length, map_length; change (@length (vec F64) (m_rows A)) with (length (m_rows A)) in *; lia).
  unfold vmean. change (vsum (vmul z z)) with (vdot z z). replace (length (vmul z z)) with (length b) by (unfold vmul; rewrite map2_length; lia).
  destruct (nofnat_fin (length b) Hbig) as [Fn Vn]. destruct half_fin as [Fh Vh].
  assert (N1 : 1 <= INR (length b)) by (destruct b; [congruence|]; cbn [length]; rewrite S_INR; pose proof (pos_INR (length b)); lra).
  assert (Dz : datum (vdot z z)) by (apply vdot_datum; apply fin_data, Fz). assert (Dx : datum (vdot x x)) by (apply vdot_datum; apply fin_data, Fx).
  assert (Dh := fin_datum _ Fh). assert (Dm : datum (ndiv F64 (vdot z z) (nofnat (length b)))) by (apply div_datum; [exact Dz|apply fin_datum, Fn]).
  assert (Dp : datum (nmul F64 alpha (vdot x x))) by (apply mul_datum; [apply fin_datum, Fa|exact Dx]).
  intros FL. destruct (add_val _ _ (mul_datum _ _ Dh Dm) (mul_datum _ _ Dh Dp) FL) as (F1 & F2 & V). rewrite V. clear V FL.
  destruct (mul_val _ _ Dh Dm F1) as (_ & F3 & ->). destruct (mul_val _ _ Dh Dp F2) as (_ & F4 & ->).
  destruct (div_val _ _ Dz Fn ltac:(rewrite Vn; lra) F3) as (F5 & ->). destruct (mul_val _ _ (fin_datum _ Fa) Dx F4) as (_ & F6 & ->). rewrite Vh, Vn.
  pose proof (sq_round (fv (vdot z z)) (fv alpha) (fv (vdot x x)) (INR (length b)) N1) as RR.
  set (N := sum_bound sq_half sq_move x (m_rows A) b) in *.
  assert (TN : sqs z <= 2 * N) by (unfold N, sum_bound; apply Rabs_le_inv in VS; lra).
  pose proof (dot_err z (length (m_rows A)) (2 * N) Fz ltac:(lia) TN F5) as E1. pose proof (dot_err x (length x) (sqs x) Fx (le_n _) (Rle_refl _) F6) as E2.
  unfold ridge. rewrite (exact_loss sq_half x (m_rows A) b Lb : mean_loss sq_term _ _ _ = _). unfold sq_val_err, loss_val_err. fold N. rewrite <- (sqs_dot x) in *. try rewrite <- (Lb : length b = @length (list F64) (m_rows A)) in *. try rewrite <- (Lb : length b = @length (vec F64) (m_rows A)) in *. rewrite <- uro_pow, <- eta_pow.
  set (C := csr_err _ (2 * N)) in *. pose proof (sqs_pos z) as Pz. pose proof uro_pos as U. pose proof eta_pos as H0.
  assert (C0 : 0 <= C) by (pose proof (Rabs_pos (fv (vdot z z) - sqs z)); lra).
  apply (val_comb _ (/ 2 * fv (vdot z z)) (/ 2 * Rabs (fv (vdot z z))) (/ 2 * sqs z) _ (fv (vdot x x))); try assumption; try lra.
  - rewrite <- Rmult_minus_distr_l, Rabs_mult, (Rabs_right (/ 2)) by lra. lra.
  - assert (Rabs (fv (vdot z z)) <= 2 * N + C) by (replace (fv (vdot z z)) with (sqs z + (fv (vdot z z) - sqs z)) by ring; eapply Rle_trans; [apply Rabs_triang|]; rewrite (Rabs_pos_eq _ Pz); lra). lra.
  - apply sqs_pos.
  - assert (0 <= eta * Rabs (fv (vdot x x))) by (apply Rmult_le_pos; [lra|apply Rabs_pos]).
    replace (/ 2 * fv (vdot z z) / INR (length b)) with (/ 2 * (fv (vdot z z) / INR (length b))) by (unfold Rdiv; ring).
    replace (/ 2 * Rabs (fv (vdot z z)) / INR (length b)) with (/ 2 * (Rabs (fv (vdot z z)) / INR (length b))) by (unfold Rdiv; ring). lra.
Qed.
