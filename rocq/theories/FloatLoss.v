(** * The gradients of SquareLoss.f_grad and HuberLoss.f_grad over IEEE binary64 *)
From Coq Require Import Reals Lra Lia List Bool ZArith.
From Coq Require Import Floats.SpecFloat.
From Verif Require Import Num Vec Spec RVec SpecLoss LossScalar ModelTv ModelLoss LossFacts LossMain FloatBase FloatSum ConstraintFacts FloatSimplex2 FloatSimplex4 FloatLogistic FloatLogistic2 FloatGrad FloatGradMain.
From Flocq Require Import Core.Core IEEE754.BinarySingleNaN.
Import ListNotations.
Local Open Scope R_scope.

(** ** component j of the gradient, for every arithmetic *)
Section K.
Context {K : Num}.
Definition resid (A : matrix K) (b x : vec K) : vec K := map2 (nsub K) (map (fun r => vdot r x) (m_rows A)) b.
Lemma resid_len (A : matrix K) (b x : vec K) : length b = length (m_rows A) -> length (resid A b x) = length (m_rows A).
Proof. intros L. unfold resid. rewrite map2_length, map_length. lia. Qed.
Lemma sq_grad_nth (A : matrix K) (b : vec K) (alpha : K) (x : vec K) :
  Forall (fun r => length r = m_cols A) (m_rows A) -> length x = m_cols A -> length b = length (m_rows A) ->
  exists L g, sq_f_grad A b alpha x true = Ok (RPair L g) /\ length g = m_cols A /\
    forall j, (j < m_cols A)%nat -> nth j g n0 = nadd K (ndiv K (facc (combine (resid A b x) (col j (m_rows A))) n0) (nofnat (n_samples A))) (nmul K alpha (nth j x n0)).
Proof.
  intros HR Lx Lb. unfold sq_f_grad, mat_dot, tmat_dot, np_sub. cbn [bind]. rewrite Lx, Nat.eqb_refl. cbn [bind negb]. rewrite map_length, <- Lb, Nat.eqb_refl. cbn [bind].
  change (vsub (map (fun r => vdot r x) (m_rows A)) b) with (resid A b x). pose proof (resid_len A b x Lb) as Lu.
  unfold n_samples at 1. rewrite Lu, Nat.eqb_refl. cbn [bind].
  destruct (rows_sum_nth (m_cols A) (m_rows A) _ HR Lu) as (R1 & R2).
  assert (L1 : length (vdivs (rows_sum (m_cols A) (m_rows A) (resid A b x)) (nofnat (n_samples A))) = m_cols A) by (unfold vdivs; rewrite map_length; exact R1).
  assert (L2 : length (vscale alpha x) = m_cols A) by (unfold vscale; rewrite map_length; exact Lx).
  eexists. eexists. split; [reflexivity|]. split; [rewrite vadd_len; congruence|].
  intros j Hj. rewrite nth_vadd by congruence. rewrite nth_vdivs, nth_vscale by congruence. rewrite R2 by exact Hj. reflexivity.
Qed.
Lemma mask_len {T U} (idx : list bool) : forall (u : list T) (v : list U), length u = length v -> length (mask idx u) = length (mask idx v).
Proof. induction idx as [|i idx IH]; intros [|a u] [|c v] L; cbn in *; try discriminate; try reflexivity. destruct i; cbn; rewrite (IH u v); auto. Qed.
Lemma mask_Forall {T} (P : T -> Prop) (idx : list bool) : forall u, Forall P u -> Forall P (mask idx u).
Proof. induction idx as [|i idx IH]; intros [|a u] H; cbn; try constructor. pose proof (Forall_inv H). pose proof (IH u (Forall_inv_tail H)). destruct i; [constructor|]; assumption. Qed.
Lemma mask_le {T} (idx : list bool) : forall u : list T, (length (mask idx u) <= length u)%nat.
Proof. induction idx as [|i idx IH]; intros [|a u]; cbn; try lia. specialize (IH u). destruct i; cbn; lia. Qed.
Definition hidx (delta : K) (z : vec K) : list bool := map (fun t => nltb K (nabs K t) delta) z.
Definition hsg (delta t : K) : K := nmul K delta (nsign t).
Definition hphi (delta t : K) : K := if nltb K (nabs K t) delta then t else hsg delta t.
Definition hl1 (delta : K) (z : vec K) (j : nat) (rows : list (vec K)) : list (K * K) := combine (mask (hidx delta z) z) (col j (mask (hidx delta z) rows)).
Definition hl2 (delta : K) (z : vec K) (j : nat) (rows : list (vec K)) : list (K * K) :=
  combine (map (hsg delta) (mask (map negb (hidx delta z)) z)) (col j (mask (map negb (hidx delta z)) rows)).
Lemma hub_grad_nth (A : matrix K) (b : vec K) (alpha delta : K) (x : vec K) :
  Forall (fun r => length r = m_cols A) (m_rows A) -> length x = m_cols A -> length b = length (m_rows A) ->
  exists L g, hub_f_grad A b alpha delta x true = Ok (RPair L g) /\ length g = m_cols A /\
    forall j, (j < m_cols A)%nat -> nth j g n0 =
      nadd K (nadd K (ndiv K (facc (hl1 delta (resid A b x) j (m_rows A)) n0) (nofnat (n_samples A))) (nmul K alpha (nth j x n0)))
             (ndiv K (facc (hl2 delta (resid A b x) j (m_rows A)) n0) (nofnat (n_samples A))).
Proof.
  intros HR Lx Lb. unfold hub_f_grad, mat_dot, np_sub. cbn [bind]. rewrite Lx, Nat.eqb_refl. cbn [bind negb]. rewrite map_length, <- Lb, Nat.eqb_refl. cbn [bind].
  change (vsub (map (fun r => vdot r x) (m_rows A)) b) with (resid A b x). pose proof (resid_len A b x Lb) as Lu. set (z := resid A b x) in *. clearbody z.
  unfold n_samples at 1. rewrite Lu, Nat.eqb_refl. cbn [negb]. fold (hidx delta z).
  destruct (rows_sum_nth (m_cols A) (mask (hidx delta z) (m_rows A)) (mask (hidx delta z) z) (mask_Forall _ _ _ HR) (mask_len _ _ _ Lu)) as (R1 & R2).
  destruct (rows_sum_nth (m_cols A) (mask (map negb (hidx delta z)) (m_rows A)) (map (hsg delta) (mask (map negb (hidx delta z)) z)) (mask_Forall _ _ _ HR) ltac:(rewrite map_length; apply mask_len, Lu)) as (R3 & R4).
  fold (hl1 delta z) in R2. set (p := rows_sum _ _ (mask _ z)) in *. change (map (fun t => nmul K delta (nsign t)) (mask (map negb (hidx delta z)) z)) with (map (hsg delta) (mask (map negb (hidx delta z)) z)).
  set (q := rows_sum _ _ (map (hsg delta) _)) in *.
  assert (L1 : forall c, length (vdivs p c) = m_cols A) by (intros c; unfold vdivs; rewrite map_length; exact R1).
  assert (L2 : length (vscale alpha x) = m_cols A) by (unfold vscale; rewrite map_length; exact Lx).
  assert (L3 : forall c, length (vdivs q c) = m_cols A) by (intros c; unfold vdivs; rewrite map_length; exact R3).
  assert (L4 : forall c, length (vadd (vdivs p c) (vscale alpha x)) = m_cols A) by (intros c; rewrite vadd_len by (rewrite L1, L2; reflexivity); apply L1).
  eexists. eexists. split; [reflexivity|]. split; [rewrite vadd_len; rewrite ?L4, ?L3; reflexivity|].
  intros j Hj. rewrite nth_vadd by (rewrite ?L4, ?L3; auto). rewrite nth_vadd by (rewrite ?L1, ?L2; auto). rewrite !nth_vdivs, nth_vscale by congruence. rewrite R2, R4 by exact Hj. reflexivity.
Qed.
(** the two masked sums together are one sum over the samples *)
Lemma hsplit (f : K * K -> R) (delta : K) j : forall (z : vec K) (rows : list (vec K)), length z = length rows ->
  Rsum (map f (hl1 delta z j rows)) + Rsum (map f (hl2 delta z j rows)) = Rsum (map f (combine (map (hphi delta) z) (col j rows))).
Proof.
  unfold hl1, hl2, col, hidx. induction z as [|t z IH]; intros [|r rows] L; cbn in L; try discriminate; [cbn; lra|].
  specialize (IH rows (eq_add_S _ _ L)). cbn [map mask]. unfold hphi at 1. destruct (nltb K (nabs K t) delta); cbn [negb map combine Rsum]; lra.
Qed.
Lemma hl_le (delta : K) z j rows : length z = length rows -> (length (hl1 delta z j rows) <= length rows /\ length (hl2 delta z j rows) <= length rows)%nat.
Proof.
  intros L. unfold hl1, hl2, col. rewrite !combine_length, !map_length. split; (eapply Nat.le_trans; [apply Nat.le_min_r|apply mask_le]).
Qed.
End K.
Lemma col_datum j (rows : list (list F64)) : Forall (Forall fin) rows -> Forall fin (col (K:=F64) j rows).
Proof.
  intros H. unfold col. apply Forall_map. eapply Forall_impl; [|exact H]. intros r Fr.
  destruct (nth_in_or_default j r (@n0 F64)) as [I|I]; [|rewrite I; apply fin_0]. rewrite Forall_forall in Fr. exact (Fr _ I).
Qed.
Lemma combine_fin (u v : list F64) : Forall fin u -> Forall fin v -> Forall (fun pq : F64 * F64 => fin (fst pq) /\ fin (snd pq)) (combine u v).
Proof.
  intros Hu. revert v. induction Hu as [|a u Ha Hu IH]; intros [|c v] Hv; cbn [combine]; try constructor; [split; [exact Ha|exact (Forall_inv Hv)]|]. apply IH. exact (Forall_inv_tail Hv).
Qed.
Lemma fin_pairs_datum (l : list (F64 * F64)) : Forall (fun pq : F64 * F64 => fin (fst pq) /\ fin (snd pq)) l -> Forall (fun pq : F64 * F64 => datum (fst pq) /\ datum (snd pq)) l.
Proof. apply Forall_impl. intros a [A1 A2]. split; apply fin_datum; assumption. Qed.
Lemma sub_val x y : datum x -> datum y -> fin (nsub F64 x y) -> fin x /\ fin y /\ fv (nsub F64 x y) = rnd (fv x - fv y).
Proof.
  intros Hx Hy Hf. destruct (datum_B _ Hx) as (a & ->), (datum_B _ Hy) as (b & ->).
  cbn [nsub F64] in *. change f64_prec with 53%Z in *; change f64_emax with 1024%Z in *.
  rewrite sub_B in *. rewrite !fin_B2SF_iff in *. rewrite !fv_B.
  assert (Hab : is_finite a = true /\ is_finite b = true).
  { destruct a as [sa|sa| |]; destruct b as [sb|sb| |]; try (split; reflexivity);
      simpl in Hf; try discriminate. destruct (Bool.eqb sa (negb sb)); discriminate. }
  destruct Hab as [Ha Hb]. split; [exact Ha|]. split; [exact Hb|].
  generalize (Bminus_correct 53 1024 Hprec Hmax mode_NE a b Ha Hb).
  case Rlt_bool_spec; intros Hc.
  - intros (H1 & _). exact H1.
  - intros (H1 & _). exfalso. destruct (Bminus mode_NE a b); discriminate.
Qed.
(** ** one sample *)
Definition rsd (x r : list F64) (c : F64) : R := dot (map fv r) (map fv x) - fv c.
Definition rsd_err (x r : list F64) (c : F64) : R :=
  csr_err (length x) (dot (fabs r) (fabs x)) + / 2 ^ 53 * (Rabs (rsd x r c) + csr_err (length x) (dot (fabs r) (fabs x))).
Lemma vdot_datum (r x : list F64) : Forall datum r -> Forall datum x -> datum (vdot (K:=F64) r x).
Proof.
  intros Hr Hx. rewrite vdot_facc. unfold facc. assert (D0 : datum (@n0 F64)) by (apply fin_datum, fin_0). revert D0. generalize (@n0 F64). revert x Hx.
  induction Hr as [|a r Ha Hr IH]; intros [|c x] Hx z Dz; cbn [combine fold_left fst snd]; try exact Dz.
  apply IH; [exact (Forall_inv_tail Hx)|]. apply add_datum; [exact Dz|]. apply mul_datum; [exact Ha|exact (Forall_inv Hx)].
Qed.
Lemma rsd_ok (x r : list F64) (c : F64) : length r = length x -> Forall fin r -> Forall fin x -> fin c -> fin (nsub F64 (vdot r x) c) ->
  Rabs (fv (nsub F64 (vdot r x) c) - rsd x r c) <= rsd_err x r c.
Proof.
  intros L Fr Fx Fc Fz. destruct (sub_val _ _ (vdot_datum r x (fin_data _ Fr) (fin_data _ Fx)) (fin_datum _ Fc) Fz) as (Fd & _ & V). rewrite V.
  pose proof (margin_err r x L (fin_data _ Fr) (fin_data _ Fx) Fd) as M. pose proof (rnd_sub_err _ _ (fin_repr _ Fd) (fin_repr _ Fc)) as R1. rewrite uro_pow in R1.
  unfold rsd_err, rsd in *. set (E := csr_err _ _) in *. set (m := fv (vdot r x)) in *. set (w := dot (map fv r) (map fv x)) in *. set (y := fv c) in *. clearbody E m w y.
  assert (U : 0 < / 2 ^ 53) by (apply Rinv_0_lt_compat, pow_lt; lra). set (u := / 2 ^ 53) in *. clearbody u.
  assert (B : Rabs (m - y) <= Rabs (w - y) + E) by (replace (m - y) with ((w - y) + (m - w)) by ring; eapply Rle_trans; [apply Rabs_triang|]; lra).
  assert (u * Rabs (m - y) <= u * (Rabs (w - y) + E)) by (apply Rmult_le_compat_l; lra).
  replace (rnd (m - y) - (w - y)) with ((rnd (m - y) - (m - y)) + (m - w)) by ring. eapply Rle_trans; [apply Rabs_triang|]. lra.
Qed.
(** the derivative of the Huber function, with the branch decided on the computed residual *)
Definition clip (delta t : R) : R := Rmax (- delta) (Rmin delta t).
Lemma clip_lip delta a c : Rabs (clip delta a - clip delta c) <= Rabs (a - c).
Proof. unfold clip, Rmax, Rmin, Rabs. repeat destruct (Rle_dec _ _); repeat destruct (Rcase_abs _); lra. Qed.
Lemma hphi_fin (delta t : F64) : fin delta -> 0 < fv delta -> fin t -> fin (hphi delta t) /\ fv (hphi delta t) = clip (fv delta) (fv t).
Proof.
  intros Fd Pd Ft. unfold hphi. destruct (abs_fin t Ft) as [Fa Va]. rewrite (ltb_fin _ _ Fa Fd), Va. rcase.
  - split; [exact Ft|]. unfold clip, Rmax, Rmin. revert H. unfold Rabs. repeat destruct (Rcase_abs _); repeat destruct (Rle_dec _ _); lra.
  - destruct (sign_mul delta t Fd Ft) as [F V]. unfold hsg. split; [exact F|]. rewrite V, nsign_R. revert H.
    unfold clip, Rmax, Rmin, Rabs. repeat destruct (Rcase_abs _); repeat destruct (Rle_dec _ _); repeat (rcase; try lra); lra.
Qed.
