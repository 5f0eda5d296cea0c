(** * The Frank-Wolfe certificate over the l1 ball in binary64 *)
From Coq Require Import ZArith Reals Lra Lia Bool List.
From Coq Require Import Floats.SpecFloat.
From Flocq Require Import Core.Core.
From Verif Require Import Num Vec Spec RVec ConvexFacts ModelConstraint ConstraintFacts ModelFrankWolfe FrankWolfeFacts FrankWolfeMain FrankWolfeMain2 FloatBase FloatSum FloatPair FloatPair2 FloatSimplex2 FloatSimplex4 FloatBall FloatBallMain FloatGrad FloatGradMain.
Import ListNotations.
Local Open Scope R_scope.

(** np.argmax of finite binary64 numbers is the argmax of their values *)
Lemma argmax_from_fin (v : list F64) : forall (best : F64) bi i, fin best -> Forall fin v ->
  argmax_from best bi i v = @argmax_from RN (fv best) bi i (map fv v).
Proof.
  induction v as [|a v IH]; intros best bi i Fb Fv; cbn [argmax_from map]; [reflexivity|].
  pose proof (Forall_inv Fv) as Fa. pose proof (Forall_inv_tail Fv) as Fv'.
  rewrite argmax_better_R. unfold argmax_better. rewrite (fin_nisnan best Fb), (fin_nisnan a Fa). cbn [negb andb orb].
  rewrite (ltb_fin best a Fb Fa). destruct (Rltb (fv best) (fv a)); apply IH; assumption.
Qed.
Lemma argmax_fin (v : list F64) : Forall fin v -> argmax v = @argmax RN (map fv v).
Proof.
  intros H. destruct v as [|a v]; [reflexivity|]. cbn [argmax map]. f_equal. apply argmax_from_fin; [exact (Forall_inv H)|exact (Forall_inv_tail H)].
Qed.
Lemma vopp_fin (v : list F64) : Forall fin v -> Forall fin (vopp v) /\ map fv (vopp v) = @vopp RN (map fv v).
Proof.
  intros H. induction H as [|a v Ha Hv [I1 I2]]; [split; [constructor|reflexivity]|]. destruct (opp_fin a Ha) as [A B].
  split; [constructor; assumption|]. cbn [vopp map]. cbn. f_equal; [exact B|exact I2].
Qed.
Lemma vabs_fin (v : list F64) : Forall fin v -> Forall fin (vabs v) /\ map fv (vabs v) = map Rabs (map fv v).
Proof.
  intros H. induction H as [|a v Ha Hv [I1 I2]]; [split; [constructor|reflexivity]|]. destruct (abs_fin a Ha) as [A B].
  split; [constructor; assumption|]. cbn. f_equal; [exact B|exact I2].
Qed.
Lemma map_upd {A B} (f : A -> B) (v : list A) : forall i t, map f (upd v i t) = upd (map f v) i (f t).
Proof. induction v as [|a v IH]; intros [|i] t; cbn [upd map]; try reflexivity. f_equal. apply IH. Qed.
Lemma dot_upd2 (v : list R) : forall w i s t, length v = length w -> (i < length v)%nat ->
  dot (upd v i t) w = dot (upd v i s) w + (t - s) * nth i w 0.
Proof.
  induction v as [|a v IH]; intros [|b w] i s t L Hi; cbn in L; try discriminate; [cbn in Hi; lia|].
  destruct i as [|i]; cbn [upd nth]; [cbn; lra|]. cbn in Hi. change (a * b + dot (upd v i t) w = a * b + dot (upd v i s) w + (t - s) * nth i w 0).
  rewrite (IH w i s t) by lia. lra.
Qed.
Lemma upd_fin (v : list F64) : forall i t, Forall fin v -> fin t -> Forall fin (upd v i t).
Proof. induction v as [|a v IH]; intros [|i] t H Ht; cbn [upd]; [constructor|constructor|constructor; [exact Ht|exact (Forall_inv_tail H)]|]. constructor; [exact (Forall_inv H)|apply IH; [exact (Forall_inv_tail H)|exact Ht]]. Qed.
Lemma l1f_upd (v : list F64) : forall i t, (i < length v)%nat -> l1f (upd v i t) = l1f v - Rabs (fv (nth i v n0)) + Rabs (fv t).
Proof.
  unfold l1f. induction v as [|a v IH]; intros [|i] t Hi; cbn [length] in Hi; try lia; cbn [upd nth fabs map Rsum fold_right]; unfold fabs in *; [cbn; lra|].
  specialize (IH i t (proj2 (Nat.succ_lt_mono _ _) Hi)). change (Rabs (fv a) + Rsum (map (fun a => Rabs (fv a)) (upd v i t)) = Rabs (fv a) + Rsum (map (fun a => Rabs (fv a)) v) - Rabs (fv (nth i v n0)) + Rabs (fv t)). lra.
Qed.
Lemma l1f_vopp (v : list F64) : Forall fin v -> l1f (vopp v) = l1f v.
Proof. intros H. unfold l1f. induction H as [|a v Ha Hv IH]; [reflexivity|]. cbn. destruct (opp_fin a Ha) as [_ B]. cbn in B. rewrite B, Rabs_Ropp. f_equal. exact IH. Qed.
Lemma holder_f (d : list F64) : forall (u : list F64) G, 0 <= G -> Forall (fun a => Rabs (fv a) <= G) u -> dot (fabs d) (fabs u) <= G * l1f d.
Proof.
  unfold l1f. induction d as [|a d IH]; intros [|b u] G HG H; cbn; try lra.
  - assert (0 <= Rsum (map (fun c => Rabs (fv c)) d)) by (apply l1f_pos). pose proof (Rabs_pos (fv a)). apply Rmult_le_pos; [exact HG|]. apply Rplus_le_le_0_compat; assumption.
  - specialize (IH u G HG (Forall_inv_tail H)). cbn in IH. unfold fabs in *. rewrite Rmult_plus_distr_l. apply Rplus_le_compat; [|exact IH].
    rewrite Rmult_comm. apply Rmult_le_compat_r; [apply Rabs_pos|exact (Forall_inv H)].
Qed.
Lemma holder_r (d : list R) : forall (u : list R) G, 0 <= G -> Forall (fun a => Rabs a <= G) u -> dot d u <= G * l1 d.
Proof.
  induction d as [|a d IH]; intros [|b u] G HG H; cbn; try lra.
  - assert (0 <= l1 d) by (clear; induction d as [|c l I]; cbn; [lra|]; pose proof (Rabs_pos c); lra). pose proof (Rabs_pos a). apply Rmult_le_pos; lra.
  - specialize (IH u G HG (Forall_inv_tail H)). rewrite Rmult_plus_distr_l. apply Rplus_le_compat; [|exact IH].
    pose proof (Rle_abs (a * b)). rewrite Rabs_mult in H0. pose proof (Rmult_le_compat_l _ _ _ (Rabs_pos a) (Forall_inv H)). lra.
Qed.

Definition gap_err (n : nat) (G M : R) : R := csr_err n (2 * G * M) + / 2 ^ 53 * (G * M).

Section Call.
Variables (n : nat) (alpha : F64) (grad x : list F64) (G : R) (o : lmo_out F64).
Hypotheses (Lg : length grad = n) (Lx : length x = n) (Fg : Forall fin grad) (Fx : Forall fin x) (Fa : fin alpha) (Ha : 0 <= fv alpha).
Hypothesis (HG : Forall (fun a => Rabs (fv a) <= G) grad).
Let M := l1f x + fv alpha.
Hypothesis (HM : M <= ftop).
Hypothesis (Eo : l1_lmo alpha (vopp grad) x = Ok o).
Hypothesis (Fc : fin (vdot (lmo_dir o) (vopp grad))).

Lemma call_gap : exists oR : lmo_out RN, @l1_lmo RN (fv alpha) (@vopp RN (map fv grad)) (map fv x) = Ok oR /\
  Rabs (fv (vdot (lmo_dir o) (vopp grad)) - dot (lmo_dir oR) (@vopp RN (map fv grad))) <= gap_err n G M.
Proof.
  destruct (vopp_fin grad Fg) as [Fu Vu]. destruct (vopp_fin x Fx) as [Fd Vd]. destruct (vabs_fin (vopp grad) Fu) as [Fab Vab].
  assert (Hn : (0 < n)%nat). { destruct grad; [cbn in Eo; discriminate Eo|cbn in Lg; lia]. }
  assert (Lu : length (vopp grad) = n) by (unfold vopp; rewrite map_length; exact Lg).
  assert (Ld : length (vopp x) = n) by (unfold vopp; rewrite map_length; exact Lx).
  revert Eo. unfold l1_lmo. destruct (argmax_lt (vabs (vopp grad))) as (i & Ei & Hi). { unfold vabs. rewrite map_length, Lu. exact Hn. }
  unfold vabs in Hi. rewrite map_length, Lu in Hi. rewrite Ei. cbn [bind].
  rewrite (get_ok (vopp grad) i n0) by lia. cbn [bind]. rewrite (get_ok (vopp x) i n0) by lia. cbn [bind]. rewrite set_ok by lia. cbn [bind].
  intros E. assert (E2 : lmo_dir o = upd (vopp x) i (nadd F64 (nth i (vopp x) n0) (nmul F64 alpha (nsign (nth i (vopp grad) n0))))) by (injection E as E; rewrite <- E; reflexivity).
  assert (EiR : @argmax RN (@vabs RN (@vopp RN (map fv grad))) = Ok i).
  { rewrite <- Ei, (argmax_fin _ Fab), Vab, Vu. reflexivity. }
  rewrite EiR. cbn [bind].
  assert (LuR : length (@vopp RN (map fv grad)) = n) by (rewrite <- Vu, map_length; exact Lu).
  assert (LdR : length (@vopp RN (map fv x)) = n) by (rewrite <- Vd, map_length; exact Ld).
  rewrite (get_ok (@vopp RN (map fv grad)) i (@n0 RN)) by lia. cbn [bind]. rewrite (get_ok (@vopp RN (map fv x)) i (@n0 RN)) by lia. cbn [bind]. rewrite set_ok by lia. cbn [bind].
  eexists. split; [reflexivity|]. cbn [lmo_dir].
  set (ui := nth i (vopp grad) n0) in *. set (di := nth i (vopp x) n0) in *.
  assert (Vui : nth i (@vopp RN (map fv grad)) (@n0 RN) = fv ui). { rewrite <- Vu. change (@n0 RN) with 0. rewrite <- fv_0. apply map_nth. }
  assert (Vdi : nth i (@vopp RN (map fv x)) (@n0 RN) = fv di). { rewrite <- Vd. change (@n0 RN) with 0. rewrite <- fv_0. apply map_nth. }
  rewrite Vui, Vdi.
  assert (Fui : fin ui) by (apply (proj1 (Forall_forall _ _) Fu), nth_In; lia).
  assert (Fdi : fin di) by (apply (proj1 (Forall_forall _ _) Fd), nth_In; lia).
  destruct (sign_mul alpha ui Fa Fui) as [Fs Vs]. set (s := nmul F64 alpha (nsign ui)) in *.
  assert (As : Rabs (fv s) <= fv alpha).
  { pose proof ftop_ge1. pose proof (l1f_pos x). destruct (sign_abs alpha (nsign ui) Fa ltac:(unfold M in HM; lra) (nsign_key _ (fin_nisnan _ Fui))) as [_ Q]. exact Q. }
  assert (Adi : Rabs (fv di) <= l1f x) by (rewrite <- (l1f_vopp x Fx); apply l1f_nth).
  assert (U : 0 < uro <= / 1000) by exact uro_small.
  assert (B0 : Rabs (fv di + fv s) <= M) by (unfold M; eapply Rle_trans; [apply Rabs_triang|]; lra).
  pose proof (rnd_add_err (fv di) (fv s) (fin_repr _ Fdi) (fin_repr _ Fs)) as RE.
  assert (Mp : 0 <= M) by (unfold M; pose proof (l1f_pos x); lra).
  assert (RU : uro * Rabs (fv di + fv s) <= uro * M) by (apply Rmult_le_compat_l; lra).
  assert (RB : Rabs (rnd (fv di + fv s)) <= Rabs (fv di + fv s) + uro * M).
  { replace (rnd (fv di + fv s)) with ((fv di + fv s) + (rnd (fv di + fv s) - (fv di + fv s))) by ring. eapply Rle_trans; [apply Rabs_triang|]. lra. }
  assert (UM : uro * M <= / 1000 * M) by (apply Rmult_le_compat_r; lra).
  destruct (add_fin di s Fdi Fs) as [Ft Vt].
  { pose proof ftop_fits. pose proof ftop_ge1. unfold fbig. apply Rle_lt_trans with (bpow radix2 1023); [lra|apply bpow_lt; lia]. }
  set (t := nadd F64 di s) in *.
  assert (Ed : lmo_dir o = upd (vopp x) i t) by exact E2.
  assert (Fdir : Forall fin (lmo_dir o)) by (rewrite Ed; apply upd_fin; assumption).
  assert (Ldir : length (lmo_dir o) = n) by (rewrite Ed, upd_length; exact Ld).
  assert (HGu : Forall (fun a => Rabs (fv a) <= G) (vopp grad)).
  { clear - HG Fg. induction grad as [|a l IH]; [constructor|]. cbn. destruct (opp_fin a (Forall_inv Fg)) as [_ B]. constructor; [cbn in B; rewrite B, Rabs_Ropp; exact (Forall_inv HG)|].
    apply IH; [exact (Forall_inv_tail Fg)|exact (Forall_inv_tail HG)]. }
  assert (Gui : Rabs (fv ui) <= G) by (apply (proj1 (Forall_forall _ _) HGu), nth_In; lia).
  assert (Gp : 0 <= G) by (pose proof (Rabs_pos (fv ui)); lra).
  pose proof (margin_err (lmo_dir o) (vopp grad) ltac:(rewrite Ldir, Lu; reflexivity) (fin_data _ Fdir) (fin_data _ Fu) Fc) as ME. rewrite Lu in ME.
  assert (L1 : l1f (lmo_dir o) <= 2 * M).
  { rewrite Ed, l1f_upd by lia. fold di. rewrite (l1f_vopp x Fx), Vt. eapply Rle_trans; [apply Rplus_le_compat_l; exact RB|].
    assert (Rabs (fv di + fv s) <= Rabs (fv di) + fv alpha) by (eapply Rle_trans; [apply Rabs_triang|]; lra). unfold M in *. lra. }
  pose proof (holder_f (lmo_dir o) (vopp grad) G Gp HGu) as HH.
  assert (HH2 : dot (fabs (lmo_dir o)) (fabs (vopp grad)) <= 2 * G * M).
  { eapply Rle_trans; [exact HH|]. replace (2 * G * M) with (G * (2 * M)) by ring. apply Rmult_le_compat_l; assumption. }
  pose proof (csr_err_mono n _ _ HH2) as CM.
  assert (DD : dot (map fv (lmo_dir o)) (map fv (vopp grad)) = dot (upd (@vopp RN (map fv x)) i (fv di + fv alpha * @nsign RN (fv ui))) (@vopp RN (map fv grad)) + (fv t - (fv di + fv s)) * fv ui).
  { rewrite Ed, map_upd, Vd, Vu. rewrite (dot_upd2 (@vopp RN (map fv x)) (@vopp RN (map fv grad)) i (fv di + fv s) (fv t) (eq_trans LdR (eq_sym LuR)) (eq_ind_r (fun k => (i < k)%nat) Hi LdR)). rewrite Vs. f_equal. f_equal. exact Vui. }
  assert (TE : Rabs ((fv t - (fv di + fv s)) * fv ui) <= / 2 ^ 53 * (G * M)).
  { rewrite Rabs_mult, Vt, <- uro_pow. replace (uro * (G * M)) with (uro * M * G) by ring. apply Rmult_le_compat; [apply Rabs_pos|apply Rabs_pos|lra|exact Gui]. }
  unfold gap_err. change (upd (@vopp RN (map fv x)) i (nadd RN (fv di) (nmul RN (fv alpha) (@nsign RN (fv ui))))) with (upd (@vopp RN (map fv x)) i (fv di + fv alpha * @nsign RN (fv ui))).
  set (DR := dot (upd (@vopp RN (map fv x)) i (fv di + fv alpha * @nsign RN (fv ui))) (@vopp RN (map fv grad))) in *. rewrite DD in ME.
  set (c := fv (vdot (lmo_dir o) (vopp grad))) in *. set (e := (fv t - (fv di + fv s)) * fv ui) in *.
  replace (c - DR) with ((c - (DR + e)) + e) by ring. eapply Rle_trans; [apply Rabs_triang|]. lra.
Qed.
End Call.

(** ** C138 *)
Lemma lin_gap (n : nat) (a : R) (g x : list R) : length g = n -> length x = n -> (0 < n)%nat -> 0 <= a ->
  forall oR, @l1_lmo RN a (@vopp RN g) x = Ok oR ->
  (forall y, length y = n -> l1_ball a y -> dot g (vminus x y) <= dot (lmo_dir oR) (@vopp RN g)) /\
  (exists y, length y = n /\ l1_ball a y /\ dot g (vminus x y) = dot (lmo_dir oR) (@vopp RN g)).
Proof.
  intros Lg Lx Hn Ha oR E. destruct (l1_lmo_correct a (smul (-1) g) x Ha) as (o & sg & k & E2 & _ & _ & _ & Ld & _ & _ & _ & L1 & L2 & L3).
  { destruct g; [cbn in Lg; lia|discriminate]. }
  { rewrite smul_length. lia. }
  rewrite vopp_R in *. assert (o = oR) by congruence. subst o. rewrite smul_length in L1, L3. rewrite Lg in L1, L3. rewrite Lx in Ld.
  assert (Q : forall y, length y = n -> dot (smul (-1) g) y = - dot g y).
  { intros y Ly. rewrite dot_smul_l. lra. }
  assert (X : dot (lmo_dir oR) (smul (-1) g) = dot g x - dot g (vplus x (lmo_dir oR))).
  { rewrite dot_comm, Q by exact Ld. unfold vplus. rewrite (dot_lin_r 1 x 1 (lmo_dir oR) g (eq_trans Lx (eq_sym Lg)) (eq_trans Ld (eq_sym Lg))). lra. }
  assert (V : forall y, length y = n -> dot g (vminus x y) = dot g x - dot g y).
  { intros y Ly. unfold vminus. rewrite dot_lin_r by lia. lra. }
  split.
  - intros y Ly By. specialize (L3 y Ly By). rewrite !Q in L3 by assumption. rewrite V, X by assumption. lra.
  - exists (vplus x (lmo_dir oR)). split; [exact L1|]. split; [exact L2|]. rewrite V, X by assumption. reflexivity.
Qed.

Lemma main_C138_gap : forall (n : nat) (alpha : F64) (grad x : list F64) (G : R) (o : lmo_out F64),
  let cert := vdot (lmo_dir o) (vopp grad) in
  let M := Rsum (map (fun a => Rabs (fv a)) x) + fv alpha in
  let err := csr_err n (2 * G * M) + / 2 ^ 53 * (G * M) in
  length grad = n -> length x = n -> Forall fin grad -> Forall fin x -> fin alpha -> 0 <= fv alpha ->
  Forall (fun a => Rabs (fv a) <= G) grad -> M <= powerRZ 2 1000 ->
  l1_lmo alpha (vopp grad) x = Ok o -> fin cert ->
  (forall y, length y = n -> l1_ball (fv alpha) y -> dot (map fv grad) (vminus (map fv x) y) <= fv cert + err) /\
  (exists y, length y = n /\ l1_ball (fv alpha) y /\ fv cert - err <= dot (map fv grad) (vminus (map fv x) y)).
Proof.
  intros n alpha grad x G o cert M err Lg Lx Fg Fx Fa Ha HG HM Eo Fc. rewrite <- ftop_eq in HM.
  assert (Hn : (0 < n)%nat). { destruct grad; [cbn in Eo; discriminate Eo|cbn in Lg; lia]. }
  destruct (call_gap n alpha grad x G o Lg Lx Fg Fx Fa Ha HG HM Eo Fc) as (oR & ER & B). fold cert in B. change (gap_err n G (l1f x + fv alpha)) with err in B.
  destruct (lin_gap n (fv alpha) (map fv grad) (map fv x) ltac:(rewrite map_length; exact Lg) ltac:(rewrite map_length; exact Lx) Hn Ha oR ER) as (A1 & y & Ly & By & A2).
  apply Rabs_le_inv in B. split.
  - intros z Lz Bz. specialize (A1 z Lz Bz). lra.
  - exists y. split; [exact Ly|]. split; [exact By|]. lra.
Qed.

Lemma main_C138_returned : forall (n : nat) (alpha tol : F64) (fg : vec F64 -> F64 * vec F64) (f : list R -> R) (gradf : list R -> list R)
    (step : fw_strategy F64) (lipschitz : option F64) (max_iter : nat) (cb : option (list (fw_event F64) -> bool)) (x0 : vec F64) (r : fw_result F64) (G delta : R),
  let grad := snd (fg (fr_x r)) in
  let M := Rsum (map (fun a => Rabs (fv a)) (fr_x r)) + fv alpha in
  let err := csr_err n (2 * G * M) + / 2 ^ 53 * (G * M) + delta * M in
  minimize_fw fg (l1_oracle alpha) step lipschitz tol max_iter cb (Vanilla (K:=F64)) x0 = Ok r -> fr_exit r <> ExitMaxIter ->
  length grad = n -> length (fr_x r) = n -> Forall fin grad -> Forall fin (fr_x r) -> fin alpha -> 0 <= fv alpha -> fin (fr_cert r) ->
  Forall (fun a => Rabs (fv a) <= G) grad -> M <= powerRZ 2 1000 ->
  first_order n f gradf -> (forall u, length u = n -> length (gradf u) = n) -> 0 <= delta ->
  (forall j, (j < n)%nat -> Rabs (nth j (gradf (map fv (fr_x r))) 0 - fv (nth j grad n0)) <= delta) ->
  (forall y, length y = n -> l1_ball (fv alpha) y -> f (map fv (fr_x r)) - f y <= fv (fr_cert r) + err) /\
  (fr_exit r = ExitGap -> fin tol -> fv (fr_cert r) <= fv tol).
Proof.
  intros n alpha tol fg f gradf step lip m cb x0 r G delta grad M err E Hex Lg Lx Fg Fx Fa Ha Fc HG HM Hf Lgf Hd Hdel.
  pose proof (main_C49_certificate_partial F64 fg (l1_oracle alpha) step lip tol m cb Vanilla x0 r E) as H49.
  assert (H : call_lmo (l1_oracle alpha) (vopp grad) (fr_x r) (fr_active r) = Ok (fr_lmo r) /\ fr_cert r = vdot (lmo_dir (fr_lmo r)) (vopp grad)).
  { destruct (fr_exit r); [exact H49|exact H49|congruence]. }
  clear H49. destruct H as [H1 H2]. rewrite H2 in Fc. cbn [call_lmo l1_oracle] in H1.
  destruct (main_C138_gap n alpha grad (fr_x r) G (fr_lmo r) Lg Lx Fg Fx Fa Ha HG HM H1 Fc) as [A _]. rewrite <- H2 in A.
  split.
  - intros y Ly By. specialize (A y Ly By). set (xr := map fv (fr_x r)) in *. assert (Lxr : length xr = n) by (unfold xr; rewrite map_length; exact Lx).
    pose proof (Hf xr y Lxr Ly) as C. pose proof (Lgf xr Lxr) as Lgr.
    assert (Lgm : length (map fv grad) = n) by (rewrite map_length; exact Lg).
    set (e := vminus (gradf xr) (map fv grad)). assert (Le : length e = n) by (unfold e, vminus; rewrite lin_length; lia).
    assert (He : Forall (fun a => Rabs a <= delta) e).
    { apply Forall_forall. intros a Ia. destruct (In_nth _ _ 0 Ia) as (j & Hj & <-). rewrite Le in Hj. unfold e, vminus. rewrite nth_lin by lia.
      rewrite <- fv_0, map_nth. specialize (Hdel j Hj). rewrite fv_0. replace (1 * nth j (gradf xr) 0 + -1 * fv (nth j grad n0)) with (nth j (gradf xr) 0 - fv (nth j grad n0)) by ring. exact Hdel. }
    pose proof (holder_r (vminus xr y) e delta Hd He) as HH.
    assert (HL : l1 (vminus xr y) <= M).
    { unfold M. assert (Q : forall (p q : list R), length p = length q -> l1 (vminus p q) <= l1 p + l1 q).
      { induction p as [|c p IH]; intros [|d q] L; cbn in L; try discriminate; cbn; [lra|]. injection L as L. specialize (IH q L). unfold vminus in IH.
        assert (Rabs (1 * c + -1 * d) <= Rabs c + Rabs d) by (replace (1 * c + -1 * d) with (c + - d) by ring; eapply Rle_trans; [apply Rabs_triang|]; rewrite Rabs_Ropp; lra). cbn in *. lra. }
      eapply Rle_trans; [apply Q; lia|]. unfold l1_ball in By. replace (Rsum (map (fun a : F64 => Rabs (fv a)) (fr_x r))) with (l1 xr); [lra|].
      unfold xr. clear. induction (fr_x r) as [|c l IH]; [reflexivity|]. cbn [map]. change (Rabs (fv c) + l1 (map fv l) = Rabs (fv c) + Rsum (map (fun a : F64 => Rabs (fv a)) l)). rewrite IH. reflexivity. }
    assert (HE : delta * l1 (vminus xr y) <= delta * M) by (apply Rmult_le_compat_l; assumption).
    assert (V1 : dot (vminus xr y) e = dot (gradf xr) (vminus xr y) - dot (map fv grad) (vminus xr y)).
    { assert (Lv : length (vminus xr y) = n) by (unfold vminus; rewrite lin_length; lia). unfold e. rewrite (dot_comm (gradf xr)), (dot_comm (map fv grad)).
      unfold vminus at 2. rewrite dot_lin_r by lia. lra. }
    assert (V2 : dot (gradf xr) (vminus y xr) = - dot (gradf xr) (vminus xr y)).
    { unfold vminus. rewrite !dot_lin_r by lia. lra. }
    unfold err. fold M in A. lra.
  - intros Hg Ft.
    assert (Hle : nleb F64 (fr_cert r) tol = true).
    { clear - E Hg. revert Hg. apply minimize_fw_loop in E as (_ & a & _ & E).
      refine (@fw_loop_ind F64 fg _ step lip tol cb (fun it s => fw_inv fg _ tol x0 it s)
        (fun r => fr_exit r = ExitGap -> nleb F64 (fr_cert r) tol = true) m _ m 0 _ r _ _ E).
      2:{ lia. } 2:{ apply fw_inv_init. }
      intros it s o Hit Hv Ho. cbv zeta. split.
      - intros Hc _. exact Hc.
      - intros Hcc ss lip' fgn found log1 Hs stop log2 Hcb. split; [intros _ Q; discriminate Q|].
        intros _ act Hact. split; [eapply fw_inv_step; eassumption|]. intros _ Q. discriminate Q. }
    rewrite leb_fin in Hle by (rewrite ?H2; assumption). unfold Rleb in Hle. destruct (Rle_dec _ _) as [Q|Q]; [exact Q|discriminate Hle].
Qed.
