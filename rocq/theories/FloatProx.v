(** * FloatProx: the elementwise proximal operators in float64 *)
From Coq Require Import ZArith Reals Lra Lia Bool List.
From Coq Require Import Floats.SpecFloat.
From Verif Require Import Num Vec ModelConstraint ModelPenalty FloatBase.
Import ListNotations.
Local Open Scope R_scope.

(** The soft threshold as a textbook states it: 0 on [-t, t], moved by t towards 0 elsewhere. *)
Definition shrink (t x : R) : R :=
  if Rle_dec (Rabs x) t then 0 else if Rlt_dec 0 x then x - t else x + t.

Lemma shrink_max t x : 0 <= t -> shrink t x = Rmax (x - t) 0 - Rmax (- x - t) 0.
Proof.
  intros Ht. unfold shrink, Rabs, Rmax.
  destruct (Rcase_abs x); repeat destruct Rle_dec; repeat destruct Rlt_dec; lra.
Qed.

Lemma sub_pos_cases x t : fin x -> fin t -> 0 <= fv t ->
  (fin (nsub F64 x t) /\ fv (nsub F64 x t) = rnd (fv x - fv t)) \/
  (nsub F64 x t = S754_infinity true /\ fv x < fv t).
Proof.
  intros Hx Ht Hp. destruct (Rlt_or_le (Rabs (rnd (fv x - fv t))) fbig) as [H|H].
  - left. apply sub_fin; assumption.
  - right. pose proof (sub_over _ _ Hx Ht H) as E. destruct Rlt_dec as [Hl|Hl] in E.
    + split; assumption.
    + exfalso. pose proof (fin_small _ Hx) as Hb.
      assert (0 <= rnd (fv x - fv t)) by (apply rnd_ge_repr; [apply repr_0|lra]).
      assert (rnd (fv x - fv t) <= fv x) by (apply rnd_le_repr; [apply fin_repr, Hx|lra]).
      rewrite Rabs_pos_eq in H by assumption. rewrite Rabs_pos_eq in Hb by lra. lra.
Qed.

(** one half of the soft threshold: fmax(x - t, 0) *)
Lemma half_thr x t : fin x -> fin t -> 0 <= fv t ->
  fin (nfmax (nsub F64 x t) n0) /\
  fv (nfmax (nsub F64 x t) n0) = rnd (Rmax (fv x - fv t) 0).
Proof.
  intros Hx Ht Hp. destruct (sub_pos_cases _ _ Hx Ht Hp) as [[Hf Hv]|[E Hl]].
  - unfold nfmax. rewrite !fin_nisnan by (assumption || apply fin_0).
    rewrite ltb_fin by (assumption || apply fin_0). rewrite Hv, fv_0.
    destruct (Rltb_spec (rnd (fv x - fv t)) 0) as [H|H].
    + split; [apply fin_0|]. rewrite fv_0, Rmax_right, rnd_0; [reflexivity|].
      destruct (Rle_or_lt (fv x - fv t) 0) as [|Hc]; [assumption|exfalso].
      assert (0 <= rnd (fv x - fv t)) by (apply rnd_ge_repr; [apply repr_0|lra]). lra.
    + split; [assumption|]. rewrite Hv. unfold Rmax. destruct Rle_dec as [Hc|]; [|reflexivity].
      rewrite rnd_0. assert (rnd (fv x - fv t) <= 0) by (apply rnd_le_repr; [apply repr_0|lra]). lra.
  - rewrite E. split; [apply fin_0|]. change (nfmax (K:=F64) (S754_infinity true) n0) with (@n0 F64).
    rewrite fv_0, Rmax_right, rnd_0; [reflexivity|lra].
Qed.

Lemma soft_thr_fin t x : fin t -> 0 <= fv t -> fin x ->
  fin (soft_thr (K:=F64) t x) /\ fv (soft_thr (K:=F64) t x) = rnd (shrink (fv t) (fv x)).
Proof.
  intros Ht Hp Hx. destruct (opp_fin _ Hx) as [Hx' Ex].
  destruct (half_thr _ _ Hx Ht Hp) as [F1 V1]. destruct (half_thr _ _ Hx' Ht Hp) as [F2 V2].
  rewrite Ex in V2. unfold soft_thr.
  assert (E : fv (nfmax (nsub F64 x t) n0) - fv (nfmax (nsub F64 (nopp F64 x) t) n0)
              = rnd (shrink (fv t) (fv x))).
  { rewrite V1, V2, shrink_max by exact Hp.
    destruct (Rle_or_lt 0 (fv x)) as [Hs|Hs].
    - rewrite (Rmax_right (- fv x - fv t)) by lra. rewrite rnd_0, !Rminus_0_r. reflexivity.
    - rewrite (Rmax_right (fv x - fv t)) by lra. rewrite rnd_0, !Rminus_0_l, rnd_opp. reflexivity. }
  assert (Hr : repr (fv (nfmax (nsub F64 x t) n0) - fv (nfmax (nsub F64 (nopp F64 x) t) n0))).
  { rewrite E. apply repr_rnd. }
  destruct (sub_fin _ _ F1 F2) as [F3 V3].
  - rewrite (rnd_repr _ Hr), E, shrink_max by exact Hp.
    destruct (Rle_or_lt 0 (fv x)) as [Hs|Hs].
    + rewrite (Rmax_right (- fv x - fv t)) by lra. rewrite Rminus_0_r, <- V1. apply fin_small, F1.
    + rewrite (Rmax_right (fv x - fv t)) by lra. rewrite Rminus_0_l, rnd_opp, Rabs_Ropp, <- V2.
      apply fin_small, F2.
  - split; [exact F3|]. rewrite V3, (rnd_repr _ Hr). exact E.
Qed.

Lemma shrink_le t x y : 0 <= t -> x <= y -> shrink t x <= shrink t y.
Proof.
  intros Ht H. rewrite !shrink_max by exact Ht. unfold Rmax.
  repeat destruct Rle_dec; lra.
Qed.
Lemma shrink_small t x : 0 <= t -> 0 <= x -> 0 <= shrink t x <= x.
Proof. intros Ht H. rewrite !shrink_max by exact Ht. unfold Rmax. repeat destruct Rle_dec; lra. Qed.
Lemma shrink_opp t x : 0 <= t -> shrink t (- x) = - shrink t x.
Proof. intros Ht. rewrite !shrink_max by exact Ht. rewrite Ropp_involutive. lra. Qed.
Lemma shrink_rel t x : repr t -> repr x -> 0 <= t ->
  Rabs (rnd (shrink t x) - shrink t x) <= uro * Rabs (shrink t x) /\
  (rnd (shrink t x) = 0 <-> Rabs x <= t).
Proof.
  intros Ht Hx Hp. unfold shrink. destruct Rle_dec as [H|H].
  - rewrite rnd_0, Rminus_0_r, Rabs_R0. split; [lra|]. split; [intros _; exact H|reflexivity].
  - destruct Rlt_dec as [H0|H0].
    + split; [apply rnd_sub_err; assumption|]. split; [|intros; lra]. intros E. exfalso.
      revert E. apply rnd_sub_nz; try assumption. rewrite Rabs_pos_eq in H by lra. lra.
    + split; [apply rnd_add_err; assumption|]. split; [|intros; lra]. intros E. exfalso.
      revert E. replace (x + t) with (x - - t) by ring.
      apply rnd_sub_nz; [assumption|apply repr_opp, Ht|]. rewrite Rabs_left1 in H by lra. lra.
Qed.

(** ** L1Norm.prox *)
Lemma main_C110_prox : forall (alpha step : F64) (x : list F64),
  fin (nmul F64 alpha step) -> 0 <= fv (nmul F64 alpha step) ->
  length (l1norm_prox alpha x step) = length x /\
  forall i, (i < length x)%nat -> fin (nth i x n0) ->
  let t := fv (nmul F64 alpha step) in
  let xi := fv (nth i x n0) in
  let wi := nth i (l1norm_prox alpha x step) n0 in
  nearest (shrink t xi) wi /\
  Rabs (fv wi - shrink t xi) <= / 9007199254740992 * Rabs (shrink t xi) /\
  (fv wi = 0 <-> Rabs xi <= t) /\
  Rabs (fv wi) <= Rabs xi /\ 0 <= fv wi * xi.
Proof.
  intros alpha step x Ft Hp. split; [apply map_length|].
  intros i Hi Fx t xi wi.
  assert (Ew : wi = soft_thr (K:=F64) (nmul F64 alpha step) (nth i x n0)).
  { subst wi. unfold l1norm_prox.
    rewrite (nth_indep _ _ (soft_thr (K:=F64) (nmul F64 alpha step) n0)) by (rewrite map_length; exact Hi).
    apply map_nth. }
  destruct (soft_thr_fin _ _ Ft Hp Fx) as [Fw Vw]. rewrite <- Ew in Fw, Vw.
  fold t xi in Vw.
  destruct (shrink_rel t xi (fin_repr _ Ft) (fin_repr _ Fx) Hp) as [R1 R2].
  split; [apply nearest_rnd; assumption|]. rewrite Vw.
  split; [rewrite <- uro_val; exact R1|]. split; [exact R2|].
  destruct (Rle_or_lt 0 xi) as [Hs|Hs].
  - destruct (shrink_small t xi Hp Hs) as [S1 S2].
    assert (A : 0 <= rnd (shrink t xi)) by (apply rnd_ge_repr; [apply repr_0|lra]).
    assert (B : rnd (shrink t xi) <= xi) by (apply rnd_le_repr; [apply fin_repr, Fx|lra]).
    rewrite !Rabs_pos_eq by assumption. split; [exact B|]. apply Rmult_le_pos; assumption.
  - destruct (shrink_small t (- xi) Hp) as [S1 S2]; [lra|]. rewrite shrink_opp in S1, S2 by exact Hp.
    assert (A : rnd (shrink t xi) <= 0) by (apply rnd_le_repr; [apply repr_0|lra]).
    assert (B : xi <= rnd (shrink t xi)) by (apply rnd_ge_repr; [apply fin_repr, Fx|lra]).
    rewrite !Rabs_left1 by lra. split; [lra|].
    replace (rnd (shrink t xi) * xi) with ((- rnd (shrink t xi)) * (- xi)) by ring.
    apply Rmult_le_pos; lra.
Qed.

(** The threshold itself may overflow: then everything is set to 0. *)
Lemma soft_thr_inf x : fin x -> fin (soft_thr (K:=F64) (S754_infinity false) x) /\
  fv (soft_thr (K:=F64) (S754_infinity false) x) = 0.
Proof.
  intros [H _]. destruct x as [s|s| |s m e]; try discriminate H.
  - split; [split|]; destruct s; reflexivity.
  - split; [split|]; destruct s; reflexivity.
Qed.
Lemma main_C110_overflow : forall (alpha step : F64) (x : list F64),
  nmul F64 alpha step = S754_infinity false -> Forall fin x ->
  Forall (fun w => fin w /\ fv w = 0) (l1norm_prox alpha x step).
Proof.
  intros alpha step x E Hx. unfold l1norm_prox. rewrite E. rewrite Forall_map.
  eapply Forall_impl; [|exact Hx]. intros a Ha. apply soft_thr_inf, Ha.
Qed.
(** Order is preserved in spite of rounding. *)
Lemma main_C110_monotone : forall (alpha step : F64) (x : list F64) i j,
  fin (nmul F64 alpha step) -> 0 <= fv (nmul F64 alpha step) ->
  (i < length x)%nat -> (j < length x)%nat -> fin (nth i x n0) -> fin (nth j x n0) ->
  fv (nth i x n0) <= fv (nth j x n0) ->
  fv (nth i (l1norm_prox alpha x step) n0) <= fv (nth j (l1norm_prox alpha x step) n0).
Proof.
  intros alpha step x i j Ft Hp Hi Hj Fi Fj H.
  assert (Ew : forall k, (k < length x)%nat -> nth k (l1norm_prox alpha x step) n0
             = soft_thr (K:=F64) (nmul F64 alpha step) (nth k x n0)).
  { intros k Hk. unfold l1norm_prox.
    rewrite (nth_indep _ _ (soft_thr (K:=F64) (nmul F64 alpha step) n0)) by (rewrite map_length; exact Hk).
    apply map_nth. }
  rewrite !Ew by assumption.
  destruct (soft_thr_fin _ _ Ft Hp Fi) as [_ ->]. destruct (soft_thr_fin _ _ Ft Hp Fj) as [_ ->].
  apply rnd_le, shrink_le; assumption.
Qed.

(** ** nan *)
Lemma nan_eq (x : F64) : nisnan x = true -> x = S754_nan.
Proof.
  unfold nisnan. destruct x as [s|[|]| |s m e]; cbn; try discriminate; intros H.
  - reflexivity.
  - exfalso. revert H. unfold SFeqb, SFcompare. rewrite !Z.compare_refl, Pos.compare_cont_refl.
    destruct s; discriminate.
Qed.

(** ** LinfBall.prox *)
Lemma clip_fin lo hi x : fin lo -> fin hi -> fin x -> fv lo <= fv hi ->
  fin (nclip lo hi x) /\ fv (nclip lo hi x) = Rmin (fv hi) (Rmax (fv lo) (fv x)) /\
  (fv lo <= fv x <= fv hi -> nclip lo hi x = x).
Proof.
  intros Hl Hh Hx H. unfold nclip. rewrite (ltb_fin x lo) by assumption.
  destruct (Rltb_spec (fv x) (fv lo)) as [H1|H1].
  - rewrite (ltb_fin hi lo) by assumption. rewrite Rltb_false by lra.
    split; [exact Hl|]. split; [|intros; lra]. rewrite Rmax_left, Rmin_right by lra. reflexivity.
  - rewrite (ltb_fin hi x) by assumption. destruct (Rltb_spec (fv hi) (fv x)) as [H2|H2].
    + split; [exact Hh|]. split; [|intros; lra]. rewrite Rmax_right, Rmin_left by lra. reflexivity.
    + split; [exact Hx|]. split; [|reflexivity]. rewrite Rmax_right, Rmin_right by lra. reflexivity.
Qed.

Lemma linf_nth alpha (x : list F64) i : (i < length x)%nat ->
  nth i (linf_prox alpha x) n0 = nclip (nopp F64 alpha) alpha (nth i x n0).
Proof.
  intros Hi. unfold linf_prox.
  rewrite (nth_indep _ _ (nclip (nopp F64 alpha) alpha n0)) by (rewrite map_length; exact Hi).
  apply map_nth.
Qed.

Lemma main_C111_clip : forall (alpha : F64) (x : list F64),
  fin alpha -> 0 <= fv alpha ->
  length (linf_prox alpha x) = length x /\
  forall i, (i < length x)%nat ->
  let xi := nth i x n0 in
  let wi := nth i (linf_prox alpha x) n0 in
  (fin xi -> fin wi /\ - fv alpha <= fv wi <= fv alpha /\
     (forall z, - fv alpha <= z <= fv alpha -> Rabs (fv wi - fv xi) <= Rabs (z - fv xi)) /\
     (Rabs (fv xi) <= fv alpha -> wi = xi)) /\
  (xi = S754_infinity false -> wi = alpha) /\
  (xi = S754_infinity true -> wi = nopp F64 alpha) /\
  (nisnan xi = true -> nisnan wi = true).
Proof.
  intros alpha x Fa Ha. split; [apply map_length|]. intros i Hi xi wi.
  assert (Ew : wi = nclip (nopp F64 alpha) alpha xi) by (apply linf_nth, Hi).
  clearbody wi xi. subst wi.
  destruct (opp_fin _ Fa) as [Fo Eo]. split.
  - intros Fx. destruct (clip_fin _ _ _ Fo Fa Fx) as (F1 & V1 & I1); [lra|].
    split; [exact F1|]. rewrite V1, Eo in *. split.
    + unfold Rmin, Rmax. repeat destruct Rle_dec; lra.
    + split.
      * intros z Hz. unfold Rmin, Rmax, Rabs. repeat destruct Rle_dec; repeat destruct Rcase_abs; lra.
      * intros Hx. apply I1. revert Hx. unfold Rabs. destruct Rcase_abs; lra.
  - split; [|split].
    + intros ->. destruct alpha as [s|s| |s m e]; try (destruct Fa; discriminate); [destruct s; reflexivity|].
      destruct s; reflexivity.
    + intros ->. destruct alpha as [s|s| |s m e]; try (destruct Fa; discriminate); [destruct s; reflexivity|].
      unfold nclip. cbn. destruct s; cbn.
      * exfalso. unfold fv in Ha. simpl in Ha.
        pose proof (Float_prop.F2R_lt_0 Zaux.radix2 (Defs.Float Zaux.radix2 (Zneg m) e) (eq_refl _)). lra.
      * reflexivity.
    + intros Hn. rewrite (nan_eq _ Hn). destruct alpha; reflexivity.
Qed.
(** Projecting twice changes nothing, bit for bit. *)
Lemma main_C111_idempotent : forall (alpha : F64) (x : list F64),
  fin alpha -> 0 <= fv alpha -> Forall fin x ->
  linf_prox alpha (linf_prox alpha x) = linf_prox alpha x.
Proof.
  intros alpha x Fa Ha Hx. unfold linf_prox. rewrite map_map. apply map_ext_in.
  intros a Hin. pose proof (proj1 (Forall_forall _ _) Hx a Hin) as Fx.
  destruct (opp_fin _ Fa) as [Fo Eo].
  destruct (clip_fin _ _ _ Fo Fa Fx) as (F1 & V1 & _); [lra|].
  destruct (clip_fin _ _ _ Fo Fa F1) as (_ & _ & I1); [lra|]. apply I1.
  rewrite V1, Eo. unfold Rmin, Rmax. repeat destruct Rle_dec; lra.
Qed.

Lemma soft_thr_nan t : soft_thr (K:=F64) t S754_nan = n0.
Proof. reflexivity. Qed.
