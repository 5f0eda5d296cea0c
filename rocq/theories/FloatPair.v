(** * Pairwise Frank-Wolfe in binary64: weights never go below zero *)
From Coq Require Import ZArith Reals Lra Lia Bool List.
From Coq Require Import Floats.SpecFloat.
From Flocq Require Import Core.Core IEEE754.BinarySingleNaN.
From Verif Require Import Num Vec ModelConstraint ModelFrankWolfe FloatBase.
Import ListNotations.
Local Open Scope R_scope.

(** ** Closure of the float64 data under the remaining operations *)
Lemma sqrt_B (x : bin) : SFsqrt 53 1024 (B2SF x) = B2SF (Bsqrt mode_NE x).
Proof.
  destruct x as [sx|sx| |sx mx ex Bx]; try reflexivity; try (destruct sx; reflexivity).
  destruct sx; [reflexivity|]. simpl. rewrite B2SF_SF2B.
  set (melz := SFsqrt_core_binary _ _ _ _). case melz as [[mz ez] lz].
  apply binary_round_aux_eq.
Qed.
Lemma sqrt_datum x : datum x -> datum (nsqrt F64 x).
Proof.
  intros H. destruct (datum_B x H) as (b & ->). change (datum (SFsqrt 53 1024 (B2SF b))). rewrite sqrt_B. apply datum_B2SF.
Qed.
Lemma opp_datum x : datum x -> datum (nopp F64 x).
Proof. destruct x; intros H; exact H. Qed.
Lemma datum_0 : datum n0.
Proof. reflexivity. Qed.
Lemma datum_1 : datum n1.
Proof. vm_compute. reflexivity. Qed.

Lemma map2_datum (f : F64 -> F64 -> F64) : (forall a b, datum a -> datum b -> datum (f a b)) ->
  forall u v, Forall datum u -> Forall datum v -> Forall datum (map2 f u v).
Proof.
  intros Hf. induction u as [|a u IH]; intros [|b v] Hu Hv; cbn [map2]; try constructor.
  - apply Hf; [exact (Forall_inv Hu)|exact (Forall_inv Hv)].
  - apply IH; [exact (Forall_inv_tail Hu)|exact (Forall_inv_tail Hv)].
Qed.
Lemma vadd_datum (u v : vec F64) : Forall datum u -> Forall datum v -> Forall datum (vadd u v).
Proof. apply map2_datum. apply add_datum. Qed.
Lemma vscale_datum (c : F64) (v : vec F64) : datum c -> Forall datum v -> Forall datum (vscale c v).
Proof. intros Hc Hv. unfold vscale. apply Forall_map. eapply Forall_impl; [|exact Hv]. intros a Ha. apply mul_datum; assumption. Qed.
Lemma vopp_datum (v : vec F64) : Forall datum v -> Forall datum (vopp v).
Proof. intros Hv. unfold vopp. apply Forall_map. eapply Forall_impl; [|exact Hv]. intros a Ha. apply opp_datum; assumption. Qed.
Lemma vsum_datum (v : vec F64) : Forall datum v -> datum (vsum v).
Proof.
  unfold vsum. assert (H : forall v (a : F64), datum a -> Forall datum v -> datum (fold_left (nadd F64) v a)).
  { clear. induction v as [|b v IH]; intros a Ha Hv; cbn [fold_left]; [exact Ha|]. apply IH; [|exact (Forall_inv_tail Hv)].
    apply add_datum; [exact Ha|exact (Forall_inv Hv)]. }
  intros Hv. apply H; [exact datum_0|exact Hv].
Qed.
Lemma vdot_datum (u v : vec F64) : Forall datum u -> Forall datum v -> datum (vdot u v).
Proof. intros Hu Hv. unfold vdot. apply vsum_datum. apply map2_datum; [apply mul_datum|assumption|assumption]. Qed.

(** ** Nan, or with a positive sign *)
Definition pp (x : F64) : Prop :=
  match x with
  | S754_nan => True
  | S754_zero s => s = false
  | S754_infinity s => s = false
  | S754_finite s _ _ => s = false
  end.

Lemma pp_ltb x : pp x -> nltb F64 x n0 = false.
Proof. destruct x as [s|s| |s m e]; cbn; intros H; try reflexivity; rewrite H; reflexivity. Qed.

Lemma pp_aux m e l : pp (SpecFloat.binary_round_aux 53 1024 false m e l).
Proof.
  unfold SpecFloat.binary_round_aux. destruct (shr_fexp _ _ _ _ _) as [mrs e'].
  destruct (shr_fexp _ _ _ _ _) as [mrs' e'']. destruct (shr_m mrs'); cbn; auto.
  destruct (_ <=? _)%Z; reflexivity.
Qed.
Lemma pp_mul x y : pp x -> pp y -> pp (nmul F64 x y).
Proof.
  destruct x as [sx|sx| |sx mx ex], y as [sy|sy| |sy my ey]; cbn; intros Hx Hy; auto; subst; try reflexivity.
  apply pp_aux.
Qed.
Lemma pp_square x : pp (nmul F64 x x).
Proof.
  destruct x as [sx|sx| |sx mx ex]; cbn; try (destruct sx; reflexivity); auto.
  rewrite xorb_nilpotent. apply pp_aux.
Qed.
Lemma pp_div x y : pp x -> pp y -> pp (ndiv F64 x y).
Proof.
  destruct x as [sx|sx| |sx mx ex], y as [sy|sy| |sy my ey]; cbn -[SFdiv_core_binary]; intros Hx Hy; auto; subst; try reflexivity.
  set (melz := SFdiv_core_binary _ _ _ _ _ _). destruct melz as [[mz ez] lz]. apply pp_aux.
Qed.
Lemma pp_norm m e : (0 <= m)%Z -> pp (SpecFloat.binary_normalize 53 1024 m e false).
Proof.
  intros Hm. destruct m as [|p|p]; cbn [SpecFloat.binary_normalize]; [reflexivity| |lia].
  unfold SpecFloat.binary_round. destruct (shl_align _ _ _) as [mz ez]. apply pp_aux.
Qed.

(** ** Nan, or not below zero *)
Definition nn (x : F64) : Prop :=
  match x with
  | S754_infinity s | S754_finite s _ _ => s = false
  | _ => True
  end.
Lemma pp_nn x : pp x -> nn x.
Proof. destruct x; cbn; auto. Qed.
Lemma nn_ltb x : nn x -> nltb F64 x n0 = false.
Proof. destruct x as [s|s| |s m e]; cbn; intros H; try reflexivity; rewrite H; reflexivity. Qed.
Lemma nn_add x y : nn x -> nn y -> nn (nadd F64 x y).
Proof.
  destruct x as [sx|sx| |sx mx ex], y as [sy|sy| |sy my ey]; cbn -[SpecFloat.binary_normalize shl_align]; intros Hx Hy; auto; subst; try reflexivity.
  - destruct (Bool.eqb _ _); exact I.
  - apply pp_nn, pp_norm. cbn. lia.
Qed.
Lemma nn_nonneg (x : F64) : nn x -> 0 <= fv x.
Proof.
  destruct x as [s|s| |s m e]; cbn; intros H; try lra. subst. unfold fv; cbn. apply Float_prop.F2R_ge_0. cbn. lia.
Qed.
Lemma nonneg_nn (x : F64) : fin x -> 0 <= fv x -> nn x.
Proof.
  intros [Hf _] Hv. destruct x as [s|s| |s m e]; cbn; auto; [discriminate Hf|].
  destruct s; [|reflexivity]. exfalso. unfold fv in Hv. cbn in Hv.
  pose proof (Float_prop.F2R_lt_0 radix2 (Float radix2 (Zneg m) e) (eq_refl _)). lra.
Qed.
Lemma datum_cases (x : F64) : datum x -> nn x -> fin x \/ x = S754_infinity false \/ x = S754_nan.
Proof.
  destruct x as [s|s| |s m e]; cbn; intros Hd Hn.
  - left. split; [reflexivity|exact Hd].
  - right. left. subst. reflexivity.
  - right. right. reflexivity.
  - left. split; [reflexivity|exact Hd].
Qed.

(** w - s does not go below zero when s is not above w *)
Lemma nn_sub (w s : F64) : datum w -> datum s -> nn w -> nn s -> nltb F64 w s = false -> nn (nsub F64 w s).
Proof.
  intros Dw Ds Nw Ns Hlt.
  destruct (datum_cases w Dw Nw) as [Fw|[->| ->]]; destruct (datum_cases s Ds Ns) as [Fs|[->| ->]].
  - rewrite (ltb_fin w s Fw Fs) in Hlt. destruct (Rltb_spec (fv w) (fv s)) as [|Hge]; [discriminate Hlt|].
    pose proof (nn_nonneg w Nw) as W0. pose proof (nn_nonneg s Ns) as S0.
    assert (R0 : 0 <= rnd (fv w - fv s)) by (apply rnd_ge_repr; [apply repr_0|lra]).
    assert (R1 : rnd (fv w - fv s) <= fv w) by (apply rnd_le_repr; [apply fin_repr, Fw|lra]).
    assert (Hb : Rabs (rnd (fv w - fv s)) < fbig).
    { rewrite Rabs_right by lra. pose proof (fin_small w Fw) as Hs. rewrite Rabs_right in Hs by lra. lra. }
    destruct (sub_fin w s Fw Fs Hb) as (F & V). apply nonneg_nn; [exact F|]. rewrite V. exact R0.
  - exfalso. destruct Fw as [Fw _]. destruct w as [sw|sw| |sw mw ew]; try discriminate Fw; cbn in Hlt; try discriminate Hlt.
  - destruct w as [sw|sw| |sw mw ew]; exact I.
  - destruct Fs as [Fs _]. destruct s as [ss|ss| |ss ms es]; try discriminate Fs; reflexivity.
  - exact I.
  - exact I.
  - exact I.
  - exact I.
  - exact I.
Qed.
(** (w + s) - s does not go below zero *)
Lemma nn_add_sub (w s : F64) : datum w -> datum s -> nn w -> nn s -> nn (nsub F64 (nadd F64 w s) s).
Proof.
  intros Dw Ds Nw Ns.
  pose proof (nn_add w s Nw Ns) as Na. pose proof (add_datum w s Dw Ds) as Da.
  apply nn_sub; try assumption.
  destruct (datum_cases s Ds Ns) as [Fs|[->| ->]].
  - destruct (datum_cases _ Da Na) as [Fa|[Ea|Ea]].
    + rewrite (ltb_fin _ _ Fa Fs). destruct (add_val w s Dw Ds Fa) as (Fw & _ & ->).
      destruct (Rltb_spec (rnd (fv w + fv s)) (fv s)) as [Hlt|]; [exfalso|reflexivity].
      assert (fv s <= rnd (fv w + fv s)) by (apply rnd_ge_repr; [apply fin_repr, Fs|pose proof (nn_nonneg w Nw); lra]). lra.
    + rewrite Ea. destruct s as [ss|ss| |ss ms es]; destruct Fs as [Fs _]; try discriminate Fs; reflexivity.
    + rewrite Ea. reflexivity.
  - destruct w as [sw|sw| |sw mw ew]; cbn in Nw |- *; subst; reflexivity.
  - destruct w as [sw|sw| |sw mw ew]; reflexivity.
Qed.
