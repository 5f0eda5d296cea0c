(** * FloatBase: the binary64 instance of the model and the reals.

    The model's [F64] instance computes with the standard library's executable [SpecFloat]
    (53 bits, exponents below 1024, round to nearest even: numpy's float64).  This file links
    it to Flocq's [binary_float]: on finite operands each operation returns the correctly
    rounded real result, or an infinity when that result does not fit; comparisons are the
    comparisons of the real values.  No primitive floats are used, so no axioms about them. *)
From Coq Require Import ZArith Reals Lra Lia Bool Psatz.
From Coq Require Import Floats.SpecFloat.
From Flocq Require Import Core.Core IEEE754.BinarySingleNaN Relative Plus_error.
Require Import Verif.Num.
Local Open Scope R_scope.

Definition Hprec : Prec_gt_0 53 := eq_refl.
Definition Hmax : Prec_lt_emax 53 1024 := eq_refl.
#[export] Existing Instance Hprec.
#[export] Existing Instance Hmax.

Notation bin := (binary_float 53 1024).
Notation f64exp := (SpecFloat.fexp 53 1024).
#[export] Instance f64exp_valid : Valid_exp f64exp := @fexp_correct 53 1024 Hprec.
#[export] Instance f64exp_mono : Monotone_exp f64exp := @fexp_monotone 53 1024.

(** The real value of a float (0 for infinities and nan). *)
Definition fv (x : F64) : R := SF2R radix2 x.
(** A finite float64. *)
Definition fin (x : F64) : Prop :=
  is_finite_SF x = true /\ SpecFloat.valid_binary 53 1024 x = true.
(** A float64 datum: any value numpy can hold (finite, infinite or nan). *)
Definition datum (x : F64) : Prop := SpecFloat.valid_binary 53 1024 x = true.
(** Rounding to nearest, ties to even. *)
Definition rnd (r : R) : R := round radix2 f64exp ZnearestE r.
(** Exactly representable reals (of any magnitude). *)
Definition repr (r : R) : Prop := generic_format radix2 f64exp r.
(** The first real that is too large. *)
Definition fbig : R := bpow radix2 1024.

(** ** SpecFloat against Flocq *)
Lemma round_nearest_even_eq s m l :
  round_nearest_even m l = choice_mode mode_NE s m l.
Proof.
  case l; [reflexivity|intro c]. case c; [|reflexivity..].
  now simpl; unfold Round.cond_incr; case Z.even.
Qed.

Lemma binary_round_aux_eq sx mx ex lx :
  SpecFloat.binary_round_aux 53 1024 sx mx ex lx
  = BinarySingleNaN.binary_round_aux 53 1024 mode_NE sx mx ex lx.
Proof.
  unfold SpecFloat.binary_round_aux, BinarySingleNaN.binary_round_aux.
  set (mrse' := shr_fexp _ _ _). case mrse'; intros mrs' e'; simpl.
  now rewrite (round_nearest_even_eq sx).
Qed.

Lemma binary_round_eq s m e :
  SpecFloat.binary_round 53 1024 s m e = BinarySingleNaN.binary_round 53 1024 mode_NE s m e.
Proof.
  unfold SpecFloat.binary_round, BinarySingleNaN.binary_round, shl_align_fexp.
  set (mez := shl_align _ _ _); case mez as [mz ez]. apply binary_round_aux_eq.
Qed.

Lemma binary_normalize_eq m e szero :
  SpecFloat.binary_normalize 53 1024 m e szero
  = B2SF (BinarySingleNaN.binary_normalize 53 1024 Hprec Hmax mode_NE m e szero).
Proof.
  case m as [|p|p]; [now simpl| |];
    simpl; rewrite B2SF_SF2B; apply binary_round_eq.
Qed.

Lemma add_B (x y : bin) : SFadd 53 1024 (B2SF x) (B2SF y) = B2SF (Bplus mode_NE x y).
Proof.
  destruct x as [sx|sx| |sx mx ex Bx]; destruct y as [sy|sy| |sy my ey By];
    [now (trivial || simpl; case Bool.eqb)..|].
  apply binary_normalize_eq.
Qed.
Lemma sub_B (x y : bin) : SFsub 53 1024 (B2SF x) (B2SF y) = B2SF (Bminus mode_NE x y).
Proof.
  destruct x as [sx|sx| |sx mx ex Bx]; destruct y as [sy|sy| |sy my ey By];
    [now (trivial || simpl; case Bool.eqb)..|].
  simpl. unfold Zminus. rewrite <- cond_Zopp_negb. apply binary_normalize_eq.
Qed.
Lemma mul_B (x y : bin) : SFmul 53 1024 (B2SF x) (B2SF y) = B2SF (Bmult mode_NE x y).
Proof.
  destruct x as [sx|sx| |sx mx ex Bx]; destruct y as [sy|sy| |sy my ey By];
    [now trivial..|].
  simpl. rewrite B2SF_SF2B. apply binary_round_aux_eq.
Qed.
Lemma div_B (x y : bin) : SFdiv 53 1024 (B2SF x) (B2SF y) = B2SF (Bdiv mode_NE x y).
Proof.
  destruct x as [sx|sx| |sx mx ex Bx]; destruct y as [sy|sy| |sy my ey By];
    [now (trivial || simpl; case Bool.eqb)..|].
  simpl. rewrite B2SF_SF2B.
  set (melz := SFdiv_core_binary _ _ _ _ _ _). case melz as [[mz ez] lz].
  apply binary_round_aux_eq.
Qed.

(** Every datum is the image of a Flocq float. *)
Lemma datum_B (x : F64) : datum x -> exists b : bin, x = B2SF b.
Proof. intros H. exists (SF2B x H). symmetry. apply B2SF_SF2B. Qed.
Lemma datum_B2SF (b : bin) : datum (B2SF b).
Proof. apply valid_binary_B2SF. Qed.
Lemma fin_datum x : fin x -> datum x.
Proof. intros [_ H]; exact H. Qed.
Lemma fin_B (x : F64) : fin x -> exists b : bin, x = B2SF b /\ is_finite b = true.
Proof.
  intros [H1 H2]. exists (SF2B x H2). split.
  - symmetry. apply B2SF_SF2B.
  - rewrite is_finite_SF2B. exact H1.
Qed.
Lemma fin_B2SF (b : bin) : is_finite b = true -> fin (B2SF b).
Proof. intros H. split; [|apply datum_B2SF]. now destruct b. Qed.
Lemma fv_B (b : bin) : fv (B2SF b) = B2R b.
Proof. now destruct b. Qed.
Lemma fin_B2SF_iff (b : bin) : fin (B2SF b) <-> is_finite b = true.
Proof. split; [|apply fin_B2SF]. intros [H _]. now destruct b. Qed.

(** ** What the operations return *)
Lemma fin_repr x : fin x -> repr (fv x).
Proof. intros H. destruct (fin_B _ H) as (b & -> & Hb). rewrite fv_B. apply generic_format_B2R. Qed.
Lemma fin_small x : fin x -> Rabs (fv x) < fbig.
Proof. intros H. destruct (fin_B _ H) as (b & -> & Hb). rewrite fv_B. apply abs_B2R_lt_emax. Qed.
Lemma rnd_repr r : repr r -> rnd r = r.
Proof. intros H. apply round_generic; [typeclasses eauto|exact H]. Qed.
Lemma rnd_fin x : fin x -> rnd (fv x) = fv x.
Proof. intros H. apply rnd_repr, fin_repr, H. Qed.
Lemma repr_rnd r : repr (rnd r).
Proof. apply generic_format_round; typeclasses eauto. Qed.
Lemma rnd_le a b : a <= b -> rnd a <= rnd b.
Proof. intros H. apply round_le; [typeclasses eauto|typeclasses eauto|exact H]. Qed.
Lemma rnd_0 : rnd 0 = 0.
Proof. apply round_0. typeclasses eauto. Qed.
Lemma rnd_opp a : rnd (- a) = - rnd a.
Proof. apply round_NE_opp. Qed.
Lemma rnd_abs a : rnd (Rabs a) = Rabs (rnd a).
Proof. apply round_NE_abs. typeclasses eauto. Qed.
Lemma repr_0 : repr 0.
Proof. apply generic_format_0. Qed.
Lemma repr_opp a : repr a -> repr (- a).
Proof. apply generic_format_opp. Qed.
Lemma repr_abs a : repr a -> repr (Rabs a).
Proof. apply generic_format_abs. Qed.
Lemma repr_bpow e : (-1074 <= e)%Z -> repr (bpow radix2 e).
Proof.
  intros H. apply generic_format_bpow. unfold f64exp, SpecFloat.fexp, SpecFloat.emin.
  lia.
Qed.

Lemma add_fin x y : fin x -> fin y -> Rabs (rnd (fv x + fv y)) < fbig ->
  fin (nadd F64 x y) /\ fv (nadd F64 x y) = rnd (fv x + fv y).
Proof.
  intros Hx Hy. destruct (fin_B _ Hx) as (a & -> & Ha), (fin_B _ Hy) as (b & -> & Hb).
  cbn [nadd F64]. change f64_prec with 53%Z; change f64_emax with 1024%Z.
  rewrite add_B, !fv_B, fin_B2SF_iff. intros Hlt.
  generalize (Bplus_correct 53 1024 Hprec Hmax mode_NE a b Ha Hb).
  rewrite Rlt_bool_true by exact Hlt. intros (H1 & H2 & _). split; [exact H2|exact H1].
Qed.
Lemma sub_fin x y : fin x -> fin y -> Rabs (rnd (fv x - fv y)) < fbig ->
  fin (nsub F64 x y) /\ fv (nsub F64 x y) = rnd (fv x - fv y).
Proof.
  intros Hx Hy. destruct (fin_B _ Hx) as (a & -> & Ha), (fin_B _ Hy) as (b & -> & Hb).
  cbn [nsub F64]. change f64_prec with 53%Z; change f64_emax with 1024%Z.
  rewrite sub_B, !fv_B, fin_B2SF_iff. intros Hlt.
  generalize (Bminus_correct 53 1024 Hprec Hmax mode_NE a b Ha Hb).
  rewrite Rlt_bool_true by exact Hlt. intros (H1 & H2 & _). split; [exact H2|exact H1].
Qed.
Lemma mul_fin x y : fin x -> fin y -> Rabs (rnd (fv x * fv y)) < fbig ->
  fin (nmul F64 x y) /\ fv (nmul F64 x y) = rnd (fv x * fv y).
Proof.
  intros Hx Hy. destruct (fin_B _ Hx) as (a & -> & Ha), (fin_B _ Hy) as (b & -> & Hb).
  cbn [nmul F64]. change f64_prec with 53%Z; change f64_emax with 1024%Z.
  rewrite mul_B, !fv_B, fin_B2SF_iff. intros Hlt.
  generalize (Bmult_correct 53 1024 Hprec Hmax mode_NE a b).
  rewrite Rlt_bool_true by exact Hlt. intros (H1 & H2 & _).
  rewrite Ha, Hb in H2. split; [exact H2|exact H1].
Qed.
Lemma div_fin x y : fin x -> fin y -> fv y <> 0 -> Rabs (rnd (fv x / fv y)) < fbig ->
  fin (ndiv F64 x y) /\ fv (ndiv F64 x y) = rnd (fv x / fv y).
Proof.
  intros Hx Hy. destruct (fin_B _ Hx) as (a & -> & Ha), (fin_B _ Hy) as (b & -> & Hb).
  cbn [ndiv F64]. change f64_prec with 53%Z; change f64_emax with 1024%Z.
  rewrite div_B, !fv_B, fin_B2SF_iff. intros Hz Hlt.
  generalize (Bdiv_correct 53 1024 Hprec Hmax mode_NE a b Hz).
  rewrite Rlt_bool_true by exact Hlt. intros (H1 & H2 & _).
  rewrite Ha in H2. split; [exact H2|exact H1].
Qed.

(** When the rounded result does not fit, the operation returns an infinity of its sign. *)
Lemma sub_over x y : fin x -> fin y -> fbig <= Rabs (rnd (fv x - fv y)) ->
  nsub F64 x y = S754_infinity (if Rlt_dec (fv x) (fv y) then true else false).
Proof.
  intros Hx Hy. destruct (fin_B _ Hx) as (a & -> & Ha), (fin_B _ Hy) as (b & -> & Hb).
  cbn [nsub F64]. change f64_prec with 53%Z; change f64_emax with 1024%Z.
  rewrite sub_B, !fv_B. intros Hge.
  generalize (Bminus_correct 53 1024 Hprec Hmax mode_NE a b Ha Hb).
  rewrite Rlt_bool_false by exact Hge. intros (H1 & H2).
  rewrite H1. unfold binary_overflow. cbn [overflow_to_inf].
  assert (Hne : B2R a - B2R b <> 0).
  { intros E. unfold rnd in Hge. rewrite E in Hge.
    rewrite round_0 in Hge by typeclasses eauto.
    rewrite Rabs_R0 in Hge. pose proof (bpow_gt_0 radix2 1024). unfold fbig in Hge. lra. }
  f_equal. destruct a as [sa|sa| |sa ma ea Ba]; try discriminate;
    destruct b as [sb|sb| |sb mb eb Bb]; try discriminate; simpl in H2 |- *.
  - simpl in Hne. lra.
  - subst sa. destruct sb; simpl negb; simpl cond_Zopp.
    + pose proof (F2R_gt_0 radix2 (Float radix2 (Zpos ma) ea) (eq_refl _)).
      pose proof (F2R_lt_0 radix2 (Float radix2 (Zneg mb) eb) (eq_refl _)).
      destruct Rlt_dec as [Hl|]; [|reflexivity]. exfalso. simpl in *. lra.
    + pose proof (F2R_lt_0 radix2 (Float radix2 (Zneg ma) ea) (eq_refl _)).
      pose proof (F2R_gt_0 radix2 (Float radix2 (Zpos mb) eb) (eq_refl _)).
      destruct Rlt_dec as [|Hl]; [reflexivity|]. exfalso. apply Hl. simpl in *. lra.
Qed.

Lemma opp_fin x : fin x -> fin (nopp F64 x) /\ fv (nopp F64 x) = - fv x.
Proof.
  intros H. destruct (fin_B _ H) as (b & -> & Hb).
  assert (E : nopp F64 (B2SF b) = B2SF (Bopp b)) by (now destruct b).
  rewrite E, fin_B2SF_iff, !fv_B, is_finite_Bopp, B2R_Bopp. split; [exact Hb|reflexivity].
Qed.
Lemma abs_fin x : fin x -> fin (nabs F64 x) /\ fv (nabs F64 x) = Rabs (fv x).
Proof.
  intros H. destruct (fin_B _ H) as (b & -> & Hb).
  assert (E : nabs F64 (B2SF b) = B2SF (Babs b)) by (now destruct b).
  rewrite E, fin_B2SF_iff, !fv_B, is_finite_Babs, B2R_Babs. split; [exact Hb|reflexivity].
Qed.

Lemma ltb_fin x y : fin x -> fin y -> nltb F64 x y = Rltb (fv x) (fv y).
Proof.
  intros Hx Hy. destruct (fin_B _ Hx) as (a & -> & Ha), (fin_B _ Hy) as (b & -> & Hb).
  rewrite !fv_B. etransitivity; [exact (Bltb_correct 53 1024 a b Ha Hb)|].
  case Rlt_bool_spec; intros H; symmetry; [apply Rltb_true|apply Rltb_false]; exact H.
Qed.
Lemma leb_fin x y : fin x -> fin y -> nleb F64 x y = Rleb (fv x) (fv y).
Proof.
  intros Hx Hy. destruct (fin_B _ Hx) as (a & -> & Ha), (fin_B _ Hy) as (b & -> & Hb).
  rewrite !fv_B. etransitivity; [exact (Bleb_correct 53 1024 a b Ha Hb)|].
  case Rle_bool_spec; intros H; symmetry; [apply Rleb_true|apply Rleb_false]; exact H.
Qed.
Lemma eqb_fin x y : fin x -> fin y -> neqb F64 x y = Reqb (fv x) (fv y).
Proof.
  intros Hx Hy. destruct (fin_B _ Hx) as (a & -> & Ha), (fin_B _ Hy) as (b & -> & Hb).
  rewrite !fv_B. etransitivity; [exact (Beqb_correct 53 1024 a b Ha Hb)|].
  destruct (Reqb_spec (B2R a) (B2R b)) as [E|E].
  - rewrite Req_bool_true; [reflexivity|exact E].
  - rewrite Req_bool_false; [reflexivity|exact E].
Qed.

Lemma fin_0 : fin n0.
Proof. split; reflexivity. Qed.
Lemma fv_0 : fv n0 = 0.
Proof. reflexivity. Qed.
Lemma fin_1 : fin n1.
Proof. split; reflexivity. Qed.
Lemma fv_1 : fv n1 = 1.
Proof. unfold fv, n1, F64. cbn. unfold F2R. cbn. lra. Qed.
Lemma fin_nisnan x : fin x -> nisnan x = false.
Proof. intros H. unfold nisnan. rewrite eqb_fin, Reqb_refl by exact H. reflexivity. Qed.

(** ** Rounding *)
(** The unit roundoff 2^-53 and half the smallest positive float, 2^-1075. *)
Definition uro : R := bpow radix2 (-53).
Definition eta : R := bpow radix2 (-1075).
Lemma uro_pos : 0 < uro.
Proof. apply bpow_gt_0. Qed.
Lemma eta_pos : 0 < eta.
Proof. apply bpow_gt_0. Qed.
Lemma uro_val : uro = / 9007199254740992.
Proof. unfold uro, bpow. simpl Z.pow_pos. reflexivity. Qed.

(** No float is closer to [r] than [w]. *)
Definition nearest (r : R) (w : F64) : Prop :=
  fin w /\ forall z, fin z -> Rabs (fv w - r) <= Rabs (fv z - r).
Lemma rnd_closest r z : repr z -> Rabs (rnd r - r) <= Rabs (z - r).
Proof.
  intros Hz. pose proof (round_N_pt radix2 f64exp (fun t => negb (Z.even t)) r) as [_ H].
  apply H. exact Hz.
Qed.
Lemma nearest_rnd r w : fin w -> fv w = rnd r -> nearest r w.
Proof. intros Hw E. split; [exact Hw|]. intros z Hz. rewrite E. apply rnd_closest, fin_repr, Hz. Qed.

(** Additions and subtractions have a relative error even when the result is subnormal. *)
Lemma rnd_add_err a b : repr a -> repr b -> Rabs (rnd (a + b) - (a + b)) <= uro * Rabs (a + b).
Proof.
  intros Ha Hb.
  destruct (FLT_plus_error_N_ex radix2 (-1074) 53 (fun t => negb (Z.even t)) a b Ha Hb) as (eps & He & Hr).
  change (round radix2 (FLT_exp (-1074) 53) (Znearest (fun t => negb (Z.even t))) (a + b))
    with (rnd (a + b)) in Hr.
  rewrite Hr. replace ((a + b) * (1 + eps) - (a + b)) with (eps * (a + b)) by ring.
  rewrite Rabs_mult. apply Rmult_le_compat_r; [apply Rabs_pos|].
  apply Rle_trans with (1 := He), Rle_trans with (1 := u_rod1pu_ro_le_u_ro radix2 53).
  unfold u_ro, uro. right. simpl Z.add. change (-53)%Z with (-1 + -52)%Z.
  rewrite (bpow_plus radix2 (-1) (-52)). f_equal.
Qed.
Lemma rnd_sub_err a b : repr a -> repr b -> Rabs (rnd (a - b) - (a - b)) <= uro * Rabs (a - b).
Proof. intros Ha Hb. apply rnd_add_err; [exact Ha|apply repr_opp, Hb]. Qed.
Lemma rnd_sub_nz a b : repr a -> repr b -> a <> b -> rnd (a - b) <> 0.
Proof.
  intros Ha Hb Hne. apply round_plus_neq_0; try typeclasses eauto; [exact Ha|apply repr_opp, Hb|lra].
Qed.
(** Products and quotients: relative error, plus [eta] when they underflow. *)
Lemma rnd_err r : Rabs (rnd r - r) <= uro * Rabs r + eta.
Proof.
  destruct (error_N_FLT radix2 (-1074) 53 (eq_refl _) (fun t => negb (Z.even t)) r)
    as (eps & et & He & Ht & _ & Hr).
  change (round radix2 (FLT_exp (-1074) 53) (Znearest (fun t => negb (Z.even t))) r) with (rnd r) in Hr.
  rewrite Hr. replace (r * (1 + eps) + et - r) with (eps * r + et) by ring.
  apply Rle_trans with (1 := Rabs_triang _ _). apply Rplus_le_compat.
  - rewrite Rabs_mult. apply Rmult_le_compat_r; [apply Rabs_pos|].
    apply Rle_trans with (1 := He). right. unfold uro. simpl Z.add. change (-53)%Z with (-1 + -52)%Z.
    rewrite (bpow_plus radix2 (-1) (-52)). f_equal.
  - apply Rle_trans with (1 := Ht). right. unfold eta. change (-1075)%Z with (-1 + -1074)%Z.
    rewrite (bpow_plus radix2 (-1) (-1074)). f_equal.
Qed.

(** Reals up to 2^1023 round to floats. *)
Lemma rnd_fits r : Rabs r <= bpow radix2 1023 -> Rabs (rnd r) < fbig.
Proof.
  intros H. rewrite <- rnd_abs. apply Rle_lt_trans with (rnd (bpow radix2 1023)).
  - apply rnd_le, H.
  - rewrite rnd_repr by (apply repr_bpow; lia). apply bpow_lt. lia.
Qed.
(** Rounding does not cross a float. *)
Lemma rnd_le_repr a b : repr b -> a <= b -> rnd a <= b.
Proof. intros Hb H. rewrite <- (rnd_repr _ Hb). apply rnd_le, H. Qed.
Lemma rnd_ge_repr a b : repr b -> b <= a -> b <= rnd a.
Proof. intros Hb H. rewrite <- (rnd_repr _ Hb). apply rnd_le, H. Qed.

(** ** A finite result had finite operands and did not overflow *)
Lemma add_val x y : datum x -> datum y -> fin (nadd F64 x y) ->
  fin x /\ fin y /\ fv (nadd F64 x y) = rnd (fv x + fv y).
Proof.
  intros Hx Hy Hf. destruct (datum_B _ Hx) as (a & ->), (datum_B _ Hy) as (b & ->).
  cbn [nadd F64] in *. change f64_prec with 53%Z in *; change f64_emax with 1024%Z in *.
  rewrite add_B in *. rewrite !fin_B2SF_iff in *. rewrite !fv_B.
  assert (Hab : is_finite a = true /\ is_finite b = true).
  { destruct a as [sa|sa| |]; destruct b as [sb|sb| |]; try (split; reflexivity);
      simpl in Hf; try discriminate. destruct (Bool.eqb sa sb); discriminate. }
  destruct Hab as [Ha Hb]. split; [exact Ha|]. split; [exact Hb|].
  generalize (Bplus_correct 53 1024 Hprec Hmax mode_NE a b Ha Hb).
  case Rlt_bool_spec; intros Hc.
  - intros (H1 & _). exact H1.
  - intros (H1 & _). exfalso. destruct (Bplus mode_NE a b); discriminate.
Qed.
Lemma mul_val x y : datum x -> datum y -> fin (nmul F64 x y) ->
  fin x /\ fin y /\ fv (nmul F64 x y) = rnd (fv x * fv y).
Proof.
  intros Hx Hy Hf. destruct (datum_B _ Hx) as (a & ->), (datum_B _ Hy) as (b & ->).
  cbn [nmul F64] in *. change f64_prec with 53%Z in *; change f64_emax with 1024%Z in *.
  rewrite mul_B in *. rewrite !fin_B2SF_iff in *. rewrite !fv_B.
  generalize (Bmult_correct 53 1024 Hprec Hmax mode_NE a b).
  case Rlt_bool_spec; intros Hc.
  - intros (H1 & H2 & _). rewrite Hf in H2. symmetry in H2. apply andb_true_iff in H2.
    destruct H2. split; [assumption|]. split; [assumption|exact H1].
  - intros H1. exfalso. destruct (Bmult mode_NE a b); discriminate.
Qed.
Lemma add_datum x y : datum x -> datum y -> datum (nadd F64 x y).
Proof.
  intros Hx Hy. destruct (datum_B _ Hx) as (a & ->), (datum_B _ Hy) as (b & ->).
  cbn [nadd F64]. change f64_prec with 53%Z; change f64_emax with 1024%Z.
  rewrite add_B. apply datum_B2SF.
Qed.
Lemma mul_datum x y : datum x -> datum y -> datum (nmul F64 x y).
Proof.
  intros Hx Hy. destruct (datum_B _ Hx) as (a & ->), (datum_B _ Hy) as (b & ->).
  cbn [nmul F64]. change f64_prec with 53%Z; change f64_emax with 1024%Z.
  rewrite mul_B. apply datum_B2SF.
Qed.
Lemma sub_datum x y : datum x -> datum y -> datum (nsub F64 x y).
Proof.
  intros Hx Hy. destruct (datum_B _ Hx) as (a & ->), (datum_B _ Hy) as (b & ->).
  cbn [nsub F64]. change f64_prec with 53%Z; change f64_emax with 1024%Z.
  rewrite sub_B. apply datum_B2SF.
Qed.
Lemma div_datum x y : datum x -> datum y -> datum (ndiv F64 x y).
Proof.
  intros Hx Hy. destruct (datum_B _ Hx) as (a & ->), (datum_B _ Hy) as (b & ->).
  cbn [ndiv F64]. change f64_prec with 53%Z; change f64_emax with 1024%Z.
  rewrite div_B. apply datum_B2SF.
Qed.
