(** * minimize_sfw on the l1 ball in binary64: the iterates leave the ball by rounding errors only (C132) *)
From Coq Require Import ZArith Reals Lra Lia Bool List.
From Coq Require Import Floats.SpecFloat.
From Flocq Require Import Core.Core.
From Verif Require Import Num Vec Spec SpecSparse RVec ModelConstraint ModelUtilsArr ModelFrankWolfe ModelRandomized SpecFiniteSum RandomizedProx ModelSfw SpecSfw SfwFacts SfwMain
  FloatBase FloatSum FloatPair FloatPair2 FloatSimplex2 FloatBall FloatBallMain.
Import ListNotations.
Local Open Scope R_scope.

(** ** one iteration, in every arithmetic *)
Lemma csr_vm_len {K : Num} (w data : vec K) indptr indices d idx r : fast_csr_vm w data indptr indices d idx = Ok r -> length r = d.
Proof.
  unfold fast_csr_vm. destruct (negb _); [discriminate|]. intros E. apply (forM_len (K:=K)) in E.
  - rewrite E. apply repeat_length.
  - intros [k i] x x' E1. apply bind_ok in E1 as (lo & _ & E1). apply bind_ok in E1 as (hi & _ & E1). apply (forM_len (K:=K)) in E1; [exact E1|].
    intros j y y' E2. apply bind_ok in E2 as (a & _ & E2). apply bind_ok in E2 as (b & _ & E2). apply bind_ok in E2 as (c & _ & E2). apply bind_ok in E2 as (e & _ & E2). apply set_len in E2. exact E2.
Qed.
Lemma sfw_shape {K : Num} pow23 (P : problem K) lmo variant rule lipschitz bs it batch s r :
  sfw_step pow23 P lmo variant rule lipschitz bs it batch s = Ok r -> length (sw_agg s) = p_d P ->
  si_prev r = s /\ call_lmo lmo (vopp (si_est r)) (sw_x s) (sw_active s) = Ok (si_lmo r) /\ sw_x (si_next r) = vadd (sw_x s) (vscale (si_gamma r) (lmo_dir (si_lmo r))) /\
  length (si_est r) = p_d P /\ length (sw_agg (si_next r)) = p_d P /\ sw_t (si_next r) = sw_t s /\ (sw_active s = None -> sw_active (si_next r) = None) /\
  (rule = SSublinear -> si_gamma r = fst (sfw_sizes pow23 variant bs (p_n P) (sw_t s))).
Proof.
  intros E La. unfold sfw_step in E. apply bind_ok in E as (sizes & Esz & E). apply bind_ok in E as (prev & _ & E). apply bind_ok in E as ([[dual sigma] lf] & Ed & E).
  apply bind_ok in E as (new & _ & E). apply bind_ok in E as (u & Eu & E). apply csr_vm_len in Eu. apply bind_ok in E as ([est o] & Eo & E).
  apply bind_ok in E as (act & Eact & E). injection E as <-. cbn [si_prev si_est si_lmo si_gamma si_next sw_x sw_agg sw_t sw_active].
  assert (Lv : forall c, length (vadd (sw_agg s) (vscale c u)) = p_d P) by (intros c; unfold vadd, vscale; rewrite map2_length; rewrite ?map_length; lia).
  assert (Lagg : length (vadd (sw_agg s) u) = p_d P) by (unfold vadd; rewrite map2_length; lia).
  assert (X : call_lmo lmo (vopp est) (sw_x s) (sw_active s) = Ok o /\ length est = p_d P).
  { destruct variant.
    - destruct lf; apply bind_ok in Eo as (o' & Ec & Eo); injection Eo as <- <-; auto.
    - destruct lf; apply bind_ok in Eo as (o' & Ec & Eo); injection Eo as <- <-; (split; [exact Ec|]); unfold vadd at 1; rewrite map2_length; unfold vscale; rewrite ?map_length; lia.
    - destruct lf; apply bind_ok in Eo as (o' & Ec & Eo); injection Eo as <- <-; auto.
    - destruct lf as [eo|].
      + injection Eo as ->. cbn [sfw_dual_update] in Ed. apply bind_ok in Ed as (o' & Ec & Ed). apply bind_ok in Ed as (old & _ & Ed).
        destruct (match sizes with Some (_, a) => a | None => None end); [|discriminate Ed].
        apply bind_ok in Ed as (p & _ & Ed). apply bind_ok in Ed as (sg & _ & Ed). apply bind_ok in Ed as (sg' & _ & Ed). apply bind_ok in Ed as (g & _ & Ed). apply bind_ok in Ed as (dl & _ & Ed).
        injection Ed as _ _ <- <-. auto.
      + apply bind_ok in Eo as (o' & Ec & Eo); injection Eo as <- <-; auto.
    - discriminate Ed. }
  destruct X as (X1 & X2). split; [reflexivity|]. split; [exact X1|]. split; [reflexivity|]. split; [exact X2|]. split; [exact Lagg|]. split; [reflexivity|]. split.
  - intros Hn. rewrite Hn in Eact. injection Eact as <-. reflexivity.
  - intros ->. injection Esz as <-. destruct (sfw_sizes _ _ _ _ _). reflexivity.
Qed.

(** ** the step sizes *)
Lemma repr_double a : repr a -> repr (2 * a).
Proof.
  unfold repr. change f64exp with (FLT_exp (-1074) 53). intros H. apply FLT_format_generic in H; [|reflexivity].
  destruct H as [[mx ex] -> H1 H2]. cbn [Fnum Fexp] in *. apply generic_format_FLT. exists (Float radix2 mx (ex + 1)); cbn [Fnum Fexp]; [|exact H1|lia].
  unfold F2R. cbn [Fnum Fexp]. rewrite bpow_plus. change (bpow radix2 1) with 2. ring.
Qed.
Lemma rnd_pow a e : 0 <= a <= bpow radix2 e -> (0 <= e <= 1000)%Z -> 0 <= rnd a <= bpow radix2 e /\ Rabs (rnd a) < fbig.
Proof.
  intros H He. assert (A : 0 <= rnd a <= bpow radix2 e).
  { split; [rewrite <- rnd_0; apply rnd_le; lra|]. apply rnd_le_repr; [apply repr_bpow; lia|lra]. }
  split; [exact A|]. rewrite Rabs_pos_eq by lra. eapply Rle_lt_trans; [apply A|]. unfold fbig. apply bpow_lt. lia.
Qed.
Lemma pmul x y e1 e2 : fin x -> fin y -> 0 <= fv x <= bpow radix2 e1 -> 0 <= fv y <= bpow radix2 e2 -> (0 <= e1 + e2 <= 1000)%Z ->
  fin (nmul F64 x y) /\ fv (nmul F64 x y) = rnd (fv x * fv y) /\ 0 <= fv (nmul F64 x y) <= bpow radix2 (e1 + e2).
Proof.
  intros Fx Fy Hx Hy He. assert (H : 0 <= fv x * fv y <= bpow radix2 (e1 + e2)).
  { rewrite bpow_plus. split; [apply Rmult_le_pos; lra|apply Rmult_le_compat; lra]. }
  destruct (rnd_pow _ _ H He) as (A & B). destruct (mul_fin x y Fx Fy B) as (C & D). rewrite D. auto.
Qed.
Lemma padd x y e : fin x -> fin y -> 0 <= fv x <= bpow radix2 e -> 0 <= fv y <= bpow radix2 e -> (0 <= e <= 999)%Z ->
  fin (nadd F64 x y) /\ fv (nadd F64 x y) = rnd (fv x + fv y) /\ 0 <= fv (nadd F64 x y) <= bpow radix2 (e + 1).
Proof.
  intros Fx Fy Hx Hy He. assert (H : 0 <= fv x + fv y <= bpow radix2 (e + 1)).
  { rewrite bpow_plus. change (bpow radix2 1) with 2. lra. }
  destruct (rnd_pow _ _ H ltac:(lia)) as (A & B). destruct (add_fin x y Fx Fy B) as (C & D). rewrite D. auto.
Qed.
Lemma pow_int z e : (0 <= z <= 2 ^ e)%Z -> (0 <= e)%Z -> 0 <= IZR z <= bpow radix2 e.
Proof. intros H He. rewrite <- (IZR_Zpower radix2 e He). split; apply IZR_le; [lia|]. apply H. Qed.
Lemma div01 x y : fin x -> fin y -> 0 <= fv x <= fv y -> 0 < fv y -> step01 (ndiv F64 x y).
Proof.
  intros Fx Fy H Hy. assert (Q : 0 <= fv x / fv y <= 1).
  { split; [apply Rle_mult_inv_pos; lra|]. apply (Rmult_le_reg_r (fv y)); [lra|]. unfold Rdiv. rewrite Rmult_assoc, Rinv_l by lra. lra. }
  destruct (rnd_pow (fv x / fv y) 0) as (A & B); [exact Q|lia|]. destruct (div_fin x y Fx Fy ltac:(lra) B) as (C & D). cbn [bpow] in A.
  split; [apply fin_datum; exact C|]. rewrite (leb_fin _ _ fin_0 C), (leb_fin _ _ C fin_1), fv_0, fv_1, D. unfold Rleb.
  destruct (Rle_dec 0 (rnd (fv x / fv y))); [|lra]. destruct (Rle_dec (rnd (fv x / fv y)) 1); [|lra]. split; reflexivity.
Qed.
Lemma lf01 (n bs t : nat) : (1 <= bs <= n)%nat -> (Z.of_nat n < 2 ^ 53)%Z -> (Z.of_nat t + 1 < 2 ^ 53)%Z ->
  step01 (fst (sfw_sizes (K:=F64) (fun x => x) LF bs n t)).
Proof.
  intros Hb Hn Ht. unfold sfw_sizes. cbn [fst].
  destruct (nofnat_fin n Hn) as [Fn Vn]. destruct (nofnat_fin bs ltac:(lia)) as [Fb Vb]. destruct (nofnat_fin t ltac:(lia)) as [Ft Vt].
  assert (Bb : 1 <= INR bs <= INR n) by (split; [apply (le_INR 1); lia|apply le_INR; lia]).
  assert (Bt : 0 <= INR t <= bpow radix2 53) by (rewrite INR_IZR_INZ; apply pow_int; lia).
  assert (Bn : INR n <= bpow radix2 53) by (rewrite INR_IZR_INZ; apply pow_int; lia).
  assert (Q : 1 <= INR n / INR bs <= INR n).
  { split; apply (Rmult_le_reg_r (INR bs)); try lra; unfold Rdiv; rewrite Rmult_assoc, Rinv_l by lra; [lra|]. rewrite Rmult_1_r.
    rewrite <- (Rmult_1_r (INR n)) at 1. apply Rmult_le_compat_l; lra. }
  destruct (rnd_pow (INR n / INR bs) 53) as (A & B); [lra|lia|].
  assert (A1 : 1 <= rnd (INR n / INR bs)). { rewrite <- (rnd_repr 1) by (change 1 with (bpow radix2 0); apply repr_bpow; lia). apply rnd_le. lra. }
  destruct (div_fin (@nofnat F64 n) (@nofnat F64 bs) Fn Fb) as [Fm Vm]; [lra|rewrite Vn, Vb; exact B|]. rewrite Vn, Vb in Vm.
  set (m := ndiv F64 (@nofnat F64 n) (@nofnat F64 bs)) in *. rewrite <- Vm in A, A1. clearbody m. clear B Vm Q.
  destruct (nofnat_fin 2 ltac:(reflexivity)) as [F2 V2]. change (@nofnat F64 2) with (nofZ F64 2) in F2, V2.
  destruct (nofnat_fin 4 ltac:(reflexivity)) as [F4 V4]. change (@nofnat F64 4) with (nofZ F64 4) in F4, V4.
  assert (V2' : fv (nofZ F64 2) = 2) by (rewrite V2; cbn; lra). assert (V4' : fv (nofZ F64 4) = 4) by (rewrite V4; cbn; lra).
  change (@n1 F64) with (nofZ F64 1).
  assert (B1 : bpow radix2 1 = 2) by reflexivity. assert (B2 : bpow radix2 2 = 4) by reflexivity. assert (B0 : bpow radix2 0 = 1) by reflexivity.
  destruct (pmul (nofZ F64 2) m 1 53 F2 Fm) as (Fa & Va & Ba); [lra|lra|lia|].
  rewrite V2', (rnd_repr (2 * fv m)) in Va by apply repr_double, fin_repr, Fm.
  destruct (pmul (nofZ F64 4) m 2 53 F4 Fm) as (Fe & Ve & Be); [lra|lra|lia|].
  rewrite V4' in Ve. replace (4 * fv m) with (2 * (2 * fv m)) in Ve by ring. rewrite (rnd_repr (2 * (2 * fv m))) in Ve by apply repr_double, repr_double, fin_repr, Fm.
  assert (Bt' : forall e, (53 <= e)%Z -> 0 <= fv (@nofnat F64 t) <= bpow radix2 e). { intros e He. rewrite Vt. split; [apply Bt|]. eapply Rle_trans; [apply Bt|]. apply bpow_le, He. }
  destruct (padd (nmul F64 (nofZ F64 2) m) (@nofnat F64 t) 54 Fa Ft Ba (Bt' 54%Z ltac:(lia)) ltac:(lia)) as (Fs & Vs & Bs).
  destruct (padd (nmul F64 (nofZ F64 4) m) (@nofnat F64 t) 55 Fe Ft Be (Bt' 55%Z ltac:(lia)) ltac:(lia)) as (Ff & Vf & Bf).
  set (S1 := nadd F64 (nmul F64 (nofZ F64 2) m) (@nofnat F64 t)) in *. set (S2 := nadd F64 (nmul F64 (nofZ F64 4) m) (@nofnat F64 t)) in *.
  destruct (pmul (nofZ F64 2) S1 1 (54 + 1) F2 Fs) as (Fc & Vc & Bc); [lra|exact Bs|lia|].
  rewrite V2', (rnd_repr (2 * fv S1)) in Vc by apply repr_double, fin_repr, Fs.
  assert (Hle : fv S1 <= fv S2). { rewrite Vs, Vf. apply rnd_le. rewrite Va, Ve. lra. }
  assert (H1 : 1 <= fv S2). { rewrite Vf. rewrite <- (rnd_repr 1) by (rewrite <- B0; apply repr_bpow; lia). apply rnd_le. rewrite Ve, Vt. lra. }
  (* t + 1 is exact *)
  destruct (padd (@nofnat F64 t) (nofZ F64 1) 53 Ft fin_1 (Bt' 53%Z ltac:(lia))) as (Fd & Vd & Bd).
  { change (nofZ F64 1) with (@n1 F64). rewrite fv_1, <- B0. split; [lra|]. apply bpow_le; lia. } { lia. }
  change (fv (nofZ F64 1)) with (fv (@n1 F64)) in Vd. rewrite Vt, fv_1 in Vd.
  rewrite <- S_INR, (rnd_repr (INR (Datatypes.S t))) in Vd by (rewrite INR_IZR_INZ; apply repr_int; lia).
  destruct (pmul (nadd F64 (@nofnat F64 t) (nofZ F64 1)) S2 54 56 Fd Ff) as (Fg & Vg & Bg); [exact Bd|exact Bf|lia|].
  rewrite Vd in Vg. apply div01; [exact Fc|exact Fg| |].
  - split; [apply Bc|]. destruct t as [|t].
    + rewrite Vc, Vg. cbn [INR]. rewrite Rmult_1_l, (rnd_repr (fv S2)) by apply fin_repr, Ff.
      rewrite Vs, Vf, Va, Ve, Vt. cbn [INR]. rewrite !Rplus_0_r. rewrite !rnd_repr; [lra| |]; repeat apply repr_double; apply fin_repr, Fm.
    + rewrite Vc, Vg. apply Rle_trans with (2 * fv S2); [lra|]. rewrite <- (rnd_repr (2 * fv S2)) by apply repr_double, fin_repr, Ff. apply rnd_le.
      apply Rmult_le_compat_r; [lra|]. apply (le_INR 2); lia.
  - rewrite Vg. apply Rlt_le_trans with 1; [lra|]. rewrite <- (rnd_repr 1) by (rewrite <- B0; apply repr_bpow; lia). apply rnd_le.
    assert (1 <= INR (Datatypes.S t)) by (apply (le_INR 1); lia). replace 1 with (1 * 1) by ring. apply Rmult_le_compat; lra.
Qed.
Lemma sizes01 pow23 variant (n bs t : nat) : variant <> OtherSfw -> (1 <= bs <= n)%nat -> (Z.of_nat n < 2 ^ 53)%Z -> (Z.of_nat t + 8 < 2 ^ 53)%Z ->
  step01 (fst (sfw_sizes (K:=F64) pow23 variant bs n t)).
Proof.
  intros Hv Hb Hn Ht. destruct variant; [| | | |congruence].
  - apply sublinear01. lia.
  - apply sublinear01. lia.
  - destruct (nofnat_fin (t + 8)) as [Fa Va]; [lia|]. destruct (nofnat_fin 2 ltac:(reflexivity)) as [F2 V2]. apply (div01 (nofZ F64 2)); [exact F2|exact Fa| |].
    + change (fv (nofZ F64 2)) with (fv (@nofnat F64 2)). rewrite V2, Va. split; [apply pos_INR|apply le_INR; lia].
    + rewrite Va. apply (lt_INR 0). lia.
  - apply (lf01 n bs t); lia.
Qed.
