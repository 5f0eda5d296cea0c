(** * FloatL2Runs: L2Ball.prox in binary64 outside the range of the accuracy theorem, and its norm *)
From Coq Require Import ZArith Reals Lra Lia Bool List.
From Coq Require Import Floats.SpecFloat.
From Flocq Require Import Core.Core IEEE754.BinarySingleNaN.
From Verif Require Import Num Vec Spec SpecSparse RVec ModelConstraint FloatBase FloatSum FloatLogistic FloatGradMain FloatNorm FloatL2 FloatSimplex4 ConstraintFacts.
Import ListNotations.
Local Open Scope R_scope.

(** a nonnegative float, possibly plus infinity *)
Definition nnf (a : F64) : Prop := a = S754_infinity false \/ (fin a /\ 0 <= fv a).
Lemma sq_nnf x : fin x -> nnf (nsq x) /\ (fbig <= rnd (fv x * fv x) -> nsq x = S754_infinity false).
Proof.
  intros Hx. unfold nsq. destruct (Rlt_le_dec (Rabs (rnd (fv x * fv x))) fbig) as [H|H].
  - destruct (mul_fin x x Hx Hx H) as (F & V). split.
    + right. split; [exact F|]. rewrite V, <- rnd_0. apply rnd_le. apply Rle_0_sqr.
    + intros H'. pose proof (Rle_abs (rnd (fv x * fv x))). lra.
  - assert (E : nmul F64 x x = S754_infinity false); [|split; [left; exact E|intros _; exact E]].
    destruct (fin_B _ Hx) as (a & -> & Ha). cbn [nmul F64]. change f64_prec with 53%Z; change f64_emax with 1024%Z. rewrite mul_B. rewrite !fv_B in H.
    generalize (Bmult_correct 53 1024 Hprec Hmax mode_NE a a). rewrite Rlt_bool_false by exact H. intros ->. rewrite xorb_nilpotent. reflexivity.
Qed.
Lemma add_nnf x y : nnf x -> nnf y -> nnf (nadd F64 x y) /\ (x = S754_infinity false \/ y = S754_infinity false -> nadd F64 x y = S754_infinity false).
Proof.
  intros [->|(Fx & Hx)] [->|(Fy & Hy)].
  - split; [left; reflexivity|reflexivity].
  - assert (E : nadd F64 (S754_infinity false) y = S754_infinity false) by (destruct y as [s|s| |s m e]; try reflexivity; destruct Fy as (Q & _); discriminate Q). rewrite E. split; [left; reflexivity|reflexivity].
  - assert (E : nadd F64 x (S754_infinity false) = S754_infinity false) by (destruct x as [s|s| |s m e]; try reflexivity; destruct Fx as (Q & _); discriminate Q). rewrite E. split; [left; reflexivity|reflexivity].
  - split; [|intros [->| ->]; [destruct Fx as (Q & _)|destruct Fy as (Q & _)]; discriminate Q].
    destruct (Rlt_le_dec (Rabs (rnd (fv x + fv y))) fbig) as [H|H].
    + destruct (add_fin x y Fx Fy H) as (F & V). right. split; [exact F|]. rewrite V, <- rnd_0. apply rnd_le. lra.
    + left. destruct (fin_B _ Fx) as (a & -> & Ha), (fin_B _ Fy) as (b & -> & Hb). cbn [nadd F64]. change f64_prec with 53%Z; change f64_emax with 1024%Z. rewrite add_B. rewrite !fv_B in *.
      generalize (Bplus_correct 53 1024 Hprec Hmax mode_NE a b Ha Hb). rewrite Rlt_bool_false by exact H. intros (-> & E).
      unfold binary_overflow. cbn [overflow_to_inf]. f_equal.
      destruct a as [sa|sa| |[|] ma ea Ba]; try discriminate Ha; try reflexivity.
      * exfalso. simpl in H, E. subst sa. destruct b as [sb|sb| |sb mb eb Bb]; try discriminate Hb.
        { simpl in H. unfold rnd in H. rewrite Rplus_0_l, round_0, Rabs_R0 in H by typeclasses eauto. pose proof (bpow_gt_0 radix2 1024). unfold fbig in H. lra. }
        pose proof (fin_small _ Fy) as S. rewrite fv_B in S. simpl B2R in H. rewrite Rplus_0_l in H. change (F2R (Float radix2 (cond_Zopp sb (Z.pos mb)) eb)) with (B2R (B754_finite sb mb eb Bb : bin)) in H. rewrite <- fv_B, rnd_fin, fv_B in H by exact Fy. lra.
      * exfalso. simpl in Hx. pose proof (F2R_lt_0 radix2 (Float radix2 (Zneg ma) ea) (eq_refl _)). lra.
Qed.
Lemma sum_inf (l : list F64) : Forall nnf l -> forall a, nnf a -> (a = S754_infinity false \/ In (S754_infinity false) l) -> fold_left (nadd F64) l a = S754_infinity false.
Proof.
  induction l as [|b l IH]; intros Hl a Ha Hi; cbn [fold_left]; [destruct Hi as [->|[]]; reflexivity|].
  destruct (add_nnf a b Ha (Forall_inv Hl)) as (P & Q). apply IH; [exact (Forall_inv_tail Hl)|exact P|].
  destruct Hi as [->|[->|Hi]]; [left; apply Q; left; reflexivity|left; apply Q; right; reflexivity|right; exact Hi].
Qed.
Lemma div_inf (a : F64) : datum a -> ndiv F64 a (S754_infinity false) = S754_nan \/ exists s, ndiv F64 a (S754_infinity false) = S754_zero s.
Proof. intros _. destruct a as [s|s| |s m e]; [right; eexists; reflexivity|left; reflexivity|left; reflexivity|right; eexists; reflexivity]. Qed.
Lemma main_C129_overflow_partial : forall (alpha : F64) (x : list F64) j,
  fin alpha -> Forall fin x -> powerRZ 2 512 <= Rabs (fv (nth j x n0)) ->
  forall i, (i < length x)%nat ->
    nth i (l2_prox alpha x) n0 = S754_nan \/ exists s, nth i (l2_prox alpha x) n0 = S754_zero s.
Proof.
  intros alpha x j Fa Fx Hj i Hi. rewrite powZ_bpow in Hj.
  assert (Jl : (j < length x)%nat). { destruct (Nat.lt_ge_cases j (length x)) as [H|H]; [exact H|]. exfalso. rewrite (nth_overflow x n0 H), fv_0, Rabs_R0 in Hj. pose proof (bpow_gt_0 radix2 512). lra. }
  assert (E : vsum (map nsq x) = S754_infinity false).
  { apply sum_inf.
    - rewrite Forall_map. eapply Forall_impl; [|exact Fx]. intros a Fa'. apply sq_nnf, Fa'.
    - right. split; [apply fin_0|rewrite fv_0; lra].
    - right. apply in_map_iff. exists (nth j x n0). split; [|apply nth_In, Jl]. apply sq_nnf; [rewrite Forall_forall in Fx; apply Fx, nth_In, Jl|].
      apply rnd_ge_repr; [apply repr_bpow; lia|]. unfold fbig. change 1024%Z with (512 + 512)%Z. rewrite bpow_plus.
      replace (fv (nth j x n0) * fv (nth j x n0)) with (Rabs (fv (nth j x n0)) * Rabs (fv (nth j x n0))) by (rewrite <- Rabs_mult; apply Rabs_pos_eq, Rle_0_sqr).
      pose proof (bpow_gt_0 radix2 512). apply Rmult_le_compat; lra. }
  unfold l2_prox. rewrite E. change (nsqrt F64 (S754_infinity false)) with (S754_infinity false : F64).
  assert (L : nleb F64 (S754_infinity false) alpha = false) by (destruct alpha as [s|s| |s m e]; try reflexivity; destruct Fa as (Q & _); discriminate Q).
  rewrite L.
  rewrite (nth_indep _ n0 (ndiv F64 (nmul F64 alpha n0) (S754_infinity false))) by (rewrite map_length; exact Hi).
  rewrite (map_nth (fun t : F64 => ndiv F64 (nmul F64 alpha t) (S754_infinity false))). apply div_inf.
  apply mul_datum; apply fin_datum; [exact Fa|]. rewrite Forall_forall in Fx. apply Fx, nth_In, Hi.
Qed.
(** small squares round to zero *)
Lemma repr_tiny v : repr v -> Rabs v < bpow radix2 (-1074) -> v = 0.
Proof.
  intros Hv Hs. unfold repr, generic_format in Hv. set (m := Ztrunc (scaled_mantissa radix2 f64exp v)) in *. set (e := cexp radix2 f64exp v) in *.
  destruct (Z.eq_dec m 0) as [E|E]; [rewrite Hv, E; apply F2R_0|exfalso]. rewrite Hv, <- F2R_Zabs in Hs.
  assert (H1 : bpow radix2 e <= F2R (Float radix2 (Z.abs m) e)) by (apply bpow_le_F2R; lia).
  assert (H2 : bpow radix2 (-1074) <= bpow radix2 e) by (apply bpow_le; unfold e, cexp, SpecFloat.fexp, SpecFloat.emin; lia). lra.
Qed.
Lemma rnd_tiny r : Rabs r <= bpow radix2 (-1076) -> rnd r = 0.
Proof.
  intros H. apply repr_tiny; [apply repr_rnd|]. pose proof (rnd_closest r 0 repr_0) as C. rewrite Rminus_0_l, Rabs_Ropp in C.
  apply Rle_lt_trans with (bpow radix2 (-1075)); [|apply bpow_lt; lia]. replace (bpow radix2 (-1075)) with (2 * bpow radix2 (-1076)) by (change (-1075)%Z with (1 + -1076)%Z; rewrite bpow_plus; reflexivity).
  replace (rnd r) with ((rnd r - r) + r) by ring. eapply Rle_trans; [apply Rabs_triang|]. lra.
Qed.
Lemma main_C129_underflow_partial : forall (alpha : F64) (x : list F64),
  fin alpha -> 0 <= fv alpha -> Forall fin x -> Forall (fun a => Rabs (fv a) <= powerRZ 2 (-538)) x -> l2_prox alpha x = x.
Proof.
  intros alpha x Fa Ha Fx Hx.
  assert (E : forall a : F64, fin a -> fv a = 0 -> let s := fold_left (nadd F64) (map nsq x) a in fin s /\ fv s = 0).
  { clear Fa Ha alpha. induction x as [|b x IH]; intros a F V; cbn [map fold_left]; [auto|]. pose proof (Forall_inv Fx) as Fb. pose proof (Forall_inv Hx) as Hb. cbv beta in Hb. rewrite powZ_bpow in Hb.
    assert (Z : rnd (fv b * fv b) = 0). { apply rnd_tiny. rewrite Rabs_mult. change (-1076)%Z with (-538 + -538)%Z. rewrite bpow_plus. apply Rmult_le_compat; try apply Rabs_pos; exact Hb. }
    destruct (mul_fin b b Fb Fb) as (Fm & Vm); [rewrite Z, Rabs_R0; apply bpow_gt_0|]. fold (nsq b) in Fm, Vm. rewrite Z in Vm.
    destruct (add_fin a (nsq b) F Fm) as (Fs & Vs); [rewrite V, Vm, Rplus_0_l, rnd_0, Rabs_R0; apply bpow_gt_0|]. rewrite V, Vm, Rplus_0_l, rnd_0 in Vs.
    apply IH; [exact (Forall_inv_tail Fx)|exact (Forall_inv_tail Hx)|exact Fs|exact Vs]. }
  destruct (E n0 fin_0 fv_0) as (Fs & Vs). unfold l2_prox. change (fold_left (nadd F64) (map nsq x) n0) with (vsum (map nsq x)) in Fs, Vs.
  destruct (sqrt_fin _ Fs ltac:(rewrite Vs; lra)) as (Fw & Vw). rewrite Vs, sqrt_0, rnd_0 in Vw. rewrite (leb_fin _ _ Fw Fa), Vw, Rleb_true by exact Ha. reflexivity.
Qed.

(** ** the norm of the result *)
Lemma dot_mono (r s : list R) : Forall2 (fun a b => Rabs a <= b) r s -> dot r r <= dot s s.
Proof.
  induction 1 as [|a b r s Hab _ IH]; cbn [dot]; [lra|]. assert (a * a <= b * b); [|lra].
  replace (a * a) with (Rabs a * Rabs a) by (rewrite <- Rabs_mult; apply Rabs_pos_eq, Rle_0_sqr). apply Rmult_le_compat; try apply Rabs_pos; exact Hab.
Qed.
Lemma norm2_abs (p : list R) : norm2 (map Rabs p) = norm2 p.
Proof. unfold norm2. f_equal. induction p as [|a p IH]; [reflexivity|]. cbn [map dot]. rewrite IH, <- Rabs_mult, Rabs_pos_eq by apply Rle_0_sqr. reflexivity. Qed.
Lemma norm2_ones n : norm2 (repeat 1 n) <= INR n.
Proof.
  apply norm2_le_sq; [apply pos_INR|]. assert (E : dot (repeat 1 n) (repeat 1 n) = INR n) by (induction n as [|n IH]; [reflexivity|]; rewrite S_INR; cbn [repeat dot]; rewrite IH; ring).
  rewrite E. destruct n as [|n]; [cbn; lra|]. assert (1 <= INR (S n)) by (apply (le_INR 1); lia). assert (INR (S n) * 1 <= INR (S n) * INR (S n)) by (apply Rmult_le_compat_l; lra). lra.
Qed.
Lemma norm_near (r p : list R) K t : 0 <= K -> 0 <= t -> length r = length p -> (forall i, (i < length p)%nat -> Rabs (nth i r 0 - nth i p 0) <= K * Rabs (nth i p 0) + t) ->
  norm2 r <= (1 + K) * norm2 p + INR (length p) * t.
Proof.
  intros HK Ht L H. set (n := length p).
  apply Rle_trans with (norm2 (lin (1 + K) (map Rabs p) t (repeat 1 n))).
  - unfold norm2. apply sqrt_le_1_alt, dot_mono. unfold n. clear n. revert p L H. induction r as [|a r IH]; intros [|b p] L H; try discriminate L; cbn [length repeat map lin]; constructor.
    + specialize (H 0%nat ltac:(cbn; lia)). cbn [nth] in H. replace a with ((a - b) + b) by ring. eapply Rle_trans; [apply Rabs_triang|]. lra.
    + apply IH; [cbn in L; lia|]. intros i Hi. apply (H (S i)). cbn. lia.
  - eapply Rle_trans; [apply norm2_triangle; rewrite map_length, repeat_length; reflexivity|]. rewrite norm2_abs, !Rabs_pos_eq by lra. pose proof (norm2_ones n).
    assert (t * norm2 (repeat 1 n) <= t * INR n) by (apply Rmult_le_compat_l; lra). lra.
Qed.
Lemma main_C129_feasible_partial : forall (alpha : F64) (x : list F64),
  fin alpha -> 0 <= fv alpha -> Forall fin x -> INR (length x) <= 2 ^ 48 -> powerRZ 2 (-450) <= norm2 (map fv x) <= powerRZ 2 500 ->
  norm2 (map fv (l2_prox alpha x)) <= (1 + (8 * INR (length x) + 40) * / 2 ^ 53) * fv alpha + INR (length x) * powerRZ 2 (-620).
Proof.
  intros alpha x Fa Ha Fx Hn HN. destruct (l2_prox_full (fv alpha) (map fv x) Ha) as (Hq & _). pose proof (main_C129_accuracy_partial alpha x _ Fa Ha Fx Hn HN Hq) as (L & H).
  set (p := @l2_prox RN (fv alpha) (map fv x)) in *. destruct Hq as (Lp & Cp & _). rewrite map_length in Lp. unfold l2_ball in Cp. pose proof (pos_INR (length x)) as P. assert (U : 0 < / 2 ^ 53) by (apply Rinv_0_lt_compat, pow_lt; lra).
  set (K := (8 * INR (length x) + 40) * / 2 ^ 53) in *. assert (HK : 0 <= K) by (unfold K; apply Rmult_le_pos; lra). assert (Ht : 0 <= powerRZ 2 (-620)) by (rewrite powZ_bpow; left; apply bpow_gt_0).
  eapply Rle_trans; [apply (norm_near (map fv (l2_prox alpha x)) p K (powerRZ 2 (-620)) HK Ht)|].
  - rewrite map_length, L, Lp. reflexivity.
  - intros i Hi. rewrite Lp in Hi. rewrite <- fv_nth. apply H, Hi.
  - rewrite Lp. apply Rplus_le_compat_r, Rmult_le_compat_l; lra.
Qed.
Definition f2p (e : Z) : F64 := S754_finite false 4503599627370496 (e - 52).
Lemma fv_f2p e : fv (f2p e) = bpow radix2 e.
Proof. unfold fv, f2p, SF2R, F2R. cbn [cond_Zopp Fnum Fexp]. change (IZR 4503599627370496) with (IZR (Zpower radix2 52)). rewrite IZR_Zpower by lia. rewrite <- bpow_plus. f_equal. lia. Qed.
Lemma proj_one (a v : R) : 0 < a < v -> is_projection (l2_ball a) [v] [a].
Proof.
  intros H. destruct (l2_prox_full a [v] ltac:(lra)) as (P & _). replace [a] with (@l2_prox RN a [v]); [exact P|].
  assert (L : length (@l2_prox RN a [v]) = 1%nat) by apply P. assert (N : norm2 [v] = v) by (unfold norm2; cbn [dot]; rewrite Rplus_0_r; apply sqrt_square; lra).
  pose proof (l2_nth_R a [v] 0 ltac:(cbn; lia)) as E. rewrite N, Rleb_false in E by lra. cbn [nth] in E. replace (a * v / v) with a in E by (field; lra).
  destruct (l2_prox (K:=RN) a [v]) as [|q [|? ?]]; try discriminate L. cbn [nth] in E. rewrite E. reflexivity.
Qed.
Lemma main_C129_refuted : 
  (exists x : F64, fin x /\ l2_prox n1 [x] = [@n0 F64] /\ is_projection (l2_ball 1) [fv x] [1]) /\
  (exists alpha x : F64, fin alpha /\ fin x /\ l2_prox alpha [x] = [x] /\ is_projection (l2_ball (fv alpha)) [fv x] [fv alpha] /\ fv alpha < fv x * powerRZ 2 (-100)).
Proof.
  split.
  - exists (f2p 600). split; [split; reflexivity|]. split; [vm_compute; reflexivity|]. apply proj_one. rewrite fv_f2p. split; [lra|]. change 1 with (bpow radix2 0). apply bpow_lt. lia.
  - exists (f2p (-700)), (f2p (-560)). split; [split; reflexivity|]. split; [split; reflexivity|]. split; [vm_compute; reflexivity|]. split.
    + apply proj_one. rewrite !fv_f2p. split; [apply bpow_gt_0|apply bpow_lt; lia].
    + rewrite !fv_f2p, powZ_bpow, <- bpow_plus. apply bpow_lt. lia.
Qed.
Lemma run_C129 : let x := [nofZ F64 3; nofZ F64 4] in
  fin n1 /\ 0 <= fv n1 /\ Forall fin x /\ INR (length x) <= 2 ^ 48 /\ powerRZ 2 (-450) <= norm2 (map fv x) <= powerRZ 2 500 /\
  l2_prox n1 x = [ndiv F64 (nofZ F64 3) (nofZ F64 5); ndiv F64 (nofZ F64 4) (nofZ F64 5)].
Proof.
  intros x. split; [split; reflexivity|]. split; [rewrite fv_1; lra|]. split; [repeat constructor|]. split; [cbn; lra|]. split; [|vm_compute; reflexivity].
  assert (E : map fv x = [3; 4]) by (unfold x; cbn [map]; repeat f_equal; unfold fv; cbv -[Rplus Rmult Rinv IZR]; field). rewrite E.
  assert (N : norm2 [3; 4] = 5) by (unfold norm2; cbn [dot]; replace (3 * 3 + (4 * 4 + 0)) with (5 * 5) by ring; apply sqrt_square; lra). rewrite N, !powZ_bpow. split.
  - apply Rle_trans with (bpow radix2 0); [apply bpow_le; lia|cbn; lra].
  - apply Rle_trans with (bpow radix2 3); [cbn; lra|apply bpow_le; lia].
Qed.
