(** * minimize_three_split over the reals: convergence with the backtracking line search *)
From Coq Require Import ZArith QArith Reals List Bool Lra Lia Psatz.
From Verif Require Import Num Vec Spec RVec ConvexFacts ModelUtils ModelSplitting SplittingFacts ProxGradFacts ProxGradMain SplittingMain SplittingThree SplittingThree2 SplittingConv.
Import ListNotations.
Open Scope R_scope.

Lemma strong_first_order n (f : list R -> R) gradf L : 0 < L -> first_order n f gradf -> smooth_upper n L f gradf ->
  (forall x, length x = n -> length (gradf x) = n) ->
  forall u v, length u = n -> length v = n ->
    f v + dot (gradf v) (vminus u v) + / (2 * L) * dot (vminus (gradf u) (gradf v)) (vminus (gradf u) (gradf v)) <= f u.
Proof.
  intros HL Hfo Hsm Hgl u v Lu Lv. pose proof (Hgl u Lu) as Gu. pose proof (Hgl v Lv) as Gv.
  set (d := vminus (gradf u) (gradf v)). assert (Ld : length d = n) by (unfold d; leng).
  set (w := vminus u (smul (/ L) d)). assert (Lw : length w = n) by (unfold w; leng).
  pose proof (Hfo v w Lv Lw) as A. pose proof (Hsm u w Lu Lw) as B.
  assert (E1 : dot (gradf v) (vminus w v) = dot (gradf v) (vminus u v) - / L * dot (gradf v) d).
  { unfold w. ipx. ring. }
  assert (E2 : dot (gradf u) (vminus w u) = - (/ L * dot (gradf u) d)).
  { unfold w. ipx. ring. }
  assert (E3 : dist2 w u = / L * / L * dot d d).
  { unfold w. ipx. rewrite (dot_comm d u). ring. }
  assert (E4 : dot (gradf u) d - dot (gradf v) d = dot d d).
  { transitivity (dot (vminus (gradf u) (gradf v)) d); [ipx; ring|reflexivity]. }
  rewrite E1 in A. rewrite E2, E3 in B.
  assert (E5 : L / 2 * (/ L * / L * dot d d) = / (2 * L) * dot d d) by (field; lra).
  assert (E6 : / L * dot (gradf u) d - / L * dot (gradf v) d = / L * dot d d) by (rewrite <- E4; ring).
  assert (E7 : / L * dot d d = 2 * (/ (2 * L) * dot d d)) by (field; lra).
  rewrite E5 in B. lra.
Qed.

(** one Davis-Yin step whose step size passed the sufficient-decrease test up to [eps]; no bound on the step *)
Lemma dy_ls_step n (f : list R -> R) gradf domg domh g h L s eps (x z u zs us : list R) :
  0 < L -> 0 < s -> 0 <= eps -> first_order n f gradf -> smooth_upper n L f gradf ->
  (forall y, length y = n -> length (gradf y) = n) ->
  length x = n -> length z = n -> length zs = n ->
  subgrad n domh h z u -> subgrad n domh h zs us ->
  subgrad n domg g x (vminus (smul (/ s) (vminus z x)) (vplus u (gradf z))) ->
  subgrad n domg g zs (smul (-1) (vplus us (gradf zs))) ->
  f x <= f z + dot (gradf z) (vminus x z) + dot (vminus x z) (vminus x z) / (2 * s) + eps ->
  let w := vplus z (smul s u) in let ws := vplus zs (smul s us) in
  dist2 (vplus x (smul s u)) ws + / (2 * (1 + 2 * s * L)) * dist2 x z <= dist2 w ws + 2 * s * eps.
Proof.
  intros HL Hs Heps Hfo Hsm Hgl Lx Lz Lzs Su Sus Sv Svs Hls w ws.
  pose proof (Hgl z Lz) as Gz. pose proof (Hgl zs Lzs) as Gs.
  assert (Lu : length u = n) by apply Su. assert (Lus : length us = n) by apply Sus.
  pose proof (cocoercive n f gradf L HL Hfo Hsm Hgl z zs Lz Lzs) as C.
  pose proof (strong_first_order n f gradf L HL Hfo Hsm Hgl zs z Lzs Lz) as SF.
  pose proof (Hfo zs x Lzs Lx) as FO.
  pose proof (subgrad_mono n domh h z zs u us Su Sus Lz Lzs) as M1.
  pose proof (subgrad_mono n domg g x zs _ _ Sv Svs Lx Lzs) as M2.
  assert (ESF : dot (vminus (gradf zs) (gradf z)) (vminus (gradf zs) (gradf z)) = dot (vminus (gradf z) (gradf zs)) (vminus (gradf z) (gradf zs))) by (ipx; ring).
  rewrite ESF in SF. clear ESF.
  assert (EA : dot (vminus (gradf z) (gradf zs)) (vminus z zs) + dot (vminus (gradf z) (gradf zs)) (vminus x z)
     = dot (gradf z) (vminus x z) - dot (gradf z) (vminus zs z) - dot (gradf zs) (vminus x zs)) by (ipx; ring).
  set (d := vminus (gradf z) (gradf zs)) in *. assert (Ld : length d = n) by (unfold d; leng).
  set (e := vminus x z) in *. assert (Le : length e = n) by (unfold e; leng).
  set (a := vminus z zs) in *. assert (La : length a = n) by (unfold a; leng).
  set (b := vminus u us) in *. assert (Lb : length b = n) by (unfold b; leng).
  assert (E1 : dot (vminus (vminus (smul (/ s) (vminus z x)) (vplus u (gradf z))) (smul (-1) (vplus us (gradf zs)))) (vminus x zs)
     = - (/ s) * dot e a - / s * dot e e - dot b a - dot b e - dot d a - dot d e).
  { replace (vminus (vminus (smul (/ s) (vminus z x)) (vplus u (gradf z))) (smul (-1) (vplus us (gradf zs))))
      with (vminus (smul (- / s) e) (vplus b d)).
    2:{ apply list_ext with (d := 0); [unfold e, b, d; leng|]. intros k _. unfold e, b, d.
        repeat (first [rewrite nth_smul | rewrite nth_vminus by leng | rewrite nth_vplus by leng]). ring. }
    replace (vminus x zs) with (vplus a e).
    2:{ apply list_ext with (d := 0); [unfold e, a; leng|]. intros k _. unfold e, a.
        repeat (first [rewrite nth_smul | rewrite nth_vminus by leng | rewrite nth_vplus by leng]). ring. }
    clearbody a b d e. ipx. ring. }
  rewrite E1 in M2. clear E1.
  assert (E2 : dist2 (vplus x (smul s u)) ws = dist2 w ws + 2 * dot e a + 2 * s * dot b e + dot e e).
  { assert (Lw : length w = n) by (unfold w; leng). assert (Lws : length ws = n) by (unfold ws; leng).
    rewrite !dist2_dot by leng.
    replace (vminus (vplus x (smul s u)) ws) with (vplus (vplus a e) (smul s b)).
    2:{ apply list_ext with (d := 0); [unfold e, a, b; leng|]. intros k _. unfold e, a, b, ws.
        repeat (first [rewrite nth_smul | rewrite nth_vminus by leng | rewrite nth_vplus by leng]). ring. }
    replace (vminus w ws) with (vplus a (smul s b)).
    2:{ apply list_ext with (d := 0); [unfold a, b; leng|]. intros k _. unfold a, b, w, ws.
        repeat (first [rewrite nth_smul | rewrite nth_vminus by leng | rewrite nth_vplus by leng]). ring. }
    clearbody a b e. ipx. rewrite (dot_comm e a), (dot_comm b a), (dot_comm b e). ring. }
  assert (E3 : dist2 x z = dot e e) by (rewrite dist2_dot by leng; reflexivity).
  rewrite E2, E3. clear E2 E3.
  pose proof (dot_self_nonneg e) as P1. pose proof (dot_self_nonneg d) as P2.
  pose proof (dot_quad d e (/ (2 * s))) as Q.
  remember (dot e a) as ea. remember (dot e e) as ee. remember (dot b a) as ba. remember (dot b e) as be.
  remember (dot d a) as da. remember (dot d e) as de. remember (dot d d) as dd.
  clear Heqea Heqee Heqba Heqbe Heqda Heqde Heqdd.
  (* the three estimates without inverses *)
  assert (A2 : 2 * ea + 2 * ee + 2 * s * be <= - 2 * s * (da + de)).
  { apply Rmult_le_compat_l with (r := s) in M2; [|lra].
    replace (s * (- / s * ea - / s * ee - ba - be - da - de)) with (- ea - ee - s * (ba + be + da + de)) in M2 by (field; lra).
    assert (0 <= s * ba) by (apply Rmult_le_pos; lra). lra. }
  assert (A : 0 <= 2 * s * L * (da + de) - s * dd + L * ee + 2 * s * L * eps).
  { assert (H0 : 0 <= da + de - / (2 * L) * dd + ee / (2 * s) + eps) by (clear - Hls SF FO EA; lra).
    apply Rmult_le_compat_l with (r := 2 * s * L) in H0; [|clear - Hs HL; nra].
    replace (2 * s * L * (da + de - / (2 * L) * dd + ee / (2 * s) + eps)) with (2 * s * L * (da + de) - s * dd + L * ee + 2 * s * L * eps) in H0
      by (field; lra). lra. }
  assert (B : - 2 * s * de <= ee / 2 + 2 * s * s * dd).
  { apply Rmult_le_compat_l with (r := 2 * s * s) in Q; [|clear - Hs; nra].
    replace (2 * s * s * (dd + 2 * / (2 * s) * de + / (2 * s) * / (2 * s) * ee)) with (2 * s * s * dd + 2 * s * de + ee / 2) in Q by (field; lra).
    lra. }
  assert (Hq : 0 < 1 + 2 * s * L) by (assert (0 < s * L) by (apply Rmult_lt_0_compat; auto); lra).
  (* 2s * A + B + cocoercivity *)
  assert (F : - 2 * s * (1 + 2 * s * L) * (da + de) <= (2 * s * L + 1 / 2) * ee + 4 * s * s * L * eps).
  { apply Rmult_le_compat_l with (r := 2 * s) in A; [|lra].
    assert (0 <= da) by (apply Rmult_le_reg_l with L; [auto|]; lra).
    assert (0 <= s * da) by (apply Rmult_le_pos; lra). lra. }
  apply Rmult_le_reg_l with (1 + 2 * s * L); [exact Hq|].
  replace ((1 + 2 * s * L) * (dist2 w ws + 2 * ea + 2 * s * be + ee + / (2 * (1 + 2 * s * L)) * ee))
    with ((1 + 2 * s * L) * (dist2 w ws - ee) + (1 + 2 * s * L) * (2 * ea + 2 * ee + 2 * s * be) + ee / 2) by (field; lra).
  apply Rmult_le_compat_l with (r := 1 + 2 * s * L) in A2; [|lra].
  assert (0 <= s * eps) by (apply Rmult_le_pos; lra). lra.
Qed.

(** decreasing the step decreases the merit function at a point of the graph of the second subdifferential *)
Lemma merit_mono n domh h s t (z u zs us : list R) : 0 <= t <= s -> length z = n -> length zs = n ->
  subgrad n domh h z u -> subgrad n domh h zs us ->
  dist2 (vplus z (smul t u)) (vplus zs (smul t us)) <= dist2 (vplus z (smul s u)) (vplus zs (smul s us)).
Proof.
  intros Ht Lz Lzs Su Sus. pose proof (subgrad_mono n domh h z zs u us Su Sus Lz Lzs) as M.
  assert (Lu : length u = n) by apply Su. assert (Lus : length us = n) by apply Sus.
  assert (E : forall c, dist2 (vplus z (smul c u)) (vplus zs (smul c us))
     = dot (vminus z zs) (vminus z zs) + 2 * c * dot (vminus u us) (vminus z zs) + c * c * dot (vminus u us) (vminus u us)).
  { intros c. rewrite dist2_dot by leng.
    replace (vminus (vplus z (smul c u)) (vplus zs (smul c us))) with (vplus (vminus z zs) (smul c (vminus u us))).
    2:{ apply list_ext with (d := 0); [leng|]. intros k _.
        repeat (first [rewrite nth_smul | rewrite nth_vminus by leng | rewrite nth_vplus by leng]). ring. }
    assert (La : length (vminus z zs) = n) by leng. assert (Lb : length (vminus u us) = n) by leng.
    generalize dependent (vminus z zs). generalize dependent (vminus u us). intros b Lb a _ La.
    ipx. rewrite (dot_comm a b). ring. }
  rewrite !E. pose proof (dot_self_nonneg (vminus u us)) as P.
  assert (t * dot (vminus u us) (vminus z zs) <= s * dot (vminus u us) (vminus z zs)) by (apply Rmult_le_compat_r; lra).
  assert (t * t * dot (vminus u us) (vminus u us) <= s * s * dot (vminus u us) (vminus u us)).
  { apply Rmult_le_compat_r; [exact P|]. apply Rmult_le_compat; lra. }
  lra.
Qed.

Lemma vplus_zeros_l n (v : list R) : length v = n -> vplus (zeros n) v = v.
Proof.
  intros Lv. pose proof (zeros_length n). apply list_ext with (d := 0); [leng|]. intros k _.
  rewrite nth_vplus by leng. rewrite nth_zeros. lra.
Qed.
Lemma vplus_smul_zeros n s (v : list R) : length v = n -> vplus v (smul s (zeros n)) = v.
Proof.
  intros Lv. pose proof (zeros_length n). apply list_ext with (d := 0); [leng|]. intros k _.
  rewrite nth_vplus by leng. rewrite nth_smul, nth_zeros. lra.
Qed.
(** the first step starts from u = 0 *)
Lemma first_step_bound n domg (g : list R -> R) gradf s (x z zs us : list R) : 0 < s ->
  (forall y, length y = n -> length (gradf y) = n) ->
  length x = n -> length z = n -> length zs = n -> length us = n ->
  subgrad n domg g x (vminus (smul (/ s) (vminus z x)) (gradf z)) ->
  subgrad n domg g zs (smul (-1) (vplus us (gradf zs))) ->
  norm2 (vminus x (vplus zs (smul s us))) <=
    norm2 (vminus z zs) + s * (norm2 (vminus (gradf z) (vplus (gradf zs) us)) + norm2 us).
Proof.
  intros Hs Hgl Lx Lz Lzs Lus Sv Svs.
  pose proof (Hgl z Lz) as Gz. pose proof (Hgl zs Lzs) as Gs.
  pose proof (subgrad_mono n domg g x zs _ _ Sv Svs Lx Lzs) as M.
  set (q := vminus (vminus z zs) (smul s (vminus (gradf z) (vplus (gradf zs) us)))).
  assert (Lq : length q = n) by (unfold q; leng).
  set (e := vminus x zs) in *. assert (Le : length e = n) by (unfold e; leng).
  assert (E : vminus (vminus (smul (/ s) (vminus z x)) (gradf z)) (smul (-1) (vplus us (gradf zs))) = smul (/ s) (vminus q e)).
  { apply list_ext with (d := 0); [unfold q, e; leng|]. intros k _. unfold q, e.
    repeat (first [rewrite nth_smul | rewrite nth_vminus by leng | rewrite nth_vplus by leng]). field; lra. }
  rewrite E in M. clear E.
  assert (M' : dot e e <= dot q e).
  { assert (X : dot (smul (/ s) (vminus q e)) e = / s * (dot q e - dot e e)) by (clearbody q e; ipx; ring).
    rewrite X in M. apply Rmult_le_compat_l with (r := s) in M; [|lra].
    rewrite <- Rmult_assoc, Rinv_r in M by lra. lra. }
  assert (N1 : norm2 e <= norm2 q).
  { pose proof (cauchy_schwarz q e) as CS. pose proof (Rle_abs (dot q e)). rewrite <- norm2_sq in M'.
    pose proof (norm2_nonneg e). pose proof (norm2_nonneg q).
    destruct (Rle_lt_dec (norm2 e) (norm2 q)); auto. exfalso. nra. }
  assert (N2 : norm2 q <= norm2 (vminus z zs) + s * norm2 (vminus (gradf z) (vplus (gradf zs) us))).
  { pose proof (norm2_triangle 1 (vminus z zs) (- s) (vminus (gradf z) (vplus (gradf zs) us)) ltac:(leng)) as T.
    rewrite Rabs_R1, Rabs_Ropp, (Rabs_pos_eq s) in T by lra.
    replace (lin 1 (vminus z zs) (- s) (vminus (gradf z) (vplus (gradf zs) us))) with q in T; [lra|].
    apply list_ext with (d := 0); [unfold q; leng|]. intros k _. unfold q.
    repeat (first [rewrite nth_smul | rewrite nth_lin by leng | rewrite nth_vminus by leng | rewrite nth_vplus by leng]). ring. }
  pose proof (norm2_triangle 1 e (- s) us ltac:(leng)) as T.
  rewrite Rabs_R1, Rabs_Ropp, (Rabs_pos_eq s) in T by lra.
  replace (vminus x (vplus zs (smul s us))) with (lin 1 e (- s) us); [lra|].
  apply list_ext with (d := 0); [unfold e; leng|]. intros k _. unfold e.
  repeat (first [rewrite nth_smul | rewrite nth_lin by leng | rewrite nth_vminus by leng | rewrite nth_vplus by leng]). ring.
Qed.

Lemma main_C116_line_search_converges_partial : forall n (f : vec RN -> RN) (gradf : vec RN -> vec RN) domg domh g h
  (p1 p2 : option (vec RN -> RN -> vec RN)) (x0 : vec RN) (tol : RN) max_iter ls (st : option RN) max_bt (factor : RN)
  (L : R) (zs us : list R),
  convex_on n domg g -> convex_on n domh h -> first_order n f gradf -> smooth_upper n L f gradf -> 0 < L ->
  (forall x s, length x = n -> 0 < s -> is_prox_on domg g s x (match p1 with Some p => p x s | None => x end)) ->
  (forall x s, length x = n -> 0 < s -> is_prox_on domh h s x (match p2 with Some p => p x s | None => x end)) ->
  (forall x, length x = n -> length (gradf x) = n) -> length x0 = n ->
  match st with Some s => 0 < s /\ ls = true | None => True end -> 0 < factor <= 1 -> 0 < tol -> (0 < max_bt)%nat ->
  (* a solution with its multiplier *)
  length zs = n -> subgrad n domh h zs us -> subgrad n domg g zs (smul (-1) (vplus us (gradf zs))) ->
  let s0 := match st with Some s => s | None => 1 / init_lipschitz (fun x => (f x, gradf x)) x0 end in
  s0 * factor ^ (max_bt - 1) <= 1 / L ->
  let smin := Rmin s0 (factor / L) in
  let gain := / (2 * (1 + 2 * s0 * L)) * (tol * smin * (tol * smin)) - 2 * s0 * / 2 ^ 52 in
  1 / 10 ^ 7 < tol * smin -> 0 < gain ->
  (* enough iterations *)
  let z0 := match p2 with Some p => p x0 s0 | None => x0 end in
  let dist := norm2 (vminus z0 zs) + s0 * (norm2 (vminus (gradf z0) (vplus (gradf zs) us)) + norm2 us) in
  dist * dist < (INR max_iter - 1) * gain ->
  exists r, minimize_three_split (fun x => (f x, gradf x)) x0 p1 p2 tol max_iter None ls st max_bt factor None = Ok r /\
    tr_success r = true.
Proof.
  intros n f gradf domg domh g h p1 p2 x0 tol max_iter ls st max_bt factor L zs us Hg Hh Hfo Hsm HL Hp1 Hp2 Hgl Lx Hst0 Hf Htol Hbt
    Lzs Sus Svs s0 Hs0L smin gain Htiny Hgain z0 dist Hmany.
  assert (Hst : match st with Some s => 0 < s | None => True end) by (destruct st; [apply Hst0|exact I]).
  assert (Hmi : (1 < max_iter)%nat).
  { destruct (le_lt_dec max_iter 1) as [Hle|]; auto. exfalso.
    assert (INR max_iter <= 1) by (apply le_INR in Hle; exact Hle).
    assert (0 <= dist * dist) by apply Rle_0_sqr.
    assert ((INR max_iter - 1) * gain <= 0) by (clear - H Hgain; nra). lra. }
  destruct (proj2 (proj2 (main_C51_errors RN (fun x => (f x, gradf x)) x0 p1 p2 tol max_iter None ls st max_bt factor None)) Hbt ltac:(lia))
    as (r & Hr).
  exists r. split; [exact Hr|].
  destruct (tr_success r) eqn:Esu; auto. exfalso.
  destruct (main_C51_contract _ _ _ _ _ _ _ _ _ _ _ _ _ _ Hr) as (_ & Hn & Hlen & _ & Hfail & _ & Hquiet).
  destruct (Hfail Esu) as [(c & Ec & _)|(Hnit & Hlast)]; [discriminate|].
  pose proof (main_C51_trace _ _ _ _ _ _ _ _ _ _ _ _ _ _ Hr) as T. cbv zeta in T.
  destruct (main_C51_steps f gradf x0 p1 p2 tol max_iter None ls st max_bt factor r Hf Hst Hr) as [_ Steps]. fold s0 in Steps.
  destruct (main_C51_smooth n f gradf domg domh g h p1 p2 x0 tol max_iter None ls st max_bt factor r L Hg Hh Hp1 Hp2 Hgl Lx Hst Hf HL Hsm Hr Hs0L)
    as [Hmin Hfound]. fold s0 in Hmin. fold smin in Hmin.
  destruct (ts_unpack n f gradf domg domh g h p1 p2 x0 tol max_iter None ls st max_bt factor None r Hg Hh Hp1 Hp2 Hgl Lx Hst Hf (or_introl eq_refl) Hr)
    as (Hs0 & i0 & older0 & Ei0 & _ & Ec0 & _ & En0 & _ & HF & _ & HS & _). fold s0 in Hs0, HS.
  set (prox1 := fun (x : vec RN) s => match p1 with Some p => p x s | None => x end) in *.
  set (prox2 := fun (x : vec RN) s => match p2 with Some p => p x s | None => x end) in *.
  rewrite <- Ei0 in HF, HS.
  assert (Lus : length us = n) by apply Sus.
  assert (Hsm0 : 0 < smin).
  { unfold smin. apply Rmin_glb_lt; [exact Hs0|]. apply Rdiv_lt_0_compat; [apply Hf|exact HL]. }
  assert (Step : forall newer i older, tr_iters r = newer ++ i :: older -> smin <= ti_step i <= s0).
  { intros newer i older Ei. destruct (Steps _ _ _ Ei) as ([_ A] & B & _). split; [eapply Rle_trans; [exact Hmin|exact B]|exact A]. }
  (* the merit function decreases by [gain] at each unsuccessful iteration after the first *)
  assert (Fej : forall older i newer, tr_iters r = newer ++ i :: older ->
     dist2 (vplus (ti_x i) (smul (ti_step i) (ti_u i))) (vplus zs (smul (ti_step i) us)) + INR (length older) * gain <= dist * dist).
  { induction older as [|p older IH]; intros i newer Ei.
    - destruct (HS _ _ _ Ei) as (Hpv & Hin0 & _). cbn [ts_prev] in Hpv. injection Hpv as Ez Eu Ein.
      assert (Hin : In i (tr_iters r)) by (rewrite Ei; apply in_or_app; right; left; reflexivity).
      pose proof (proj1 (Forall_forall _ _) HF i Hin) as Fi. pose proof (proj1 (Forall_forall _ _) Hfound i Hin) as Fo.
      destruct (Step _ _ _ Ei) as [S1 S2].
      assert (Ep : ti_prox i = ti_step i).
      { destruct (ti_ls i) eqn:El.
        - symmetry. apply (tf_found _ _ _ _ _ _ _ _ _ Fi). auto.
        - destruct (tf_nols _ _ _ _ _ _ _ _ _ Fi El) as (A & B & _). congruence. }
      pose proof (tf_sx _ _ _ _ _ _ _ _ _ Fi) as Sx. rewrite Ep in Sx.
      assert (Lz0 : length z0 = n) by (rewrite <- (tf_lz _ _ _ _ _ _ _ _ _ Fi); rewrite Ez; reflexivity).
      pose proof (Hgl _ Lz0) as Gz0. pose proof (Hgl _ Lzs) as Gzs.
      change (ti_z i = z0) in Ez. set (gz0 := gradf z0 : list R) in *.
      pose proof (tf_lx _ _ _ _ _ _ _ _ _ Fi) as Lxi.
      rewrite Ez, Eu in Sx.
      assert (Ezg : vplus (zeros n) gz0 = gz0).
      { exact (vplus_zeros_l n gz0 Gz0). }
      fold gz0 in Sx. rewrite Ezg in Sx. unfold gz0 in Sx.
      assert (Hsp : 0 < ti_step i) by (eapply Rlt_le_trans; [exact Hsm0|exact S1]).
      pose proof (first_step_bound n domg g gradf (ti_step i) (ti_x i) z0 zs us Hsp Hgl Lxi Lz0 Lzs Lus Sx Svs) as B.
      cbn [length INR]. rewrite Rmult_0_l, Rplus_0_r.
      replace (vplus (ti_x i) (smul (ti_step i) (ti_u i))) with (ti_x i : list R).
      2:{ rewrite Eu. symmetry. exact (vplus_smul_zeros n (ti_step i) (ti_x i) Lxi). }
      rewrite dist2_dot by lengr. rewrite <- norm2_sq.
      assert (B2 : norm2 (vminus (ti_x i) (vplus zs (smul (ti_step i) us))) <= dist).
      { eapply Rle_trans; [exact B|]. unfold dist. apply Rplus_le_compat_l. apply Rmult_le_compat_r; [|exact S2].
        apply Rplus_le_le_0_compat; apply norm2_nonneg. }
      pose proof (norm2_nonneg (vminus (ti_x i) (vplus zs (smul (ti_step i) us)))). apply Rmult_le_compat; assumption.
    - assert (Ei' : tr_iters r = (newer ++ [i]) ++ p :: older) by (rewrite <- app_assoc; exact Ei).
      specialize (IH _ _ Ei').
      destruct (Steps _ _ _ Ei) as (_ & _ & Hdec & Hacc & _). destruct (Step _ _ _ Ei) as [S1 S2]. destruct (Step _ _ _ Ei') as [S3 S4].
      assert (Hin : In i (tr_iters r)) by (rewrite Ei; apply in_or_app; right; left; reflexivity).
      assert (Hip : In p (tr_iters r)) by (rewrite Ei'; apply in_or_app; right; left; reflexivity).
      pose proof (proj1 (Forall_forall _ _) HF i Hin) as Fi. pose proof (proj1 (Forall_forall _ _) HF p Hip) as Fp.
      pose proof (proj1 (Forall_forall _ _) Hfound i Hin) as Fo.
      destruct (T _ _ _ Ei) as ((Ez & Eu & _) & Els & Etr & _ & _ & _ & Hno & _).
      assert (Hsp : 0 < ti_step i) by (eapply Rlt_le_trans; [exact Hsm0|exact S1]).
      assert (Hspp : 0 < ti_step p) by (eapply Rlt_le_trans; [exact Hsm0|exact S3]).
      assert (Ew : vplus (ti_x p) (smul (ti_step p) (ti_u p)) = vplus (ti_z i) (smul (ti_step p) (ti_u i))).
      { rewrite Ez, Eu, (tf_un _ _ _ _ _ _ _ _ _ Fp).
        pose proof (tf_lx _ _ _ _ _ _ _ _ _ Fp). pose proof (tf_lu _ _ _ _ _ _ _ _ _ Fp). pose proof (tf_lzn _ _ _ _ _ _ _ _ _ Fp).
        apply list_ext with (d := 0); [lengr|]. intros k _.
        repeat (first [rewrite nth_smul | rewrite nth_vminus by lengr | rewrite nth_vplus by lengr]). field. rn; lra. }
      rewrite Ew in IH.
      pose proof (tf_sz _ _ _ _ _ _ _ _ _ Fp) as Sz. rewrite <- Ez, <- Eu in Sz.
      (* the certificate was not below tol *)
      assert (Q : tol <= ti_cert i).
      { assert (Q' : nltb RN (ti_cert i) tol = false).
        { destruct newer as [|a newer].
          - rewrite Ei0 in Ei. cbn in Ei. injection Ei as -> ->. destruct Hlast as [Hz|Hl]; [rewrite En0 in Hz; discriminate|].
            rewrite Ec0 in Hl. exact Hl.
          - apply (Hquiet _ _ _ Ei); discriminate. }
        change (nltb RN (ti_cert i) tol) with (Rltb (ti_cert i) tol) in Q'.
        destruct (Rltb_spec (ti_cert i) tol); [discriminate|exact H]. }
      rewrite (tf_cert _ _ _ _ _ _ _ _ _ Fi) in Q.
      assert (Q2 : tol * smin <= norm2 (vminus (ti_x i) (ti_z i))).
      { apply Rmult_le_compat_l with (r := ti_step i) in Q; [|left; exact Hsp].
        replace (ti_step i * (norm2 (vminus (ti_x i) (ti_z i)) / ti_step i)) with (norm2 (vminus (ti_x i) (ti_z i))) in Q by (field; rn; lra).
        eapply Rle_trans; [|exact Q]. rewrite (Rmult_comm tol). apply Rmult_le_compat_r; [left; exact Htol|exact S1]. }
      (* hence the search ran and accepted *)
      assert (Hls : ti_ls i = true).
      { destruct (ti_ls i) eqn:El; auto. exfalso. destruct (Hno eq_refl) as (Ep & _ & _).
        assert (Eon : match st with Some _ => ls | None => true end = true) by (destruct st; [apply Hst0|reflexivity]).
        rewrite Eon, andb_true_r in Els. rewrite <- Ep, <- Etr in Els. symmetry in Els.
        change (nltb RN) with Rltb in Els. rewrite vnorm_R, vsub_R in Els.
        match type of Els with Rltb ?a ?b = false => destruct (Rltb_spec a b) as [|Hle]; [discriminate|] end.
        unfold nlit in Hle. rn. clear - Hle Q2 Htiny. replace (1 / 10 ^ 7) with (1 / 10000000) in Htiny by (simpl; lra). lra. }
      specialize (Fo Hls). specialize (Hacc Hls Fo).
      pose proof (tf_sx _ _ _ _ _ _ _ _ _ Fi) as Sx. rewrite <- (tf_found _ _ _ _ _ _ _ _ _ Fi Fo) in Sx.
      assert (Heps : 0 <= / 2 ^ 52) by (left; apply Rinv_0_lt_compat, pow_lt; lra).
      pose proof (dy_ls_step n f gradf domg domh g h L (ti_step i) (/ 2 ^ 52) (ti_x i) (ti_z i) (ti_u i) zs us HL Hsp Heps Hfo Hsm Hgl
        (tf_lx _ _ _ _ _ _ _ _ _ Fi) (tf_lz _ _ _ _ _ _ _ _ _ Fi) Lzs Sz Sus Sx Svs Hacc) as D. cbv zeta in D.
      pose proof (merit_mono n domh h (ti_step p) (ti_step i) (ti_z i) (ti_u i) zs us (conj (Rlt_le _ _ Hsp) Hdec)
        (tf_lz _ _ _ _ _ _ _ _ _ Fi) Lzs Sz Sus) as M.
      assert (Q3 : tol * smin * (tol * smin) <= dist2 (ti_x i) (ti_z i)).
      { rewrite dist2_dot by (eapply eq_trans; [exact (tf_lx _ _ _ _ _ _ _ _ _ Fi)|symmetry; exact (tf_lz _ _ _ _ _ _ _ _ _ Fi)]).
        rewrite <- norm2_sq.
        assert (0 <= tol * smin) by (apply Rmult_le_pos; [left; exact Htol|left; exact Hsm0]).
        apply Rmult_le_compat; assumption. }
      assert (Hk1 : 0 < ti_step i * L) by (apply Rmult_lt_0_compat; assumption).
      assert (Hk2 : ti_step i * L <= s0 * L) by (apply Rmult_le_compat_r; [left; exact HL|exact S2]).
      assert (Hk : / (2 * (1 + 2 * s0 * L)) <= / (2 * (1 + 2 * ti_step i * L))).
      { apply Rinv_le_contravar; clear - Hk1 Hk2; rn; lra. }
      assert (Hk0 : 0 < / (2 * (1 + 2 * s0 * L))) by (apply Rinv_0_lt_compat; clear - Hk1 Hk2; rn; lra).
      assert (Q4 : / (2 * (1 + 2 * s0 * L)) * (tol * smin * (tol * smin)) <= / (2 * (1 + 2 * ti_step i * L)) * dist2 (ti_x i) (ti_z i)).
      { apply Rmult_le_compat; [left; exact Hk0| |exact Hk|exact Q3]. apply Rle_0_sqr. }
      assert (Q5 : 2 * ti_step i * / 2 ^ 52 <= 2 * s0 * / 2 ^ 52).
      { apply Rmult_le_compat_r; [exact Heps|]. apply Rmult_le_compat_l; [lra|exact S2]. }
      cbn [length]. rewrite S_INR.
      assert (Hg' : gain = / (2 * (1 + 2 * s0 * L)) * (tol * smin * (tol * smin)) - 2 * s0 * / 2 ^ 52) by reflexivity.
      clear - IH D M Q4 Q5 Hg'.
      revert IH D M Q4 Q5 Hg'.
      generalize (/ (2 * (1 + 2 * s0 * L)) * (tol * smin * (tol * smin))) (/ (2 * (1 + 2 * ti_step i * L)) * dist2 (ti_x i) (ti_z i))
        (2 * s0 * / 2 ^ 52) (2 * ti_step i * / 2 ^ 52). intros. rn. lra. }
  specialize (Fej older0 i0 [] Ei0).
  pose proof (dist2_nonneg (vplus (ti_x i0) (smul (ti_step i0) (ti_u i0))) (vplus zs (smul (ti_step i0) us))) as D0.
  assert (El : length older0 = (max_iter - 1)%nat) by (rewrite <- En0; lia).
  rewrite El, minus_INR in Fej by lia. change (INR 1) with 1 in Fej. clear - Fej D0 Hmany. rn. lra.
Qed.
