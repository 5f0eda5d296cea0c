(** * minimize_three_split over the reals: step sizes and convergence with a fixed step *)
From Coq Require Import ZArith QArith Reals List Bool Lra Lia Psatz.
From Verif Require Import Num Vec Spec RVec ConvexFacts ModelUtils ModelSplitting SplittingFacts ProxGradFacts ProxGradMain SplittingMain SplittingThree SplittingThree2.
Import ListNotations.
Open Scope R_scope.

Lemma main_C51_steps : forall (f : vec RN -> RN) (gradf : vec RN -> vec RN) (x0 : vec RN) p1 p2 (tol : RN) max_iter cb ls st max_bt
  (factor : RN) (r : ts_result RN),
  0 < factor <= 1 -> match st with Some s => 0 < s | None => True end ->
  minimize_three_split (fun x => (f x, gradf x)) x0 p1 p2 tol max_iter cb ls st max_bt factor None = Ok r ->
  let s0 := match st with Some s => s | None => 1 / init_lipschitz (fun x => (f x, gradf x)) x0 end in
  0 < tr_stepsize r <= s0 /\
  forall newer i older, tr_iters r = newer ++ i :: older ->
    0 < ti_step i <= s0 /\ tr_stepsize r <= ti_step i /\
    match older with [] => ti_step i <= s0 | p :: _ => ti_step i <= ti_step p end /\
    (ti_ls i = true -> ti_found i = true ->
       f (ti_x i) <= f (ti_z i) + dot (gradf (ti_z i)) (vminus (ti_x i) (ti_z i))
                     + dot (vminus (ti_x i) (ti_z i)) (vminus (ti_x i) (ti_z i)) / (2 * ti_step i) + / 2 ^ 52) /\
    (ti_ls i = true -> ti_found i = false -> ti_step i = ti_in i * factor ^ max_bt) /\
    (ti_ls i = false -> ti_step i = ti_in i).
Proof.
  intros f gradf x0 p1 p2 tol max_iter cb ls st max_bt factor r Hf Hst H s0.
  assert (Hs0 : 0 < s0).
  { unfold s0. destruct st; auto. pose proof (main_C32_init_lipschitz_pos (fun x => (f x, gradf x)) x0) as P.
    apply Rdiv_lt_0_compat; [lra|exact P]. }
  pose proof (main_C51_trace _ _ _ _ _ _ _ _ _ _ _ _ _ _ H) as T. cbv zeta in T.
  (* one iteration *)
  assert (One : forall newer i older, tr_iters r = newer ++ i :: older -> 0 < ti_in i ->
     0 < ti_step i <= ti_in i /\ ti_out i = ti_step i /\
    (ti_ls i = true -> ti_found i = true ->
       f (ti_x i) <= f (ti_z i) + dot (gradf (ti_z i)) (vminus (ti_x i) (ti_z i))
                     + dot (vminus (ti_x i) (ti_z i)) (vminus (ti_x i) (ti_z i)) / (2 * ti_step i) + / 2 ^ 52) /\
    (ti_ls i = true -> ti_found i = false -> ti_step i = ti_in i * factor ^ max_bt) /\
    (ti_ls i = false -> ti_step i = ti_in i)).
  { intros newer i older Ei Hin. destruct (T _ _ _ Ei) as (_ & Hl & _ & _ & _ & _ & Hno & Hyes).
    destruct (ti_ls i) eqn:El.
    - destruct (Hyes eq_refl) as (j & Hj & Hp & _ & Hfo & Hout). specialize (Hout eq_refl).
      assert (B : 0 < ti_prox i <= ti_in i) by (rewrite Hp; exact (iter_factor factor (ti_in i) j Hf Hin)).
      assert (Hp' : ti_prox i = ti_in i * factor ^ j) by (rewrite Hp; exact (iter_pow factor (ti_in i) j)).
      destruct (ti_found i).
      + destruct Hfo as [A B']. rewrite B' in *. split; [exact B|]. split; [exact Hout|].
        split; [|split; discriminate]. intros _ _. change (nleb RN) with Rleb in A. apply Rleb_iff in A.
        rewrite vdot_R, vnorm_R, vsub_R in A. unfold nsq, nlit in A. rn. rewrite norm2_sq in A.
        cbn [fst snd] in A. replace (/ 2 ^ 52) with (1 / 4503599627370496) by lra. clear - A. lra.
      + destruct Hfo as (_ & Ej & E). destruct B as [B0 B1].
        assert (M : 0 < ti_step i <= ti_prox i) by (rewrite E; apply mul_le1; auto).
        split; [lra|]. split; [exact Hout|]. split; [discriminate|]. split; [|discriminate]. intros _ _.
        rewrite E, Hp', <- Ej. rn. cbn [pow]. ring.
    - destruct (Hno eq_refl) as (A & B & C). rewrite B, C. split; [lra|]. split; [reflexivity|].
      split; [discriminate|]. split; [discriminate|]. auto. }
  assert (Pos : forall newer i older, tr_iters r = newer ++ i :: older -> 0 < ti_in i <= s0).
  { intros newer i older. revert newer i. induction older as [|p older IH]; intros newer i Ei.
    - destruct (T _ _ _ Ei) as ((_ & E0 & _) & _).
      assert (ti_in i = s0) by (eapply eq_trans; [exact E0|]; unfold s0; destruct st; reflexivity). lra.
    - destruct (T _ _ _ Ei) as ((_ & _ & ->) & _).
      assert (Ei' : tr_iters r = (newer ++ [i]) ++ p :: older) by (rewrite <- app_assoc; exact Ei).
      destruct (IH _ _ Ei') as [P1 P2].
      destruct (One _ _ _ Ei' P1) as ((Q1 & Q2) & -> & _). lra. }
  destruct (ts_solver_good _ _ _ _ _ _ _ _ _ _ _ _ _ H) as [_ [(i0 & older0 & Ei0 & _ & _ & Est & _) _ _ _]].
  assert (Mono : forall newer i older, tr_iters r = newer ++ i :: older -> tr_stepsize r <= ti_step i).
  { induction newer as [|a newer IH] using rev_ind; intros i older Ei.
    - rewrite Ei in Ei0. cbn in Ei0. injection Ei0 as <- <-. rewrite Est.
      destruct (One [] i older Ei) as (_ & -> & _); [apply (Pos [] i older Ei)|]. lra.
    - rewrite <- app_assoc in Ei. cbn in Ei. specialize (IH _ _ Ei).
      destruct (One _ _ _ Ei) as ((_ & Q) & _ & _); [apply (Pos _ _ _ Ei)|].
      destruct (T _ _ _ Ei) as ((_ & _ & E) & _). rewrite E in Q.
      assert (Ei' : tr_iters r = (newer ++ [a]) ++ i :: older) by (rewrite <- app_assoc; exact Ei).
      destruct (One _ _ _ Ei') as (_ & E' & _); [apply (Pos _ _ _ Ei')|].
      apply Rle_trans with (ti_step a); [exact IH|]. rewrite <- E'. exact Q. }
  split.
  - rewrite Est. destruct (One [] i0 older0 Ei0) as ((Q1 & Q2) & -> & _); [apply (Pos [] _ _ Ei0)|].
    pose proof (Pos [] _ _ Ei0). lra.
  - intros newer i older Ei. pose proof (Pos _ _ _ Ei) as P.
    destruct (One _ _ _ Ei (proj1 P)) as (Q & Eo & D & E & F).
    split; [lra|]. split; [apply (Mono _ _ _ Ei)|]. split; [|auto].
    destruct older as [|p older]; [lra|].
    destruct (T _ _ _ Ei) as ((_ & _ & Eip) & _).
    assert (Ei' : tr_iters r = (newer ++ [i]) ++ p :: older) by (rewrite <- app_assoc; exact Ei).
    destruct (One _ _ _ Ei' (proj1 (Pos _ _ _ Ei'))) as (_ & E' & _). rewrite E' in Eip. lra.
Qed.

(** for an L-smooth f the search succeeds and the step stays away from zero *)
Lemma main_C51_smooth : forall n (f : vec RN -> RN) (gradf : vec RN -> vec RN) domg domh g h
  (p1 p2 : option (vec RN -> RN -> vec RN)) (x0 : vec RN) (tol : RN) max_iter cb ls (st : option RN) max_bt (factor : RN)
  (r : ts_result RN) (L : R),
  convex_on n domg g -> convex_on n domh h ->
  (forall x s, length x = n -> 0 < s -> is_prox_on domg g s x (match p1 with Some p => p x s | None => x end)) ->
  (forall x s, length x = n -> 0 < s -> is_prox_on domh h s x (match p2 with Some p => p x s | None => x end)) ->
  (forall x, length x = n -> length (gradf x) = n) -> length x0 = n ->
  match st with Some s => 0 < s | None => True end -> 0 < factor <= 1 ->
  0 < L -> smooth_upper n L f gradf ->
  minimize_three_split (fun x => (f x, gradf x)) x0 p1 p2 tol max_iter cb ls st max_bt factor None = Ok r ->
  let s0 := match st with Some s => s | None => 1 / init_lipschitz (fun x => (f x, gradf x)) x0 end in
  s0 * factor ^ (max_bt - 1) <= 1 / L ->
  Rmin s0 (factor / L) <= tr_stepsize r /\ Forall (fun i => ti_ls i = true -> ti_found i = true) (tr_iters r).
Proof.
  intros n f gradf domg domh g h p1 p2 x0 tol max_iter cb ls st max_bt factor r L Hg Hh Hp1 Hp2 Hgl Lx Hst Hf HL Hsm H s0 Hbt.
  destruct (ts_unpack n f gradf domg domh g h p1 p2 x0 tol max_iter cb ls st max_bt factor None r Hg Hh Hp1 Hp2 Hgl Lx Hst Hf (or_introl eq_refl) H)
    as (Hs0 & i0 & older0 & Ei0 & _ & _ & Est & _ & _ & HF & _ & HS & _). fold s0 in Hs0.
  pose proof (main_C51_trace _ _ _ _ _ _ _ _ _ _ _ _ _ _ H) as T. cbv zeta in T.
  destruct (main_C51_steps f gradf x0 p1 p2 tol max_iter cb ls st max_bt factor r Hf Hst H) as [_ Steps]. fold s0 in Steps.
  set (q1 := fun (x : vec RN) s => match p1 with Some p => p x s | None => x end) in *.
  (* an acceptable trial *)
  assert (Acc : forall (z u : vec RN) (t : RN), length z = n -> length u = n -> 0 < t -> t <= 1 / L ->
    let x := q1 (vsub z (vscale t (vadd u (gradf z)))) t in
    nleb RN (nsub RN (f x) (nadd RN (nadd RN (f z) (vdot (gradf z) (vsub x z))) (ndiv RN (nsq (vnorm (vsub x z))) (nmul RN (nofZ RN 2) t))))
       (nlit 1 4503599627370496) = true).
  { intros z u t Lz Lu Ht Htl x. pose proof (Hgl _ Lz) as Lg.
    assert (Lxx : length x = n).
    { unfold x. rewrite vsub_R, vscale_R, vadd_R.
      destruct (Hp1 (vminus z (smul t (vplus u (gradf z)))) t) as [E _]; [lengr|exact Ht|]. eapply eq_trans; [exact E|lengr]. }
    clearbody x. change (nleb RN) with Rleb. apply Rleb_iff.
    rewrite vdot_R, vnorm_R, vsub_R. unfold nsq, nlit. rn. rewrite norm2_sq.
    pose proof (Hsm z x Lz Lxx) as S. rewrite dist2_dot in S by lengr.
    pose proof (dot_self_nonneg (vminus x z)) as D.
    assert (L / 2 * dot (vminus x z) (vminus x z) <= dot (vminus x z) (vminus x z) / (2 * t)).
    { unfold Rdiv. rewrite (Rmult_comm (L * / 2)). apply Rmult_le_compat_l; [exact D|].
      rewrite Rinv_mult. rewrite Rmult_comm. apply Rmult_le_compat_l; [lra|].
      apply Rmult_le_reg_l with t; [exact Ht|]. rewrite Rinv_r by lra.
      apply Rmult_le_compat_r with (r := L) in Htl; [|lra]. unfold Rdiv in Htl. rewrite Rmult_assoc, Rinv_l in Htl by lra. lra. }
    lra. }
  assert (Main : forall newer i older, tr_iters r = newer ++ i :: older ->
     (ti_ls i = true -> ti_found i = true) /\ Rmin (ti_in i) (factor / L) <= ti_step i).
  { intros newer i older Ei.
    destruct (T _ _ _ Ei) as (_ & _ & Hx & _ & _ & _ & Hno & Hyes).
    assert (Hin : In i (i0 :: older0)) by (rewrite <- Ei0, Ei; apply in_or_app; right; left; reflexivity).
    pose proof (proj1 (Forall_forall _ _) HF i Hin) as F.
    pose proof (tf_lz _ _ _ _ _ _ _ _ _ F) as Lz. pose proof (tf_lu _ _ _ _ _ _ _ _ _ F) as Lu.
    rewrite Ei0 in Ei. destruct (HS _ _ _ Ei) as (Hpv & Hpos & _).
    destruct (Steps newer i older) as (_ & _ & Hm & _); [rewrite Ei0; exact Ei|].
    assert (Hle : ti_in i <= s0).
    { destruct older as [|p older].
      - cbn [ts_prev] in Hpv. injection Hpv as _ _ E. right; exact E.
      - cbn [ts_prev] in Hpv. injection Hpv as _ _ E. rewrite E.
        assert (Ei' : i0 :: older0 = (newer ++ [i]) ++ p :: older) by (rewrite <- app_assoc; exact Ei).
        destruct (HS _ _ _ Ei') as (_ & _ & Eo). rewrite Eo by reflexivity.
        destruct (Steps (newer ++ [i]) p older) as (B & _); [rewrite Ei0; exact Ei'|]. exact (proj2 B). }
    destruct (ti_ls i) eqn:El.
    - destruct (Hyes eq_refl) as (j & Hj & Hp & Hfail & Hfo & _).
      assert (Pj : forall m, 0 < Nat.iter m (fun t : RN => nmul RN t factor) (ti_in i))
        by (intros m; apply (iter_factor factor (ti_in i) m Hf Hpos)).
      assert (Hfd : ti_found i = true).
      { destruct (ti_found i) eqn:Efd; auto. destruct Hfo as (A & Ej & _).
        rewrite Hx, Hp in A.
        assert (B : Nat.iter j (fun t : RN => nmul RN t factor) (ti_in i) <= 1 / L).
        { eapply Rle_trans; [right; exact (iter_pow factor (ti_in i) j)|].
          replace j with (max_bt - 1)%nat by lia.
          apply Rle_trans with (s0 * factor ^ (max_bt - 1)); [|exact Hbt]. apply Rmult_le_compat_r; [apply pow_le; lra|exact Hle]. }
        pose proof (Acc (ti_z i) (ti_u i) _ Lz Lu (Pj j) B) as C. pose proof (eq_trans (eq_sym C) A) as X; discriminate X. }
      split; [auto|]. rewrite Hfd in Hfo. destruct Hfo as [_ ->]. rewrite Hp.
      destruct j as [|j]; [cbn; apply Rmin_l|].
      destruct (Rle_lt_dec (Nat.iter j (fun t : RN => nmul RN t factor) (ti_in i)) (1 / L)) as [C|C].
      + pose proof (Acc (ti_z i) (ti_u i) _ Lz Lu (Pj j) C) as C'. specialize (Hfail j ltac:(lia)).
        pose proof (eq_trans (eq_sym C') Hfail) as X; discriminate X.
      + apply Rle_trans with (factor / L); [apply Rmin_r|]. cbn [Nat.iter nat_rect].
        change (nmul RN) with Rmult. fold (Nat.iter j (fun t : RN => nmul RN t factor) (ti_in i)).
        unfold Rdiv. rewrite (Rmult_comm factor). apply Rmult_le_compat_r; [lra|]. unfold Rdiv in C.
        rewrite Rmult_1_l in C. left; exact C.
    - destruct (Hno eq_refl) as (_ & -> & _). split; [discriminate|apply Rmin_l]. }
  split.
  - assert (Low : forall newer i older, tr_iters r = newer ++ i :: older -> Rmin s0 (factor / L) <= ti_in i).
    { intros newer i older. revert newer i. induction older as [|p older IH]; intros newer i Ei.
      - rewrite Ei0 in Ei. destruct (HS _ _ _ Ei) as (Hpv & _). cbn [ts_prev] in Hpv. injection Hpv as _ _ E. eapply Rle_trans; [apply Rmin_l|right; symmetry; exact E].
      - assert (Ei' : tr_iters r = (newer ++ [i]) ++ p :: older) by (rewrite <- app_assoc; exact Ei).
        specialize (IH _ _ Ei'). destruct (Main _ _ _ Ei') as [_ M].
        rewrite Ei0 in Ei, Ei'. destruct (HS _ _ _ Ei) as (Hpv & _). cbn [ts_prev] in Hpv. injection Hpv as _ _ E. rewrite E.
        destruct (HS _ _ _ Ei') as (_ & _ & Eo). rewrite Eo by reflexivity.
        apply Rle_trans with (Rmin (ti_in p) (factor / L)); [|exact M].
        apply Rmin_glb; [exact IH|apply Rmin_r]. }
    rewrite Est. destruct (HS [] i0 older0 eq_refl) as (_ & _ & Eo). rewrite Eo by reflexivity.
    destruct (Main [] i0 older0 Ei0) as [_ M]. specialize (Low [] i0 older0 Ei0).
    apply Rle_trans with (Rmin (ti_in i0) (factor / L)); [|exact M]. apply Rmin_glb; [exact Low|apply Rmin_r].
  - apply Forall_forall. intros i Hi. destruct (in_split _ _ Hi) as (nw & old & E). apply (Main _ _ _ E).
Qed.

(** ** convergence with a fixed step *)
Lemma cocoercive n (f : list R -> R) gradf L : 0 < L -> first_order n f gradf -> smooth_upper n L f gradf ->
  (forall x, length x = n -> length (gradf x) = n) ->
  forall u v, length u = n -> length v = n ->
    dot (vminus (gradf u) (gradf v)) (vminus (gradf u) (gradf v)) <= L * dot (vminus (gradf u) (gradf v)) (vminus u v).
Proof.
  intros HL Hfo Hsm Hgl.
  assert (One : forall u v, length u = n -> length v = n ->
    f v + dot (gradf v) (vminus u v) + / (2 * L) * dot (vminus (gradf u) (gradf v)) (vminus (gradf u) (gradf v)) <= f u).
  { intros u v Lu Lv. pose proof (Hgl u Lu) as Gu. pose proof (Hgl v Lv) as Gv.
    set (d := vminus (gradf u) (gradf v)). assert (Ld : length d = n) by (unfold d; leng).
    set (w := vminus u (smul (/ L) d)). assert (Lw : length w = n) by (unfold w; leng).
    pose proof (Hfo v w Lv Lw) as A. pose proof (Hsm u w Lu Lw) as B.
    assert (E1 : dot (gradf v) (vminus w v) = dot (gradf v) (vminus u v) - / L * dot (gradf v) d).
    { unfold w. ipx. ring. }
    assert (E2 : dot (gradf u) (vminus w u) = - (/ L * dot (gradf u) d)).
    { unfold w. ipx. ring. }
    assert (E3 : dist2 w u = / L * / L * dot d d).
    { unfold w. ipx. rewrite (dot_comm d u). ring. }
    assert (E4 : dot (gradf u) d - dot (gradf v) d = dot d d).
    { transitivity (dot (vminus (gradf u) (gradf v)) d); [ipx; ring|reflexivity]. }
    rewrite E1 in A. rewrite E2, E3 in B.
    assert (E5 : L / 2 * (/ L * / L * dot d d) = / (2 * L) * dot d d) by (field; lra).
    assert (E6 : / L * dot (gradf u) d - / L * dot (gradf v) d = / L * dot d d) by (rewrite <- E4; ring).
    assert (E7 : / L * dot d d = 2 * (/ (2 * L) * dot d d)) by (field; lra).
    rewrite E5 in B. lra. }
  intros u v Lu Lv. pose proof (Hgl u Lu) as Gu. pose proof (Hgl v Lv) as Gv.
  pose proof (One u v Lu Lv) as A. pose proof (One v u Lv Lu) as B.
  assert (Ed : dot (vminus (gradf v) (gradf u)) (vminus (gradf v) (gradf u)) = dot (vminus (gradf u) (gradf v)) (vminus (gradf u) (gradf v))).
  { ipx. ring. }
  rewrite Ed in B. set (D := dot (vminus (gradf u) (gradf v)) (vminus (gradf u) (gradf v))) in *.
  assert (Es : dot (vminus (gradf u) (gradf v)) (vminus u v) = - dot (gradf v) (vminus u v) - dot (gradf u) (vminus v u)).
  { ipx. ring. }
  assert (2 * (/ (2 * L) * D) <= dot (vminus (gradf u) (gradf v)) (vminus u v)) by lra.
  apply Rmult_le_reg_l with (/ L); [apply Rinv_0_lt_compat; auto|].
  replace (/ L * (L * dot (vminus (gradf u) (gradf v)) (vminus u v))) with (dot (vminus (gradf u) (gradf v)) (vminus u v)) by (field; lra).
  replace (/ L * D) with (2 * (/ (2 * L) * D)) by (field; lra). auto.
Qed.

Lemma subgrad_mono n dom g x y v w : subgrad n dom g x v -> subgrad n dom g y w -> length x = n -> length y = n ->
  0 <= dot (vminus v w) (vminus x y).
Proof.
  intros (Lv & Dx & Sv) (Lw & Dy & Sw) Lx Ly. pose proof (Sv y Ly Dy) as A. pose proof (Sw x Lx Dx) as B.
  assert (E : dot (vminus v w) (vminus x y) = - dot v (vminus y x) - dot w (vminus x y)) by (ipx; ring). lra.
Qed.

(** one Davis-Yin step *)
Lemma dy_step n (f : list R -> R) gradf domg domh g h L s (x z u zs us : list R) :
  0 < L -> 0 < s -> first_order n f gradf -> smooth_upper n L f gradf ->
  (forall y, length y = n -> length (gradf y) = n) ->
  length x = n -> length z = n -> length zs = n ->
  subgrad n domh h z u -> subgrad n domh h zs us ->
  subgrad n domg g x (vminus (smul (/ s) (vminus z x)) (vplus u (gradf z))) ->
  subgrad n domg g zs (smul (-1) (vplus us (gradf zs))) ->
  let w := vplus z (smul s u) in let ws := vplus zs (smul s us) in
  dist2 (vplus x (smul s u)) ws + (1 - s * L / 2) * dist2 x z <= dist2 w ws.
Proof.
  intros HL Hs Hfo Hsm Hgl Lx Lz Lzs Su Sus Sv Svs w ws.
  pose proof (Hgl z Lz) as Gz. pose proof (Hgl zs Lzs) as Gs.
  assert (Lu : length u = n) by apply Su. assert (Lus : length us = n) by apply Sus.
  pose proof (cocoercive n f gradf L HL Hfo Hsm Hgl z zs Lz Lzs) as C.
  pose proof (subgrad_mono n domh h z zs u us Su Sus Lz Lzs) as M1.
  pose proof (subgrad_mono n domg g x zs _ _ Sv Svs Lx Lzs) as M2.
  set (d := vminus (gradf z) (gradf zs)) in *. assert (Ld : length d = n) by (unfold d; leng).
  set (e := vminus x z). assert (Le : length e = n) by (unfold e; leng).
  set (a := vminus z zs). assert (La : length a = n) by (unfold a; leng).
  set (b := vminus u us). assert (Lb : length b = n) by (unfold b; leng).
  fold a in C. fold b a in M1.
  (* everything in terms of e, a, b, d *)
  assert (E1 : dot (vminus (vminus (smul (/ s) (vminus z x)) (vplus u (gradf z))) (smul (-1) (vplus us (gradf zs)))) (vminus x zs)
     = - (/ s) * dot e a - / s * dot e e - dot b a - dot b e - dot d a - dot d e).
  { replace (vminus (vminus (smul (/ s) (vminus z x)) (vplus u (gradf z))) (smul (-1) (vplus us (gradf zs))))
      with (vminus (smul (- / s) e) (vplus b d)).
    2:{ apply list_ext with (d := 0); [unfold e, b, d; leng|]. intros k _. unfold e, b, d.
        repeat (first [rewrite nth_smul | rewrite nth_vminus by leng | rewrite nth_vplus by leng]). ring. }
    replace (vminus x zs) with (vplus a e).
    2:{ apply list_ext with (d := 0); [unfold e, a; leng|]. intros k _. unfold e, a.
        repeat (first [rewrite nth_smul | rewrite nth_vminus by leng | rewrite nth_vplus by leng]). ring. }
    clearbody a b d e. ipx. ring. }
  rewrite E1 in M2. clear E1.
  assert (E2 : dist2 (vplus x (smul s u)) ws = dist2 w ws + 2 * dot e a + 2 * s * dot b e + dot e e).
  { assert (Lw : length w = n) by (unfold w; leng). assert (Lws : length ws = n) by (unfold ws; leng).
    rewrite !dist2_dot by leng.
    replace (vminus (vplus x (smul s u)) ws) with (vplus (vplus a e) (smul s b)).
    2:{ apply list_ext with (d := 0); [unfold e, a, b; leng|]. intros k _. unfold e, a, b, ws.
        repeat (first [rewrite nth_smul | rewrite nth_vminus by leng | rewrite nth_vplus by leng]). ring. }
    replace (vminus w ws) with (vplus a (smul s b)).
    2:{ apply list_ext with (d := 0); [unfold a, b; leng|]. intros k _. unfold a, b, w, ws.
        repeat (first [rewrite nth_smul | rewrite nth_vminus by leng | rewrite nth_vplus by leng]). ring. }
    clearbody a b e. ipx. rewrite (dot_comm e a), (dot_comm b a), (dot_comm b e). ring. }
  assert (E3 : dist2 x z = dot e e) by (rewrite dist2_dot by leng; reflexivity).
  rewrite E2, E3.
  (* - dot d a - dot d e <= L/4 ||e||^2 *)
  assert (Y : - dot d a - dot d e <= L / 4 * dot e e).
  { pose proof (dot_quad d e (L / 2)) as Q. apply Rmult_le_reg_l with L; [auto|]. nra. }
  assert (M3 : / s * dot e a + / s * dot e e + dot b e <= L / 4 * dot e e) by lra.
  assert (M4 : dot e a + dot e e + s * dot b e <= s * (L / 4 * dot e e)).
  { apply Rmult_le_compat_l with (r := s) in M3; [|lra].
    replace (s * (/ s * dot e a + / s * dot e e + dot b e)) with (dot e a + dot e e + s * dot b e) in M3 by (field; lra). exact M3. }
  lra.
Qed.

Lemma main_C78_fixed_step_converges : forall n (f : vec RN -> RN) (gradf : vec RN -> vec RN) domg domh g h
  (p1 p2 : option (vec RN -> RN -> vec RN)) (x0 : vec RN) (tol : RN) max_iter (s : RN) max_bt (factor : RN) (hL : option RN)
  (L : R) (zs us : list R),
  convex_on n domg g -> convex_on n domh h -> first_order n f gradf -> smooth_upper n L f gradf -> 0 < L ->
  (forall x s, length x = n -> 0 < s -> is_prox_on domg g s x (match p1 with Some p => p x s | None => x end)) ->
  (forall x s, length x = n -> 0 < s -> is_prox_on domh h s x (match p2 with Some p => p x s | None => x end)) ->
  (forall x, length x = n -> length (gradf x) = n) -> length x0 = n ->
  0 < s -> s * L < 2 -> 0 < tol -> (0 < max_bt)%nat ->
  (* a solution with its multiplier *)
  length zs = n -> subgrad n domh h zs us -> subgrad n domg g zs (smul (-1) (vplus us (gradf zs))) ->
  (* enough iterations *)
  let prox1 x s := match p1 with Some p => p x s | None => x end in
  let prox2 x s := match p2 with Some p => p x s | None => x end in
  let z0 := prox2 x0 s in
  let w1 := prox1 (vminus z0 (smul s (gradf z0))) s in
  dist2 w1 (vplus zs (smul s us)) < (INR max_iter - 1) * ((1 - s * L / 2) * (s * tol * (s * tol))) ->
  exists r, minimize_three_split (fun x => (f x, gradf x)) x0 p1 p2 tol max_iter None false (Some s) max_bt factor hL = Ok r /\
    tr_success r = true.
Proof.
  intros n f gradf domg domh g h p1 p2 x0 tol max_iter s max_bt factor hL L zs us Hg Hh Hfo Hsm HL Hp1 Hp2 Hgl Lx Hs HsL Htol Hbt
    Lzs Sus Svs prox1 prox2 z0 w1 Hmany.
  assert (Hc : 0 < 1 - s * L / 2) by (rn; lra).
  assert (Hst2 : 0 < (1 - s * L / 2) * (s * tol * (s * tol))).
  { apply Rmult_lt_0_compat; [exact Hc|]. apply Rmult_lt_0_compat; apply Rmult_lt_0_compat; assumption. }
  assert (Hmi : (1 < max_iter)%nat).
  { destruct (le_lt_dec max_iter 1) as [Hle|]; auto. exfalso.
    assert (INR max_iter <= 1) by (apply le_INR in Hle; exact Hle).
    pose proof (dist2_nonneg w1 (vplus zs (smul s us))).
    assert ((INR max_iter - 1) * ((1 - s * L / 2) * (s * tol * (s * tol))) <= 0) by nra. rn. lra. }
  destruct (proj2 (proj2 (main_C51_errors RN (fun x => (f x, gradf x)) x0 p1 p2 tol max_iter None false (Some s) max_bt factor hL)) Hbt ltac:(lia))
    as (r & Hr).
  exists r. split; [exact Hr|].
  destruct (tr_success r) eqn:Esu; auto. exfalso.
  destruct (main_C51_contract _ _ _ _ _ _ _ _ _ _ _ _ _ _ Hr) as (_ & Hn & Hlen & _ & Hfail & _ & Hquiet).
  destruct (Hfail Esu) as [(c & Ec & _)|(Hnit & Hlast)]; [discriminate|].
  pose proof (main_C51_trace _ _ _ _ _ _ _ _ _ _ _ _ _ _ Hr) as T. cbv zeta in T. fold prox1 prox2 in T.
  set (ws := vplus zs (smul s us)) in *.
  assert (Lus : length us = n) by apply Sus.
  assert (L0 : length z0 = n). { destruct (Hp2 x0 s Lx Hs) as [E _]. eapply eq_trans; [exact E|exact Lx]. }
  assert (Lw1 : length w1 = n).
  { unfold w1. pose proof (Hgl _ L0). destruct (Hp1 (vminus z0 (smul s (gradf z0))) s) as [E _]; [lengr|exact Hs|]. eapply eq_trans; [exact E|lengr]. }
  (* all steps equal s *)
  assert (St : forall newer i older, tr_iters r = newer ++ i :: older ->
     ti_in i = s /\ ti_prox i = s /\ ti_step i = s /\ ti_out i = s).
  { intros newer i older. revert newer i. induction older as [|p older IH]; intros newer i Ei.
    - destruct (T _ _ _ Ei) as ((_ & E & _) & El & _ & _ & _ & _ & Hno & _). rewrite andb_false_r in El.
      destruct (Hno El) as (A & B & C). rewrite A, B, C, E. auto.
    - assert (Ei' : tr_iters r = (newer ++ [i]) ++ p :: older) by (rewrite <- app_assoc; exact Ei).
      destruct (IH _ _ Ei') as (_ & _ & _ & Eo).
      destruct (T _ _ _ Ei) as ((_ & _ & E) & El & _ & _ & _ & _ & Hno & _). rewrite andb_false_r in El.
      destruct (Hno El) as (A & B & C). rewrite A, B, C, E, Eo. auto. }
  assert (Fa : Forall (ts_facts n gradf domg domh g h prox1 prox2) (tr_iters r)).
  { destruct (ts_solver_good _ _ _ _ _ _ _ _ _ _ _ _ _ Hr) as [_ [_ Hch _ _]]. cbv zeta in Hch.
    assert (Eq1 : match p1 with Some p => p | None => fun x _ => x end = prox1) by (unfold prox1; destruct p1; reflexivity).
    assert (Eq2 : match p2 with Some p => p | None => fun x _ => x end = prox2) by (unfold prox2; destruct p2; reflexivity).
    rewrite Eq1, Eq2 in Hch. cbn [snd] in Hch.
    replace (length (prox1 (vsub (prox2 x0 s) (vscale s (gradf (prox2 x0 s)))) s)) with n in Hch
      by (rewrite vsub_R, vscale_R; symmetry; exact Lw1).
    assert (G : forall l, (exists newer, tr_iters r = newer ++ l) ->
        @ts_chain RN (fun x => (f x, gradf x)) prox1 prox2 false max_bt factor hL (prox2 x0 s) (vzeros n) s l ->
        Forall (ts_facts n gradf domg domh g h prox1 prox2) l /\
        (let '(z, u, _) := ts_prev (prox2 x0 s) (zeros n) s l in length z = n /\ length u = n)).
    { induction l as [|i l IH]; intros (newer & Ei) Hcl.
      - split; [constructor|]. cbn. split; [exact L0|apply zeros_length].
      - destruct Hcl as [Hi Hcl].
        destruct IH as [HF HP]; [exists (newer ++ [i]); rewrite <- app_assoc; exact Ei|exact Hcl|].
        destruct (St _ _ _ Ei) as (Ein & _). rewrite vzeros_R in Hi.
        destruct (ts_prev (prox2 x0 s) (zeros n) s l) as [[z u] t] eqn:Ep. destruct HP as [Lz Lu].
        assert (Et : t = s) by (rewrite Hi in Ein; exact Ein). rewrite Et in Hi.
        (* the backtracking factor is irrelevant without line search *)
        assert (Hi' : exists h', i = @ts_body RN (fun x => (f x, gradf x)) prox1 prox2 false max_bt 1 h' (mkTsS z u s [] [])).
        { exists hL. rewrite Hi. unfold ts_body. cbn [ts_z ts_u ts_step]. rewrite andb_false_r. reflexivity. }
        destruct Hi' as (h' & Hi').
        destruct (ts_body_facts n f gradf domg domh g h prox1 prox2 false max_bt 1 h' Hg Hh Hp1 Hp2 Hgl ltac:(lra) z u s Lz Lu Hs) as (F & _).
        rewrite <- Hi' in F. split; [constructor; auto|]. cbn. split; apply F. }
    apply (G (tr_iters r)); [exists []; reflexivity|exact Hch]. }
  (* Fejer monotonicity along the run: after iteration number k >= 1 *)
  assert (Fej : forall older i newer, tr_iters r = newer ++ i :: older ->
     dist2 (vplus (ti_x i) (smul s (ti_u i))) ws + INR (length older) * ((1 - s * L / 2) * (s * tol * (s * tol))) <= dist2 w1 ws).
  { induction older as [|p older IH]; intros i newer Ei.
    - destruct (T _ _ _ Ei) as ((Ez & _ & Eu) & _ & Ex & _). destruct (St _ _ _ Ei) as (_ & Ep & _).
      cbn [length INR]. rewrite Rmult_0_l, Rplus_0_r. right. f_equal.
      rewrite Ez in Eu. cbn [snd] in *. fold z0 in Eu, Ez.
      replace (length (prox1 (vsub z0 (vscale s (gradf z0))) s)) with n in Eu by (rewrite vsub_R, vscale_R; symmetry; exact Lw1).
      rewrite vzeros_R in Eu. rewrite Ep, Eu, Ez in Ex.
      assert (Lgz : length (gradf z0) = n) by auto.
      assert (Ex' : ti_x i = w1).
      { rewrite Ex. unfold w1. rewrite vsub_R, vscale_R, vadd_R. f_equal. f_equal. f_equal.
        apply list_ext with (d := 0); [lengr|]. intros k _. rewrite nth_vplus by lengr. rewrite nth_zeros. lra. }
      rewrite Ex', Eu. apply list_ext with (d := 0); [lengr|]. intros k _.
      rewrite nth_vplus by lengr. rewrite nth_smul, nth_zeros. lra.
    - assert (Ei' : tr_iters r = (newer ++ [i]) ++ p :: older) by (rewrite <- app_assoc; exact Ei).
      specialize (IH _ _ Ei').
      destruct (St _ _ _ Ei) as (_ & Ep & Es & _). destruct (St _ _ _ Ei') as (_ & Epp & Esp & _).
      assert (Hin : In i (tr_iters r)) by (rewrite Ei; apply in_or_app; right; left; reflexivity).
      assert (Hip : In p (tr_iters r)) by (rewrite Ei'; apply in_or_app; right; left; reflexivity).
      pose proof (proj1 (Forall_forall _ _) Fa i Hin) as Fi. pose proof (proj1 (Forall_forall _ _) Fa p Hip) as Fp.
      destruct (T _ _ _ Ei) as ((Ez & Eu & _) & _).
      (* the previous prox_2 step *)
      assert (Ew : vplus (ti_x p) (smul s (ti_u p)) = vplus (ti_z i) (smul s (ti_u i))).
      { rewrite Ez, Eu, (tf_un _ _ _ _ _ _ _ _ _ Fp), Esp.
        pose proof (tf_lx _ _ _ _ _ _ _ _ _ Fp). pose proof (tf_lu _ _ _ _ _ _ _ _ _ Fp). pose proof (tf_lzn _ _ _ _ _ _ _ _ _ Fp).
        apply list_ext with (d := 0); [lengr|]. intros k _.
        repeat (first [rewrite nth_smul | rewrite nth_vminus by lengr | rewrite nth_vplus by lengr]). field. rn; lra. }
      rewrite Ew in IH.
      pose proof (tf_sz _ _ _ _ _ _ _ _ _ Fp) as Sz. rewrite <- Ez, <- Eu in Sz.
      pose proof (tf_sx _ _ _ _ _ _ _ _ _ Fi) as Sx. rewrite Ep in Sx.
      pose proof (dy_step n f gradf domg domh g h L s (ti_x i) (ti_z i) (ti_u i) zs us HL Hs Hfo Hsm Hgl
        (tf_lx _ _ _ _ _ _ _ _ _ Fi) (tf_lz _ _ _ _ _ _ _ _ _ Fi) Lzs Sz Sus Sx Svs) as D. cbv zeta in D. fold ws in D.
      (* the certificate was not below tol *)
      assert (Q : tol <= ti_cert i).
      { assert (Q' : nltb RN (ti_cert i) tol = false).
        { destruct newer as [|a newer].
          - destruct (ts_solver_good _ _ _ _ _ _ _ _ _ _ _ _ _ Hr) as [_ [(i1 & o1 & E1 & _ & Ec1 & _ & En1 & _) _ _ _]].
            rewrite E1 in Ei. cbn in Ei. injection Ei as -> ->. destruct Hlast as [Hz|Hl]; [rewrite En1 in Hz; discriminate|].
            rewrite Ec1 in Hl. exact Hl.
          - apply (Hquiet _ _ _ Ei); discriminate. }
        change (nltb RN (ti_cert i) tol) with (Rltb (ti_cert i) tol) in Q'.
        destruct (Rltb_spec (ti_cert i) tol); [discriminate|exact H]. }
      rewrite (tf_cert _ _ _ _ _ _ _ _ _ Fi), Es in Q.
      assert (Q2 : s * tol <= norm2 (vminus (ti_x i) (ti_z i))).
      { apply Rmult_le_compat_l with (r := s) in Q; [|rn; lra].
        replace (s * (norm2 (vminus (ti_x i) (ti_z i)) / s)) with (norm2 (vminus (ti_x i) (ti_z i))) in Q by (field; rn; lra). exact Q. }
      assert (Q3 : s * tol * (s * tol) <= dist2 (ti_x i) (ti_z i)).
      { rewrite dist2_dot by (eapply eq_trans; [exact (tf_lx _ _ _ _ _ _ _ _ _ Fi)|symmetry; exact (tf_lz _ _ _ _ _ _ _ _ _ Fi)]).
        rewrite <- norm2_sq.
        assert (0 <= s * tol) by (apply Rmult_le_pos; rn; lra).
        apply Rmult_le_compat; assumption. }
      assert (Q4 : (1 - s * L / 2) * (s * tol * (s * tol)) <= (1 - s * L / 2) * dist2 (ti_x i) (ti_z i))
        by (apply Rmult_le_compat_l; [lra|exact Q3]).
      cbn [length]. rewrite S_INR. set (q := (1 - s * L / 2) * (s * tol * (s * tol))) in *. rn. lra. }
  destruct (tr_iters r) as [|i older] eqn:Ei; [discriminate|].
  specialize (Fej older i [] eq_refl). pose proof (dist2_nonneg (vplus (ti_x i) (smul s (ti_u i))) ws) as D0.
  cbn in Hlen. assert (El : length older = (max_iter - 1)%nat) by lia.
  rewrite El, minus_INR in Fej by lia. change (INR 1) with 1 in Fej. rn. lra.
Qed.
