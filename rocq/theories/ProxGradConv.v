(** * Descent and convergence of the proximal gradient solver, over the reals *)
From Coq Require Import Reals List Bool Lra Lia Psatz.
From Verif Require Import Num Vec Spec RVec ConvexFacts ModelUtils ModelProxGrad ProxGradFacts.
Import ListNotations.
Open Scope R_scope.

Section Conv.
Variable n : nat.
Variable f : list R -> R.
Variable gradf : list R -> list R.
Variable dom : list R -> Prop.
Variable g : list R -> R.
Variable prox : list R -> R -> list R.
Hypothesis Hgl : forall x, length x = n -> length (gradf x) = n.
Hypothesis Hg : convex_on n dom g.
Hypothesis Hprox : forall x s, length x = n -> 0 < s -> is_prox_on dom g s x (prox x s).
Definition fgR : vec RN -> RN * vec RN := fun x => (f x, gradf x).

Variable step : strategy RN.
Variable max_bt : nat.
Variable factor : R.
Hypothesis Hstep : match step with
  | SCallable h => forall log, 0 < h log
  | SBacktracking => 0 < factor
  | _ => False end.

Record good (it : iter RN) : Prop := mkGood {
  gd_x : length (it_x it) = n;
  gd_next : length (it_next it) = n;
  gd_pos : 0 < it_prox it;
  gd_step : it_prox it <= it_step it <= 11 / 10 * it_prox it;
  gd_grad : it_grad it = gradf (it_x it);
  gd_f : it_f it = f (it_x it);
  gd_prox : is_prox_on dom g (it_prox it) (vminus (it_x it) (smul (it_prox it) (gradf (it_x it)))) (it_next it)
}.
Definition accepted (it : iter RN) : Prop :=
  f (it_next it) <= f (it_x it) + dot (gradf (it_x it)) (vminus (it_next it) (it_x it))
      + dist2 (it_next it) (it_x it) / (2 * it_step it).

Lemma reduce_pos (s : R) j : 0 < factor -> 0 < s -> 0 < @reduce RN factor s j.
Proof. intros Hf; revert s; induction j; simpl; intros; auto. apply IHj. rn. apply Rmult_lt_0_compat; auto. Qed.

Lemma prox_step_R x gr s : prox_step (K:=RN) prox x gr s = prox (vminus x (smul s gr)) s.
Proof. unfold prox_step. rewrite vscale_R, vsub_R. reflexivity. Qed.

Lemma bt_rhs_R (fk : R) (gr x y : list R) (s : R) : length y = length x ->
  bt_rhs (K:=RN) fk gr (@vsub RN y x) s = fk + dot gr (vminus y x) + dist2 y x / (2 * s).
Proof. intros H. unfold bt_rhs. rn. rewrite !vdot_R, vsub_R, dist2_dot by auto. reflexivity. Qed.

Lemma good_iters x0 s0 : forall l, chain (K:=RN) x0 l ->
  ls_chain (K:=RN) fgR prox step max_bt factor s0 l -> length x0 = n ->
  (step = SBacktracking -> exists s, s0 = Some s /\ 0 < s) ->
  Forall (fun it => it_found it = true) l ->
  Forall good l /\ length (last_point x0 l) = n /\ (step = SBacktracking -> exists s, step_after s0 l = Some s /\ 0 < s) /\
  (step = SBacktracking -> Forall accepted l).
Proof.
  induction l as [|it l IH]; intros Hc Hl Hx0 Hs0 Hfd; cbn [last_point step_after].
  - auto.
  - destruct Hc as [Ex Hc]. destruct Hl as ([Hn Hpr] & Hls & Hfr & Hl).
    inversion Hfd as [|? ? Hf Hfd']; subst.
    destruct (IH Hc Hl Hx0 Hs0 Hfd') as (HF & Hlp & Hsa & Hacc).
    assert (Hh : head_found l) by (destruct l; simpl; auto; inversion Hfd'; auto).
    specialize (Hfr Hh). unfold fgR in Hfr. injection Hfr as Hff Hgg.
    assert (Hlx : length (it_x it) = n) by (rewrite Ex; auto).
    assert (Hpos : 0 < it_prox it).
    { unfold iter_ls in Hls. destruct step as [h| | |] eqn:Est; try contradiction.
      - destruct Hls as [[log E] _]. rewrite E. apply Hstep.
      - destruct Hls as (s & j & E & Hj & H0 & H1 & H2 & _).
        destruct (Hsa eq_refl) as (s' & E' & Hs'). rewrite E in E'. injection E' as <-.
        assert (0 < it_step it) by (rewrite H2; apply reduce_pos; auto; rn; rewrite nlit_R; lra).
        destruct j; [rewrite H0; auto|rewrite H1; auto; lia]. }
    rewrite vscale_R, vsub_R in Hn. rn.
    rewrite Hgg in Hn.
    assert (Hpx : is_prox_on dom g (it_prox it) (vminus (it_x it) (smul (it_prox it) (gradf (it_x it)))) (it_next it)).
    { rewrite Hn. apply Hprox; auto. specialize (Hgl (it_x it) Hlx). leng. }
    assert (Hnx : length (it_next it) = n).
    { destruct Hpx as [E _]. eapply eq_trans; [exact E|]. specialize (Hgl (it_x it) Hlx). leng. }
    assert (Hst : it_prox it <= it_step it <= 11 / 10 * it_prox it).
    { rewrite nlit_R in Hpr. destruct Hpr as [E|E]; rewrite E; lra. }
    split; [|split; [auto|split]].
    + constructor; auto. constructor; auto.
    + intros _. exists (it_step it). split; auto. lra.
    + intros Est. constructor; [|auto]. unfold iter_ls in Hls. rewrite Est in Hls.
      destruct Hls as (s & j & E & Hj & H0 & H1 & H2 & H3 & _).
      destruct (H3 Hf) as [_ H4]. cbn [fgR fst snd] in H4.
      rewrite Hff, Hgg in H4.
      rewrite (bt_rhs_R (f (it_x it)) (gradf (it_x it)) (it_x it) (it_next it) (it_step it)) in H4 by (rn; lia).
      rn. apply Rleb_iff in H4. exact H4.
Qed.

(** sufficient decrease of one iteration *)
Lemma decrease it : good it -> accepted it -> dom (it_x it) ->
  f (it_next it) + g (it_next it) + dist2 (it_next it) (it_x it) / (2 * it_prox it)
    <= f (it_x it) + g (it_x it).
Proof.
  intros [A B C D E F G] H Hd.
  pose proof (pg_fundamental n dom g f gradf (it_prox it) (it_step it) (it_x it) (it_x it)
    Hg A A Hd (Hgl _ A) C (proj1 D) (it_next it) G H) as P.
  rewrite dist2_refl, vminus_self, dot_zeros_r in P.
  assert (E2 : (0 - dist2 (it_next it) (it_x it)) / (2 * it_prox it) = - (dist2 (it_next it) (it_x it) / (2 * it_prox it))) by (field; lra).
  lra.
Qed.
Lemma good_dom it : good it -> dom (it_next it).
Proof. intros [? ? ? ? ? ? (_ & H & _)]; auto. Qed.

Lemma chain_dom x0 l : chain (K:=RN) x0 l -> Forall good l -> dom x0 -> dom (last_point x0 l).
Proof. destruct l; simpl; auto. intros _ H _; inversion H; apply good_dom; auto. Qed.

Lemma all_decrease x0 : forall l, chain (K:=RN) x0 l -> Forall good l -> Forall accepted l -> dom x0 ->
  Forall (fun it : iter RN => f (it_next it) + g (it_next it) + dist2 (it_next it) (it_x it) / (2 * it_prox it)
    <= f (it_x it) + g (it_x it)) l /\
  f (last_point x0 l) + g (last_point x0 l) <= f x0 + g x0.
Proof.
  induction l as [|it l IH]; intros Hc HG HA Hd; cbn [last_point].
  - split; [constructor|lra].
  - destruct Hc as [E Hc]. inversion HG; inversion HA; subst.
    destruct (IH Hc H2 H6 Hd) as [P Q].
    assert (Hdl : dom (it_x it)) by (rewrite E; apply (chain_dom x0); auto).
    pose proof (decrease it H1 H5 Hdl) as D.
    split; [constructor; auto|].
    assert (0 <= dist2 (it_next it) (it_x it) / (2 * it_prox it)).
    { apply Rmult_le_pos; [apply dist2_nonneg|]. apply Rlt_le, Rinv_0_lt_compat. destruct H1; lra. }
    rewrite <- E in Q. lra.
Qed.

(** telescoped rate *)
Lemma rate_sum x0 y : first_order n f gradf -> length y = n -> dom y -> length x0 = n ->
  forall l, chain (K:=RN) x0 l -> Forall good l -> Forall accepted l ->
  2 * Rsum (map (fun it : iter RN => (it_prox it : R)) l) * (f (last_point x0 l) + g (last_point x0 l) - (f y + g y))
    <= dist2 x0 y - dist2 (last_point x0 l) y.
Proof.
  intros Hfo Hy Hdy Hx0. induction l as [|it l IH]; intros Hc HG HA; cbn [last_point].
  - simpl. lra.
  - destruct Hc as [E Hc]. inversion HG as [|? ? G1 G2]; inversion HA as [|? ? A1 A2]; subst.
    specialize (IH Hc G2 A2).
    destruct G1 as [A B C D Eg Ef G].
    pose proof (pg_fundamental n dom g f gradf (it_prox it) (it_step it) (it_x it) y
      Hg A Hy Hdy (Hgl _ A) C (proj1 D) (it_next it) G A1) as P.
    pose proof (Hfo (it_x it) y A Hy) as Q.
    assert (S1 : 2 * it_prox it * (f (it_next it) + g (it_next it) - (f y + g y)) <= dist2 (it_x it) y - dist2 (it_next it) y).
    { apply Rle_trans with (2 * it_prox it * ((dist2 (it_x it) y - dist2 (it_next it) y) / (2 * it_prox it))).
      - apply Rmult_le_compat_l; lra.
      - right; field; lra. }
    cbn [map Rsum].
    assert (Hsum : 0 <= Rsum (map (fun it : iter RN => (it_prox it : R)) l)).
    { clear -G2. induction G2; simpl; [lra|]. destruct H. rn; lra. }
    rn.
    destruct l as [|it' l'].
    + simpl in *. rewrite <- E. lra.
    + assert (Hdl : dom (it_x it)).
      { rewrite E. simpl. inversion G2; apply good_dom; auto. }
      pose proof (decrease it (mkGood it A B C D Eg Ef G) A1 Hdl) as DD.
      assert (0 <= dist2 (it_next it) (it_x it) / (2 * it_prox it)).
      { apply Rmult_le_pos; [apply dist2_nonneg|]. apply Rlt_le, Rinv_0_lt_compat. lra. }
      rewrite <- E in IH.
      set (S := Rsum (map (fun it : iter RN => (it_prox it : R)) (it' :: l'))) in *.
      assert (2 * S * (f (it_next it) + g (it_next it) - (f y + g y)) <= 2 * S * (f (it_x it) + g (it_x it) - (f y + g y))).
      { apply Rmult_le_compat_l; lra. }
      lra.
Qed.

(** ** smooth f: lower bound on the accepted steps, and acceptance *)
Lemma smooth_accepts L x xt s : smooth_upper n L f gradf -> 0 < L -> length x = n -> length xt = n ->
  0 < s -> s <= / L -> f xt <= f x + dot (gradf x) (vminus xt x) + dist2 xt x / (2 * s).
Proof.
  intros HL HLp Hx Hxt Hs Hle. specialize (HL x xt Hx Hxt).
  assert (L / 2 * dist2 xt x <= dist2 xt x / (2 * s)).
  { unfold Rdiv. rewrite (Rmult_comm (dist2 xt x)). apply Rmult_le_compat_r; [apply dist2_nonneg|].
    rewrite Rinv_mult. rewrite (Rmult_comm L). apply Rmult_le_compat_l; [lra|].
    rewrite <- (Rinv_inv L). apply Rinv_le_contravar; auto. }
  lra.
Qed.

Lemma reduce_S_R (s : R) j : @reduce RN factor s (S j) = @reduce RN factor s j * factor.
Proof. apply (@reduce_S RN). Qed.
Lemma reduce_pow (s : R) j : @reduce RN factor s j = s * factor ^ j.
Proof. induction j; [simpl; ring|]. rewrite reduce_S_R, IHj. simpl. ring. Qed.

Lemma smooth_iter L s (it : iter RN) : step = SBacktracking -> smooth_upper n L f gradf -> 0 < L -> 0 < s ->
  length (it_x it) = n -> it_f it = f (it_x it) -> it_grad it = gradf (it_x it) ->
  iter_ls (K:=RN) fgR prox step max_bt factor (Some s) it -> (max_bt > 0)%nat ->
  (* the smallest step among those that were tried before giving up *)
  ((11 / 10 * s) * factor ^ (max_bt - 1) <= / L -> it_found it = true) /\
  (Rmin s (factor / L) <= it_prox it) /\ (Rmin s (factor / L) <= it_step it).
Proof.
  intros Est HL HLp Hs Hx Hf Hgr Hls Hbt.
  unfold iter_ls in Hls. rewrite Est in *.
  destruct Hls as (s' & j & E & Hj & H0 & H1 & H2 & H3 & H4 & H5). injection E as <-.
  assert (Hrej : forall i, (i < j)%nat -> / L < @reduce RN factor (s * (11 / 10)) i).
  { intros i Hi. destruct (H4 i Hi) as (xt & Ext & Hrej).
    destruct (Rlt_le_dec (/ L) (@reduce RN factor (s * (11 / 10)) i)) as [|Hle]; auto. exfalso.
    assert (Hsp : 0 < (if Nat.eqb i 0 then s else @reduce RN factor (s * (11/10)) i)).
    { destruct (Nat.eqb i 0); auto. apply reduce_pos; auto; lra. }
    assert (Hlx : length xt = n).
    { subst xt. unfold prox_step. rewrite vscale_R, vsub_R. rn.
      rewrite Hgr. rewrite nlit_R in *.
      match goal with |- length (prox ?a ?b) = _ => destruct (Hprox a b) as [A _] end.
      - specialize (Hgl _ Hx). leng.
      - exact Hsp.
      - eapply eq_trans; [exact A|]. specialize (Hgl _ Hx). leng. }
    cbn [fgR fst] in Hrej. rewrite Hf, Hgr in Hrej.
    rewrite (bt_rhs_R _ _ (it_x it) xt) in Hrej by (rn; lia).
    rn. rewrite nlit_R in Hrej.
    assert (f xt <= f (it_x it) + dot (gradf (it_x it)) (vminus xt (it_x it)) +
          dist2 xt (it_x it) / (2 * @reduce RN factor (s * (11/10)) i)).
    { apply (smooth_accepts L); auto. apply reduce_pos; auto; lra. }
    apply Rleb_true in H. unfold Rdiv in *. congruence. }
  split; [|].
  - intros Hle. destruct (it_found it) eqn:Ef; auto. exfalso.
    specialize (H5 eq_refl). subst j.
    specialize (Hrej (max_bt - 1)%nat ltac:(lia)). rewrite reduce_pow in Hrej. lra.
  - assert (Hst : Rmin s (factor / L) <= it_step it).
    { rewrite H2. rn. rewrite nlit_R. destruct j.
      - simpl. apply Rle_trans with s; [apply Rmin_l|]. lra.
      - rewrite reduce_S_R. specialize (Hrej j ltac:(lia)).
        apply Rle_trans with (factor / L); [apply Rmin_r|]. unfold Rdiv.
        rewrite (Rmult_comm factor). apply Rmult_le_compat_r; [lra|].
        apply Rlt_le. unfold Rdiv in Hrej; exact Hrej. }
    split; auto. destruct j; [rewrite H0 by auto; apply Rmin_l|rewrite H1 by lia; auto].
Qed.

Lemma smooth_steps L s0 x0 : step = SBacktracking -> smooth_upper n L f gradf -> 0 < L -> 0 < s0 -> (max_bt > 0)%nat ->
  forall l, chain (K:=RN) x0 l -> ls_chain (K:=RN) fgR prox step max_bt factor (Some s0) l -> length x0 = n ->
  Forall (fun it => it_found it = true) l ->
  Forall (fun it : iter RN => Rmin s0 (factor / L) <= it_prox it) l /\
  (exists s : R, step_after (K:=RN) (Some s0) l = Some s /\ Rmin s0 (factor / L) <= s).
Proof.
  intros Est HL HLp Hs0 Hbt. induction l as [|it l IH]; intros Hc Hl Hx0 Hfd.
  - split; [constructor|]. exists s0. split; auto. apply Rmin_l.
  - assert (Hpos : step = SBacktracking -> exists s, Some s0 = Some s /\ 0 < s) by eauto.
    pose proof (good_iters x0 (Some s0) _ Hc Hl Hx0 Hpos Hfd) as (HG & _).
    destruct Hc as [Ex Hc]. destruct Hl as (Hok & Hls & Hfr & Hl).
    inversion Hfd as [|? ? Hf Hfd']; inversion HG as [|? ? G1 G2].
    destruct (IH Hc Hl Hx0 Hfd') as (P & s & E & Hs).
    pose proof (good_iters x0 (Some s0) _ Hc Hl Hx0 Hpos Hfd') as (_ & _ & Hsp & _).
    destruct (Hsp Est) as (s' & E' & Hs'). rewrite E in E'. injection E' as <-.
    rewrite E in Hls.
    destruct (smooth_iter L s it Est HL HLp Hs' (gd_x _ G1) (gd_f _ G1) (gd_grad _ G1) Hls Hbt) as (_ & A & B).
    assert (Rmin s0 (factor / L) <= Rmin s (factor / L)).
    { apply Rmin_glb; auto. apply Rmin_r. }
    split; [constructor; auto; rn; lra|]. exists (it_step it). split; auto. rn; lra.
Qed.

(** with smooth f and enough trials no line search is ever exhausted *)
Lemma never_exhausted L s0 N x0 : step = SBacktracking -> smooth_upper n L f gradf -> 0 < L -> 0 < s0 -> (max_bt > 0)%nat ->
  factor <= 1 -> (11 / 10) ^ N * s0 * factor ^ (max_bt - 1) <= / L ->
  forall l, chain (K:=RN) x0 l -> ls_chain (K:=RN) fgR prox step max_bt factor (Some s0) l -> length x0 = n ->
  (length l <= N)%nat ->
  Forall (fun it => it_found it = true) l /\
  exists s : R, step_after (K:=RN) (Some s0) l = Some s /\ s <= (11 / 10) ^ length l * s0.
Proof.
  intros Est HL HLp Hs0 Hbt Hf1 Hsmall. induction l as [|it l IH]; intros Hc Hl Hx0 HN.
  - split; [constructor|]. exists s0. split; auto. simpl. lra.
  - assert (Hpos : step = SBacktracking -> exists s, Some s0 = Some s /\ 0 < s) by eauto.
    destruct Hc as [Ex Hc]. destruct Hl as (Hok & Hls & Hfr & Hl).
    cbn [length] in HN.
    destruct (IH Hc Hl Hx0 ltac:(lia)) as (P & s & E & Hs).
    pose proof (good_iters x0 (Some s0) _ Hc Hl Hx0 Hpos P) as (HG & Hlp & Hsp & _).
    destruct (Hsp Est) as (s' & E' & Hs'). rewrite E in E'. injection E' as <-.
    rewrite E in Hls.
    assert (Hh : head_found l) by (destruct l; simpl; auto; inversion P; auto).
    specialize (Hfr Hh). unfold fgR in Hfr. injection Hfr as Hff Hgg.
    assert (Hlx : length (it_x it) = n) by (rewrite Ex; auto).
    assert (Hfac : 0 < factor) by (clear - Hstep Est; rewrite Est in Hstep; exact Hstep).
    assert (Hpw : (11 / 10) ^ S (length l) <= (11 / 10) ^ N) by (apply Rle_pow; [lra|lia]).
    assert (H11 : 11 / 10 * s <= (11 / 10) ^ S (length l) * s0) by (simpl; lra).
    assert (Hfp : 0 < factor ^ (max_bt - 1)) by (apply pow_lt; auto).
    assert (Hfd : it_found it = true).
    { apply (smooth_iter L s it Est HL HLp Hs' Hlx Hff Hgg Hls Hbt).
      eapply Rle_trans; [|exact Hsmall]. apply Rmult_le_compat_r; [lra|].
      eapply Rle_trans; [exact H11|]. apply Rmult_le_compat_r; lra. }
    split; [constructor; auto|]. exists (it_step it). split; [reflexivity|].
    unfold iter_ls in Hls. rewrite Est in Hls.
    destruct Hls as (s1 & j & E1 & Hj & _ & _ & H2 & _). injection E1 as <-.
    rewrite H2. rn. rewrite nlit_R, reduce_pow.
    assert (factor ^ j <= 1) by (rewrite <- (pow1 j); apply pow_incr; lra).
    apply Rle_trans with (11 / 10 * s); [|exact H11].
    assert (0 <= s * (11 / 10)) by lra.
    replace (11 / 10 * s) with (s * (11 / 10) * 1) by lra. apply Rmult_le_compat_l; lra.
Qed.

(** ** stationarity of the last point *)
Lemma stationarity (it : iter RN) : first_order n f gradf -> good it ->
  exists w, subgrad n dom (fun y => f y + g y) (it_next it) w /\
    w = vplus (vminus (gradf (it_next it)) (gradf (it_x it))) (smul (/ it_prox it) (vminus (it_x it) (it_next it))).
Proof.
  intros Hfo [A B C D E F G]. eexists. split; [|reflexivity].
  pose proof (Hgl _ A) as GA. pose proof (Hgl _ B) as GB. rn.
  assert (Hl0 : length (vminus (it_x it) (smul (it_prox it) (gradf (it_x it)))) = n) by leng.
  pose proof (prox_subgrad n dom g _ _ _ Hg Hl0 G C) as (S1 & S2 & S3).
  split; [leng|]. split; [auto|].
  intros y Hy Hdy. specialize (S3 y Hy Hdy). pose proof (Hfo (it_next it) y B Hy) as Q.
  revert S3 Q. ipx. intros S3 Q.
  rewrite Rmult_plus_distr_l in S3.
  assert (Ec : / it_prox it * it_prox it = 1) by (apply Rinv_l; lra).
  set (dd := dot (gradf (it_x it)) y) in *. set (ee := dot (gradf (it_x it)) (it_next it)) in *.
  set (ip := / it_prox it) in *.
  assert (ip * (it_prox it * (1 * dd + -1 * ee)) = 1 * dd + - 1 * ee).
  { rewrite <- Rmult_assoc, Ec. ring. }
  nra.
Qed.
Lemma cert_R (it : iter RN) : 0 < it_step it -> cert_of (K:=RN) it = norm2 (vminus (it_x it) (it_next it)) / it_step it.
Proof.
  intros H. unfold cert_of. rewrite vnorm_R, vsub_R. unfold vdivs. rn.
  replace (map (fun x : R => x / it_step it) (vminus (it_x it) (it_next it)))
    with (smul (/ it_step it) (vminus (it_x it) (it_next it))).
  - rewrite norm2_smul, Rabs_right by (left; apply Rinv_0_lt_compat; auto). unfold Rdiv. ring.
  - unfold smul. apply map_ext. intros; unfold Rdiv; ring.
Qed.
Lemma inv_11 (p s : R) : 0 < p -> p <= s -> s <= 11 / 10 * p -> / p <= 11 * / 10 * / s.
Proof.
  intros. apply Rmult_le_reg_l with (p * s); [apply Rmult_lt_0_compat; lra|].
  replace (p * s * / p) with s by (field; lra).
  replace (p * s * (11 * / 10 * / s)) with (11 / 10 * p) by (field; lra). auto.
Qed.
Lemma stationarity_bound L (it : iter RN) : first_order n f gradf -> grad_lipschitz n L gradf -> good it ->
  exists w, subgrad n dom (fun y => f y + g y) (it_next it) w /\
    norm2 w <= 11 / 10 * cert_of (K:=RN) it + L * norm2 (vminus (it_next it) (it_x it)).
Proof.
  intros Hfo HL G. destruct (stationarity it Hfo G) as (w & Hw & E). exists w. split; auto.
  destruct G as [A B C D Eg Ef G]. pose proof (Hgl _ A) as GA. pose proof (Hgl _ B) as GB. rn.
  rewrite E. unfold vplus.
  eapply Rle_trans; [apply norm2_triangle; leng|].
  rewrite Rabs_R1, !Rmult_1_l.
  rewrite norm2_smul, Rabs_right by (left; apply Rinv_0_lt_compat; auto).
  specialize (HL (it_next it) (it_x it) B A).
  rewrite cert_R by (rn; lra).
  assert (/ it_prox it * norm2 (vminus (it_x it) (it_next it)) <= 11 / 10 * (norm2 (vminus (it_x it) (it_next it)) / it_step it)).
  { unfold Rdiv. rewrite (Rmult_comm (norm2 _) (/ it_step it)), <- Rmult_assoc.
    apply Rmult_le_compat_r; [apply norm2_nonneg|].
    apply inv_11; [exact C|exact (proj1 D)|exact (proj2 D)]. }
  lra.
Qed.
Lemma zero_cert_min (it : iter RN) : first_order n f gradf -> good it -> cert_of (K:=RN) it = 0 ->
  is_min n dom (fun y => f y + g y) (it_next it).
Proof.
  intros Hfo G Hc. destruct (stationarity it Hfo G) as (w & (Hw & Hd & Hs) & E).
  destruct G as [A B C D Eg Ef G]. pose proof (Hgl _ A) as GA. pose proof (Hgl _ B) as GB.
  assert (Hst : 0 < it_step it) by (rn; lra).
  rewrite cert_R in Hc by auto.
  assert (Hz : norm2 (vminus (it_x it) (it_next it)) = 0).
  { apply Rmult_eq_reg_r with (/ it_step it); [|apply Rinv_neq_0_compat; lra]. unfold Rdiv in Hc. lra. }
  apply norm2_zero_dot in Hz. rn.
  assert (Exx : it_x it = it_next it).
  { apply dist2_zero; [congruence|]. rewrite dist2_dot by congruence. lra. }
  split; [auto|]. split; [auto|]. intros y Hy Hdy. specialize (Hs y Hy Hdy).
  rewrite E, Exx in Hs. rewrite !vminus_self in Hs.
  rewrite GB, B in Hs. revert Hs. ipx. rewrite !dot_zeros_l. lra.
Qed.
End Conv.
