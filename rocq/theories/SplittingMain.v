(** * Main theorems about the splitting solvers (statements re-exported in PropsSplitting.v) *)
From Coq Require Import ZArith QArith Reals List Bool Lra Lia Psatz.
From Verif Require Import Num Vec Spec RVec ConvexFacts ModelUtils ModelSplitting SplittingFacts ProxGradFacts ProxGradMain.
Import ListNotations.
Open Scope R_scope.

Ltac lengr := change (vec RN) with (list R) in *; change (carrier RN) with R in *; leng.
Lemma vdivs_R (v : list R) (s : R) : @vdivs RN v s = smul (/ s) v.
Proof. unfold vdivs, smul. apply map_ext. intros. rn. unfold Rdiv; ring. Qed.
Lemma iter_factor (factor s : R) j : 0 < factor <= 1 -> 0 < s ->
  0 < Nat.iter j (fun t => t * factor) s <= s.
Proof.
  intros Hf Hs. induction j; simpl; [lra|]. split; [apply Rmult_lt_0_compat; lra|].
  apply Rle_trans with (Nat.iter j (fun t => t * factor) s * 1); [apply Rmult_le_compat_l; lra|lra].
Qed.
Lemma iter_pow (factor s : R) j : Nat.iter j (fun t => t * factor) s = s * factor ^ j.
Proof. induction j; simpl; [lra|]. rewrite IHj; lra. Qed.

Lemma mul_le1 p q : 0 < p -> 0 < q <= 1 -> 0 < p * q <= p.
Proof. intros. split; nra. Qed.

Section TSR.
Variable n : nat.
Variable f : vec RN -> RN.
Variable gradf : vec RN -> vec RN.
Variables domg domh : list R -> Prop.
Variables g h : list R -> R.
Variables p1 p2 : vec RN -> RN -> vec RN.
Variable ls : bool.
Variable max_bt : nat.
Variable factor : RN.
Variable hL : option RN.
Hypothesis Hg : convex_on n domg g.
Hypothesis Hh : convex_on n domh h.
Hypothesis Hp1 : forall x s, length x = n -> 0 < s -> is_prox_on domg g s x (p1 x s).
Hypothesis Hp2 : forall x s, length x = n -> 0 < s -> is_prox_on domh h s x (p2 x s).
Hypothesis Hgl : forall x, length x = n -> length (gradf x) = n.
Hypothesis Hf : 0 < factor <= 1.

Notation fg := (fun x => (f x, gradf x)).
Notation body z u s := (@ts_body RN fg p1 p2 ls max_bt factor hL (mkTsS z u s [] [])).

Record ts_facts (i : ts_iter RN) : Prop := {
  tf_lz : length (ti_z i) = n; tf_lu : length (ti_u i) = n; tf_lx : length (ti_x i) = n;
  tf_lzn : length (ti_znext i) = n; tf_lun : length (ti_unext i) = n;
  tf_prox_pos : 0 < ti_prox i; tf_prox_le : ti_prox i <= ti_in i;
  tf_step_pos : 0 < ti_step i; tf_step_le : ti_step i <= ti_prox i;
  tf_px : ti_x i = p1 (vminus (ti_z i) (smul (ti_prox i) (vplus (ti_u i) (gradf (ti_z i))))) (ti_prox i);
  tf_pz : ti_znext i = p2 (vplus (ti_x i) (smul (ti_step i) (ti_u i))) (ti_step i);
  tf_un : ti_unext i = vplus (ti_u i) (smul (/ ti_step i) (vminus (ti_x i) (ti_znext i)));
  tf_sx : subgrad n domg g (ti_x i)
           (vminus (smul (/ ti_prox i) (vminus (ti_z i) (ti_x i))) (vplus (ti_u i) (gradf (ti_z i))));
  tf_sz : subgrad n domh h (ti_znext i) (ti_unext i);
  tf_cert : ti_cert i = norm2 (vminus (ti_x i) (ti_z i)) / ti_step i;
  tf_found : ti_found i = true -> ti_step i = ti_prox i;
  tf_nols : ti_ls i = false -> ti_step i = ti_in i /\ ti_prox i = ti_in i /\ ti_out i = ti_in i
}.

Lemma ts_body_facts (z u : vec RN) (s : RN) : length z = n -> length u = n -> 0 < s ->
  ts_facts (body z u s) /\ ti_z (body z u s) = z /\ ti_u (body z u s) = u /\ ti_in (body z u s) = s.
Proof.
  intros Lz Lu Hs.
  assert (Hlg : length (gradf z) = n) by auto.
  set (i := body z u s).
  (* the search outcome *)
  assert (Ho : exists o : @ts_ls RN,
    i = mkTsI z u s (tl_x o) (tl_prox o) (ti_ls i) (tl_found o) (tl_step o)
          (p2 (vadd (tl_x o) (vscale (tl_step o) u)) (tl_step o))
          (vadd u (vdivs (vsub (tl_x o) (p2 (vadd (tl_x o) (vscale (tl_step o) u)) (tl_step o))) (tl_step o)))
          (ndiv RN (tl_norm o) (tl_step o)) (ts_update hL (ti_ls i) (tl_step o) (tl_tol o)) /\
    tl_x o = p1 (vsub z (vscale (tl_prox o) (vadd u (gradf z)))) (tl_prox o) /\
    tl_norm o = vnorm (vsub (tl_x o) z) /\
    0 < tl_prox o <= s /\ 0 < tl_step o <= tl_prox o /\
    (tl_found o = true -> tl_step o = tl_prox o) /\
    (ti_ls i = false -> tl_step o = s /\ tl_prox o = s)).
  { unfold i, ts_body. cbn [ts_z ts_u ts_step].
    match goal with |- context [if ?c then _ else _] => destruct c eqn:E end; cbn [ti_ls].
    - destruct (ts_search_spec fg p1 factor (Nat.pred max_bt) z u (f z) (gradf z) s)
        as (j & Hj & Hpr & Hx & Hn & Ht & Hfo & _).
      eexists; split; [reflexivity|]. split; [exact Hx|]. split; [exact Hn|].
      pose proof (iter_factor factor s j Hf Hs) as B.
      assert (B1 : 0 < tl_prox (ts_search fg p1 factor (Nat.pred max_bt) z u (f z) (gradf z) s) <= s).
      { rewrite Hpr. exact B. }
      split; [exact B1|].
      destruct (tl_found _).
      + destruct Hfo as [_ ->]. split; [lra|]. split; [auto|discriminate].
      + destruct Hfo as (_ & -> & _). rn. split; [|split; [discriminate|discriminate]].
        apply mul_le1; [apply B1|exact Hf].
    - exists (mkTsLs (ts_prox1 p1 z u (gradf z) s) (vnorm (vsub (ts_prox1 p1 z u (gradf z) s) z)) n0 s s true).
      cbn. repeat split; auto; lra. }
  destruct Ho as (o & Ei & Hx & Hn & Hpr & Hst & Hfo & Hnl).
  rewrite vsub_R, vscale_R, vadd_R in Hx.
  assert (Lx : length (tl_x o) = n).
  { rewrite Hx. destruct (Hp1 (vminus z (smul (tl_prox o) (vplus u (gradf z)))) (tl_prox o)) as [L _]; [lengr|lra|].
    eapply eq_trans; [exact L|]. lengr. }
  set (zn := p2 (vplus (tl_x o) (smul (tl_step o) u)) (tl_step o)).
  assert (Hpz : is_prox_on domh h (tl_step o) (vplus (tl_x o) (smul (tl_step o) u)) zn) by (apply Hp2; [lengr|lra]).
  assert (Lzn : length zn = n). { destruct Hpz as [L _]. eapply eq_trans; [exact L|]. lengr. }
  rewrite vadd_R, vscale_R in Ei. fold zn in Ei. rewrite vsub_R, vdivs_R, vadd_R in Ei.
  clearbody i.
  assert (P1 : is_prox_on domg g (tl_prox o) (vminus z (smul (tl_prox o) (vplus u (gradf z)))) (tl_x o)).
  { rewrite Hx. apply Hp1; [lengr|lra]. }
  assert (Hnls : ti_ls i = false -> ti_out i = s).
  { intros E. destruct (Hnl E) as [E1 _]. rewrite Ei, E. cbn. exact E1. }
  split.
  - constructor; try (rewrite Ei; cbn [ti_z ti_u ti_in ti_x ti_prox ti_step ti_znext ti_unext ti_cert ti_found ti_ls ti_out]).
    + exact Lz.
    + exact Lu.
    + exact Lx.
    + exact Lzn.
    + lengr.
    + lra.
    + lra.
    + lra.
    + lra.
    + exact Hx.
    + reflexivity.
    + reflexivity.
    + pose proof (fun L => prox_subgrad n domg g _ _ _ Hg L P1) as S. specialize (S ltac:(lengr) ltac:(lra)).
      replace (vminus (smul (/ tl_prox o) (vminus z (tl_x o))) (vplus u (gradf z)))
        with (smul (/ tl_prox o) (vminus (vminus z (smul (tl_prox o) (vplus u (gradf z)))) (tl_x o))).
      exact S.
      apply list_ext with (d := 0); [lengr|]. intros k _.
      repeat (first [rewrite nth_smul | rewrite nth_vminus by lengr | rewrite nth_vplus by lengr]). field. lra.
    + pose proof (fun L => prox_subgrad n domh h _ _ _ Hh L Hpz) as S. specialize (S ltac:(lengr) ltac:(lra)).
      replace (vplus u (smul (/ tl_step o) (vminus (tl_x o) zn)))
        with (smul (/ tl_step o) (vminus (vplus (tl_x o) (smul (tl_step o) u)) zn)).
      exact S.
      apply list_ext with (d := 0); [lengr|]. intros k _.
      repeat (first [rewrite nth_smul | rewrite nth_vminus by lengr | rewrite nth_vplus by lengr]). field. lra.
    + rewrite Hn, vnorm_R, vsub_R. reflexivity.
    + exact Hfo.
    + intros E. assert (E' : ti_ls i = false) by (rewrite Ei; exact E).
      split; [apply Hnl, E'|]. split; [apply Hnl, E'|]. specialize (Hnls E').
      rewrite Ei in Hnls. cbn in Hnls. exact Hnls.
  - rewrite Ei. cbn. auto.
Qed.

(** positivity of the step size *)
Definition hL_safe (l : list (ts_iter RN)) : Prop := hL = None \/ hL = Some 0 \/ forall i, In i l -> 0 < ti_in i.

Lemma ts_out_pos i (z u : vec RN) (s : RN) : length z = n -> length u = n -> 0 < s -> i = body z u s ->
  (hL = None -> ti_out i = ti_step i) /\ (hL = Some 0 -> 0 < ti_out i).
Proof.
  intros Lz Lu Hs ->. destruct (ts_body_facts z u s Lz Lu Hs) as (F & _).
  assert (E : exists lt, ti_out (body z u s) = ts_update hL (ti_ls (body z u s)) (ti_step (body z u s)) lt).
  { unfold ts_body. cbn. eexists; reflexivity. }
  destruct E as (lt & E). pose proof (tf_step_pos _ F) as Hpos. revert E Hpos. clear.
  generalize (ti_out (body z u s)) (ti_ls (body z u s)) (ti_step (body z u s)). intros o l t -> Hpos.
  unfold ts_update. split; intros ->.
  - destruct l; reflexivity.
  - destruct l; [|exact Hpos].
    change (neqb RN 0 n0) with (Reqb 0 0). rewrite Reqb_refl. rn. unfold nlit; rn. lra.
Qed.

Lemma ts_chain_facts (z0 u0 : vec RN) (s0 : RN) l : ts_chain fg p1 p2 ls max_bt factor hL z0 u0 s0 l ->
  length z0 = n -> length u0 = n -> 0 < s0 -> hL_safe l ->
  Forall ts_facts l /\
  (let '(z, u, s) := ts_prev z0 u0 s0 l in length z = n /\ length u = n /\ (hL = None \/ hL = Some 0 -> 0 < s)) /\
  (forall newer i older, l = newer ++ i :: older ->
     (ti_z i, ti_u i, ti_in i) = ts_prev z0 u0 s0 older /\ 0 < ti_in i /\
     (hL = None -> ti_out i = ti_step i)).
Proof.
  intros Hc Lz Lu Hs Hsafe. induction l as [|i l IH].
  - split; [constructor|]. split; [cbn; auto|]. intros newer j older H. destruct newer; discriminate.
  - destruct Hc as [Hi Hc].
    assert (Hsafe' : hL_safe l).
    { destruct Hsafe as [A|[A|A]]; [left|right; left|right; right]; auto. intros; apply A; right; auto. }
    destruct (IH Hc Hsafe') as (HF & HP & HS). clear IH.
    destruct (ts_prev z0 u0 s0 l) as [[z u] s] eqn:Ep. destruct HP as (Lz' & Lu' & Hpos).
    assert (Hs' : 0 < s).
    { destruct Hsafe as [A|[A|A]]; auto.
      specialize (A i (or_introl eq_refl)). rewrite Hi in A. exact A. }
    destruct (ts_body_facts z u s Lz' Lu' Hs') as (F & E1 & E2 & E3).
    destruct (ts_out_pos i z u s Lz' Lu' Hs' Hi) as [O1 O2]. rewrite <- Hi in *.
    split; [constructor; auto|]. split.
    + cbn. split; [apply F|]. split; [apply F|]. intros [A|A]; [rewrite O1 by auto; apply F|auto].
    + intros [|j newer] k older E.
      * cbn in E. injection E as <- <-. rewrite Ep, E1, E2, E3. auto.
      * cbn in E. injection E as <- E. apply (HS newer); auto.
Qed.
End TSR.

(** extraction of the trace from the whole solver *)
Definition ts_p (p : option (vec RN -> RN -> vec RN)) (x : vec RN) (s : R) : vec RN :=
  match p with Some q => q x s | None => x end.
Definition ts_step0 (fg : vec RN -> RN * vec RN) (x0 : vec RN) (st : option RN) : R :=
  match st with Some s => s | None => 1 / init_lipschitz fg x0 end.
Lemma ts_solver_good {K : Num} (fg : vec K -> K * vec K) x0 p1 p2 tol max_iter cb ls st max_bt factor hL (r : ts_result K) :
  minimize_three_split fg x0 p1 p2 tol max_iter cb ls st max_bt factor hL = Ok r ->
  let q1 := match p1 with Some p => p | None => fun x _ => x end in
  let q2 := match p2 with Some p => p | None => fun x _ => x end in
  let s := match st with Some s => s | None => ndiv K n1 (init_lipschitz fg x0) end in
  let ls' := match st with Some _ => ls | None => true end in
  (0 < max_bt)%nat /\
  ts_good fg q1 q2 tol ls' max_bt factor hL cb
    (q2 x0 s) (vzeros (length (q1 (vsub (q2 x0 s) (vscale s (snd (fg (q2 x0 s))))) s))) s max_iter r.
Proof.
  unfold minimize_three_split. destruct (Nat.eqb_spec max_bt 0) as [|Hb]; [discriminate|].
  intros H. cbv zeta. split; [lia|].
  destruct st; apply ts_from_good in H; exact H.
Qed.
