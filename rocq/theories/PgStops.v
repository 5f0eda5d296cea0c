(** * Proximal gradient stops, on convex and non-convex smooth losses (C106) *)
From Coq Require Import ZArith Bool List Lia Reals Lra.
From Verif Require Import Num Vec Spec RVec ConvexFacts ModelUtils ModelProxGrad ProxGradFacts ProxGradConv ProxGradMain ProxGradLin.
Import ListNotations.
Local Open Scope R_scope.

(** ** every iteration but a successful last one had its certificate at or above tol *)
Section Above.
Context {K : Num}.
Variable fg : vec K -> K * vec K.
Variable prox : vec K -> K -> vec K.
Variable cb : option (list (event K) -> bool).
Variable step : strategy K.
Variable tol : K.
Variable max_iter max_bt : nat.
Variable factor : K.
Variable tc : bool.
Definition above (l : list (iter K)) : Prop := Forall (fun it => nltb K (cert_of it) tol = false) l.
Lemma pg_step_iters s log s' : pg_step fg prox step max_bt factor tc s log = Ok s' -> exists it, st_iters s' = it :: st_iters s /\ st_cert s' = Some (cert_of it).
Proof.
  unfold pg_step. destruct step; intros H; try discriminate.
  - injection H as <-. eexists. split; reflexivity.
  - destruct (st_step s); [|discriminate]. injection H as <-. eexists. split; reflexivity.
Qed.
Lemma pg_loop_above : forall fuel s r, above (st_iters s) -> pg_loop fg prox cb step tol max_iter max_bt factor fuel tc s = Ok r ->
  above (if r_success r then tl (r_iters r) else r_iters r).
Proof.
  induction fuel as [|fuel IH]; intros s r Ha H; cbn [pg_loop] in H; [discriminate|].
  destruct (call_cb cb (st_log s) (pg_locals s)) as [stop log1]. destruct stop.
  - injection H as <-. exact Ha.
  - destruct (pg_step fg prox step max_bt factor tc s log1) as [s'|e] eqn:Es; [|discriminate]. cbn [bind] in H.
    destruct (pg_step_iters _ _ _ Es) as (it & Ei & Ec). rewrite Ec in H.
    destruct (nltb K (cert_of it) tol) eqn:Et.
    + injection H as <-. cbn. rewrite Ei. exact Ha.
    + assert (Ha' : above (st_iters s')) by (rewrite Ei; constructor; [exact Et|exact Ha]).
      destruct (Nat.leb max_iter (st_n s')); [injection H as <-; exact Ha'|]. apply IH in H; [exact H|exact Ha'].
Qed.
Lemma pg_above x0 r : minimize_pg fg prox cb step tol max_iter max_bt factor false tc x0 = Ok r ->
  above (if r_success r then tl (r_iters r) else r_iters r).
Proof.
  unfold minimize_pg. destruct (Nat.eqb max_bt 0); [discriminate|]. destruct (fg x0) as [f0 g0]. apply pg_loop_above. constructor.
Qed.
End Above.

(** ** counting *)
Lemma pg_sum (F : list R -> R) (dl : R) (l : list (iter RN)) : forall x0, chain (K:=RN) x0 l ->
  Forall (fun it : iter RN => F (it_next it) <= F (it_x it) - dl) l -> F (last_point (K:=RN) x0 l) <= F x0 - INR (length l) * dl.
Proof.
  induction l as [|i l IH]; intros x0 Hc Hf.
  - cbn. lra.
  - destruct Hc as (Hx & Hc). inversion Hf as [|? ? Hi Hl]; subst. specialize (IH x0 Hc Hl). rewrite Hx in Hi. cbn [length last_point]. rewrite S_INR. lra.
Qed.
Lemma pg_count (F : list R -> R) (dom : list R -> Prop) n (dl m tol : R) (a max_iter : nat) (x0 : list R) (r : pg_result RN) :
  chain (K:=RN) x0 (r_iters r) -> length x0 = n -> dom x0 -> (forall y, length y = n -> dom y -> m <= F y) ->
  Forall (fun it : iter RN => length (it_next it) = n /\ dom (it_next it)) (r_iters r) ->
  Forall (fun it : iter RN => tol <= cert_of (K:=RN) it -> F (it_next it) <= F (it_x it) - dl) (r_iters r) ->
  above (K:=RN) tol (if r_success r then tl (r_iters r) else r_iters r) ->
  (r_success r = false -> length (r_iters r) = S max_iter) -> (r_success r = true -> r_iters r <> []) ->
  (a <= S max_iter)%nat -> F x0 - m < INR a * dl ->
  r_success r = true /\ (length (r_iters r) <= a)%nat.
Proof.
  intros Hc Hx Hd Hm Hn Hdec Hab Hfail Hne Ha Hlt.
  assert (Hdl : 0 < dl). { pose proof (Hm x0 Hx Hd). pose proof (pos_INR a). destruct (Rle_or_lt dl 0) as [Hq|Hq]; [|exact Hq]. assert (INR a * dl <= INR a * 0) by (apply Rmult_le_compat_l; lra). lra. }
  assert (G : forall l : list (iter RN), chain (K:=RN) x0 l -> Forall (fun it : iter RN => length (it_next it) = n /\ dom (it_next it)) l ->
     Forall (fun it : iter RN => tol <= cert_of (K:=RN) it -> F (it_next it) <= F (it_x it) - dl) l -> above (K:=RN) tol l -> (length l < a)%nat).
  { intros l C1 C2 C3 C4. assert (C5 : Forall (fun it : iter RN => F (it_next it) <= F (it_x it) - dl) l).
    { unfold above in C4. rewrite Forall_forall in *. intros it Hi. apply C3; [exact Hi|]. specialize (C4 it Hi). apply Rnot_lt_le. intros Hq. rn. apply Rltb_iff in Hq. rewrite Hq in C4. discriminate. }
    pose proof (pg_sum F dl l x0 C1 C5) as HS.
    assert (HL : length (last_point (K:=RN) x0 l) = n /\ dom (last_point (K:=RN) x0 l)) by (destruct l; [split; assumption|exact (Forall_inv C2)]).
    pose proof (Hm _ (proj1 HL) (proj2 HL)) as Hm1.
    destruct (Nat.lt_ge_cases (length l) a) as [H|H]; [exact H|]. exfalso. apply le_INR in H. assert (INR a * dl <= INR (length l) * dl) by (apply Rmult_le_compat_r; lra). lra. }
  destruct (r_success r) eqn:Es.
  - split; [reflexivity|]. specialize (Hne eq_refl). destruct (r_iters r) as [|it l]; [congruence|]. cbn [tl] in Hab. destruct Hc as (_ & Hc). inversion Hn; inversion Hdec; subst.
    specialize (G l Hc ltac:(assumption) ltac:(assumption) Hab). cbn [length]. lia.
  - exfalso. specialize (G (r_iters r) Hc Hn Hdec Hab). rewrite (Hfail eq_refl) in G. lia.
Qed.

Section Dec.
Variable n : nat.
Variables (f : list R -> R) (gradf : list R -> list R) (dom : list R -> Prop) (g : list R -> R).
Hypothesis Hgl : forall x, length x = n -> length (gradf x) = n.
Hypothesis Hg : convex_on n dom g.
Lemma cert_dist (it : iter RN) (tol : R) : length (it_x it) = n -> length (it_next it) = n -> 0 < it_step it -> 0 <= tol -> tol <= cert_of (K:=RN) it ->
  (tol * it_step it) * (tol * it_step it) <= dist2 (it_next it) (it_x it).
Proof.
  intros A B C Ht H. rewrite cert_R in H by exact C.
  assert (H1 : tol * it_step it <= norm2 (vminus (it_x it) (it_next it))).
  { apply Rmult_le_reg_r with (/ it_step it); [apply Rinv_0_lt_compat; exact C|]. rewrite Rmult_assoc, Rinv_r by (apply Rgt_not_eq; exact C). rewrite Rmult_1_r. exact H. }
  assert (H0 : 0 <= tol * it_step it) by (apply Rmult_le_pos; [exact Ht|apply Rlt_le; exact C]).
  replace (dist2 (it_next it) (it_x it)) with (norm2 (vminus (it_x it) (it_next it)) * norm2 (vminus (it_x it) (it_next it))).
  - apply Rmult_le_compat; assumption.
  - rewrite norm2_sq, <- dist2_dot by (change (carrier RN) with R in *; lia). apply dist2_sym.
Qed.
Lemma bt_gain (it : iter RN) (tol smin : R) : good n f gradf dom g it -> accepted f gradf it -> dom (it_x it) -> 0 <= tol -> smin <= it_prox it -> tol <= cert_of (K:=RN) it ->
  f (it_next it) + g (it_next it) <= f (it_x it) + g (it_x it) - smin * (tol * tol) / 2.
Proof.
  intros HG Ha Hd Ht Hs Hc. pose proof (decrease n f gradf dom g Hgl Hg it HG Ha Hd) as D. destruct HG as [A B C E _ _ _].
  assert (Hst : 0 < it_step it) by (rn; lra).
  pose proof (cert_dist it tol A B Hst Ht Hc) as H.
  set (p := it_prox it) in *. set (s := it_step it) in *. set (d := dist2 (it_next it) (it_x it)) in *. change (carrier RN) with R in *.
  assert (H1 : (tol * p) * (tol * p) <= d). { eapply Rle_trans; [|exact H]. assert (0 <= tol * p) by (apply Rmult_le_pos; lra). assert (tol * p <= tol * s) by (apply Rmult_le_compat_l; lra). apply Rmult_le_compat; assumption. }
  assert (H2 : p * (tol * tol) / 2 <= d / (2 * p)).
  { apply Rmult_le_reg_l with (2 * p); [lra|]. replace (2 * p * (d / (2 * p))) with d by (field; lra). lra. }
  assert (H3 : smin * (tol * tol) <= p * (tol * tol)) by (apply Rmult_le_compat_r; [nra|exact Hs]).
  lra.
Qed.
Lemma fixed_gain (it : iter RN) (tol s L : R) : good n f gradf dom g it -> smooth_upper n L f gradf -> it_prox it = s -> it_step it = s -> dom (it_x it) -> 0 <= tol -> L * s <= 2 -> tol <= cert_of (K:=RN) it ->
  f (it_next it) + g (it_next it) <= f (it_x it) + g (it_x it) - s * (1 - L * s / 2) * (tol * tol).
Proof.
  intros HG Hsm Hp Hst Hd Ht HLs Hc. destruct HG as [A B C _ _ _ G].
  assert (Hs0 : 0 < it_step it) by (rewrite Hst, <- Hp; exact C).
  pose proof (cert_dist it tol A B Hs0 Ht Hc) as H. rewrite Hst in H. rewrite Hp in C, G.
  change (carrier RN) with R in *. set (x := it_x it) in *. set (y := it_next it) in *. 
  pose proof (Hgl x A) as GA.
  assert (Hl0 : length (vminus x (smul s (gradf x))) = n) by leng.
  pose proof (prox_vi n dom g s _ y Hg Hl0 G C x A Hd) as V.
  pose proof (Hsm x y A B) as S.
  assert (E : dot (vminus (vminus x (smul s (gradf x))) y) (vminus x y) = dist2 y x + s * dot (gradf x) (vminus y x)).
  { ipx. rewrite !(dot_comm y x), ?(dot_comm y (gradf x)), ?(dot_comm x (gradf x)). ring. }
  rewrite E in V. set (d := dist2 y x) in *. set (q := dot (gradf x) (vminus y x)) in *.
  assert (V' : g y + d / s + q <= g x). { apply Rmult_le_reg_l with s; [exact C|]. replace (s * (g y + d / s + q)) with (s * g y + (d + s * q)) by (field; lra). exact V. }
  assert (K1 : s * (1 - L * s / 2) * (tol * tol) <= (1 / s - L / 2) * d).
  { replace (s * (1 - L * s / 2) * (tol * tol)) with ((1 / s - L / 2) * (tol * s * (tol * s))) by (field; lra). apply Rmult_le_compat_l; [|exact H].
    apply Rmult_le_reg_l with s; [exact C|]. rewrite Rmult_0_r. replace (s * (1 / s - L / 2)) with (1 - L * s / 2) by (field; lra). lra. }
  replace ((1 / s - L / 2) * d) with (d / s - L / 2 * d) in K1 by (field; lra). lra.
Qed.
(** at the end of an iteration: an element of grad f + the subdifferential of g, no larger than the certificate allows *)
Lemma near_stationary (L : R) (it : iter RN) : grad_lipschitz n L gradf -> good n f gradf dom g it ->
  exists v, subgrad n dom g (it_next it) v /\
    norm2 (vplus (gradf (it_next it)) v) <= (11 / 10 + L * it_step it) * cert_of (K:=RN) it.
Proof.
  intros HL [A B C D _ _ G]. change (carrier RN) with R in *.
  set (x := it_x it) in *. set (y := it_next it) in *. pose proof (Hgl x A) as GA. pose proof (Hgl y B) as GB.
  assert (Hl0 : length (vminus x (smul (it_prox it) (gradf x))) = n) by leng.
  pose proof (prox_subgrad n dom g _ _ _ Hg Hl0 G C) as S. eexists. split; [exact S|].
  replace (vplus (gradf y) (smul (/ it_prox it) (vminus (vminus x (smul (it_prox it) (gradf x))) y)))
    with (vplus (vminus (gradf y) (gradf x)) (smul (/ it_prox it) (vminus x y))).
  2:{ apply list_ext with (d := 0); [leng|]. intros i Hi. unfold vplus, vminus in *. repeat (first [rewrite nth_lin by leng | rewrite nth_smul]). field. change (carrier RN) with R in *; lra. }
  unfold vplus. eapply Rle_trans; [apply norm2_triangle; leng|].
  rewrite Rabs_R1, !Rmult_1_l.
  rewrite norm2_smul, Rabs_right by (left; apply Rinv_0_lt_compat; exact C).
  specialize (HL y x B A).
  assert (Hst : 0 < it_step it) by lra.
  rewrite cert_R by (exact Hst). fold x y.
  assert (Hsym : norm2 (vminus y x) = norm2 (vminus x y)). { unfold norm2. rewrite <- !dist2_dot by congruence. rewrite dist2_sym. reflexivity. }
  rewrite Hsym in HL. set (d := norm2 (vminus x y)) in *.
  assert (Hd0 : 0 <= d) by apply norm2_nonneg.
  assert (K1 : / it_prox it * d <= 11 / 10 * (d / it_step it)).
  { unfold Rdiv. rewrite (Rmult_comm d (/ it_step it)), <- Rmult_assoc. apply Rmult_le_compat_r; [exact Hd0|]. apply inv_11; lra. }
  replace ((11 / 10 + L * it_step it) * (d / it_step it)) with (11 / 10 * (d / it_step it) + L * d) by (field; lra). lra.
Qed.
End Dec.

(** what a successful run of the theorems below certifies *)
Definition pg_stops n (f : list R -> R) (gradf : list R -> list R) (dom : list R -> Prop) (g : list R -> R) (L tol : R) (x0 : list R) (a : nat) (r : pg_result RN) : Prop :=
  r_success r = true /\ (length (r_iters r) <= a)%nat /\ length (r_x r) = n /\ dom (r_x r) /\
  f (r_x r) + g (r_x r) <= f x0 + g x0 /\
  exists s v, r_step r = Some s /\ subgrad n dom g (r_x r) v /\ norm2 (vplus (gradf (r_x r)) v) <= (11 / 10 + L * s) * tol.

Lemma all_dom n f gradf dom g (l : list (iter RN)) : forall x0, chain (K:=RN) x0 l -> Forall (good n f gradf dom g) l -> dom x0 -> Forall (fun it : iter RN => dom (it_x it)) l.
Proof.
  induction l as [|it l IH]; intros x0 Hc Hgo Hd; constructor; destruct Hc as (E & Hc); pose proof (Forall_inv_tail Hgo) as Ht.
  - rewrite E. exact (chain_dom n f gradf dom g x0 l Hc Ht Hd).
  - exact (IH x0 Hc Ht Hd).
Qed.
Lemma stops_final n f gradf dom g (L tol : R) (x0 : list R) a (r : pg_result RN) step max_iter max_bt factor tc prox :
  (forall x, length x = n -> length (gradf x) = n) -> convex_on n dom g -> grad_lipschitz n L gradf -> 0 <= L ->
  minimize_pg (K:=RN) (fun x => (f x, gradf x)) prox None step tol max_iter max_bt factor false tc x0 = Ok r ->
  Forall (good n f gradf dom g) (r_iters r) -> r_x r = last_point (K:=RN) x0 (r_iters r) ->
  f (r_x r) + g (r_x r) <= f x0 + g x0 ->
  r_success r = true /\ (length (r_iters r) <= a)%nat -> pg_stops n f gradf dom g L tol x0 a r.
Proof.
  intros Hgl Hg HL HL0 H HG Hx Hle (Hs & Hlen).
  destruct (pg_main _ _ _ _ _ _ _ _ _ _ H) as (sf & Hi & Er & _ & Hsu & _).
  destruct (Hsu Hs) as (it & Hhd & Hc & _). destruct (r_iters r) as [|it' l] eqn:El; [discriminate|]. injection Hhd as ->.
  pose proof (Forall_inv HG) as G1. cbn [last_point] in Hx.
  destruct (near_stationary n f gradf dom g Hgl Hg L it HL G1) as (v & V1 & V2).
  assert (Est : r_step r = Some (it_step it)).
  { rewrite Er. cbn [r_step pg_return]. rewrite (i_step Hi). assert (Ei : r_iters r = st_iters sf) by (rewrite Er; reflexivity). rewrite El in Ei. rewrite <- Ei. reflexivity. }
  split; [exact Hs|]. split; [rewrite El; exact Hlen|]. rewrite Hx in *. split; [apply G1|]. split; [apply (good_dom n f gradf dom g it G1)|]. split; [exact Hle|].
  exists (it_step it), v. split; [exact Est|]. split; [exact V1|]. eapply Rle_trans; [exact V2|].
  rn. apply Rltb_iff in Hc. apply Rmult_le_compat_l; [|apply Rlt_le; exact Hc].
  destruct G1 as [_ _ C D _ _ _]. change (carrier RN) with R in *. assert (0 <= L * it_step it) by (apply Rmult_le_pos; lra). lra.
Qed.

Lemma main_C106_backtracking : forall n (f : list R -> R) (gradf : list R -> list R) (dom : list R -> Prop) (g : list R -> R) (prox : list R -> R -> list R) (L m : R),
  (forall x, length x = n -> length (gradf x) = n) ->
  convex_on n dom g ->
  (forall x s, length x = n -> 0 < s -> is_prox_on dom g s x (prox x s)) ->
  0 < L ->
  (forall u v, length u = n -> length v = n -> f v <= f u + dot (gradf u) (vminus v u) + L / 2 * dist2 v u) ->
  (forall u v, length u = n -> length v = n -> norm2 (vminus (gradf u) (gradf v)) <= L * norm2 (vminus u v)) ->
  (forall y, length y = n -> dom y -> m <= f y + g y) ->
  forall (tol : R) max_iter max_bt (factor : R) tc (x0 : list R) (a : nat),
  0 < factor <= 1 -> length x0 = n -> dom x0 -> 0 < tol -> max_bt <> 0%nat ->
  (11 / 10) ^ (S max_iter) * (18 / 10 / init_lipschitz (K:=RN) (fun x => (f x, gradf x)) x0) * factor ^ (max_bt - 1) <= / L ->
  (a <= S max_iter)%nat ->
  f x0 + g x0 - m < INR a * (Rmin (18 / 10 / init_lipschitz (K:=RN) (fun x => (f x, gradf x)) x0) (factor / L) * (tol * tol) / 2) ->
  exists r : pg_result RN,
  minimize_pg (K:=RN) (fun x => (f x, gradf x)) prox None SBacktracking tol max_iter max_bt factor false tc x0 = Ok r /\
  pg_stops n f gradf dom g L tol x0 a r.
Proof.
  intros n f gradf dom g prox L m Hgl Hg Hprox HL HLs HLg Hm tol max_iter max_bt factor tc x0 a Hf Hx0 Hd0 Ht Hbt Hsm Ha Hlt.
  destruct (main_C34_no_exception RN (fun x => (f x, gradf x)) prox None SBacktracking tol max_iter max_bt factor tc x0 Hbt ltac:(discriminate) ltac:(discriminate)) as (r & H).
  exists r. split; [exact H|].
  pose proof (main_C37_never_exhausted n f gradf dom g prox L Hgl Hprox HL HLs None tol max_iter max_bt factor tc x0 r Hf Hx0 Hsm H) as Hfd.
  pose proof (main_C37_smooth_steps n f gradf dom g prox L Hgl Hg Hprox HL HLs None tol max_iter max_bt factor tc x0 r (proj1 Hf) Hx0 H Hfd) as Q.
  clear Hsm. set (smin := Rmin _ _) in *.
  destruct (run_good n f gradf dom g prox Hgl Hprox None SBacktracking tol max_iter max_bt factor tc x0 r (proj1 Hf) Hx0 H Hfd) as (A & B & C & D & _).
  specialize (D eq_refl). pose proof (all_dom n f gradf dom g (r_iters r) x0 A C Hd0) as E.
  destruct (all_decrease n f gradf dom g Hgl Hg x0 _ A C D Hd0) as [_ Hle]. rewrite <- B in Hle.
  apply (stops_final n f gradf dom g L tol x0 a r _ _ _ _ _ _ Hgl Hg HLg (Rlt_le _ _ HL) H C B Hle).
  destruct (pg_main _ _ _ _ _ _ _ _ _ _ H) as (sf & _ & _ & _ & Hsu & Hfl).
  apply (pg_count (fun z => f z + g z) dom n (smin * (tol * tol) / 2) m tol a max_iter x0 r A Hx0 Hd0 Hm).
  - rewrite Forall_forall in *. intros it Hi. split; [apply (C it Hi)|apply (good_dom n f gradf dom g it (C it Hi))].
  - rewrite Forall_forall in *. intros it Hi Hc. apply (bt_gain n f gradf dom g Hgl Hg it tol smin (C it Hi) (D it Hi) (E it Hi) (Rlt_le _ _ Ht) (Q it Hi) Hc).
  - exact (pg_above _ _ _ _ _ _ _ _ _ _ _ H).
  - intros Es. destruct (Hfl Es) as [[(c & l & lg & Z & _) _]|(_ & Hlen & _)]; [discriminate|exact Hlen].
  - intros Es. destruct (Hsu Es) as (it & Hhd & _). intros En. rewrite En in Hhd. discriminate.
  - exact Ha.
  - exact Hlt.
Qed.
Lemma main_C106_fixed_step : forall n (f : list R -> R) (gradf : list R -> list R) (dom : list R -> Prop) (g : list R -> R) (prox : list R -> R -> list R) (L m s : R),
  (forall x, length x = n -> length (gradf x) = n) ->
  convex_on n dom g ->
  (forall x s, length x = n -> 0 < s -> is_prox_on dom g s x (prox x s)) ->
  0 <= L ->
  (forall u v, length u = n -> length v = n -> f v <= f u + dot (gradf u) (vminus v u) + L / 2 * dist2 v u) ->
  (forall u v, length u = n -> length v = n -> norm2 (vminus (gradf u) (gradf v)) <= L * norm2 (vminus u v)) ->
  (forall y, length y = n -> dom y -> m <= f y + g y) ->
  0 < s -> L * s < 2 ->
  forall (tol : R) max_iter max_bt (factor : R) tc (x0 : list R) (a : nat),
  length x0 = n -> dom x0 -> 0 < tol -> max_bt <> 0%nat ->
  (a <= S max_iter)%nat ->
  f x0 + g x0 - m < INR a * (s * (1 - L * s / 2) * (tol * tol)) ->
  exists r : pg_result RN,
  minimize_pg (K:=RN) (fun x => (f x, gradf x)) prox None (SCallable (K:=RN) (fun _ => s)) tol max_iter max_bt factor false tc x0 = Ok r /\
  pg_stops n f gradf dom g L tol x0 a r.
Proof.
  intros n f gradf dom g prox L m s Hgl Hg Hprox HL HLs HLg Hm Hs HsL tol max_iter max_bt factor tc x0 a Hx0 Hd0 Ht Hbt Ha Hlt.
  destruct (main_C34_no_exception RN (fun x => (f x, gradf x)) prox None (SCallable (K:=RN) (fun _ => s)) tol max_iter max_bt factor tc x0 Hbt ltac:(discriminate) ltac:(discriminate)) as (r & H).
  exists r. split; [exact H|].
  destruct (pg_main _ _ _ _ _ _ _ _ _ _ H) as (sf & Hi & Er & _ & Hsu & Hfl).
  assert (Ei : r_iters r = st_iters sf) by (rewrite Er; reflexivity).
  pose proof (fixed_iters f gradf prox s _ _ _ _ (i_ls Hi)) as F. rewrite <- Ei in F.
  assert (Fd : Forall (fun it : iter RN => it_found it = true) (r_iters r)) by (eapply Forall_impl; [|exact F]; intros b Hb; apply Hb).
  destruct (run_good n f gradf dom g prox Hgl Hprox None (SCallable (K:=RN) (fun _ => s)) tol max_iter max_bt factor tc x0 r (fun _ => Hs) Hx0 H Fd) as (A & B & C & _ & _).
  pose proof (all_dom n f gradf dom g (r_iters r) x0 A C Hd0) as E.
  assert (Hgain : forall tol', 0 <= tol' -> Forall (fun it : iter RN => tol' <= cert_of (K:=RN) it -> f (it_next it) + g (it_next it) <= f (it_x it) + g (it_x it) - s * (1 - L * s / 2) * (tol' * tol')) (r_iters r)).
  { intros tol' Ht'. rewrite Forall_forall in *. intros it Hin Hc. destruct (F it Hin) as (_ & F2 & F3). apply (fixed_gain n f gradf dom g Hgl Hg it tol' s L (C it Hin) HLs F2 F3 (E it Hin) Ht' (Rlt_le _ _ HsL) Hc). }
  assert (Hle : f (r_x r) + g (r_x r) <= f x0 + g x0).
  { rewrite B. pose proof (pg_sum (fun z => f z + g z) 0 (r_iters r) x0 A) as HS. cbv beta in HS. rewrite Rmult_0_r, Rminus_0_r in HS. apply HS.
    specialize (Hgain 0 (Rle_refl 0)). rewrite Forall_forall in *. intros it Hin. specialize (Hgain it Hin). rewrite !Rmult_0_r in Hgain. apply Hgain. unfold cert_of. rewrite vnorm_R. apply norm2_nonneg. }
  apply (stops_final n f gradf dom g L tol x0 a r _ _ _ _ _ _ Hgl Hg HLg HL H C B Hle).
  apply (pg_count (fun z => f z + g z) dom n (s * (1 - L * s / 2) * (tol * tol)) m tol a max_iter x0 r A Hx0 Hd0 Hm).
  - rewrite Forall_forall in *. intros it Hin. split; [apply (C it Hin)|apply (good_dom n f gradf dom g it (C it Hin))].
  - apply Hgain. apply Rlt_le; exact Ht.
  - exact (pg_above _ _ _ _ _ _ _ _ _ _ _ H).
  - intros Es. destruct (Hfl Es) as [[(c & l & lg & Z & _) _]|(_ & Hlen & _)]; [discriminate|exact Hlen].
  - intros Es. destruct (Hsu Es) as (it & Hhd & _). intros En. rewrite En in Hhd. discriminate.
  - exact Ha.
  - exact Hlt.
Qed.
