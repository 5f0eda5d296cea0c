(** * Linear convergence of the proximal gradient solver for strongly convex objectives *)
From Coq Require Import Reals List Bool Lra Lia Psatz.
From Verif Require Import Num Vec Spec RVec ConvexFacts SpecLoss LossFacts LossScalar LossLink LossMain LossMain2 ModelPenalty PenaltyFacts PenaltyFacts3 ModelLoss ModelUtils ModelProxGrad ProxGradFacts ProxGradConv ProxGradMain LossHess SplittingRuns LossEnd.
Import ListNotations.
Open Scope R_scope.
Local Notation log1pR := (fun t : R => ln (1 + t)) (only parsing).

Definition strongly_convex (n : nat) (mu : R) (f : list R -> R) (gradf : list R -> list R) : Prop :=
  forall u v, length u = n -> length v = n -> f u + dot (gradf u) (vminus v u) + mu / 2 * dist2 v u <= f v.

Section Lin.
Variable n : nat.
Variable f : list R -> R.
Variable gradf : list R -> list R.
Variable dom : list R -> Prop.
Variable g : list R -> R.
Hypothesis Hgl : forall x, length x = n -> length (gradf x) = n.
Hypothesis Hg : convex_on n dom g.
Variable mu m : R.
Hypothesis Hmu : 0 <= mu.
Hypothesis Hsc : strongly_convex n mu f gradf.
Variable y : list R.
Hypothesis Hy : is_min n dom (fun z => f z + g z) y.

Lemma lin_step (it : iter RN) : good n f gradf dom g it -> accepted f gradf it -> m <= it_prox it ->
  dist2 (it_next it) y <= (1 - mu * m) * dist2 (it_x it) y /\
  2 * m * (f (it_next it) + g (it_next it) - (f y + g y)) <= (1 - mu * m) * dist2 (it_x it) y.
Proof.
  intros [A B C D Eg Ef G] A1 Hp. destruct Hy as (Ly & Dy & Hmin).
  pose proof (pg_fundamental n dom g f gradf (it_prox it) (it_step it) (it_x it) y Hg A Ly Dy (Hgl _ A) C (proj1 D) (it_next it) G A1) as P.
  pose proof (Hsc (it_x it) y A Ly) as Q. rewrite (dist2_sym y (it_x it)) in Q.
  assert (S1 : 2 * it_prox it * (f (it_next it) + g (it_next it) - (f y + g y)) <= (1 - mu * it_prox it) * dist2 (it_x it) y - dist2 (it_next it) y).
  { apply Rle_trans with (2 * it_prox it * ((dist2 (it_x it) y - dist2 (it_next it) y) / (2 * it_prox it) - mu / 2 * dist2 (it_x it) y)).
    - apply Rmult_le_compat_l; lra.
    - right; field; lra. }
  assert (Dn : dom (it_next it)) by (apply G).
  pose proof (Hmin (it_next it) B Dn) as Hge. cbv beta in Hge.
  set (gp := f (it_next it) + g (it_next it) - (f y + g y)) in *. assert (0 <= gp) by (unfold gp; lra).
  pose proof (dist2_nonneg (it_x it) y). pose proof (dist2_nonneg (it_next it) y).
  assert (mu * m * dist2 (it_x it) y <= mu * it_prox it * dist2 (it_x it) y).
  { apply Rmult_le_compat_r; auto. apply Rmult_le_compat_l; auto. }
  assert (0 <= 2 * it_prox it * gp) by (apply Rmult_le_pos; lra).
  assert (2 * m * gp <= 2 * it_prox it * gp) by (apply Rmult_le_compat_r; lra).
  split; lra.
Qed.

Lemma lin_zero x0 : 1 - mu * m < 0 -> forall l, l <> [] -> chain (K:=RN) x0 l -> Forall (good n f gradf dom g) l -> Forall (accepted f gradf) l ->
  Forall (fun it : iter RN => m <= it_prox it) l -> dist2 x0 y = 0.
Proof.
  intros Hq. induction l as [|it l IH]; intros Ne Hc HG HA HM; [congruence|].
  destruct Hc as [E Hc]. inversion HG; inversion HA; inversion HM; subst.
  destruct l as [|it' l']; [|apply IH; auto; congruence].
  cbn [last_point] in E. destruct (lin_step it) as [S1 _]; auto. rewrite E in S1.
  pose proof (dist2_nonneg (it_next it) y). pose proof (dist2_nonneg x0 y). nra.
Qed.
Lemma lin_chain x0 : forall l, chain (K:=RN) x0 l -> Forall (good n f gradf dom g) l -> Forall (accepted f gradf) l ->
  Forall (fun it : iter RN => m <= it_prox it) l ->
  dist2 (last_point (K:=RN) x0 l) y <= (1 - mu * m) ^ length l * dist2 x0 y /\
  (l <> [] -> 2 * m * (f (last_point (K:=RN) x0 l) + g (last_point (K:=RN) x0 l) - (f y + g y)) <= (1 - mu * m) ^ length l * dist2 x0 y).
Proof.
  induction l as [|it l IH]; intros Hc HG HA HM.
  - cbn. split; [lra|congruence].
  - pose proof (lin_zero x0) as Z. specialize (fun q => Z q (it :: l) ltac:(congruence) Hc HG HA HM).
    destruct Hc as [E Hc]. inversion HG; inversion HA; inversion HM; subst.
    destruct IH as [I1 _]; auto. destruct (lin_step it) as [S1 S2]; auto.
    cbn [last_point length pow]. rewrite E in S1, S2.
    assert (M : (1 - mu * m) * dist2 (last_point (K:=RN) x0 l) y <= (1 - mu * m) * (1 - mu * m) ^ length l * dist2 x0 y).
    { destruct (Rle_lt_dec 0 (1 - mu * m)) as [Hq|Hq].
      - rewrite Rmult_assoc. apply Rmult_le_compat_l; auto.
      - rewrite (Z Hq) in *. pose proof (dist2_nonneg (last_point (K:=RN) x0 l) y).
        assert (dist2 (last_point (K:=RN) x0 l) y = 0) as -> by lra. lra. }
    split; [|intros _]; lra.
Qed.
End Lin.

(** backtracking *)
Lemma main_C92_backtracking : forall n (f : list R -> R) (gradf : list R -> list R) (dom : list R -> Prop) (g : list R -> R) (prox : list R -> R -> list R) (L mu : R),
  (forall x, length x = n -> length (gradf x) = n) ->
  convex_on n dom g ->
  (forall x s, length x = n -> 0 < s -> is_prox_on dom g s x (prox x s)) ->
  0 <= mu -> (forall u v, length u = n -> length v = n -> f u + dot (gradf u) (vminus v u) + mu / 2 * dist2 v u <= f v) ->
  0 < L -> (forall u v, length u = n -> length v = n -> f v <= f u + dot (gradf u) (vminus v u) + L / 2 * dist2 v u) ->
  forall (cb : option (list (event RN) -> bool)) (tol : R) max_iter max_bt (factor : R) tc (x0 : list R) (r : pg_result RN) (y : list R),
  0 < factor -> length x0 = n -> is_min n dom (fun z => f z + g z) y ->
  minimize_pg (K:=RN) (fun x => (f x, gradf x)) prox cb SBacktracking tol max_iter max_bt factor false tc x0 = Ok r ->
  Forall (fun it => it_found it = true) (r_iters r) ->
  let m := Rmin (18 / 10 / init_lipschitz (K:=RN) (fun x => (f x, gradf x)) x0) (factor / L) in
  dist2 (r_x r) y <= (1 - mu * m) ^ length (r_iters r) * dist2 x0 y /\
  (r_iters r <> [] -> f (r_x r) + g (r_x r) - (f y + g y) <= (1 - mu * m) ^ length (r_iters r) * dist2 x0 y / (2 * m)).
Proof.
  intros n f gradf dom g prox L mu Hgl Hg Hprox Hmu Hsc HL HLs cb tol max_iter max_bt factor tc x0 r y Hf Hx0 Hy H Hfd m.
  destruct (run_good n f gradf dom g prox Hgl Hprox cb SBacktracking tol max_iter max_bt factor tc x0 r Hf Hx0 H Hfd) as (A & B & C & D & _).
  pose proof (main_C37_smooth_steps n f gradf dom g prox L Hgl Hg Hprox HL HLs cb tol max_iter max_bt factor tc x0 r Hf Hx0 H Hfd) as Q. fold m in Q.
  assert (Hm : 0 < m).
  { unfold m. apply Rmin_glb_lt; apply Rdiv_lt_0_compat; auto; try lra. apply main_C32_init_lipschitz_pos. }
  destruct (lin_chain n f gradf dom g Hgl Hg mu m Hmu Hsc y Hy x0 (r_iters r) A C (D eq_refl) Q) as [P1 P2].
  rewrite B. split; [exact P1|]. intros Ne. specialize (P2 Ne). apply Rmult_le_reg_l with (2 * m); [lra|].
  eapply Rle_trans; [exact P2|]. right. field. lra.
Qed.

(** fixed step *)
Section Fixed.
Variable n : nat.
Variables (f : list R -> R) (gradf : list R -> list R) (dom : list R -> Prop) (g : list R -> R) (prox : list R -> R -> list R).
Hypothesis Hgl : forall x, length x = n -> length (gradf x) = n.
Hypothesis Hg : convex_on n dom g.
Hypothesis Hprox : forall x s, length x = n -> 0 < s -> is_prox_on dom g s x (prox x s).
Variables (L mu s : R).
Hypothesis HL : 0 < L.
Hypothesis HLs : smooth_upper n L f gradf.
Hypothesis Hs : 0 < s.
Hypothesis HsL : s <= / L.
Lemma fixed_iters s0 max_bt factor l : ls_chain (K:=RN) (fgR f gradf) prox (SCallable (K:=RN) (fun _ => s)) max_bt factor s0 l ->
  Forall (fun it : iter RN => it_found it = true /\ it_prox it = s /\ it_step it = s) l.
Proof.
  induction l as [|it l IH]; intros Hl; constructor.
  - destruct Hl as (_ & ([lg E1] & E2 & E3) & _). rewrite <- E2. auto.
  - apply IH. apply Hl.
Qed.
Lemma run_fixed cb tol max_iter max_bt factor tc (x0 : list R) (r : pg_result RN) : length x0 = n ->
  minimize_pg (K:=RN) (fun x => (f x, gradf x)) prox cb (SCallable (K:=RN) (fun _ => s)) tol max_iter max_bt factor false tc x0 = Ok r ->
  chain (K:=RN) x0 (r_iters r) /\ r_x r = last_point (K:=RN) x0 (r_iters r) /\
  Forall (good n f gradf dom g) (r_iters r) /\ Forall (accepted f gradf) (r_iters r) /\
  Forall (fun it : iter RN => it_found it = true /\ it_prox it = s /\ it_step it = s) (r_iters r).
Proof.
  intros Hx0 H. destruct (pg_main _ _ _ _ _ _ _ _ _ _ H) as (sf & Hi & Er & _).
  assert (Ei : r_iters r = st_iters sf) by (rewrite Er; reflexivity).
  pose proof (fixed_iters _ _ _ _ (i_ls Hi)) as F. rewrite <- Ei in F.
  assert (Fd : Forall (fun it : iter RN => it_found it = true) (r_iters r)) by (eapply Forall_impl; [|exact F]; intros a Ha; apply Ha).
  destruct (run_good n f gradf dom g prox Hgl Hprox cb (SCallable (K:=RN) (fun _ => s)) tol max_iter max_bt factor tc x0 r (fun _ => Hs) Hx0 H Fd) as (A & B & C & _ & _).
  split; [exact A|split; [exact B|split; [exact C|split; [|exact F]]]].
  rewrite Forall_forall in *. intros it Hin. destruct (F it Hin) as (_ & _ & Es). destruct (C it Hin). unfold accepted. rewrite Es.
  apply (smooth_accepts n f gradf L); auto.
Qed.
End Fixed.
Lemma main_C92_fixed_step : forall n (f : list R -> R) (gradf : list R -> list R) (dom : list R -> Prop) (g : list R -> R) (prox : list R -> R -> list R) (L mu s : R),
  (forall x, length x = n -> length (gradf x) = n) ->
  convex_on n dom g ->
  (forall x s, length x = n -> 0 < s -> is_prox_on dom g s x (prox x s)) ->
  0 <= mu -> (forall u v, length u = n -> length v = n -> f u + dot (gradf u) (vminus v u) + mu / 2 * dist2 v u <= f v) ->
  0 < L -> (forall u v, length u = n -> length v = n -> f v <= f u + dot (gradf u) (vminus v u) + L / 2 * dist2 v u) ->
  0 < s <= 1 / L ->
  forall (cb : option (list (event RN) -> bool)) (tol : R) max_iter max_bt (factor : R) tc (x0 : list R) (r : pg_result RN) (y : list R),
  length x0 = n -> is_min n dom (fun z => f z + g z) y ->
  minimize_pg (K:=RN) (fun x => (f x, gradf x)) prox cb (SCallable (K:=RN) (fun _ => s)) tol max_iter max_bt factor false tc x0 = Ok r ->
  dist2 (r_x r) y <= (1 - mu * s) ^ length (r_iters r) * dist2 x0 y /\
  (r_iters r <> [] -> f (r_x r) + g (r_x r) - (f y + g y) <= (1 - mu * s) ^ length (r_iters r) * dist2 x0 y / (2 * s)).
Proof.
  intros n f gradf dom g prox L mu s Hgl Hg Hprox Hmu Hsc HL HLs [Hs HsL] cb tol max_iter max_bt factor tc x0 r y Hx0 Hy H.
  assert (HsL' : s <= / L) by (unfold Rdiv in HsL; lra).
  destruct (run_fixed n f gradf dom g prox Hgl Hprox L s HL HLs Hs HsL' cb tol max_iter max_bt factor tc x0 r Hx0 H) as (A & B & C & D & E).
  assert (Q : Forall (fun it : iter RN => s <= it_prox it) (r_iters r)) by (eapply Forall_impl; [|exact E]; intros a (_ & -> & _); right; auto).
  destruct (lin_chain n f gradf dom g Hgl Hg mu s Hmu Hsc y Hy x0 (r_iters r) A C D Q) as [P1 P2].
  rewrite B. split; [exact P1|]. intros Ne. specialize (P2 Ne). apply Rmult_le_reg_l with (2 * s); [lra|].
  eapply Rle_trans; [exact P2|]. right. field. lra.
Qed.

(** the certificate falls below the tolerance: enough iterations always end with success *)
Lemma norm_sub_le n (x z y : list R) : length x = n -> length z = n -> length y = n -> norm2 (vminus x z) <= norm2 (vminus x y) + norm2 (vminus z y).
Proof.
  intros. replace (vminus x z) with (lin 1 (vminus x y) (-1) (vminus z y)).
  - eapply Rle_trans; [apply norm2_triangle; leng|]. replace (-1) with (- (1)) by lra. rewrite Rabs_Ropp, Rabs_R1. lra.
  - apply (list_ext _ _ 0); [leng|]. intros i Hi. unfold vminus. repeat rewrite nth_lin by leng. ring.
Qed.
Lemma main_C92_success : forall n (f : list R -> R) (gradf : list R -> list R) (dom : list R -> Prop) (g : list R -> R) (prox : list R -> R -> list R) (L mu s : R),
  (forall x, length x = n -> length (gradf x) = n) ->
  convex_on n dom g ->
  (forall x s, length x = n -> 0 < s -> is_prox_on dom g s x (prox x s)) ->
  0 <= mu -> (forall u v, length u = n -> length v = n -> f u + dot (gradf u) (vminus v u) + mu / 2 * dist2 v u <= f v) ->
  0 < L -> (forall u v, length u = n -> length v = n -> f v <= f u + dot (gradf u) (vminus v u) + L / 2 * dist2 v u) ->
  0 < s <= 1 / L ->
  forall (tol : R) max_iter max_bt (factor : R) tc (x0 : list R) (y : list R),
  length x0 = n -> is_min n dom (fun z => f z + g z) y -> max_bt <> 0%nat -> 0 < tol ->
  2 * sqrt ((1 - mu * s) ^ max_iter * dist2 x0 y) < s * tol ->
  exists r : pg_result RN,
  minimize_pg (K:=RN) (fun x => (f x, gradf x)) prox None (SCallable (K:=RN) (fun _ => s)) tol max_iter max_bt factor false tc x0 = Ok r /\ r_success r = true.
Proof.
  intros n f gradf dom g prox L mu s Hgl Hg Hprox Hmu Hsc HL HLs [Hs HsL] tol max_iter max_bt factor tc x0 y Hx0 Hy Hbt Htol Hbig.
  assert (HsL' : s <= / L) by (unfold Rdiv in HsL; lra).
  assert (Hok : exists r : pg_result RN, minimize_pg (K:=RN) (fun x => (f x, gradf x)) prox None (SCallable (K:=RN) (fun _ => s)) tol max_iter max_bt factor false tc x0 = Ok r) by (apply pg_ok; auto).
  destruct Hok as (r & H).
  exists r. split; [exact H|]. destruct (r_success r) eqn:Es; [reflexivity|exfalso].
  destruct (run_fixed n f gradf dom g prox Hgl Hprox L s HL HLs Hs HsL' None tol max_iter max_bt factor tc x0 r Hx0 H) as (A & B & C & D & E).
  destruct (pg_main _ _ _ _ _ _ _ _ _ _ H) as (sf & Hi & Er & Hn & _ & Hf).
  destruct (Hf Es) as [[(c & l & lg & Z & _) _]|(Hnit & Hlen & it0 & Z2 & Z3)]; [discriminate|].
  destruct (r_iters r) as [|it l] eqn:El; [cbn in Hlen; lia|]. cbn in Hlen.
  assert (Q : Forall (fun it : iter RN => s <= it_prox it) (it :: l)) by (eapply Forall_impl; [|exact E]; intros a (_ & -> & _); right; auto).
  destruct A as [Ex A]. 
  pose proof (Forall_inv C) as C1. pose proof (Forall_inv_tail C) as C2. pose proof (Forall_inv D) as D1. pose proof (Forall_inv_tail D) as D2.
  pose proof (Forall_inv E) as E1. pose proof (Forall_inv Q) as Q1. pose proof (Forall_inv_tail Q) as Q2.
  destruct (lin_chain n f gradf dom g Hgl Hg mu s Hmu Hsc y Hy x0 l A C2 D2 Q2) as [P1 _].
  destruct (lin_step n f gradf dom g Hgl Hg mu s Hmu Hsc y Hy it C1 D1 Q1) as [S1 _]. rewrite <- Ex in P1.
  destruct Hy as (Ly & _). destruct C1 as [Lx Ln Pp _ _ _ _].
  assert (S2 : dist2 (it_next it) y <= dist2 (it_x it) y).
  { pose proof (dist2_nonneg (it_x it) y). assert (0 <= mu * s) by (apply Rmult_le_pos; lra). nra. }
  assert (El' : length l = max_iter) by lia. rewrite El' in P1.
  assert (N : norm2 (vminus (it_x it) (it_next it)) <= 2 * sqrt ((1 - mu * s) ^ max_iter * dist2 x0 y)).
  { eapply Rle_trans; [apply (norm_sub_le n (it_x it) (it_next it) y); auto|].
    assert (Hn1 : norm2 (vminus (it_x it) y) <= sqrt ((1 - mu * s) ^ max_iter * dist2 x0 y)).
    { unfold norm2. rewrite <- dist2_dot by (eapply eq_trans; [eassumption|symmetry; exact Ly]). apply sqrt_le_1_alt. exact P1. }
    assert (Hn2 : norm2 (vminus (it_next it) y) <= sqrt ((1 - mu * s) ^ max_iter * dist2 x0 y)).
    { unfold norm2. rewrite <- dist2_dot by (eapply eq_trans; [eassumption|symmetry; exact Ly]). apply sqrt_le_1_alt. lra. }
    lra. }
  cbn in Z2. injection Z2 as <-. unfold cert_of in Z3. rewrite vnorm_R, vsub_R in Z3.
  destruct E1 as (_ & _ & Est). rewrite Est in Z3.
  replace (vdivs (K:=RN) (vminus (it_x it) (it_next it)) s) with (smul (/ s) (vminus (it_x it) (it_next it))) in Z3.
  2:{ unfold smul, vdivs. apply map_ext. intros a. rn. unfold Rdiv. ring. }
  rn. assert (Z4 : tol <= norm2 (smul (/ s) (vminus (it_x it) (it_next it)))).
  { apply Rnot_lt_le. intros Hlt. apply Rltb_iff in Hlt. rewrite Hlt in Z3. discriminate. }
  clear Z3. rename Z4 into Z3.
  rewrite norm2_smul in Z3. rewrite Rabs_right in Z3 by (apply Rle_ge, Rlt_le, Rinv_0_lt_compat; auto).
  assert (norm2 (vminus (it_x it) (it_next it)) < s * tol) by lra.
  assert (/ s * norm2 (vminus (it_x it) (it_next it)) < tol).
  { apply Rmult_lt_reg_l with s; auto. rewrite <- Rmult_assoc, Rinv_r by lra. lra. }
  lra.
Qed.

(** ** the ridge losses of copt/loss.py with an l1 penalty *)
Lemma ridge_strong (phi dphi : R -> R -> R) (c : R) d A b alpha :
  (forall b x y, 0 <= phi b y - phi b x - dphi b x * (y - x) <= c / 2 * ((y - x) * (y - x))) -> 0 <= c ->
  rect d A -> length b = length A -> (0 < length A)%nat ->
  strongly_convex d alpha (ridge alpha (mean_loss phi A b)) (rgrad dphi d A b alpha).
Proof.
  intros gap Hc HA Hb Hn u v Hu Hv. destruct (frobenius d A HA) as (s & Hs & Ho).
  pose proof (rloss_gap phi dphi c gap Hc d A b alpha HA Hb Hn s u v Hs Ho Hu Hv) as G. unfold rloss in G. lra.
Qed.
Lemma lin_any (phi dphi : R -> R -> R) (c : R) (fg : list R -> R * list R) d A b alpha lam s L xs cb tol max_iter max_bt factor tc x0 (r : pg_result RN) :
  (forall b x y, 0 <= phi b y - phi b x - dphi b x * (y - x) <= c / 2 * ((y - x) * (y - x))) -> 0 <= c ->
  rect d A -> length b = length A -> (0 < length A)%nat -> 0 <= alpha -> 0 <= lam -> 0 <= s ->
  (forall v, length v = d -> norm2 (matvec A v) <= s * norm2 v) -> L = c * (s * s) / INR (length A) + alpha -> 0 < L ->
  (forall x, length x = d -> snd (fg x) = rgrad dphi d A b alpha x) ->
  is_min d (fun _ => True) (fun y => ridge alpha (mean_loss phi A b) y + lam * l1 y) xs -> length x0 = d ->
  minimize_pg (K:=RN) fg (@l1norm_prox RN lam) cb (SCallable (K:=RN) (fun _ => 1 / L)) tol max_iter max_bt factor false tc x0 = Ok r ->
  dist2 (r_x r) xs <= (1 - alpha / L) ^ length (r_iters r) * dist2 x0 xs /\
  (r_iters r <> [] -> (ridge alpha (mean_loss phi A b) (r_x r) + lam * l1 (r_x r)) - (ridge alpha (mean_loss phi A b) xs + lam * l1 xs)
    <= (1 - alpha / L) ^ length (r_iters r) * (L / 2 * dist2 x0 xs)).
Proof.
  intros gap Hc HA Hb Hn Ha Hl Hs Ho EL PL Hg (Lxs & _ & Hmin) Hx0 Er.
  pose proof (ridge_strong phi dphi c d A b alpha gap Hc HA Hb Hn) as FO.
  pose proof (rloss_smooth phi dphi c gap Hc d A b alpha HA Hb Hn s Hs Ho) as SU. rewrite <- EL in SU.
  destruct (main_C88_values_unused RN fg (fun x => (ridge alpha (mean_loss phi A b) x, snd (fg x))) _ _ _ _ _ _ _ _ _ _ r ltac:(reflexivity) Er) as (r2 & E2 & Ex & _ & _ & _ & _ & _ & _ & _ & El).
  assert (P1 : 0 < 1 / L) by (apply Rdiv_lt_0_compat; lra).
  pose proof (main_C92_fixed_step d (ridge alpha (mean_loss phi A b)) (fun x => snd (fg x)) (fun _ => True) (@l1norm_call RN lam) (@l1norm_prox RN lam) L alpha (1 / L)) as T.
  specialize (T ltac:(intros x Hx; cbv beta; rewrite (Hg x Hx); apply rgrad_length; auto) (l1_convex d lam Hl) (l1_prox_on d lam Hl) Ha).
  specialize (T ltac:(intros u v Hu Hv; cbv beta; rewrite (Hg u Hu); apply (FO u v Hu Hv)) PL ltac:(intros u v Hu Hv; cbv beta; rewrite (Hg u Hu); apply (SU u v Hu Hv)) ltac:(lra)).
  specialize (T cb tol max_iter max_bt factor tc x0 r2 xs Hx0 ltac:(split; [auto|split; [auto|]]; intros y Hy _; cbv beta; rewrite !l1norm_call_R; apply Hmin; auto) E2).
  rewrite !l1norm_call_R in T. rewrite <- Ex, <- El in T. replace (1 - alpha * (1 / L)) with (1 - alpha / L) in T by (field; lra).
  destruct T as [T1 T2]. split; [exact T1|]. intros Ne.
  assert (Ni2 : r_iters r2 <> []). { intros Z. rewrite Z in El. destruct (r_iters r); [apply Ne; auto|discriminate]. }
  eapply Rle_trans; [exact (T2 Ni2)|]. right. field. lra.
Qed.
Lemma main_C92_square_l1 (svds1 : matrix RN -> result RN) (A : matrix RN) (b : list R) (alpha lam s L : R) (xs : list R) cb (tol : R) max_iter max_bt (factor : R) tc (x0 : list R) (r : pg_result RN) :
  rect (m_cols A) (m_rows A) -> length b = length (m_rows A) -> (0 < length (m_rows A))%nat -> 0 <= alpha -> 0 <= lam ->
  svds1 A = Ok s -> opnorm (m_cols A) (m_rows A) s -> sq_lipschitz (K:=RN) svds1 A alpha = Ok L -> 0 < L ->
  is_min (m_cols A) (fun _ => True) (fun y => ridge alpha (mean_loss sq_term (m_rows A) b) y + lam * l1 y) xs -> length x0 = m_cols A ->
  minimize_pg (K:=RN) (as_fg (fun x => sq_f_grad (K:=RN) A b alpha x true)) (l1norm_prox (K:=RN) lam) cb (SCallable (K:=RN) (fun _ => 1 / L)) tol max_iter max_bt factor false tc x0 = Ok r ->
  dist2 (r_x r) xs <= (1 - alpha / L) ^ length (r_iters r) * dist2 x0 xs /\
  (r_iters r <> [] -> (ridge alpha (mean_loss sq_term (m_rows A) b) (r_x r) + lam * l1 (r_x r)) - (ridge alpha (mean_loss sq_term (m_rows A) b) xs + lam * l1 xs)
    <= (1 - alpha / L) ^ length (r_iters r) * (L / 2 * dist2 x0 xs)).
Proof.
  intros HA Hb Hn Ha Hl Hs (Ps & Ho & _) EL PL Hmin Hx0 Er.
  apply (lin_any sq_term dsq 1 (as_fg (fun x => sq_f_grad (K:=RN) A b alpha x true)) (m_cols A) (m_rows A) b alpha lam s L xs cb tol max_iter max_bt factor tc x0 r sq_gap ltac:(lra)); auto.
  - unfold sq_lipschitz in EL. rewrite Hs in EL. cbn [bind] in EL. okinj EL. rewrite INR_eq. rn. nlen. unfold Rdiv. ring.
  - intros x Hx. unfold as_fg. destruct (sq_core A b alpha HA Hb Hn x Hx) as (_ & _ & ->). reflexivity.
Qed.
Lemma main_C92_huber_l1 (svds1 : matrix RN -> result RN) (A : matrix RN) (b : list R) (alpha delta lam s L : R) (xs : list R) cb (tol : R) max_iter max_bt (factor : R) tc (x0 : list R) (r : pg_result RN) :
  rect (m_cols A) (m_rows A) -> length b = length (m_rows A) -> (0 < length (m_rows A))%nat -> 0 <= alpha -> 0 < delta -> 0 <= lam ->
  svds1 A = Ok s -> opnorm (m_cols A) (m_rows A) s -> hub_lipschitz (K:=RN) svds1 A alpha = Ok L -> 0 < L ->
  is_min (m_cols A) (fun _ => True) (fun y => ridge alpha (mean_loss (hub_term delta) (m_rows A) b) y + lam * l1 y) xs -> length x0 = m_cols A ->
  minimize_pg (K:=RN) (as_fg (fun x => hub_f_grad (K:=RN) A b alpha delta x true)) (l1norm_prox (K:=RN) lam) cb (SCallable (K:=RN) (fun _ => 1 / L)) tol max_iter max_bt factor false tc x0 = Ok r ->
  dist2 (r_x r) xs <= (1 - alpha / L) ^ length (r_iters r) * dist2 x0 xs /\
  (r_iters r <> [] -> (ridge alpha (mean_loss (hub_term delta) (m_rows A) b) (r_x r) + lam * l1 (r_x r)) - (ridge alpha (mean_loss (hub_term delta) (m_rows A) b) xs + lam * l1 xs)
    <= (1 - alpha / L) ^ length (r_iters r) * (L / 2 * dist2 x0 xs)).
Proof.
  intros HA Hb Hn Ha Hd Hl Hs (Ps & Ho & _) EL PL Hmin Hx0 Er.
  apply (lin_any (hub_term delta) (dhub delta) 1 (as_fg (fun x => hub_f_grad (K:=RN) A b alpha delta x true)) (m_cols A) (m_rows A) b alpha lam s L xs cb tol max_iter max_bt factor tc x0 r (fun b x y => hub_gap delta b x y Hd) ltac:(lra)); auto.
  - unfold hub_lipschitz in EL. rewrite Hs in EL. cbn [bind] in EL. okinj EL. rewrite INR_eq. rn. nlen. unfold Rdiv. ring.
  - intros x Hx. unfold as_fg. destruct (hub_core A b alpha delta HA Hb Hn Hd x Hx) as (_ & ->). reflexivity.
Qed.
Lemma main_C92_logistic_l1 (svds1 : matrix RN -> result RN) (A0 : option (matrix RN)) (A : matrix RN) (b : list R) (alpha lam s L : R) (xs : list R) cb (tol : R) max_iter max_bt (factor : R) tc (x0 : list R) (r : pg_result RN) :
  log_init (K:=RN) A0 b = Ok A -> rect (m_cols A) (m_rows A) -> 0 <= alpha -> 0 <= lam ->
  svds1 A = Ok s -> opnorm (m_cols A) (m_rows A) s -> log_lipschitz (K:=RN) svds1 A alpha = Ok L -> 0 < L ->
  is_min (m_cols A) (fun _ => True) (fun y => ridge alpha (mean_loss log_term (m_rows A) b) y + lam * l1 y) xs -> length x0 = m_cols A ->
  minimize_pg (K:=RN) (as_fg (fun x => log_f_grad (K:=RN) exp log1pR A b alpha false x true)) (l1norm_prox (K:=RN) lam) cb (SCallable (K:=RN) (fun _ => 1 / L)) tol max_iter max_bt factor false tc x0 = Ok r ->
  dist2 (r_x r) xs <= (1 - alpha / L) ^ length (r_iters r) * dist2 x0 xs /\
  (r_iters r <> [] -> (ridge alpha (mean_loss log_term (m_rows A) b) (r_x r) + lam * l1 (r_x r)) - (ridge alpha (mean_loss log_term (m_rows A) b) xs + lam * l1 xs)
    <= (1 - alpha / L) ^ length (r_iters r) * (L / 2 * dist2 x0 xs)).
Proof.
  intros Hi HA Ha Hl Hs (Ps & Ho & _) EL PL Hmin Hx0 Er. destruct (log_init_inv A0 b A Hi) as (_ & Hb & Hn & _).
  apply (lin_any log_term dlog (/ 4) (as_fg (fun x => log_f_grad (K:=RN) exp log1pR A b alpha false x true)) (m_cols A) (m_rows A) b alpha lam s L xs cb tol max_iter max_bt factor tc x0 r log_gap ltac:(lra)); auto.
  - unfold log_lipschitz in EL. rewrite Hs in EL. cbn [bind] in EL. okinj EL. rewrite INR_eq, nlit_R. rn. nlen. unfold Rdiv. ring.
  - intros x Hx. unfold as_fg. rewrite (log_f_grad_core A b alpha HA Hb false x x 0 true) by auto. cbn [snd]. apply (log_grad_eq A b alpha).
Qed.
