(** * Main theorems about minimize_proximal_gradient (statements re-exported in PropsProxGrad.v) *)
From Coq Require Import ZArith QArith Reals List Bool Lra Lia.
From Verif Require Import Num Vec Spec RVec ConvexFacts ModelUtils ModelProxGrad ProxGradFacts ProxGradConv ProxGradAcc.
Import ListNotations.
Open Scope R_scope.

Lemma main_C32_init_lipschitz_first : forall (K : Num) (fg : vec K -> K * vec K) (x0 : vec K),
  let L k := Nat.iter k (fun l => nmul K l (nofZ K 10)) (nlit 1 1000) in
  exists j, (j <= 100)%nat /\ init_lipschitz fg x0 = L j /\
    (forall i, (i < j)%nat ->
       nleb K (fst (fg (vsub x0 (vscale (ndiv K n1 (L i)) (snd (fg x0)))))) (fst (fg x0)) = false) /\
    (j = 100%nat \/
       nleb K (fst (fg (vsub x0 (vscale (ndiv K n1 (L j)) (snd (fg x0)))))) (fst (fg x0)) = true).
Proof. intros K fg x0. exact (init_lipschitz_spec fg x0). Qed.

Lemma iter10_pos k : 0 < Nat.iter k (fun l : R => l * 10) (1 / 1000).
Proof. induction k; simpl; lra. Qed.
Lemma main_C32_init_lipschitz_pos : forall (fg : vec RN -> RN * vec RN) (x0 : vec RN),
  0 < init_lipschitz fg x0.
Proof.
  intros. destruct (init_lipschitz_spec fg x0) as (j & _ & E & _). rewrite E.
  apply iter10_pos.
Qed.

Lemma main_C33_success_certificate : forall (K : Num) (fg : vec K -> K * vec K) (prox : vec K -> K -> vec K)
  (cb : option (list (event K) -> bool)) (step : strategy K) (tol : K) (max_iter max_bt : nat) (factor : K)
  (tc : bool) (x0 : vec K) (r : pg_result K),
  minimize_pg fg prox cb step tol max_iter max_bt factor false tc x0 = Ok r ->
  (r_success r = true ->
     exists it rest c, r_iters r = it :: rest /\ r_cert r = Some c /\ nltb K c tol = true /\
       c = vnorm (vdivs (vsub (it_x it) (r_x r)) (it_step it)) /\
       r_x r = prox (vsub (it_x it) (vscale (it_prox it) (it_grad it))) (it_prox it) /\
       (it_step it = it_prox it \/ it_step it = nmul K (it_prox it) (nlit 11 10)) /\
       it_x it = match rest with [] => x0 | prev :: _ => it_next prev end /\
       r_step r = Some (it_step it)) /\
  (r_success r = false ->
     (r_nit r = max_iter /\ forall c, r_cert r = Some c -> nltb K c tol = false) \/
     (exists c l log', cb = Some c /\ r_log r = EvCallback l :: log' /\ c (r_log r) = true)).
Proof.
  intros K fg prox cb step tol max_iter max_bt factor tc x0 r H.
  destruct (pg_main _ _ _ _ _ _ _ _ _ _ H) as (sf & Hi & Er & Hn & Hs & Hf).
  destruct Hi as [Hc Hx Hl Hfr Hst Hce Hces].
  split.
  - intros E. destruct (Hs E) as (it & Hit & Ht & _).
    destruct (r_iters r) as [|it' rest] eqn:Ei; [discriminate|]. injection Hit as ->.
    assert (Ei' : st_iters sf = it :: rest) by (rewrite Er in Ei; exact Ei).
    rewrite Ei' in *. simpl in Hc, Hl. destruct Hc as [Ex Hc]. destruct Hl as ([Hok1 Hok2] & _).
    exists it, rest, (cert_of it).
    assert (Erx : r_x r = it_next it) by (rewrite Er; simpl; rewrite Hx; reflexivity).
    repeat split; auto.
    + rewrite Er; simpl; auto.
    + rewrite Erx. reflexivity.
    + rewrite Erx; exact Hok1.
    + rewrite Er; simpl; auto.
  - intros E. destruct (Hf E) as [[(c & l & lg & A & B & C & _) _]|(A & _ & it & Hit & Ht)].
    + right; exists c, l, lg; auto.
    + left; split; auto. intros c Hcc.
      destruct (r_iters r) as [|it' rest] eqn:Ei; [discriminate|]. injection Hit as ->.
      assert (Ei' : st_iters sf = it :: rest) by (rewrite Er in Ei; exact Ei).
      rewrite Ei' in Hce. rewrite Er in Hcc; simpl in Hcc. rewrite Hce in Hcc. injection Hcc as <-. auto.
Qed.

Lemma main_C33_trace : forall (K : Num) (fg : vec K -> K * vec K) (prox : vec K -> K -> vec K)
  (cb : option (list (event K) -> bool)) (step : strategy K) (tol : K) (max_iter max_bt : nat) (factor : K)
  (tc : bool) (x0 : vec K) (r : pg_result K),
  minimize_pg fg prox cb step tol max_iter max_bt factor false tc x0 = Ok r ->
  r_certs r = (if tc then rev (map (fun it => vnorm (vdivs (vsub (it_x it) (it_next it)) (it_step it))) (r_iters r)) else []) /\
  chain x0 (r_iters r) /\ r_x r = last_point x0 (r_iters r).
Proof.
  intros K fg prox cb step tol max_iter max_bt factor tc x0 r H.
  destruct (pg_main _ _ _ _ _ _ _ _ _ _ H) as (sf & Hi & Er & _).
  destruct Hi as [Hc Hx Hl Hfr Hst Hce Hces]. rewrite Er; simpl.
  repeat split; auto. rewrite Hces. destruct tc; reflexivity.
Qed.

Lemma main_C34_terminates_partial : forall (K : Num) (fg : vec K -> K * vec K) (prox : vec K -> K -> vec K)
  (cb : option (list (event K) -> bool)) (step : strategy K) (tol : K) (max_iter max_bt : nat) (factor : K)
  (tc : bool) (x0 : vec K),
  minimize_pg fg prox cb step tol max_iter max_bt factor false tc x0 <> Err OutOfFuel /\
  (forall r, minimize_pg fg prox cb step tol max_iter max_bt factor false tc x0 = Ok r ->
    (r_nit r <= max_iter)%nat /\ (length (r_iters r) <= S max_iter)%nat /\
    (r_nit r <= length (r_iters r) <= S (r_nit r))%nat).
Proof.
  intros. split; [apply pg_terminates|]. intros r H.
  destruct (pg_main _ _ _ _ _ _ _ _ _ _ H) as (sf & Hi & Er & Hn & Hs & Hf).
  destruct (r_success r) eqn:E.
  - destruct (Hs eq_refl) as (it & _ & _ & Hl). lia.
  - destruct (Hf eq_refl) as [[_ Hl]|(A & B & _)]; lia.
Qed.

Lemma main_C34_no_exception : forall (K : Num) (fg : vec K -> K * vec K) (prox : vec K -> K -> vec K)
  (cb : option (list (event K) -> bool)) (step : strategy K) (tol : K) (max_iter max_bt : nat) (factor : K)
  (tc : bool) (x0 : vec K), max_bt <> 0%nat -> step <> SFixed -> step <> SOther ->
  exists r, minimize_pg fg prox cb step tol max_iter max_bt factor false tc x0 = Ok r.
Proof. intros. apply pg_ok; auto. destruct step; auto; congruence. Qed.

(** every run without callback and with a non-positive tolerance performs one iteration too many *)
Lemma main_C34_max_iter_refuted : forall (fg : vec RN -> RN * vec RN) (prox : vec RN -> RN -> vec RN)
  (step : strategy RN) (max_iter max_bt : nat) (factor : RN) (tc : bool) (x0 : vec RN) (r : pg_result RN),
  minimize_pg fg prox None step 0 max_iter max_bt factor false tc x0 = Ok r ->
  length (r_iters r) = S max_iter /\ r_nit r = max_iter.
Proof.
  intros fg prox step max_iter max_bt factor tc x0 r H.
  destruct (pg_main _ _ _ _ _ _ _ _ _ _ H) as (sf & Hi & Er & Hn & Hs & Hf).
  destruct (r_success r) eqn:E.
  - exfalso. destruct (Hs eq_refl) as (it & _ & Ht & _). rn. apply Rltb_iff in Ht.
    unfold cert_of in Ht. rewrite vnorm_R in Ht. pose proof (norm2_nonneg (vdivs (K:=RN) (vsub (it_x it) (it_next it)) (it_step it))). rn. lra.
  - destruct (Hf eq_refl) as [[(c & l & lg & A & _) _]|(A & B & _)]; [discriminate|auto].
Qed.

Lemma main_C35_callback_stops : forall (K : Num) (fg : vec K -> K * vec K) (prox : vec K -> K -> vec K)
  (c : list (event K) -> bool) (step : strategy K) (tol : K) (max_iter max_bt : nat) (factor : K)
  (accelerated tc : bool) (x0 : vec K) (r : pg_result K) (newer older : list (event K)) (l : locals K),
  minimize_pg fg prox (Some c) step tol max_iter max_bt factor accelerated tc x0 = Ok r ->
  r_log r = newer ++ EvCallback l :: older ->
  c (EvCallback l :: older) = true ->
  newer = [] /\ r_x r = lc_x l /\ r_success r = false.
Proof. intros. eapply pg_callback_stops; eauto. Qed.

Section ConvMain.
Variable n : nat.
Variable f : list R -> R.
Variable gradf : list R -> list R.
Variable dom : list R -> Prop.
Variable g : list R -> R.
Variable prox : list R -> R -> list R.
Hypothesis Hgl : forall x, length x = n -> length (gradf x) = n.
Hypothesis Hg : convex_on n dom g.
Hypothesis Hprox : forall x s, length x = n -> 0 < s -> is_prox_on dom g s x (prox x s).

Lemma run_good (cb : option (list (event RN) -> bool)) (step : strategy RN) tol max_iter max_bt factor tc (x0 : list R) (r : pg_result RN) :
  (match step with SCallable h => forall log, 0 < h log | SBacktracking => 0 < factor | _ => False end) ->
  length x0 = n ->
  minimize_pg (K:=RN) (fgR f gradf) prox cb step tol max_iter max_bt factor false tc x0 = Ok r ->
  Forall (fun it => it_found it = true) (r_iters r) ->
  chain (K:=RN) x0 (r_iters r) /\ r_x r = last_point (K:=RN) x0 (r_iters r) /\
  Forall (good n f gradf dom g) (r_iters r) /\ (step = SBacktracking -> Forall (accepted f gradf) (r_iters r)) /\
  ls_chain (K:=RN) (fgR f gradf) prox step max_bt factor (init_step (K:=RN) (fgR f gradf) step x0) (r_iters r).
Proof.
  intros Hst Hx0 H Hfd.
  destruct (pg_main _ _ _ _ _ _ _ _ _ _ H) as (sf & Hi & Er & _).
  destruct Hi as [Hc Hx Hl Hfr Hst' Hce Hces].
  assert (Ei : r_iters r = st_iters sf) by (rewrite Er; reflexivity).
  assert (Ex : r_x r = st_x sf) by (rewrite Er; reflexivity).
  rewrite Ei in *. rewrite Ex, Hx.
  destruct (good_iters n f gradf dom g prox Hgl Hprox step max_bt factor Hst x0 _ _ Hc Hl Hx0) as (A & B & C & D); auto.
  intros ->. simpl. eexists; split; [reflexivity|]. rn.
  apply Rdiv_lt_0_compat; [lra|]. apply main_C32_init_lipschitz_pos.
Qed.
End ConvMain.

Lemma main_C36_descent : forall n (f : list R -> R) (gradf : list R -> list R) (dom : list R -> Prop) (g : list R -> R) (prox : list R -> R -> list R),
  (forall x, length x = n -> length (gradf x) = n) ->
  convex_on n dom g ->
  (forall x s, length x = n -> 0 < s -> is_prox_on dom g s x (prox x s)) ->
  forall (cb : option (list (event RN) -> bool)) (tol : R) max_iter max_bt (factor : R) tc (x0 : list R) (r : pg_result RN),
  0 < factor -> length x0 = n -> dom x0 ->
  minimize_pg (K:=RN) (fun x => (f x, gradf x)) prox cb SBacktracking tol max_iter max_bt factor false tc x0 = Ok r ->
  Forall (fun it => it_found it = true) (r_iters r) ->
  chain (K:=RN) x0 (r_iters r) /\ r_x r = last_point (K:=RN) x0 (r_iters r) /\
  Forall (fun it : iter RN =>
    f (it_next it) + g (it_next it) + dist2 (it_next it) (it_x it) / (2 * it_prox it)
      <= f (it_x it) + g (it_x it) /\ 0 < it_prox it) (r_iters r) /\
  f (r_x r) + g (r_x r) <= f x0 + g x0.
Proof.
  intros n f gradf dom g prox Hgl Hg Hprox cb tol max_iter max_bt factor tc x0 r Hf Hx0 Hd H Hfd.
  destruct (run_good n f gradf dom g prox Hgl Hprox cb SBacktracking tol max_iter max_bt factor tc x0 r Hf Hx0 H Hfd)
    as (A & B & C & D & _).
  destruct (all_decrease n f gradf dom g Hgl Hg x0 _ A C (D eq_refl) Hd) as [P Q].
  repeat split; auto.
  - rewrite Forall_forall in *. intros it Hin. split; [apply P; auto|]. destruct (C it Hin). auto.
  - rewrite B. exact Q.
Qed.

Lemma main_C37_rate : forall n (f : list R -> R) (gradf : list R -> list R) (dom : list R -> Prop) (g : list R -> R) (prox : list R -> R -> list R),
  (forall x, length x = n -> length (gradf x) = n) ->
  convex_on n dom g ->
  (forall x s, length x = n -> 0 < s -> is_prox_on dom g s x (prox x s)) ->
  (forall u v, length u = n -> length v = n -> f u + dot (gradf u) (vminus v u) <= f v) ->
  forall (cb : option (list (event RN) -> bool)) (tol : R) max_iter max_bt (factor : R) tc (x0 : list R) (r : pg_result RN) (y : list R),
  0 < factor -> length x0 = n -> length y = n -> dom y ->
  minimize_pg (K:=RN) (fun x => (f x, gradf x)) prox cb SBacktracking tol max_iter max_bt factor false tc x0 = Ok r ->
  Forall (fun it => it_found it = true) (r_iters r) -> r_iters r <> [] ->
  f (r_x r) + g (r_x r) - (f y + g y)
    <= dist2 x0 y / (2 * Rsum (map (fun it : iter RN => it_prox it : R) (r_iters r))).
Proof.
  intros n f gradf dom g prox Hgl Hg Hprox Hfo cb tol max_iter max_bt factor tc x0 r y Hf Hx0 Hy Hdy H Hfd Hne.
  destruct (run_good n f gradf dom g prox Hgl Hprox cb SBacktracking tol max_iter max_bt factor tc x0 r Hf Hx0 H Hfd)
    as (A & B & C & D & _).
  pose proof (rate_sum n f gradf dom g Hgl Hg x0 y Hfo Hy Hdy Hx0 _ A C (D eq_refl)) as P.
  rewrite <- B in P.
  assert (HS : 0 < Rsum (map (fun it : iter RN => it_prox it : R) (r_iters r))).
  { destruct (r_iters r) as [|it l]; [congruence|]. inversion C as [|? ? G1 G2]; subst. cbn [map Rsum].
    assert (0 <= Rsum (map (fun it : iter RN => it_prox it : R) l)).
    { clear -G2. induction G2; simpl; [lra|]. destruct H. rn; lra. }
    destruct G1. rn. lra. }
  set (S := Rsum (map (fun it : iter RN => it_prox it : R) (r_iters r))) in *.
  pose proof (dist2_nonneg (r_x r) y).
  apply Rmult_le_reg_l with (2 * S); [lra|].
  replace (2 * S * (dist2 x0 y / (2 * S))) with (dist2 x0 y) by (field; lra). lra.
Qed.

Lemma main_C37_smooth_steps : forall n (f : list R -> R) (gradf : list R -> list R) (dom : list R -> Prop) (g : list R -> R) (prox : list R -> R -> list R) (L : R),
  (forall x, length x = n -> length (gradf x) = n) ->
  convex_on n dom g ->
  (forall x s, length x = n -> 0 < s -> is_prox_on dom g s x (prox x s)) ->
  0 < L ->
  (forall u v, length u = n -> length v = n ->
     f v <= f u + dot (gradf u) (vminus v u) + L / 2 * dist2 v u) ->
  forall (cb : option (list (event RN) -> bool)) (tol : R) max_iter max_bt (factor : R) tc (x0 : list R) (r : pg_result RN),
  0 < factor -> length x0 = n ->
  minimize_pg (K:=RN) (fun x => (f x, gradf x)) prox cb SBacktracking tol max_iter max_bt factor false tc x0 = Ok r ->
  Forall (fun it => it_found it = true) (r_iters r) ->
  Forall (fun it : iter RN =>
     Rmin (18 / 10 / init_lipschitz (K:=RN) (fun x => (f x, gradf x)) x0) (factor / L) <= it_prox it) (r_iters r).
Proof.
  intros n f gradf dom g prox L Hgl Hg Hprox HL HLs cb tol max_iter max_bt factor tc x0 r Hf Hx0 H Hfd.
  destruct (run_good n f gradf dom g prox Hgl Hprox cb SBacktracking tol max_iter max_bt factor tc x0 r Hf Hx0 H Hfd)
    as (A & B & C & D & E).
  assert (Hbt : (max_bt > 0)%nat).
  { unfold minimize_pg in H. destruct (Nat.eqb_spec max_bt 0); [discriminate|lia]. }
  simpl in E.
  destruct (smooth_steps n f gradf dom g prox Hgl Hprox SBacktracking max_bt factor Hf L
    (18 / 10 / init_lipschitz (K:=RN) (fun x => (f x, gradf x)) x0) x0 eq_refl HLs HL) with (l := r_iters r) as [P _]; auto.
  apply Rdiv_lt_0_compat; [lra|]. apply main_C32_init_lipschitz_pos.
Qed.

(** the explicit O(1/N) rate for smooth f *)
Lemma main_C37_rate_explicit : forall n (f : list R -> R) (gradf : list R -> list R) (dom : list R -> Prop) (g : list R -> R) (prox : list R -> R -> list R) (L : R),
  (forall x, length x = n -> length (gradf x) = n) ->
  convex_on n dom g ->
  (forall x s, length x = n -> 0 < s -> is_prox_on dom g s x (prox x s)) ->
  (forall u v, length u = n -> length v = n -> f u + dot (gradf u) (vminus v u) <= f v) ->
  0 < L ->
  (forall u v, length u = n -> length v = n ->
     f v <= f u + dot (gradf u) (vminus v u) + L / 2 * dist2 v u) ->
  forall (cb : option (list (event RN) -> bool)) (tol : R) max_iter max_bt (factor : R) tc (x0 : list R) (r : pg_result RN) (y : list R),
  0 < factor -> length x0 = n -> length y = n -> dom y ->
  minimize_pg (K:=RN) (fun x => (f x, gradf x)) prox cb SBacktracking tol max_iter max_bt factor false tc x0 = Ok r ->
  Forall (fun it => it_found it = true) (r_iters r) -> r_iters r <> [] ->
  f (r_x r) + g (r_x r) - (f y + g y)
    <= dist2 x0 y / (2 * INR (length (r_iters r)) *
         Rmin (18 / 10 / init_lipschitz (K:=RN) (fun x => (f x, gradf x)) x0) (factor / L)).
Proof.
  intros n f gradf dom g prox L Hgl Hg Hprox Hfo HL HLs cb tol max_iter max_bt factor tc x0 r y Hf Hx0 Hy Hdy H Hfd Hne.
  pose proof (main_C37_rate n f gradf dom g prox Hgl Hg Hprox Hfo cb tol max_iter max_bt factor tc x0 r y Hf Hx0 Hy Hdy H Hfd Hne) as P.
  pose proof (main_C37_smooth_steps n f gradf dom g prox L Hgl Hg Hprox HL HLs cb tol max_iter max_bt factor tc x0 r Hf Hx0 H Hfd) as Q.
  set (m := Rmin (18 / 10 / init_lipschitz (K:=RN) (fun x => (f x, gradf x)) x0) (factor / L)) in *.
  assert (Hm : 0 < m).
  { unfold m. apply Rmin_glb_lt; apply Rdiv_lt_0_compat; auto; try lra. apply main_C32_init_lipschitz_pos. }
  eapply Rle_trans; [exact P|]. unfold Rdiv. apply Rmult_le_compat_l; [apply dist2_nonneg|].
  assert (HS : INR (length (r_iters r)) * m <= Rsum (map (fun it : iter RN => it_prox it : R) (r_iters r))).
  { clear -Q. induction Q as [|it l H1 H2 IH]; [simpl; lra|]. cbn [length map Rsum]. rewrite S_INR. rn. lra. }
  assert (Hl : 0 < INR (length (r_iters r))).
  { apply lt_0_INR. destruct (r_iters r); [congruence|simpl; lia]. }
  apply Rinv_le_contravar.
  - apply Rmult_lt_0_compat; auto. lra.
  - lra.
Qed.

(** with smooth f an iteration's line search succeeds as soon as the smallest trial is at most 1/L *)
Lemma main_C37_linesearch_succeeds : forall n (f : list R -> R) (gradf : list R -> list R) (dom : list R -> Prop) (g : list R -> R) (prox : list R -> R -> list R) (L : R),
  (forall x, length x = n -> length (gradf x) = n) ->
  (forall x s, length x = n -> 0 < s -> is_prox_on dom g s x (prox x s)) ->
  0 < L ->
  (forall u v, length u = n -> length v = n ->
     f v <= f u + dot (gradf u) (vminus v u) + L / 2 * dist2 v u) ->
  forall max_bt factor x s, (max_bt > 0)%nat -> 0 < factor -> length x = n -> 0 < s ->
  11 / 10 * s * factor ^ (max_bt - 1) <= / L ->
  let o := line_search (K:=RN) (fun x => (f x, gradf x)) prox max_bt factor x (f x) (gradf x) s in
  ls_found o = true /\ Rmin s (factor / L) <= ls_prox o /\
  ls_fg o = (f (ls_x o), gradf (ls_x o)).
Proof.
  intros n f gradf dom g prox L Hgl Hprox HL HLs max_bt factor x s Hbt Hf Hx Hs Hle o.
  pose (c := minimize_pg (K:=RN)).
  assert (Ho : exists it : iter RN, it_x it = x /\ it_f it = f x /\ it_grad it = gradf x /\ it_found it = ls_found o /\
     it_prox it = ls_prox o /\ iter_ls (K:=RN) (fgR f gradf) prox SBacktracking max_bt factor (Some s) it /\
     (ls_found o = true -> ls_fg o = (f (ls_x o), gradf (ls_x o)))).
  { exists (mkIter (K:=RN) x (f x) (gradf x) (ls_prox o) (ls_step o) (ls_x o) (ls_found o)).
    repeat split; auto.
    - unfold o, line_search.
      match goal with |- context [backtrack ?a ?b ?c ?d ?e ?f ?g ?h ?i ?j ?k ?l] =>
        destruct (backtrack_spec (K:=RN) a b c d e f g i h k l eq_refl eq_refl)
          as (jj & Hj & A & B & C0 & C1 & D & E & F & _) end.
      simpl. exists s, jj. repeat split; auto; apply D; auto.
    - intros Hfd. unfold o, line_search in *.
      match goal with |- context [backtrack ?a ?b ?c ?d ?e ?f ?g ?h ?i ?j ?k ?l] =>
        destruct (backtrack_spec (K:=RN) a b c d e f g i h k l eq_refl eq_refl)
          as (jj & Hj & A & B & C0 & C1 & D & E & F & _) end.
      apply D; auto. }
  destruct Ho as (it & E1 & E2 & E3 & E4 & E5 & E6 & E7).
  destruct (smooth_iter n f gradf dom g prox Hgl Hprox SBacktracking max_bt factor Hf L s it eq_refl HLs HL Hs
     ltac:(rewrite E1; auto) ltac:(rewrite E1; auto) ltac:(rewrite E1; auto) E6 Hbt) as (A & B & _).
  rewrite E4 in A. rewrite E5 in B. specialize (A Hle). auto.
Qed.

(** with smooth f and enough trials, no line search of the whole run is exhausted *)
Lemma main_C37_never_exhausted : forall n (f : list R -> R) (gradf : list R -> list R) (dom : list R -> Prop) (g : list R -> R) (prox : list R -> R -> list R) (L : R),
  (forall x, length x = n -> length (gradf x) = n) ->
  (forall x s, length x = n -> 0 < s -> is_prox_on dom g s x (prox x s)) ->
  0 < L ->
  (forall u v, length u = n -> length v = n ->
     f v <= f u + dot (gradf u) (vminus v u) + L / 2 * dist2 v u) ->
  forall (cb : option (list (event RN) -> bool)) (tol : R) max_iter max_bt (factor : R) tc (x0 : list R) (r : pg_result RN),
  0 < factor <= 1 -> length x0 = n ->
  (11 / 10) ^ (S max_iter) * (18 / 10 / init_lipschitz (K:=RN) (fun x => (f x, gradf x)) x0) * factor ^ (max_bt - 1) <= / L ->
  minimize_pg (K:=RN) (fun x => (f x, gradf x)) prox cb SBacktracking tol max_iter max_bt factor false tc x0 = Ok r ->
  Forall (fun it => it_found it = true) (r_iters r).
Proof.
  intros n f gradf dom g prox L Hgl Hprox HL HLs cb tol max_iter max_bt factor tc x0 r [Hf Hf1] Hx0 Hsm H.
  assert (Hbt : (max_bt > 0)%nat).
  { unfold minimize_pg in H. destruct (Nat.eqb_spec max_bt 0); [discriminate|lia]. }
  destruct (main_C34_terminates_partial RN (fun x => (f x, gradf x)) prox cb SBacktracking tol max_iter max_bt factor tc x0) as [_ Hb].
  destruct (Hb r H) as (_ & Hlen & _).
  destruct (pg_main _ _ _ _ _ _ _ _ _ _ H) as (sf & Hi & Er & _).
  destruct Hi as [Hc Hx Hl _ _ _ _].
  assert (Ei : r_iters r = st_iters sf) by (rewrite Er; reflexivity).
  rewrite Ei in *.
  destruct (never_exhausted n f gradf dom g prox Hgl Hprox SBacktracking max_bt factor Hf L
    (18 / 10 / init_lipschitz (K:=RN) (fun x => (f x, gradf x)) x0) (S max_iter) x0 eq_refl HLs HL) with (l := st_iters sf) as [P _]; auto.
  apply Rdiv_lt_0_compat; [lra|]. apply main_C32_init_lipschitz_pos.
Qed.

(** a concrete smooth instance: f(x) = |x|^2 / 2 in any dimension, g = 0 *)
Definition sq (x : list R) : R := / 2 * dot x x.
Lemma sq_first_order n u v : length u = n -> length v = n -> sq u + dot u (vminus v u) <= sq v.
Proof.
  intros Hu Hv. unfold sq. assert (0 <= dot (vminus v u) (vminus v u)) by apply dot_self_nonneg.
  revert H. ipx. rewrite (dot_comm v u). lra.
Qed.
Lemma sq_smooth n u v : length u = n -> length v = n ->
  sq v <= sq u + dot u (vminus v u) + 1 / 2 * dist2 v u.
Proof. intros Hu Hv. unfold sq. ipx. rewrite (dot_comm v u). lra. Qed.
Lemma id_prox (x : list R) (s : R) : 0 < s -> is_prox_on (fun _ => True) (fun _ => 0) s x x.
Proof.
  intros Hs. unfold is_prox_on, prox_obj. repeat split; auto.
  - intros y Hy _. rewrite dist2_refl. pose proof (dist2_nonneg y x). lra.
  - intros y Hy _ H. rewrite dist2_refl in H. apply dist2_zero; auto. lra.
Qed.
Lemma zero_convex n : convex_on n (fun _ => True) (fun _ => 0).
Proof. split; [red; auto|]. intros; lra. Qed.
Lemma init_lip_lower (fg : vec RN -> RN * vec RN) x0 : 1 / 1000 <= init_lipschitz fg x0.
Proof.
  destruct (init_lipschitz_spec fg x0) as (j & _ & E & _). rewrite E.
  unfold pow10. rn. rewrite nlit_R.
  assert (forall k, 1 / 1000 <= Nat.iter k (fun l : R => l * 10) (1 / 1000)); [|auto].
  induction k; simpl; lra.
Qed.
(** this instance satisfies every hypothesis of C36, C37 and C38 *)
Lemma sq_run (x0 : list R) : exists r,
  minimize_pg (K:=RN) (fun x => (sq x, x)) (fun x _ => x) None SBacktracking 0 10 100 (6 / 10) false false x0 = Ok r /\
  Forall (fun it => it_found it = true) (r_iters r) /\ length (r_iters r) = 11%nat.
Proof.
  destruct (main_C34_no_exception RN (fun x => (sq x, x)) (fun x _ => x) None SBacktracking 0 10 100 (6/10) false x0) as [r H];
    try discriminate.
  exists r. split; auto. split; [|apply (main_C34_max_iter_refuted _ _ _ _ _ _ _ _ _ H)].
  apply (main_C37_never_exhausted (length x0) sq (fun x => x) (fun _ => True) (fun _ => 0) (fun x _ => x) 1) with (cb := None) (tol := 0) (max_iter := 10%nat) (max_bt := 100%nat) (factor := 6/10) (tc := false) (x0 := x0);
    try lra; auto.
  - intros. apply id_prox; auto.
  - intros. apply (sq_smooth (length x0)); auto.
  - pose proof (init_lip_lower (fun x => (sq x, x)) x0) as HL.
    set (L := init_lipschitz (K:=RN) _ _) in *.
    assert (H1 : 18 / 10 / L <= 1800).
    { apply Rmult_le_reg_r with L; [rn; lra|]. unfold Rdiv at 1. rewrite Rmult_assoc, Rinv_l, Rmult_1_r by (rn; lra). rn; lra. }
    assert (H0 : 0 < 18 / 10 / L) by (apply Rdiv_lt_0_compat; rn; lra).
    assert (H2 : (6 / 10) ^ (100 - 1) <= 1 / 1000000).
    { change (100 - 1)%nat with (30 + 69)%nat. rewrite pow_add.
      assert ((6 / 10) ^ 30 <= 1 / 1000000) by (simpl; lra).
      assert (0 < (6 / 10) ^ 69 <= 1).
      { split; [apply pow_lt; lra|]. rewrite <- (pow1 69). apply pow_incr; lra. }
      assert (0 < (6/10) ^ 30) by (apply pow_lt; lra). nra. }
    assert (H3 : 0 < (6/10) ^ (100 - 1)) by (apply pow_lt; lra).
    assert (H4 : (11 / 10) ^ 11 <= 3) by (simpl; lra).
    assert (H5 : 0 < (11 / 10) ^ 11) by (apply pow_lt; lra).
    assert (H6 : (11 / 10) ^ 11 * (18 / 10 / L) <= 3 * 1800) by nra.
    set (a := (11 / 10) ^ 11 * (18 / 10 / L)) in *. set (b := (6/10) ^ (100 - 1)) in *.
    assert (0 < a) by (apply Rmult_lt_0_compat; auto). rewrite Rinv_1. nra.
Qed.

Lemma main_C38_stationarity : forall n (f : list R -> R) (gradf : list R -> list R) (dom : list R -> Prop) (g : list R -> R) (prox : list R -> R -> list R) (L : R),
  (forall x, length x = n -> length (gradf x) = n) ->
  convex_on n dom g ->
  (forall x s, length x = n -> 0 < s -> is_prox_on dom g s x (prox x s)) ->
  (forall u v, length u = n -> length v = n -> f u + dot (gradf u) (vminus v u) <= f v) ->
  (forall u v, length u = n -> length v = n -> norm2 (vminus (gradf u) (gradf v)) <= L * norm2 (vminus u v)) ->
  forall (cb : option (list (event RN) -> bool)) (step : strategy RN) (tol : R) max_iter max_bt (factor : R) tc (x0 : list R) (r : pg_result RN),
  match step with SCallable h => forall log, 0 < h log | SBacktracking => 0 < factor | _ => False end ->
  length x0 = n ->
  minimize_pg (K:=RN) (fun x => (f x, gradf x)) prox cb step tol max_iter max_bt factor false tc x0 = Ok r ->
  Forall (fun it => it_found it = true) (r_iters r) ->
  r_success r = true ->
  exists c it rest w, r_cert r = Some c /\ c < tol /\ r_iters r = it :: rest /\
    subgrad n dom (fun y => f y + g y) (r_x r) w /\
    norm2 w <= 11 / 10 * c + L * norm2 (vminus (r_x r) (it_x it)) /\
    (c = 0 -> is_min n dom (fun y => f y + g y) (r_x r)).
Proof.
  intros n f gradf dom g prox L Hgl Hg Hprox Hfo HLs cb step tol max_iter max_bt factor tc x0 r Hst Hx0 H Hfd Hsu.
  destruct (run_good n f gradf dom g prox Hgl Hprox cb step tol max_iter max_bt factor tc x0 r Hst Hx0 H Hfd)
    as (A & B & C & _ & _).
  destruct (main_C33_success_certificate _ _ _ _ _ _ _ _ _ _ _ _ H) as [P _].
  destruct (P Hsu) as (it & rest & c & E1 & E2 & E3 & E4 & _).
  rewrite E1 in *. cbn [last_point] in B.
  pose proof (Forall_inv C) as G1.
  destruct (stationarity_bound n f gradf dom g Hgl Hg L it Hfo HLs G1) as (w & W1 & W2).
  assert (Ec : c = cert_of (K:=RN) it) by (rewrite E4, B; reflexivity).
  exists c, it, rest, w. rewrite B.
  split; [auto|]. split; [rn; apply Rltb_iff in E3; exact E3|]. split; [auto|]. split; [exact W1|].
  split; [rewrite Ec; exact W2|].
  intros Hc0. apply (zero_cert_min n f gradf dom g Hgl Hg it Hfo G1). congruence.
Qed.

Lemma main_C39_step_rejected_partial : forall (K : Num) (fg : vec K -> K * vec K) (prox : vec K -> K -> vec K)
  (cb : option (list (event K) -> bool)) (step : strategy K) (tol : K) (max_iter max_bt : nat) (factor : K)
  (tc : bool) (x0 : vec K), step = SFixed \/ step = SOther ->
  (match cb with Some c => forall log, c log = false | None => True end) ->
  exists e, minimize_pg fg prox cb step tol max_iter max_bt factor false tc x0 = Err e /\ e <> OutOfFuel.
Proof.
  intros K fg prox cb step tol max_iter max_bt factor tc x0 Hst Hcb.
  unfold minimize_pg. destruct (Nat.eqb max_bt 0); [eexists; split; [reflexivity|discriminate]|].
  destruct (fg x0) as [f0 g0]. simpl. unfold call_cb.
  destruct cb as [c|]; [rewrite Hcb|]; unfold pg_step; destruct Hst as [-> | ->]; simpl; eexists; (split; [reflexivity|discriminate]).
Qed.

Lemma main_C39_accelerated_refuted : forall (K : Num) (fg : vec K -> K * vec K) (prox : vec K -> K -> vec K)
  (step : strategy K) (tol : K) (max_iter max_bt : nat) (factor : K) (tc : bool) (x0 : vec K),
  step = SFixed \/ step = SOther -> max_bt <> 0%nat ->
  exists r, minimize_pg fg prox None step tol max_iter max_bt factor true tc x0 = Ok r /\
    r_x r = x0 /\ r_success r = false /\ r_cert r = None /\ r_nit r = max_iter /\ r_iters r = [].
Proof.
  intros K fg prox step tol max_iter max_bt factor tc x0 Hst Hbt.
  unfold minimize_pg. apply Nat.eqb_neq in Hbt. rewrite Hbt.
  assert (Hst' : step = SOther \/ step = SFixed) by tauto.
  edestruct (acc_loop_noop fg prox None step tol max_iter max_bt factor tc Hst' eq_refl (S max_iter)) as (r & A & B & C & D & E & F & G);
    [| | |exists r; split; [exact A|]; simpl in *; auto]; simpl; auto; lia.
Qed.

Lemma main_C40_accelerated : forall (K : Num) (fg : vec K -> K * vec K) (prox : vec K -> K -> vec K)
  (cb : option (list (event K) -> bool)) (step : strategy K) (tol : K) (max_iter max_bt : nat) (factor : K)
  (tc : bool) (x0 : vec K), max_bt <> 0%nat ->
  exists r, minimize_pg fg prox cb step tol max_iter max_bt factor true tc x0 = Ok r /\
  (r_nit r <= max_iter)%nat /\ (length (r_iters r) <= S (r_nit r))%nat /\
  (r_success r = true -> exists c, r_cert r = Some c /\ nltb K c tol = true) /\
  (r_success r = false ->
     (r_nit r = max_iter /\ forall c, r_cert r = Some c -> nltb K c tol = false) \/
     (exists c l log', cb = Some c /\ r_log r = EvCallback l :: log' /\ c (r_log r) = true /\ lc_x l = r_x r)).
Proof.
  intros. destruct (acc_ok fg prox cb step tol max_iter factor tc x0 H) as [r Hr].
  exists r. split; auto. destruct (acc_main _ _ _ _ _ _ _ _ _ _ Hr) as (A & B & C & D).
  repeat split; auto. intros E. destruct (D E) as [(c & l & lg & P1 & P2 & P3 & P4 & _)|P]; auto.
  right. exists c, l, lg. auto.
Qed.

(** the accelerated iterates: FISTA *)
Lemma main_C74_fista_rate : forall n (f : list R -> R) (gradf : list R -> list R) (dom : list R -> Prop) (g : list R -> R) (prox : list R -> R -> list R),
  (forall x, length x = n -> length (gradf x) = n) ->
  convex_on n dom g ->
  (forall x s, length x = n -> 0 < s -> is_prox_on dom g s x (prox x s)) ->
  (forall u v, length u = n -> length v = n -> f u + dot (gradf u) (vminus v u) <= f v) ->
  forall xs, is_min n dom (fun y => f y + g y) xs ->
  forall (cb : option (list (event RN) -> bool)) (step : strategy RN) (tol : R) max_iter max_bt (factor : R) tc (x0 : list R) (r : pg_result RN) (it : iter RN) rest,
  length x0 = n ->
  minimize_pg (K:=RN) (fun x => (f x, gradf x)) prox cb step tol max_iter max_bt factor true tc x0 = Ok r ->
  r_iters r = it :: rest ->
  (* every step was positive and met the sufficient-decrease test; steps never increased *)
  Forall (fun it : iter RN => 0 < it_prox it /\
     f (it_next it) <= f (it_x it) + dot (gradf (it_x it)) (vminus (it_next it) (it_x it))
        + dist2 (it_next it) (it_x it) / (2 * it_step it)) (r_iters r) ->
  nonincr (r_iters r) ->
  f (r_x r) + g (r_x r) - (f xs + g xs)
    <= 2 * dist2 x0 xs / (it_prox it * (INR (length (r_iters r)) + 1) ^ 2).
Proof.
  intros n f gradf dom g prox Hgl Hg Hprox Hfo xs Hxs cb step tol max_iter max_bt factor tc x0 r it rest Hx0 H Ei HG Hn.
  destruct (acc_iterates _ _ _ _ _ _ _ _ _ _ _ H) as [A B].
  pose proof (fista_rate n f gradf dom g prox Hgl Hg Hprox Hfo xs Hxs step x0 (r_iters r) Hx0 A HG Hn it rest Ei) as P.
  rewrite B, Ei in *. cbn [last_point] in *. exact P.
Qed.

(** constant step at most 1/L: no hypothesis on the run is left *)
Lemma main_C74_fista_constant_step : forall n (f : list R -> R) (gradf : list R -> list R) (dom : list R -> Prop) (g : list R -> R) (prox : list R -> R -> list R) (L : R),
  (forall x, length x = n -> length (gradf x) = n) ->
  convex_on n dom g ->
  (forall x s, length x = n -> 0 < s -> is_prox_on dom g s x (prox x s)) ->
  (forall u v, length u = n -> length v = n -> f u + dot (gradf u) (vminus v u) <= f v) ->
  0 < L ->
  (forall u v, length u = n -> length v = n ->
     f v <= f u + dot (gradf u) (vminus v u) + L / 2 * dist2 v u) ->
  forall xs, is_min n dom (fun y => f y + g y) xs ->
  forall (cb : option (list (event RN) -> bool)) (s : R) (tol : R) max_iter max_bt (factor : R) tc (x0 : list R) (r : pg_result RN),
  0 < s -> s <= / L -> length x0 = n ->
  minimize_pg (K:=RN) (fun x => (f x, gradf x)) prox cb (SCallable (K:=RN) (fun _ => s)) tol max_iter max_bt factor true tc x0 = Ok r ->
  r_iters r <> [] ->
  f (r_x r) + g (r_x r) - (f xs + g xs)
    <= 2 * dist2 x0 xs / (s * (INR (length (r_iters r)) + 1) ^ 2).
Proof.
  intros n f gradf dom g prox L Hgl Hg Hprox Hfo HL HLs xs Hxs cb s tol max_iter max_bt factor tc x0 r Hs HsL Hx0 H Hne.
  destruct (acc_iterates _ _ _ _ _ _ _ _ _ _ _ H) as [A B].
  assert (G : Forall (fun it : iter RN => (it_prox it = s :> R) /\ acc_good f gradf it) (r_iters r) /\
              length (last_point (K:=RN) x0 (r_iters r)) = n /\ length (acc_point (K:=RN) x0 (r_iters r)) = n).
  { clear B Hne H. induction (r_iters r) as [|it l IH]; [repeat split; auto|].
    destruct A as (Ex & Eg & Ef & En & Est & _ & Hh & Hc).
    destruct (IH Hc) as (G & L1 & L2).
    destruct (Hh _ eq_refl) as [log Es].
    assert (Hly : length (it_x it) = n) by (rewrite Ex; auto).
    rewrite vscale_R, vsub_R in En. cbn [snd] in Eg. rewrite Eg in En.
    pose proof (Hgl _ Hly) as Hlg.
    assert (Hl0 : length (vminus (it_x it) (smul (it_prox it) (gradf (it_x it)))) = n) by (rn; leng).
    assert (Hp : 0 < it_prox it) by (rewrite Es; auto).
    pose proof (Hprox _ _ Hl0 Hp) as Hpx. rewrite <- En in Hpx.
    assert (Hln : length (it_next it) = n) by (destruct Hpx as [P _]; eapply eq_trans; [exact P|auto]).
    assert (AG : acc_good f gradf it).
    { split; auto. unfold accepted. rewrite Est, Es. apply (smooth_accepts n f gradf L); auto. }
    split; [constructor; auto|]. split; [exact Hln|].
    cbn [acc_point]. rewrite extrap_R. rn. leng. }
  destruct G as (G & _).
  destruct (r_iters r) as [|it rest] eqn:Ei; [congruence|].
  assert (Es : it_prox it = s :> R) by apply (Forall_inv G).
  rewrite <- Es.
  assert (HG : Forall (acc_good f gradf) (it :: rest)) by (eapply Forall_impl; [|exact G]; cbv beta; tauto).
  assert (Hn : nonincr (it :: rest)).
  { clear - G. revert it G. induction rest as [|it' rest IH]; intros it G; [exact I|].
    inversion G as [|? ? [E1 _] G2]; subst. split; [|apply IH; auto].
    inversion G2 as [|? ? [E2 _] _]. rn. lra. }
  pose proof (fista_rate n f gradf dom g prox Hgl Hg Hprox Hfo xs Hxs _ x0 _ Hx0 A HG Hn it rest eq_refl) as P.
  rewrite B. cbn [last_point]. exact P.
Qed.

Lemma run_check {A} (m : result A) (p : A -> bool) :
  (match m with Ok r => p r | _ => false end) = true -> exists r, m = Ok r /\ p r = true.
Proof. destruct m; [eauto|discriminate]. Qed.

(** ** freshness of the stored value and gradient *)
Lemma main_C73_fresh_partial : forall (K : Num) (fg : vec K -> K * vec K) (prox : vec K -> K -> vec K)
  (cb : option (list (event K) -> bool)) (step : strategy K) (tol : K) (max_iter max_bt : nat) (factor : K)
  (tc : bool) (x0 : vec K) (r : pg_result K),
  minimize_pg fg prox cb step tol max_iter max_bt factor false tc x0 = Ok r ->
  forall newer it older, r_iters r = newer ++ it :: older ->
  (* the line search of the preceding iteration succeeded (or this is the first iteration) *)
  match older with [] => True | prev :: _ => it_found prev = true end ->
  (it_f it, it_grad it) = fg (it_x it) /\
  it_x it = match older with [] => x0 | prev :: _ => it_next prev end.
Proof.
  intros K fg prox cb step tol max_iter max_bt factor tc x0 r H newer it older E Hf.
  destruct (pg_main _ _ _ _ _ _ _ _ _ _ H) as (sf & Hi & Er & _).
  destruct Hi as [Hc Hx Hl _ _ _ _].
  assert (Ei : st_iters sf = newer ++ it :: older) by (rewrite Er in E; exact E).
  rewrite Ei in *. clear - Hc Hl Hf.
  induction newer as [|i0 newer IH]; simpl in *.
  - destruct Hl as (_ & _ & A & _). destruct Hc as [B _]. split; [apply A; exact Hf|exact B].
  - apply IH; tauto.
Qed.

Fixpoint list_beq {A} (e : A -> A -> bool) (u v : list A) : bool :=
  match u, v with [], [] => true | a :: u', b :: v' => e a b && list_beq e u' v' | _, _ => false end.
Definition ex_quad (c : Z) : vec QN -> QN * vec QN :=
  fun x => (nmul QN (nofZ QN c) (vdot x x), vscale (nofZ QN (2 * c)) x).
(** f(x) = 50 x^2 with a line search limited to one trial: the second iteration uses the
    gradient at the rejected trial point *)
Lemma main_C73_fresh_refuted : exists r it prev,
  minimize_pg (K:=QN) (ex_quad 50) (fun x _ => x) None SBacktracking (nlit 1 1000000) 1 1 (nlit 6 10) false false [n1] = Ok r /\
  r_iters r = [it; prev] /\ it_x it = it_next prev /\
  it_grad it <> snd (ex_quad 50 (it_x it)).
Proof.
  destruct (run_check (minimize_pg (K:=QN) (ex_quad 50) (fun x _ => x) None SBacktracking (nlit 1 1000000) 1 1 (nlit 6 10) false false [n1])
    (fun r => match r_iters r with
              | [it; prev] => negb (list_beq (fun a b => Qeq_bool a b) (it_grad it) (snd (ex_quad 50 (it_x it))))
              | _ => false end))
    as (r & E & H); [vm_compute; reflexivity|].
  destruct (r_iters r) as [|it [|prev [|]]] eqn:Ei; try (discriminate H).
  exists r, it, prev. split; auto. split; auto.
  destruct (main_C33_trace _ _ _ _ _ _ _ _ _ _ _ _ E) as (_ & C & _). rewrite Ei in C. simpl in C.
  split; [tauto|]. intros Heq. rewrite Heq in H. clear -H.
  assert (forall l : list QArith_base.Q, list_beq (fun a b => Qeq_bool a b) l l = true) as Hr.
  { induction l; simpl; auto. rewrite IHl. rewrite (proj2 (Qeq_bool_iff a a)); [reflexivity|apply Qeq_refl]. }
  rewrite Hr in H. discriminate H.
Qed.

(** ** the accelerated certificate is not a stationarity measure at the returned point:
    binary64 run on f(x) = 6.135 x^2 from x0 = 1 with the default line search and tol = 2e-4;
    the run "succeeds" although the gradient at the returned point exceeds 200 tol *)
Definition ex_f64 : vec F64 -> F64 * vec F64 :=
  fun x => (nmul F64 (nlit 6135 1000) (vdot x x), vscale (nlit 1227 100) x).
Lemma main_C75_accelerated_certificate_refuted : exists r,
  minimize_pg (K:=F64) ex_f64 (fun x _ => x) None SBacktracking (nlit 2 10000) 500 1000 (nlit 6 10) true false [n1] = Ok r /\
  r_success r = true /\
  nltb F64 (nmul F64 (nofZ F64 200) (nlit 2 10000)) (vnorm (snd (ex_f64 (r_x r)))) = true.
Proof.
  destruct (run_check (minimize_pg (K:=F64) ex_f64 (fun x _ => x) None SBacktracking (nlit 2 10000) 500 1000 (nlit 6 10) true false [n1])
    (fun r => r_success r && nltb F64 (nmul F64 (nofZ F64 200) (nlit 2 10000)) (vnorm (snd (ex_f64 (r_x r))))))
    as (r & E & H); [vm_compute; reflexivity|].
  apply andb_prop in H. exists r; tauto.
Qed.
Lemma accel_triangle n (x p prev : list R) (s c tol : R) : length x = n -> length p = n -> length prev = n -> 0 < s ->
  norm2 (map (fun a : R => a / s) (vminus prev p)) = c -> c < tol ->
  norm2 (smul (/ s) (vminus x p)) < tol + norm2 (vminus x prev) / s.
Proof.
  intros Lx Lp Lv Hs E Hc.
  replace (map (fun a : R => a / s) (vminus prev p)) with (smul (/ s) (vminus prev p)) in E
    by (unfold smul; apply map_ext; intros; unfold Rdiv; ring).
  assert (Hi : 0 < / s) by (apply Rinv_0_lt_compat; auto).
  rewrite norm2_smul, Rabs_right in * by lra.
  assert (T : norm2 (vminus x p) <= norm2 (vminus x prev) + norm2 (vminus prev p)).
  { replace (vminus x p) with (lin 1 (vminus x prev) 1 (vminus prev p)).
    - eapply Rle_trans; [apply norm2_triangle; leng|]. rewrite Rabs_R1. lra.
    - apply (nth_ext _ _ 0 0); [leng|]. intros i Hi'.
      rewrite nth_lin, !nth_vminus by leng. ring. }
  unfold Rdiv. nra.
Qed.

(** what the accelerated certificate does bound: the gradient mapping at the returned point up to
    the length of the last move divided by the step *)
Lemma main_C75_accelerated_certificate_partial : forall n (f : list R -> R) (gradf : list R -> list R) (prox : list R -> R -> list R),
  (forall x, length x = n -> length (gradf x) = n) ->
  (forall x s, length x = n -> length (prox x s) = n) ->
  forall (cb : option (list (event RN) -> bool)) (step : strategy RN) (tol : R) max_iter max_bt (factor : R) tc (x0 : list R) (r : pg_result RN),
  length x0 = n ->
  minimize_pg (K:=RN) (fun x => (f x, gradf x)) prox cb step tol max_iter max_bt factor true tc x0 = Ok r ->
  r_success r = true ->
  exists (it : iter RN) rest, r_iters r = it :: rest /\ r_x r = it_next it /\
    let s : R := it_step it in
    let prev : list R := match rest with [] => x0 | p :: _ => it_next p end in
    0 < s ->
    norm2 (smul (/ s) (vminus (r_x r) (prox (vminus (r_x r) (smul s (gradf (r_x r)))) s)))
      < tol + norm2 (vminus (r_x r) prev) / s.
Proof.
  intros n f gradf prox Hgl Hpl cb step tol max_iter max_bt factor tc x0 r Hx0 H Hs.
  destruct (acc_iterates3 _ _ _ _ _ _ _ _ _ _ _ H) as (A & B & C).
  assert (Hmb : max_bt <> 0%nat) by (intros ->; discriminate H).
  destruct (main_C40_accelerated RN (fun x => (f x, gradf x)) prox cb step tol max_iter max_bt factor tc x0 Hmb) as (r' & E & _ & _ & P & _).
  rewrite H in E. injection E as <-. destruct (P Hs) as (c & Ec & Hc).
  rewrite C in Ec. 
  assert (G : length (last_point (K:=RN) x0 (r_iters r)) = n /\ length (acc_point (K:=RN) x0 (r_iters r)) = n /\
     match r_iters r with [] => True | it :: rest => length (last_point (K:=RN) x0 rest) = n end).
  { clear - Hgl Hpl A Hx0. induction (r_iters r) as [|it l IH]; [repeat split; auto|].
    destruct A as (Ex & Eg & Ef & En & Est & _ & Hh & Hc).
    destruct (IH Hc) as (L1 & L2 & _).
    assert (Hly : length (it_x it) = n) by (rewrite Ex; auto).
    rewrite vscale_R, vsub_R in En. cbn [snd] in Eg. rewrite Eg in En.
    pose proof (Hgl _ Hly) as Hlg.
    assert (Hl0 : length (vminus (it_x it) (smul (it_prox it) (gradf (it_x it)))) = n) by (rn; leng).
    assert (Hln : length (it_next it) = n) by (rewrite En; auto).
    split; [exact Hln|]. split; [|exact L1].
    cbn [acc_point]. rewrite extrap_R. rn. leng. }
  destruct (r_iters r) as [|it rest]; [discriminate Ec|].
  exists it, rest. split; [auto|]. split; [exact B|]. intros s prev Hsp.
  cbn [acc_cert last_point snd] in *. injection Ec as Ec.
  destruct G as (L1 & _ & L3). unfold vdivs in Ec. rn.
  rewrite vdot_R, vscale_R, !vsub_R in Ec. 
  change (@last_point RN x0 rest) with prev in Ec, L3.
  rewrite <- B in Ec, L1.
  set (x := r_x r) in *. change (it_step it) with s in Ec.
  set (p := prox (vminus x (smul s (gradf x))) s) in *.
  apply Rltb_iff in Hc.
  assert (Lp : length p = n). { apply Hpl. pose proof (Hgl _ L1). leng. }
  apply (accel_triangle n x p prev s c tol); auto.
Qed.

