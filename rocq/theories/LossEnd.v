(** * The losses of copt/loss.py inside the solvers *)
From Coq Require Import Reals ZArith List Bool Lra Lia Psatz Permutation FunctionalExtensionality.
From Verif Require Import Num Vec Spec RVec ConvexFacts SpecLoss LossFacts LossScalar LossHess ModelPenalty PenaltyFacts PenaltyFacts3 ModelTv ModelLoss LossLink LossMain LossMain2
  ModelUtils ModelProxGrad ProxGradMain SplittingRuns ModelConstraint ConstraintFacts ModelFrankWolfe FrankWolfeFacts FrankWolfeConv FrankWolfeMain FrankWolfeMain2 FrankWolfeRuns.
Import ListNotations.
Open Scope R_scope.
Local Notation log1pR := (fun t : R => ln (1 + t)) (only parsing).

(** [f, grad = f_grad(x)], as the solvers unpack it *)
Definition as_fg {K : Num} (call : vec K -> result (fg_ret K)) (x : vec K) : K * vec K :=
  match call x with Ok (RPair v g) => (v, g) | _ => (n0, []) end.

(** ** with a callable step the values of the objective are never used *)
Section ValueFree.
Context {K : Num}.
Variables (fg1 fg2 : vec K -> K * vec K) (prox : vec K -> K -> vec K) (cb : option (list (event K) -> bool)) (f : list (event K) -> K) (tol : K) (max_iter max_bt : nat) (factor : K).
Hypothesis same_grad : forall x, snd (fg1 x) = snd (fg2 x).
Definition it_erase (i : iter K) : vec K * vec K * K * K * vec K * bool := (it_x i, it_grad i, it_prox i, it_step i, it_next i, it_found i).
Definition st_erase (s : pg_state K) := (st_x s, st_grad s, st_step s, st_n s, st_cert s, st_certs s, st_log s, map it_erase (st_iters s)).
Definition res_erase (r : pg_result K) := (r_x r, r_success r, r_cert r, r_nit r, r_step r, r_certs r, r_warned r, r_log r, map it_erase (r_iters r)).
Definition same_res (a b : result (pg_result K)) : Prop :=
  match a, b with Ok r1, Ok r2 => res_erase r1 = res_erase r2 | Err e1, Err e2 => e1 = e2 | _, _ => False end.
Lemma pg_same fuel tc : forall s1 s2, st_erase s1 = st_erase s2 ->
  same_res (pg_loop fg1 prox cb (SCallable f) tol max_iter max_bt factor fuel tc s1) (pg_loop fg2 prox cb (SCallable f) tol max_iter max_bt factor fuel tc s2).
Proof.
  induction fuel as [|fuel IH]; intros s1 s2 E; [reflexivity|]. destruct s1 as [x1 f1 g1 t1 n1' c1 cs1 l1 i1], s2 as [x2 f2 g2 t2 n2' c2 cs2 l2 i2].
  unfold st_erase in E; cbn in E. injection E as <- <- <- <- <- <- <- Ei.
  cbn [pg_loop]. unfold pg_locals; cbn [st_x st_f st_grad st_step st_n st_cert st_certs st_log st_iters].
  destruct (call_cb cb l1 _) as [stop log1]. destruct stop.
  - unfold same_res, res_erase, pg_return; cbn. congruence.
  - cbn [pg_step bind st_x st_f st_grad st_step st_n st_cert st_certs st_log st_iters pg_locals]. unfold pg_locals; cbn [st_x st_f st_grad st_step st_n st_cert st_certs st_log st_iters].
    set (lg := EvStep _ :: log1). set (xn := prox_step prox x1 g1 (f lg)).
    destruct (nltb K _ tol); [unfold same_res, res_erase, pg_return; cbn; rewrite Ei; reflexivity|].
    destruct (Nat.leb max_iter n1'); [unfold same_res, res_erase, pg_return; cbn; rewrite Ei; reflexivity|].
    apply IH. unfold st_erase; cbn. rewrite Ei, same_grad. reflexivity.
Qed.
Lemma acc_same fuel tc : forall a1 a2, st_erase (ac_st a1) = st_erase (ac_st a2) -> ac_tk a1 = ac_tk a2 -> ac_yk a1 = ac_yk a2 ->
  same_res (acc_loop fg1 prox cb (SCallable f) tol max_iter max_bt factor fuel tc a1) (acc_loop fg2 prox cb (SCallable f) tol max_iter max_bt factor fuel tc a2).
Proof.
  induction fuel as [|fuel IH]; intros [s1 tk yk] [s2 tk2 yk2] E Et Ey; [reflexivity|]. cbn in Et, Ey. subst tk2 yk2.
  destruct s1 as [x1 f1 g1 t1 n1' c1 cs1 l1 i1], s2 as [x2 f2 g2 t2 n2' c2 cs2 l2 i2].
  unfold st_erase in E; cbn in E. injection E as <- <- <- <- <- <- <- Ei.
  cbn [acc_loop]. unfold pg_locals; cbn [ac_st ac_tk ac_yk st_x st_f st_grad st_step st_n st_cert st_certs st_log st_iters].
  rewrite (same_grad yk).
  destruct (call_cb cb _ _) as [stop log1]. destruct stop.
  - unfold same_res, res_erase, pg_return; cbn. rewrite Ei. reflexivity.
  - unfold acc_step, acc_finish, pg_locals; cbn [ac_st ac_tk ac_yk st_x st_f st_grad st_step st_n st_cert st_certs st_log st_iters]. rewrite !same_grad.
    set (lg := EvStep _ :: log1). set (xn := prox_step prox yk (snd (fg2 yk)) (f lg)).
    destruct (nltb K _ tol); [unfold same_res, res_erase, pg_return; cbn; rewrite Ei; reflexivity|].
    destruct (Nat.leb max_iter n1'); [unfold same_res, res_erase, pg_return; cbn; rewrite Ei; reflexivity|].
    apply IH; auto. unfold st_erase; cbn. rewrite Ei. reflexivity.
Qed.
Lemma minimize_same acc tc x0 :
  same_res (minimize_pg fg1 prox cb (SCallable f) tol max_iter max_bt factor acc tc x0) (minimize_pg fg2 prox cb (SCallable f) tol max_iter max_bt factor acc tc x0).
Proof.
  unfold minimize_pg. destruct (Nat.eqb max_bt 0); [reflexivity|]. destruct acc.
  - apply acc_same; auto. unfold st_erase; cbn. rewrite same_grad. reflexivity.
  - pose proof (same_grad x0) as E. destruct (fg1 x0) as [v1 g1], (fg2 x0) as [v2 g2]. cbn in E. subst g2. apply pg_same. reflexivity.
Qed.
End ValueFree.
Lemma main_C88_values_unused (K : Num) (fg1 fg2 : vec K -> K * vec K) prox cb (step : list (event K) -> K) (tol : K) max_iter max_bt (factor : K) acc tc (x0 : vec K) (r1 : pg_result K) :
  (forall x, snd (fg1 x) = snd (fg2 x)) ->
  minimize_pg fg1 prox cb (SCallable step) tol max_iter max_bt factor acc tc x0 = Ok r1 ->
  exists r2, minimize_pg fg2 prox cb (SCallable step) tol max_iter max_bt factor acc tc x0 = Ok r2 /\
    r_x r1 = r_x r2 /\ r_success r1 = r_success r2 /\ r_cert r1 = r_cert r2 /\ r_nit r1 = r_nit r2 /\ r_step r1 = r_step r2 /\
    r_certs r1 = r_certs r2 /\ r_warned r1 = r_warned r2 /\ r_log r1 = r_log r2 /\ length (r_iters r1) = length (r_iters r2).
Proof.
  intros HG E. pose proof (minimize_same fg1 fg2 prox cb step tol max_iter max_bt factor HG acc tc x0) as S. rewrite E in S.
  destruct (minimize_pg fg2 _ _ _ _ _ _ _ _ _ _) as [r2|]; [|destruct S]. exists r2. split; auto. unfold same_res, res_erase in S.
  injection S as S1 S2 S3 S4 S5 S6 S7 S8 S9. repeat split; auto. apply (f_equal (@length _)) in S9. rewrite !map_length in S9. exact S9.
Qed.

(** ** accelerated proximal gradient with L1Norm.prox and step 1/lipschitz *)
Section Fista.
Variables (phi dphi : R -> R -> R) (c : R).
Hypothesis gap : forall b x y, 0 <= phi b y - phi b x - dphi b x * (y - x) <= c / 2 * ((y - x) * (y - x)).
Hypothesis Hc : 0 <= c.
Lemma fista_any (fg : list R -> R * list R) d A b alpha lam s L xs cb tol max_iter max_bt factor tc x0 (r : pg_result RN) :
  rect d A -> length b = length A -> (0 < length A)%nat -> 0 <= alpha -> 0 <= lam -> 0 <= s ->
  (forall v, length v = d -> norm2 (matvec A v) <= s * norm2 v) -> L = c * (s * s) / INR (length A) + alpha -> 0 < L ->
  (forall x, length x = d -> snd (fg x) = rgrad dphi d A b alpha x) ->
  is_min d (fun _ => True) (fun y => ridge alpha (mean_loss phi A b) y + lam * l1 y) xs -> length x0 = d ->
  minimize_pg (K:=RN) fg (@l1norm_prox RN lam) cb (SCallable (K:=RN) (fun _ => 1 / L)) tol max_iter max_bt factor true tc x0 = Ok r -> r_iters r <> [] ->
  (ridge alpha (mean_loss phi A b) (r_x r) + lam * l1 (r_x r)) - (ridge alpha (mean_loss phi A b) xs + lam * l1 xs) <= 2 * L * dist2 x0 xs / (INR (length (r_iters r)) + 1) ^ 2.
Proof.
  intros HA Hb Hn Ha Hl Hs Ho EL PL Hg (Lxs & _ & Hmin) Hx0 Er Ni.
  pose proof (rloss_convex phi dphi c gap Hc d A b alpha HA Hb Hn Ha) as FO.
  pose proof (rloss_smooth phi dphi c gap Hc d A b alpha HA Hb Hn s Hs Ho) as SU. rewrite <- EL in SU.
  destruct (main_C88_values_unused RN fg (fun x => (ridge alpha (mean_loss phi A b) x, snd (fg x))) _ _ _ _ _ _ _ _ _ _ r ltac:(reflexivity) Er) as (r2 & E2 & Ex & _ & _ & _ & _ & _ & _ & _ & El).
  assert (Ni2 : r_iters r2 <> []). { intros Z. rewrite Z in El. destruct (r_iters r); [apply Ni; auto|discriminate]. }
  assert (P1 : 0 < 1 / L) by (apply Rdiv_lt_0_compat; lra).
  pose proof (main_C74_fista_constant_step d (ridge alpha (mean_loss phi A b)) (fun x => snd (fg x)) (fun _ => True) (@l1norm_call RN lam) (@l1norm_prox RN lam) L) as T.
  specialize (T ltac:(intros x Hx; cbv beta; rewrite (Hg x Hx); apply rgrad_length; auto) (l1_convex d lam Hl) (l1_prox_on d lam Hl)).
  specialize (T ltac:(intros u v Hu Hv; cbv beta; rewrite (Hg u Hu); apply (FO u v Hu Hv)) PL ltac:(intros u v Hu Hv; cbv beta; rewrite (Hg u Hu); apply (SU u v Hu Hv)) xs).
  specialize (T ltac:(split; [auto|split; [auto|]]; intros y Hy _; cbv beta; rewrite !l1norm_call_R; apply Hmin; auto) cb (1 / L) tol max_iter max_bt factor tc x0 r2 P1 ltac:(right; unfold Rdiv; ring) Hx0 E2 Ni2).
  rewrite !l1norm_call_R in T. rewrite <- Ex, <- El in T. eapply Rle_trans; [exact T|]. right.
  assert (0 < INR (length (r_iters r)) + 1) by (pose proof (pos_INR (length (r_iters r))); lra). field. lra.
Qed.
End Fista.

Lemma main_C88_square_l1 (svds1 : matrix RN -> result RN) (A : matrix RN) (b : list R) (alpha lam s L : R) (xs : list R) cb (tol : R) max_iter max_bt (factor : R) tc (x0 : list R) (r : pg_result RN) :
  rect (m_cols A) (m_rows A) -> length b = length (m_rows A) -> (0 < length (m_rows A))%nat -> 0 <= alpha -> 0 <= lam ->
  svds1 A = Ok s -> opnorm (m_cols A) (m_rows A) s -> sq_lipschitz (K:=RN) svds1 A alpha = Ok L -> 0 < L ->
  is_min (m_cols A) (fun _ => True) (fun y => ridge alpha (mean_loss sq_term (m_rows A) b) y + lam * l1 y) xs -> length x0 = m_cols A ->
  minimize_pg (K:=RN) (as_fg (fun x => sq_f_grad (K:=RN) A b alpha x true)) (l1norm_prox (K:=RN) lam) cb (SCallable (K:=RN) (fun _ => 1 / L)) tol max_iter max_bt factor true tc x0 = Ok r ->
  r_iters r <> [] ->
  (ridge alpha (mean_loss sq_term (m_rows A) b) (r_x r) + lam * l1 (r_x r)) - (ridge alpha (mean_loss sq_term (m_rows A) b) xs + lam * l1 xs)
    <= 2 * L * dist2 x0 xs / (INR (length (r_iters r)) + 1) ^ 2.
Proof.
  intros HA Hb Hn Ha Hl Hs (Ps & Ho & _) EL PL Hmin Hx0 Er Ni.
  apply (fista_any sq_term dsq 1 sq_gap ltac:(lra) (as_fg (fun x => sq_f_grad (K:=RN) A b alpha x true)) (m_cols A) (m_rows A) b alpha lam s L xs cb tol max_iter max_bt factor tc x0 r); auto.
  - unfold sq_lipschitz in EL. rewrite Hs in EL. cbn [bind] in EL. okinj EL. rewrite INR_eq. rn. nlen. unfold Rdiv. ring.
  - intros x Hx. unfold as_fg. destruct (sq_core A b alpha HA Hb Hn x Hx) as (_ & _ & ->). reflexivity.
Qed.
Lemma main_C88_huber_l1 (svds1 : matrix RN -> result RN) (A : matrix RN) (b : list R) (alpha delta lam s L : R) (xs : list R) cb (tol : R) max_iter max_bt (factor : R) tc (x0 : list R) (r : pg_result RN) :
  rect (m_cols A) (m_rows A) -> length b = length (m_rows A) -> (0 < length (m_rows A))%nat -> 0 <= alpha -> 0 < delta -> 0 <= lam ->
  svds1 A = Ok s -> opnorm (m_cols A) (m_rows A) s -> hub_lipschitz (K:=RN) svds1 A alpha = Ok L -> 0 < L ->
  is_min (m_cols A) (fun _ => True) (fun y => ridge alpha (mean_loss (hub_term delta) (m_rows A) b) y + lam * l1 y) xs -> length x0 = m_cols A ->
  minimize_pg (K:=RN) (as_fg (fun x => hub_f_grad (K:=RN) A b alpha delta x true)) (l1norm_prox (K:=RN) lam) cb (SCallable (K:=RN) (fun _ => 1 / L)) tol max_iter max_bt factor true tc x0 = Ok r ->
  r_iters r <> [] ->
  (ridge alpha (mean_loss (hub_term delta) (m_rows A) b) (r_x r) + lam * l1 (r_x r)) - (ridge alpha (mean_loss (hub_term delta) (m_rows A) b) xs + lam * l1 xs)
    <= 2 * L * dist2 x0 xs / (INR (length (r_iters r)) + 1) ^ 2.
Proof.
  intros HA Hb Hn Ha Hd Hl Hs (Ps & Ho & _) EL PL Hmin Hx0 Er Ni.
  apply (fista_any (hub_term delta) (dhub delta) 1 (fun b x y => hub_gap delta b x y Hd) ltac:(lra) (as_fg (fun x => hub_f_grad (K:=RN) A b alpha delta x true)) (m_cols A) (m_rows A) b alpha lam s L xs cb tol max_iter max_bt factor tc x0 r); auto.
  - unfold hub_lipschitz in EL. rewrite Hs in EL. cbn [bind] in EL. okinj EL. rewrite INR_eq. rn. nlen. unfold Rdiv. ring.
  - intros x Hx. unfold as_fg. destruct (hub_core A b alpha delta HA Hb Hn Hd x Hx) as (_ & ->). reflexivity.
Qed.
Lemma main_C88_logistic_l1 (svds1 : matrix RN -> result RN) (A0 : option (matrix RN)) (A : matrix RN) (b : list R) (alpha lam s L : R) (xs : list R) cb (tol : R) max_iter max_bt (factor : R) tc (x0 : list R) (r : pg_result RN) :
  log_init (K:=RN) A0 b = Ok A -> rect (m_cols A) (m_rows A) -> 0 <= alpha -> 0 <= lam ->
  svds1 A = Ok s -> opnorm (m_cols A) (m_rows A) s -> log_lipschitz (K:=RN) svds1 A alpha = Ok L -> 0 < L ->
  is_min (m_cols A) (fun _ => True) (fun y => ridge alpha (mean_loss log_term (m_rows A) b) y + lam * l1 y) xs -> length x0 = m_cols A ->
  minimize_pg (K:=RN) (as_fg (fun x => log_f_grad (K:=RN) exp log1pR A b alpha false x true)) (l1norm_prox (K:=RN) lam) cb (SCallable (K:=RN) (fun _ => 1 / L)) tol max_iter max_bt factor true tc x0 = Ok r ->
  r_iters r <> [] ->
  (ridge alpha (mean_loss log_term (m_rows A) b) (r_x r) + lam * l1 (r_x r)) - (ridge alpha (mean_loss log_term (m_rows A) b) xs + lam * l1 xs)
    <= 2 * L * dist2 x0 xs / (INR (length (r_iters r)) + 1) ^ 2.
Proof.
  intros Hi HA Ha Hl Hs (Ps & Ho & _) EL PL Hmin Hx0 Er Ni. destruct (log_init_inv A0 b A Hi) as (_ & Hb & Hn & _).
  apply (fista_any log_term dlog (/ 4) log_gap ltac:(lra) (as_fg (fun x => log_f_grad (K:=RN) exp log1pR A b alpha false x true)) (m_cols A) (m_rows A) b alpha lam s L xs cb tol max_iter max_bt factor tc x0 r); auto.
  - unfold log_lipschitz in EL. rewrite Hs in EL. cbn [bind] in EL. okinj EL. rewrite INR_eq, nlit_R. rn. nlen. unfold Rdiv. ring.
  - intros x Hx. unfold as_fg. rewrite (log_f_grad_core A b alpha HA Hb false x x 0 true) by auto. cbn [snd]. apply (log_grad_eq A b alpha).
Qed.

(** ** Frank-Wolfe over the l1 ball, step "DR" with lipschitz *)
Lemma fw_any (phi dphi : R -> R -> R) (c : R) (fg : list R -> R * list R) (alpha : R) (A : list (list R)) (b : list R) (d : nat) (rad s L tol : R) max_iter (x0 y : list R) :
  (forall b x y, 0 <= phi b y - phi b x - dphi b x * (y - x) <= c / 2 * ((y - x) * (y - x))) -> 0 <= c ->
  rect d A -> length b = length A -> (0 < length A)%nat -> (0 < d)%nat -> 0 <= alpha -> 0 <= rad -> 0 <= s -> 0 <= tol -> (0 < max_iter)%nat ->
  (forall v, length v = d -> norm2 (matvec A v) <= s * norm2 v) -> L = c * (s * s) / INR (length A) + alpha -> 0 < L ->
  (forall x, length x = d -> fg x = (ridge alpha (mean_loss phi A b) x, rgrad dphi d A b alpha x)) ->
  length x0 = d -> l1_ball rad x0 -> length y = d -> l1_ball rad y ->
  exists r : fw_result RN,
    minimize_fw (K:=RN) fg (l1_oracle (K:=RN) rad) FSDR (Some L) tol max_iter None Vanilla x0 = Ok r /\ length (fr_x r) = d /\
    l1_ball rad (fr_x r) /\ (length (fr_iters r) <= max_iter)%nat /\
    (ridge alpha (mean_loss phi A b) (fr_x r) - ridge alpha (mean_loss phi A b) y <= tol \/
     ridge alpha (mean_loss phi A b) (fr_x r) - ridge alpha (mean_loss phi A b) y <= 8 * L * (rad * rad) / (INR max_iter + 2)).
Proof.
  intros gap Hc HA Hb Hn Hd Ha Hr Ps Ht Hm Ho EL PL Hfg Lx Bx Ly By.
  pose proof (rloss_convex phi dphi c gap Hc d A b alpha HA Hb Hn Ha) as FO.
  pose proof (rloss_smooth phi dphi c gap Hc d A b alpha HA Hb Hn s Ps Ho) as SU. rewrite <- EL in SU.
  assert (G : grad_ok d fg). { intros x Hx. rewrite (Hfg x Hx). apply rgrad_length; auto. }
  assert (Eo : forall x, length x = d -> objective fg x = ridge alpha (mean_loss phi A b) x) by (intros x Hx; unfold objective; rewrite (Hfg x Hx); reflexivity).
  assert (Eg : forall x, length x = d -> gradient fg x = rgrad dphi d A b alpha x) by (intros x Hx; unfold gradient; rewrite (Hfg x Hx); reflexivity).
  assert (FO' : first_order d (objective fg) (gradient fg)) by (intros u v Hu Hv; rewrite !Eo, Eg by auto; apply (FO u v Hu Hv)).
  assert (SU' : smooth_upper d L (objective fg) (gradient fg)) by (intros u v Hu Hv; rewrite !Eo, Eg by auto; apply (SU u v Hu Hv)).
  destruct (main_C47_l1_ball d rad L fg tol max_iter x0 y Hd Hr PL Ht Hm G FO' SU' Lx Bx Ly By) as (r & Er & Br & Lr & Rr).
  exists r. split; [exact Er|].
  assert (Lf : length (fr_x r) = d).
  { destruct (main_C77_l1_oracle_partial d rad Hd Hr) as (Hl & Hcv).
    apply (main_C41_feasible d (fun x => length x = d /\ l1_ball rad x) fg (l1_oracle (K:=RN) rad) FSDR (Some L) tol max_iter None x0 r G); auto.
    - intros u v t Hu Hv [_ Du] [_ Dv] Htt. split; [leng|]. apply Hcv; auto.
    - intros u x a Hu Hx [_ Dx]. destruct (lmo_exact_feasible _ _ _ Hl u x a Hu Hx Dx) as (o & O1 & O2 & O3 & O4). exists o. split; [exact O1|]. split; [exact O2|]. split; [split; [change (@length R (lmo_dir o) = d) in O2; unfold vplus; rewrite lin_length; lia|exact O3]|exact O4]. }
  rewrite !Eo in Rr by auto. auto.
Qed.
Lemma main_C88_square_fw (svds1 : matrix RN -> result RN) (A : matrix RN) (b : list R) (alpha rad s L tol : R) max_iter (x0 y : list R) :
  rect (m_cols A) (m_rows A) -> length b = length (m_rows A) -> (0 < length (m_rows A))%nat -> (0 < m_cols A)%nat -> 0 <= alpha -> 0 <= rad -> 0 <= tol -> (0 < max_iter)%nat ->
  svds1 A = Ok s -> opnorm (m_cols A) (m_rows A) s -> sq_lipschitz (K:=RN) svds1 A alpha = Ok L -> 0 < L ->
  length x0 = m_cols A -> l1_ball rad x0 -> length y = m_cols A -> l1_ball rad y ->
  exists r : fw_result RN,
    minimize_fw (K:=RN) (as_fg (fun x => sq_f_grad (K:=RN) A b alpha x true)) (l1_oracle (K:=RN) rad) FSDR (Some L) tol max_iter None Vanilla x0 = Ok r /\ length (fr_x r) = m_cols A /\
    l1_ball rad (fr_x r) /\ (length (fr_iters r) <= max_iter)%nat /\
    (ridge alpha (mean_loss sq_term (m_rows A) b) (fr_x r) - ridge alpha (mean_loss sq_term (m_rows A) b) y <= tol \/
     ridge alpha (mean_loss sq_term (m_rows A) b) (fr_x r) - ridge alpha (mean_loss sq_term (m_rows A) b) y <= 8 * L * (rad * rad) / (INR max_iter + 2)).
Proof.
  intros HA Hb Hn Hd Ha Hr Ht Hm Hs (Ps & Ho & _) EL PL Lx Bx Ly By.
  apply (fw_any sq_term dsq 1 (as_fg (fun x => sq_f_grad (K:=RN) A b alpha x true)) alpha (m_rows A) b (m_cols A) rad s L tol max_iter x0 y); auto; try exact sq_gap; try lra.
  - unfold sq_lipschitz in EL. rewrite Hs in EL. cbn [bind] in EL. okinj EL. rewrite INR_eq. rn. nlen. unfold Rdiv. ring.
  - intros x Hx. unfold as_fg. destruct (sq_core A b alpha HA Hb Hn x Hx) as (_ & _ & ->). reflexivity.
Qed.
Lemma main_C88_huber_fw (svds1 : matrix RN -> result RN) (A : matrix RN) (b : list R) (alpha delta rad s L tol : R) max_iter (x0 y : list R) :
  rect (m_cols A) (m_rows A) -> length b = length (m_rows A) -> (0 < length (m_rows A))%nat -> (0 < m_cols A)%nat -> 0 <= alpha -> 0 < delta -> 0 <= rad -> 0 <= tol -> (0 < max_iter)%nat ->
  svds1 A = Ok s -> opnorm (m_cols A) (m_rows A) s -> hub_lipschitz (K:=RN) svds1 A alpha = Ok L -> 0 < L ->
  length x0 = m_cols A -> l1_ball rad x0 -> length y = m_cols A -> l1_ball rad y ->
  exists r : fw_result RN,
    minimize_fw (K:=RN) (as_fg (fun x => hub_f_grad (K:=RN) A b alpha delta x true)) (l1_oracle (K:=RN) rad) FSDR (Some L) tol max_iter None Vanilla x0 = Ok r /\ length (fr_x r) = m_cols A /\
    l1_ball rad (fr_x r) /\ (length (fr_iters r) <= max_iter)%nat /\
    (ridge alpha (mean_loss (hub_term delta) (m_rows A) b) (fr_x r) - ridge alpha (mean_loss (hub_term delta) (m_rows A) b) y <= tol \/
     ridge alpha (mean_loss (hub_term delta) (m_rows A) b) (fr_x r) - ridge alpha (mean_loss (hub_term delta) (m_rows A) b) y <= 8 * L * (rad * rad) / (INR max_iter + 2)).
Proof.
  intros HA Hb Hn Hd Ha Hdl Hr Ht Hm Hs (Ps & Ho & _) EL PL Lx Bx Ly By.
  apply (fw_any (hub_term delta) (dhub delta) 1 (as_fg (fun x => hub_f_grad (K:=RN) A b alpha delta x true)) alpha (m_rows A) b (m_cols A) rad s L tol max_iter x0 y); auto; try exact (fun b x y => hub_gap delta b x y Hdl); try lra.
  - unfold hub_lipschitz in EL. rewrite Hs in EL. cbn [bind] in EL. okinj EL. rewrite INR_eq. rn. nlen. unfold Rdiv. ring.
  - intros x Hx. unfold as_fg. destruct (hub_core A b alpha delta HA Hb Hn Hdl x Hx) as (_ & ->). reflexivity.
Qed.

(** ** intercept mode *)
Lemma main_C89_pair_refuted (A0 : option (matrix RN)) (A : matrix RN) (b : list R) (alpha : R) (y : list R) :
  log_init (K:=RN) A0 b = Ok A -> rect (m_cols A) (m_rows A) -> length y = S (m_cols A) ->
  exists g : list R, length g = S (m_cols A) /\
    log_f_grad (K:=RN) exp log1pR A b alpha true y true = Ok (RGrad (K:=RN) g) /\
    as_fg (fun x => log_f_grad (K:=RN) exp log1pR A b alpha true x true) y = (0, []).
Proof.
  intros Hi HA Hy. destruct (log_init_inv A0 b A Hi) as (_ & Hb & Hn & _).
  destruct (snoc_cases y (m_cols A) Hy) as (w & c & -> & Hw).
  pose proof (log_f_grad_core A b alpha HA Hb true (w ++ [c]) w c true (split_true w c) Hw) as E.
  eexists. unfold as_fg. rewrite E. split; [|split; reflexivity]. pose proof (wsum_length (m_cols A) (m_rows A) HA (lres A b w c)). rewrite app_length. cbn [length]. leng.
Qed.
(** lipschitz ignores the intercept column: with a zero matrix it is alpha, but the gradient moves *)
Lemma main_C89_lipschitz_refuted : exists (svds1 : matrix RN -> result RN) (A : matrix RN) (b : list R) (s L : R) (x y gx gy : list R),
  log_init (K:=RN) (Some A) b = Ok A /\ rect (m_cols A) (m_rows A) /\ svds1 A = Ok s /\ opnorm (m_cols A) (m_rows A) s /\
  log_lipschitz (K:=RN) svds1 A 0 = Ok L /\
  log_f_grad (K:=RN) exp log1pR A b 0 true x true = Ok (RGrad (K:=RN) gx) /\
  log_f_grad (K:=RN) exp log1pR A b 0 true y true = Ok (RGrad (K:=RN) gy) /\
  L * norm2 (vminus x y) < norm2 (vminus gx gy).
Proof.
  set (A := mkMat (K:=RN) [[0]; [0]] 1).
  assert (HA : rect (m_cols A) (m_rows A)) by (repeat constructor).
  assert (Hi : log_init (K:=RN) (Some A) [0; 1] = Ok A).
  { apply log_init_R. split; [discriminate|]. split; [repeat constructor; lra|reflexivity]. }
  assert (Hb : length [0; 1] = length (m_rows A)) by reflexivity.
  pose proof (log_f_grad_core A [0; 1] 0 HA Hb true ([0] ++ [0]) [0] 0 true (split_true [0] 0) eq_refl) as E0.
  pose proof (log_f_grad_core A [0; 1] 0 HA Hb true ([0] ++ [1]) [0] 1 true (split_true [0] 1) eq_refl) as E1.
  exists (fun _ => Ok 0), A, [0; 1], 0, 0. do 4 eexists.
  split; [exact Hi|]. split; [exact HA|]. split; [reflexivity|]. split.
  { split; [lra|]. split.
    - intros [|v0 [|]] Hv; cbn in Hv; try lia. cbn. unfold norm2. cbn. match goal with |- sqrt ?q <= _ => replace q with 0 by ring end. rewrite sqrt_0. lra.
    - exists [1]. split; [reflexivity|]. split; [intros E; injection E as E; lra|]. cbn. unfold norm2. cbn. match goal with |- sqrt ?q = _ => replace q with 0 by ring end. rewrite sqrt_0. ring. }
  split. { unfold log_lipschitz. cbn [bind]. f_equal. rewrite INR_eq, nlit_R. rn. unfold Rdiv. ring. }
  split; [exact E0|]. split; [exact E1|].
  rewrite Rmult_0_l. 
  set (gx := _ ++ [_]). set (gy := _ ++ [Rsum (lres A [0;1] [0] 1) / _]).
  assert (S0 : sigma 0 = / 2) by (unfold sigma; rewrite Ropp_0, exp_0; field).
  assert (S1 : / 2 < sigma 1).
  { unfold sigma. replace (- (1)) with (-1) by lra. pose proof (exp_pos (-1)). pose proof (exp_increasing (-1) 0 ltac:(lra)) as EI. rewrite exp_0 in EI. apply Rinv_lt_contravar; lra. }
  assert (Lx : last (vminus gx gy) 0 = sigma 0 - sigma 1).
  { unfold gx, gy. cbn. unfold dlog. rn. replace (0 * 0 + 0 + 0) with 0 by ring. replace (0 * 0 + 0 + 1) with 1 by ring. field. }
  assert (P : 0 < dot (vminus gx gy) (vminus gx gy)).
  { pose proof (dot_self_nonneg (vminus gx gy)) as N. destruct (Req_dec (dot (vminus gx gy) (vminus gx gy)) 0) as [Z|Z]; [|lra].
    apply dot_self_zero in Z. exfalso. rewrite Z in Lx. revert Lx. clear -S0 S1. generalize (length (vminus gx gy)). intros n E. assert (last (zeros n) 0 = 0). { clear. induction n as [|n IH]; [reflexivity|]. destruct n; [reflexivity|]. exact IH. } lra. }
  unfold norm2. apply sqrt_lt_R0. exact P.
Qed.

(** such a run always returns, after at least one iteration *)
Lemma main_C88_returns (K : Num) (fg : vec K -> K * vec K) prox (step : list (event K) -> K) (tol : K) max_iter max_bt (factor : K) tc (x0 : vec K) :
  (0 < max_bt)%nat -> exists r : pg_result K, minimize_pg fg prox None (SCallable step) tol max_iter max_bt factor true tc x0 = Ok r /\ r_iters r <> [].
Proof.
  intros Hb. unfold minimize_pg. destruct (Nat.eqb_spec max_bt 0) as [|_]; [lia|].
  assert (G : forall fuel a, (S max_iter <= st_n (ac_st a) + fuel)%nat -> (0 < fuel)%nat -> exists r, acc_loop fg prox None (SCallable step) tol max_iter max_bt factor fuel tc a = Ok r /\ r_iters r <> []).
  { induction fuel as [|fuel IH]; intros [s tk yk] Hf Hp; [lia|]. cbn [acc_loop call_cb]. cbn [ac_st] in Hf.
    unfold acc_step, acc_finish; cbn [ac_st ac_tk ac_yk st_x st_f st_grad st_step st_n st_cert st_certs st_log st_iters].
    destruct (nltb K _ tol); [eexists; split; [reflexivity|cbn; discriminate]|].
    destruct (Nat.leb_spec max_iter (st_n s)); [eexists; split; [reflexivity|cbn; discriminate]|].
    apply IH; cbn [ac_st st_n]; lia. }
  apply G; cbn; lia.
Qed.
