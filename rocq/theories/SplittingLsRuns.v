(** * minimize_three_split with line search: the increments the search skips, and a concrete problem *)
From Coq Require Import ZArith QArith Reals List Bool Lra Lia Psatz.
From Verif Require Import Num Vec Spec RVec ConvexFacts ModelUtils ModelConstraint ModelPenalty ModelSplitting SplittingFacts ProxGradFacts ProxGradMain
  SplittingMain SplittingThree SplittingThree2 SplittingConv SplittingPD SplittingPD2 SplittingLS SplittingRuns SplittingLsConv.
Import ListNotations.
Open Scope R_scope.

(** f(x) = (c/2) |x|^2 *)
Definition quad (c : R) (x : list R) : R := c / 2 * dot x x.
Lemma quad_first_order n c : 0 <= c -> first_order n (quad c) (smul c).
Proof.
  intros Hc u v Lu Lv. unfold quad. pose proof (dot_self_nonneg (vminus v u)) as P.
  assert (E : dot (vminus v u) (vminus v u) = dot v v - 2 * dot u v + dot u u) by (ipx; rewrite (dot_comm v u); ring).
  assert (E2 : dot (smul c u) (vminus v u) = c * (dot u v - dot u u)) by (ipx; ring).
  rewrite E in P. rewrite E2. nra.
Qed.
Lemma quad_smooth n c : smooth_upper n c (quad c) (smul c).
Proof.
  intros u v Lu Lv. unfold quad. right.
  assert (E2 : dot (smul c u) (vminus v u) = c * (dot u v - dot u u)) by (ipx; ring).
  rewrite E2. rewrite dist2_dot by leng.
  assert (E : dot (vminus v u) (vminus v u) = dot v v - 2 * dot u v + dot u u) by (ipx; rewrite (dot_comm v u); ring).
  rewrite E. field.
Qed.

(** increments of norm at most 1e-7 skip the search, so a step that is too long is never corrected *)
Lemma main_C116_refuted : forall (L s a : R) (tol : RN) max_iter max_bt (factor : RN),
  0 < L -> s * L = 2 -> 2 * Rabs a <= 1 / 10 ^ 7 -> tol <= L * (2 * Rabs a) / 2 -> (0 < max_iter)%nat -> (0 < max_bt)%nat ->
  exists r, minimize_three_split (K:=RN) (fun x => (quad L x, smul L x)) [a] None None tol max_iter None true (Some s) max_bt factor None = Ok r /\
    tr_success r = false /\ (tr_x r = [a] \/ tr_x r = [- a]) /\ tr_stepsize r = s.
Proof.
  intros L s a tol max_iter max_bt factor HL HsL Ha Htol Hmi Hbt.
  destruct (proj2 (proj2 (main_C51_errors RN (fun x => (quad L x, smul L x)) [a] None None tol max_iter None true (Some s) max_bt factor None)) Hbt Hmi)
    as (r & Hr).
  exists r. split; [exact Hr|].
  assert (Hs : s <> 0) by (intros E; rewrite E in HsL; lra).
  pose proof (main_C51_trace _ _ _ _ _ _ _ _ _ _ _ _ _ _ Hr) as T. cbv zeta in T.
  assert (Inv : forall older newer i, tr_iters r = newer ++ i :: older ->
     exists b, (b = a \/ b = - a) /\ ti_x i = [- b] /\ ti_znext i = [- b] /\ ti_unext i = [0] /\ ti_out i = s /\ ti_cert i = L * Rabs b).
  { induction older as [|p older IH]; intros newer i Ei;
    destruct (T _ _ _ Ei) as (Hst & Els & Etr & Ezn & Eun & Ec & Hno & _).
    all: assert (Hb : exists b, (b = a \/ b = - a) /\ ti_z i = [b] /\ ti_u i = [0] /\ ti_in i = s).
    { exists a. destruct Hst as (A & B & C). rewrite C. cbn. rewrite A, B. cbn. auto. }
    2:{ destruct Hst as (A & B & C). destruct (IH (newer ++ [i]) p) as (b & Hb & _ & E1 & E2 & E3 & _); [rewrite <- app_assoc; exact Ei|].
        exists (- b). rewrite A, B, C, E1, E2, E3. split; [destruct Hb as [-> | ->]; [right; reflexivity|left; lra]|]. auto. }
    all: destruct Hb as (b & Hb & Ez & Eu & Ein);
    assert (Rb : Rabs b = Rabs a) by (destruct Hb as [-> | ->]; [reflexivity|apply Rabs_Ropp]);
    exists b; split; [exact Hb|];
    assert (Tr : @vsub RN (ti_z i) (@vscale RN s (@vadd RN (ti_u i) (smul L (ti_z i)))) = [- b])
      by (rewrite Ez, Eu; cbn; f_equal; rn; clear - HsL; replace (b - s * (0 + L * b)) with (b - s * L * b) by ring; rewrite HsL; ring);
    assert (Nrm : norm2 [- b - b] = 2 * Rabs b)
      by (unfold norm2; cbn; replace ((- b - b) * (- b - b) + 0) with (Rsqr (2 * b)) by (unfold Rsqr; ring); rewrite sqrt_Rsqr_abs, Rabs_mult, (Rabs_pos_eq 2) by lra; reflexivity);
    assert (El : ti_ls i = false) by
      (rewrite Els, Ein; cbn [snd]; cbv beta; rewrite Tr, Ez, andb_true_r;
       change (nltb RN) with Rltb; rewrite vnorm_R, vsub_R;
       replace (vminus [- b] [b]) with [- b - b] by (cbn; f_equal; ring);
       rewrite Nrm, Rb; unfold nlit; rn; match goal with |- Rltb ?x ?y = false => destruct (Rltb_spec x y) as [HH|HH]; [exfalso|reflexivity] end;
       clear - HH Ha; replace (1 / 10 ^ 7) with (1 / 10000000) in Ha by (simpl; lra); lra);
    destruct (Hno El) as (E1 & E2 & E3);
    assert (Ex : ti_x i = [- b]) by (rewrite Etr, E1, Ein; exact Tr);
    assert (Ezn' : ti_znext i = [- b]) by (rewrite Ezn, Ex, E2, Ein, Eu; cbn; f_equal; rn; ring);
    split; [exact Ex|]; split; [exact Ezn'|];
    split; [rewrite Eun, Ex, Ezn', E2, Ein, Eu; cbn; f_equal; rn; field; exact Hs|];
    split; [rewrite E3, Ein; reflexivity|];
    rewrite Ec, Ex, Ez, E2, Ein, vnorm_R, vsub_R;
    replace (vminus [- b] [b]) with [- b - b] by (cbn; f_equal; ring);
    rewrite Nrm; rn; rewrite <- HsL; clear - Hs; field; exact Hs. }
  destruct (ts_solver_good _ _ _ _ _ _ _ _ _ _ _ _ _ Hr) as [_ [(i0 & older0 & Ei0 & Ex & Ec & Est & _) _ _ _]].
  destruct (Inv older0 [] i0 Ei0) as (b & Hb & X & _ & _ & Eo & C).
  split.
  - destruct (tr_success r) eqn:Esu; auto. exfalso.
    destruct (main_C51_contract _ _ _ _ _ _ _ _ _ _ _ _ _ _ Hr) as (_ & _ & _ & Hsu & _).
    destruct (Hsu Esu) as (_ & Hc & _). rewrite Ec, C in Hc. change (nltb RN) with Rltb in Hc. apply Rltb_iff in Hc.
    assert (Rb : Rabs b = Rabs a) by (destruct Hb as [-> | ->]; [reflexivity|apply Rabs_Ropp]).
    rewrite Rb in Hc. rn. lra.
  - rewrite Ex, X, Est, Eo. split; [|reflexivity].
    destruct Hb as [-> | ->]; [right; reflexivity|left; f_equal; lra].
Qed.

(** the partial theorem applies: box-constrained lasso, 1-smooth, line search on, started at step [s] *)
Lemma box_three_split_ls n (alpha a : R) (b x0 : vec RN) (s tol : RN) max_bt (factor : RN) : 0 <= alpha -> 0 <= a -> length b = n -> length x0 = n ->
  0 < s <= 10 -> 1 / 1000 <= tol -> 1 / 10 <= factor <= 1 -> 1 / 10 <= s -> s * factor ^ max_bt <= 1 ->
  exists max_iter r, minimize_three_split (K:=RN) (fun x => (sqd b x, vminus x b)) x0 (Some (@l1norm_prox RN alpha))
    (Some (fun x _ => @linf_prox RN a x)) tol max_iter None true (Some s) (S max_bt) factor None = Ok r /\ tr_success r = true.
Proof.
  intros Ha H0 Lb Lx Hs Htol Hf Hs1 Hbt. destruct (box_ok n alpha a b Ha H0 Lb) as (A1 & A2 & A3 & A4 & A5 & A6 & A7).
  destruct (box_solution n alpha a b Ha H0 Lb) as (zs & us & Lz & S1 & S2).
  set (z0 := @linf_prox RN a x0).
  set (dist := norm2 (vminus z0 zs) + s * (norm2 (vminus (vminus z0 b) (vplus (vminus zs b) us)) + norm2 us)).
  set (smin := Rmin s (factor / 1)).
  assert (Hmin : 1 / 10 <= smin) by (unfold smin; apply Rmin_glb; [exact Hs1|]; unfold Rdiv at 2; rewrite Rinv_1, Rmult_1_r; apply Hf).
  set (gain := / (2 * (1 + 2 * s * 1)) * (tol * smin * (tol * smin)) - 2 * s * / 2 ^ 52).
  assert (Hp : 1 / 10000 <= tol * smin).
  { apply Rle_trans with (1 / 1000 * (1 / 10)); [lra|]. apply Rmult_le_compat; first [exact Htol|exact Hmin|lra]. }
  assert (Hgain : 0 < gain).
  { unfold gain. assert (P1 : 1 / 10000 * (1 / 10000) <= tol * smin * (tol * smin)) by (apply Rmult_le_compat; lra).
    assert (P2 : / 42 <= / (2 * (1 + 2 * s * 1))) by (apply Rinv_le_contravar; rn; lra).
    assert (P3 : / 42 * (1 / 10000 * (1 / 10000)) <= / (2 * (1 + 2 * s * 1)) * (tol * smin * (tol * smin))) by (apply Rmult_le_compat; lra).
    assert (P4 : / 2 ^ 52 = / 4503599627370496) by (f_equal; lra).
    rewrite P4. rn. lra. }
  destruct (archimedean_bound (dist * dist) gain Hgain) as (N & HN).
  exists (S N).
  destruct (main_C116_line_search_converges_partial n (sqd b) (fun x => vminus x b) (fun _ => True) (linf_ball a) (@l1norm_call RN alpha) (fun _ => 0)
    (Some (@l1norm_prox RN alpha)) (Some (fun x _ => @linf_prox RN a x)) x0 tol (S N) true (Some s) (S max_bt) factor 1 zs us
    A1 A2 A3 A4 Rlt_0_1 A5 A6 A7 Lx) as (r & Hr); auto.
  - split; [apply Hs|reflexivity].
  - split; [eapply Rlt_le_trans; [|apply Hf]; lra|apply Hf].
  - eapply Rlt_le_trans; [|exact Htol]. lra.
  - lia.
  - rewrite Nat.sub_succ, Nat.sub_0_r. unfold Rdiv. rewrite Rinv_1, Rmult_1_r. exact Hbt.
  - fold smin. eapply Rlt_le_trans; [|exact Hp]. simpl. lra.
  - rewrite S_INR. replace (INR N + 1 - 1) with (INR N) by ring. exact HN.
  - exists r. exact Hr.
Qed.

Lemma ls_runs :
  (forall n (alpha a : R) (b x0 : vec RN), 0 <= alpha -> 0 <= a -> length b = n -> length x0 = n ->
     exists max_iter r, minimize_three_split (K:=RN) (fun x => (sqd b x, vminus x b)) x0 (Some (@l1norm_prox RN alpha))
       (Some (fun x _ => @linf_prox RN a x)) (1 / 1000) max_iter None true (Some 8) 4 (1 / 2) None = Ok r /\ tr_success r = true) /\
  (first_order 1 (quad 100) (smul 100) /\ smooth_upper 1 100 (quad 100) (smul 100) /\
   is_min 1 (fun _ => True) (quad 100) [0] /\
   forall max_iter, (0 < max_iter)%nat ->
     exists r, minimize_three_split (K:=RN) (fun x => (quad 100 x, smul 100 x)) [4 / 10 ^ 8] None None (1 / 10 ^ 6) max_iter None true (Some (1 / 50)) 100
       (7 / 10) None = Ok r /\ tr_success r = false).
Proof.
  split.
  - intros n alpha a b x0 Ha H0 Lb Lx. apply (box_three_split_ls n alpha a b x0 8 (1 / 1000) 3 (1 / 2)); auto; simpl; lra.
  - split; [apply quad_first_order; lra|]. split; [apply quad_smooth|]. split.
    + split; [reflexivity|]. split; [exact I|]. intros y _ _. unfold quad. pose proof (dot_self_nonneg y). simpl. lra.
    + intros max_iter Hm.
      destruct (main_C116_refuted 100 (1 / 50) (4 / 10 ^ 8) (1 / 10 ^ 6) max_iter 100 (7 / 10)) as (r & Hr & Hs & _); auto; try lra.
      * rewrite Rabs_pos_eq by (simpl; lra). simpl. lra.
      * rewrite Rabs_pos_eq by (simpl; lra). simpl. lra.
      * lia.
      * exists r. auto.
Qed.
