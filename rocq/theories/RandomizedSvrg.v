(** * SVRG: full gradient, one sample, unbiasedness *)
From Coq Require Import ZArith Bool List Lia Reals Lra.
From Verif Require Import Num Vec Spec SpecSparse RVec ModelPenalty PenaltyFacts PenaltyFacts2 PenaltyFacts3 UtilsMain ModelRandomized SpecFiniteSum RandomizedFacts RandomizedBlocks RandomizedSaga.
Import ListNotations.
Local Open Scope nat_scope.

Section K.
Context {K : Num}.
Variable P : problem K.
Hypothesis HP : problem_wf P.
Let n := p_n P.
Let d := p_d P.
Variable ptr : list nat.
Hypothesis Hptr : partitions ptr d.
Variable B : blocks K.
Hypothesis EB : make_blocks P ptr = Ok B.

Lemma svrg_sample_eq prox step (snap gavg : vec K) i (x tmp : vec K) : i < n -> length snap = d -> length gavg = d -> length x = d -> length tmp = d ->
  exists p q x1 tmp', row_dot P x i = Ok p /\ row_dot P snap i = Ok q /\
  let diff := nsub K (p_fd P p (nth i (p_b P) n0)) (p_fd P q (nth i (p_b P) n0)) in
  length x1 = d /\ length tmp' = d /\ (forall j, nth j tmp' n0 = tmp_val P i diff tmp j) /\
  (forall j, ext P ptr i j -> nth j x1 n0 =
     nsub K (nth j x n0) (nmul K step (nadd K (tmp_val P i diff tmp j) (nmul K (nth (nth j (rblocks ptr) 0) (k_d B) n0) (nadd K (nth j gavg n0) (nmul K (p_alpha P) (nth j x n0))))))) /\
  (forall j, ~ ext P ptr i j -> nth j x1 n0 = nth j x n0) /\
  svrg_sample P B prox step snap gavg i (x, tmp) =
    (x2 <- prox x1 i (k_bsi B) (k_bsp B) (k_d B) step ;; Ok (x2, tmp')).
Proof.
  intros Hi Ls Lg Lx Lt. destruct (row_dot_ok P HP i x Hi Lx) as (p & Ep & _). destruct (row_dot_ok P HP i snap Hi Ls) as (q & Eq & _).
  exists p, q. set (diff := nsub K (p_fd P p (nth i (p_b P) n0)) (p_fd P q (nth i (p_b P) n0))).
  destruct (set_tmp_ok P HP i diff tmp Hi Lt) as (tmp' & Et & Lt' & TV).
  destruct (coef_update_ok P HP ptr Hptr B EB step gavg tmp' x i Hi Lg Lt' Lx) as (x1 & Ex & Lx1 & X1 & X2).
  change (forall j, nth j tmp' n0 = tmp_val P i diff tmp j) in TV.
  exists x1, tmp'. split; [exact Ep|]. split; [exact Eq|]. cbv zeta. fold diff. split; [exact Lx1|]. split; [exact Lt'|]. split; [exact TV|].
  split; [intros j Hj; rewrite <- TV; apply X1, Hj|]. split; [exact X2|].
  unfold svrg_sample. rewrite Ep, Eq. cbn [bind]. destruct HP as (_ & _ & Lb). fold n in Lb.
  rewrite (get_ok (p_b P) i n0) by lia. cbn [bind]. fold diff. rewrite Et. cbn [bind]. rewrite Ex. reflexivity.
Qed.
Lemma full_grad_eq (x : vec K) : length x = d -> exists g, full_grad P x = Ok g /\ length g = d.
Proof.
  intros Lx. unfold full_grad. rewrite Lx.
  assert (G : forall l (g : vec K), (forall i, In i l -> i < n) -> length g = d ->
    exists g' : vec K, forM l (fun i (grad : vec K) => p <- row_dot P x i ;; bi <- get (p_b P) i ;;
      row_loop P i (fun c a (grad : vec K) => g <- get grad c ;; set grad c (nadd K g (ndiv K (nmul K (p_fd P p bi) a) (nofnat (p_n P))))) grad) g = Ok g' /\ length g' = d).
  { induction l as [|i l IH]; intros g Hl Lg; cbn [forM]; [eauto|].
    assert (Hi : i < n) by (apply Hl; left; reflexivity).
    destruct (row_dot_ok P HP i x Hi Lx) as (p & Ep & _). rewrite Ep. cbn [bind]. destruct HP as (_ & _ & Lb). fold n in Lb.
    rewrite (get_ok (p_b P) i n0) by lia. cbn [bind].
    destruct (row_loop_upd P HP i (fun c a grad => g <- get grad c ;; set grad c (nadd K g (ndiv K (nmul K (p_fd P p (nth i (p_b P) n0)) a) (nofnat (p_n P)))))
      (fun c a v => nadd K v (ndiv K (nmul K (p_fd P p (nth i (p_b P) n0)) a) (nofnat (p_n P)))) g Hi Lg) as (g1 & E1 & L1 & _).
    { intros c a y Hc Ly. assert (c < d) by (eapply prow_lt; eauto). rewrite (get_ok y c n0) by (rewrite Ly; assumption). cbn [bind]. apply set_ok. rewrite Ly; assumption. }
    rewrite E1. cbn [bind]. apply IH; [intros; apply Hl; right; assumption|exact L1]. }
  apply G; [intros i Hi; apply in_range in Hi; fold n in Hi; lia|]. unfold vzeros. apply repeat_length.
Qed.
Lemma svrg_epoch_len prox step (snap gavg : vec K) : prox_len B prox -> length snap = d -> length gavg = d ->
  forall idx, Forall (fun i => i < n) idx -> forall s s' : vec K * vec K, length (fst s) = d -> length (snd s) = d ->
  svrg_epoch P B prox step snap gavg idx s = Ok s' -> length (fst s') = d /\ length (snd s') = d.
Proof.
  intros Hp Ls Lg. unfold svrg_epoch. induction idx as [|i idx IH]; intros F s s' L1 L2 E; cbn [forM] in E; [injection E as <-; auto|].
  inversion F; subst. apply bind_ok in E as (s1 & E1 & E2). destruct s as [x tmp]. cbn [fst snd] in L1, L2.
  destruct (svrg_sample_eq prox step snap gavg i x tmp H1 Ls Lg L1 L2) as (p & q & x1 & tmp' & _ & _ & Lx & Lt & _ & _ & _ & E').
  rewrite E' in E1. apply bind_ok in E1 as (x2 & E3 & E1). injection E1 as <-. eapply (IH H2); [| |exact E2]; cbn [fst snd].
  - rewrite (Hp _ _ _ _ E3). exact Lx.
  - exact Lt.
Qed.
(** features outside the blocks of the visited samples never change *)
Lemma svrg_untouched prox step (snap gavg : vec K) j : prox_len B prox -> prox_local P ptr B prox -> length snap = d -> length gavg = d ->
  forall idx, Forall (fun i => i < n) idx -> forall s s' : vec K * vec K, length (fst s) = d -> length (snd s) = d ->
  svrg_epoch P B prox step snap gavg idx s = Ok s' -> (forall i, In i idx -> ~ ext P ptr i j) -> nth j (fst s') n0 = nth j (fst s) n0.
Proof.
  intros Hp Hl Ls Lg. unfold svrg_epoch. induction idx as [|i idx IH]; intros F s s' L1 L2 E N; cbn [forM] in E; [injection E as <-; auto|].
  inversion F; subst. apply bind_ok in E as (s1 & E1 & E2). destruct s as [x tmp]. cbn [fst snd] in L1, L2.
  destruct (svrg_sample_eq prox step snap gavg i x tmp H1 Ls Lg L1 L2) as (p & q & x1 & tmp' & _ & _ & Lx & Lt & _ & _ & X2 & E').
  rewrite E' in E1. apply bind_ok in E1 as (x2 & E3 & E1). injection E1 as <-.
  assert (Ni : ~ ext P ptr i j) by (apply N; left; reflexivity).
  rewrite (IH H2 (x2, tmp') s'); cbn [fst snd]; auto.
  - rewrite (Hl x1 i step x2 H1 Lx E3 j Ni). apply X2, Ni.
  - rewrite (Hp _ _ _ _ E3). exact Lx.
  - intros; apply N; right; assumption.
Qed.
End K.

Local Open Scope R_scope.
Section R.
Variable P : problem RN.
Hypothesis HP : problem_wf P.
Let n := p_n P.
Let d := p_d P.
Lemma full_grad_R (x : vec RN) : length x = d -> exists g : vec RN, full_grad P x = Ok g /\ length g = d /\ forall j, (j < d)%nat -> nth j g 0 = grad_F P x j.
Proof.
  intros Lx. unfold full_grad. rewrite Lx. change (range 0 (p_n P)) with (range 0 n). unfold range. rewrite Nat.sub_0_r.
  assert (G : forall k, (k <= n)%nat -> exists g : vec RN,
    forM (seq 0 k) (fun i (grad : vec RN) => p <- row_dot P x i ;; bi <- get (p_b P) i ;;
      row_loop P i (fun c a (grad : vec RN) => g <- get grad c ;; set grad c (nadd RN g (ndiv RN (nmul RN (p_fd P p bi) a) (nofnat (p_n P))))) grad) (vzeros d) = Ok g /\
    length g = d /\ forall j, (j < d)%nat -> nth j g 0 = / INR n * Rsum (map (fun i => loss_deriv P x i * ent P i j) (seq 0 k))).
  { induction k as [|k IH]; intros Hk.
    - cbn [seq forM]. exists (vzeros (K:=RN) d). split; [reflexivity|]. split; [apply repeat_length|]. intros j Hj. cbn. rewrite (vzeros_R d). eqR. rewrite nth_zeros. lra.
    - destruct IH as (g & E & L & V); [lia|]. rewrite seq_S, forM_app. rewrite E. cbn [bind Nat.add forM].
      rewrite row_dot_R by (auto; fold n; lia). cbn [bind]. destruct HP as (_ & _ & Lb). fold n in Lb. rewrite (get_ok (p_b P) k n0) by lia. cbn [bind].
      set (dv := p_fd P (adot P k x) (nth k (p_b P) n0)).
      destruct (row_loop_upd P HP k (fun c a grad => g <- get grad c ;; set grad c (nadd RN g (ndiv RN (nmul RN dv a) (nofnat (p_n P)))))
        (fun c a v => nadd RN v (ndiv RN (nmul RN dv a) (nofnat (p_n P)))) g) as (g1 & E1 & L1 & V1); [fold n; lia|exact L| |].
      { intros c a y Hc Ly. assert (c < d)%nat by (eapply prow_lt; eauto; fold n; lia). rewrite (get_ok y c n0) by (rewrite Ly; assumption). cbn [bind]. apply set_ok. rewrite Ly; assumption. }
      rewrite E1. cbn [bind]. exists g1. split; [reflexivity|]. split; [exact L1|]. intros j Hj.
      rewrite map_app, Rsum_app. cbn [map Rsum]. specialize (V j Hj).
      assert (Hpos : 0 < INR n) by (apply lt_0_INR; lia).
      eapply eq_trans; [exact (V1 j)|]. eapply eq_trans; [apply kfold_sum|]. rewrite nofnat_R. fold n. rn. rewrite V. unfold loss_deriv, dv. rn. field. lra. }
  destruct (G n (le_n _)) as (g & E & L & V). exists g. split; [exact E|]. split; [exact L|]. exact V.
Qed.

Variable ptr : list nat.
Hypothesis Hptr : partitions ptr d.
Variable B : blocks RN.
Hypothesis EB : make_blocks P ptr = Ok B.
(** direction of sample i when its scratch entries outside the row are [tmp] *)
Lemma svrg_average step (snap gavg x tmp : vec RN) (xs : nat -> vec RN * vec RN) j :
  canonical P -> length snap = d -> length x = d -> length tmp = d -> full_grad P snap = Ok gavg ->
  (forall i, (i < n)%nat -> svrg_sample P B no_prox step snap gavg i (x, tmp) = Ok (xs i)) -> touched P ptr j ->
  / INR n * Rsum (map (fun i => nth j x 0 - nth j (fst (xs i)) 0) (seq 0 n)) =
  step * (grad_F P x j + p_alpha P * nth j x 0
          + nth j tmp 0 * (/ INR n * Rsum (map (fun i => if ext_dec P ptr i j then if in_dec Nat.eq_dec j (prow P i) then 0 else 1 else 0) (seq 0 n)))).
Proof.
  intros HC Ls Lx Lt Eg Hxs Ht. destruct (touched_facts P HP ptr Hptr B EB j Ht) as (h & Hh & Hj & Eh & Hjd & Hp & Hd). fold d in Hjd.
  destruct (full_grad_R snap Ls) as (g & Eg' & Lg & Vg). rewrite Eg in Eg'. apply Ok_inj in Eg'. subst g.
  assert (Hn : (0 < n)%nat) by (destruct Ht as (i & Hi & _); fold n in Hi; lia).
  assert (Hpos : 0 < INR n) by (apply lt_0_INR; exact Hn).
  set (st := fun i => if ext_dec P ptr i j then if in_dec Nat.eq_dec j (prow P i) then 0 else 1 else 0).
  set (u := fun i => (loss_deriv P x i - loss_deriv P snap i) * ent P i j + nth j tmp 0 * st i).
  set (v := nth j gavg 0 + p_alpha P * nth j x 0).
  assert (E : forall i, (i < n)%nat -> nth j x 0 - nth j (fst (xs i)) 0 = step * (if ext_dec P ptr i j then u i + nth (nth j (rblocks ptr) 0%nat) (k_d B) 0 * v else 0)).
  { intros i Hi. destruct (svrg_sample_eq P HP ptr Hptr B EB no_prox step snap gavg i x tmp Hi Ls Lg Lx Lt) as (p & q & x1 & tmp' & Ep & Eq & Lx1 & Lt' & _ & X1 & X2 & E').
    rewrite row_dot_R in Ep by (try exact Hi; auto). apply Ok_inj in Ep. rewrite row_dot_R in Eq by (try exact Hi; auto). apply Ok_inj in Eq.
    rewrite (Hxs i Hi) in E'. cbn [no_prox bind] in E'. apply Ok_inj in E'. rewrite E'. cbn [fst].
    destruct (ext_dec P ptr i j) as [D|D].
    - specialize (X1 j D). rn. rewrite X1. rewrite tmp_val_canonical by assumption. unfold u, v, st. destruct (ext_dec P ptr i j); [|contradiction]. destruct (in_dec Nat.eq_dec j (prow P i)) as [R1|R1].
      + unfold loss_deriv. rewrite <- Ep, <- Eq. rn. ring.
      + rewrite (ent_out P i j) by assumption. rn. ring.
    - specialize (X2 j D). rn. rewrite X2. ring. }
  rewrite (Rsum_map_ext _ (fun i => step * (if ext_dec P ptr i j then u i + nth (nth j (rblocks ptr) 0%nat) (k_d B) 0 * v else 0))).
  2:{ intros i Hi. apply in_seq in Hi. apply E. lia. }
  rewrite Rsum_map_mult. unfold n at 2. rewrite (direction_sum P HP ptr Hptr B EB); [|exact Ht|].
  2:{ intros i Hi D. unfold u, st. destruct (ext_dec P ptr i j); [contradiction|]. rewrite ent_out; [ring|]. intros Hin. apply D. eapply row_ext; eauto. }
  unfold u. rewrite (Rsum_map_ext _ (fun i => (loss_deriv P x i * ent P i j + (-1) * (loss_deriv P snap i * ent P i j)) + nth j tmp 0 * st i)) by (intros; ring).
  rewrite !Rsum_map_plus, !Rsum_map_mult. pose proof (Vg j Hjd) as I1. unfold grad_F, mean_row in I1. fold n in I1. unfold v. rewrite I1.
  unfold grad_F, mean_row. fold n. field. lra.
Qed.
End R.
