(** * VRTOS: one sample, invariants, totality *)
From Coq Require Import ZArith Bool List Lia Reals Lra.
From Verif Require Import Num Vec Spec SpecSparse RVec ModelPenalty PenaltyFacts PenaltyFacts2 PenaltyFacts3 UtilsMain ModelRandomized SpecFiniteSum RandomizedFacts RandomizedBlocks RandomizedSaga.
Import ListNotations.
Local Open Scope nat_scope.

Lemma forM_flat_map {A C S} (g : A -> list C) (f : C -> S -> result S) l : forall s, forM (flat_map g l) f s = forM l (fun a s => forM (g a) f s) s.
Proof. induction l as [|a l IH]; intros s; cbn [flat_map forM]; [reflexivity|]. rewrite forM_app. destruct (forM (g a) f s); cbn [bind]; auto. Qed.
Lemma forM_guard {A S} (g : A -> bool) (f : A -> S -> result S) e l : forall s s',
  forM l (fun a s => if g a then f a s else Err e) s = Ok s' -> forM l f s = Ok s' /\ forall a, In a l -> g a = true.
Proof.
  induction l as [|a l IH]; intros s s' E; cbn [forM] in *; [split; [exact E|intros a []]|].
  destruct (g a) eqn:G; [|discriminate]. apply bind_ok in E as (s1 & E1 & E2). apply IH in E2 as (E2 & F). rewrite E1. cbn [bind]. split; [exact E2|].
  intros b [<-|H]; auto.
Qed.
Lemma get_err {A} (l : list A) i : length l <= i -> get l i = Err IndexError.
Proof. intros H. unfold get. rewrite (proj2 (nth_error_None l i) H). reflexivity. Qed.

Section K.
Context {K : Num}.
Variable P : problem K.
Hypothesis HP : problem_wf P.
Let n := p_n P.
Let d := p_d P.
Variables ptr1 ptr2 : list nat.
Hypothesis Hptr1 : partitions ptr1 d.
Hypothesis Hptr2 : partitions ptr2 d.
Variables B1 B2 : blocks K.
Hypothesis EB1 : make_blocks P ptr1 = Ok B1.
Hypothesis EB2 : make_blocks P ptr2 = Ok B2.

(** the average of y0 and y1 with weights 1/d1, 1/d2 at feature j *)
Definition wavg (y0 y1 : vec K) (j : nat) : K :=
  let da := ndiv K n1 (nth (nth j (rblocks ptr1) 0) (k_d B1) n0) in
  let db := ndiv K n1 (nth (nth j (rblocks ptr2) 0) (k_d B2) n0) in
  ndiv K (nadd K (nmul K da (nth j y0 n0)) (nmul K db (nth j y1 n0))) (nadd K da db).
Definition in_range_d (j : nat) : bool :=
  Nat.ltb (nth j (rblocks ptr1) 0) (length (k_d B1)) && Nat.ltb (nth j (rblocks ptr2) 0) (length (k_d B2)).
Lemma B1_ptr : k_ptr B1 = ptr1. Proof. apply (make_blocks_spec P HP ptr1 Hptr1 B1 EB1). Qed.
Lemma B2_ptr : k_ptr B2 = ptr2. Proof. apply (make_blocks_spec P HP ptr2 Hptr2 B2 EB2). Qed.

Lemma zupdate_body (y0 y1 z : vec K) j : j < d -> length y0 = d -> length y1 = d -> length z = d ->
  (h1 <- get (rblocks (k_ptr B1)) j ;; d1 <- get (k_d B1) h1 ;;
   h2 <- get (rblocks (k_ptr B2)) j ;; d2 <- get (k_d B2) h2 ;;
   a <- get y0 j ;; b <- get y1 j ;;
   set z j (ndiv K (nadd K (nmul K (ndiv K n1 d1) a) (nmul K (ndiv K n1 d2) b)) (nadd K (ndiv K n1 d1) (ndiv K n1 d2))))
  = if in_range_d j then Ok (upd z j (wavg y0 y1 j)) else Err IndexError.
Proof.
  intros Hj L0 L1 Lz. rewrite B1_ptr, B2_ptr. unfold in_range_d.
  rewrite (get_ok (rblocks ptr1) j 0) by (rewrite (rblocks_length _ _ Hptr1); exact Hj). cbn [bind].
  destruct (Nat.ltb_spec (nth j (rblocks ptr1) 0) (length (k_d B1))) as [A|A]; [|rewrite get_err by exact A; reflexivity].
  rewrite (get_ok (k_d B1) _ n0) by exact A. cbn [bind].
  rewrite (get_ok (rblocks ptr2) j 0) by (rewrite (rblocks_length _ _ Hptr2); exact Hj). cbn [bind].
  destruct (Nat.ltb_spec (nth j (rblocks ptr2) 0) (length (k_d B2))) as [A'|A']; [|rewrite get_err by exact A'; reflexivity].
  rewrite (get_ok (k_d B2) _ n0) by exact A'. cbn [bind andb].
  rewrite (get_ok y0 j n0), (get_ok y1 j n0) by (fold d in L0, L1; lia). cbn [bind]. rewrite set_ok by lia. reflexivity.
Qed.

Section OneB.
Variable ptr : list nat.
Hypothesis Hptr : partitions ptr d.
Variable B : blocks K.
Hypothesis EB : make_blocks P ptr = Ok B.
Definition ext_list (i : nat) : list nat := flat_map (blk ptr) (pblocks P ptr i).
Lemma in_ext_list i j : In j (ext_list i) <-> ext P ptr i j.
Proof. unfold ext_list, ext. rewrite in_flat_map. reflexivity. Qed.
Lemma ext_lt i j : i < n -> ext P ptr i j -> j < d.
Proof. intros Hi (h & Hh & Hj). exact (proj2 (ext_block P HP ptr Hptr i j h Hi Hh Hj)). Qed.
Lemma ext_list_NoDup i : i < n -> NoDup (ext_list i).
Proof.
  intros Hi. unfold ext_list. apply NoDup_flat_map; [apply pblocks_NoDup| |].
  - intros. apply range_NoDup.
  - intros h h' j A A' N. eapply blocks_disjoint; eauto.
Qed.
Lemma block_loop_flat {St} i (body : nat -> nat -> St -> result St) s : i < n ->
  block_loop (k_bsi B) (k_bsp B) (k_ptr B) i body s = forM (ext_list i) (fun j s => body (nth j (rblocks ptr) 0) j s) s.
Proof.
  intros Hi. rewrite (block_loop_eq P HP ptr Hptr B i body s EB Hi). unfold ext_list. rewrite forM_flat_map.
  apply forM_ext_in. intros h s' Hh. apply forM_ext_in. intros j s'' Hj. destruct (ext_block P HP ptr Hptr i j h Hi Hh Hj) as (-> & _). reflexivity.
Qed.
Lemma ext_loop i (body : nat -> vec K -> result (vec K)) (f : nat -> K -> K) (x : vec K) : i < n -> length x = d ->
  (forall j y, ext P ptr i j -> length y = d -> body j y = Ok (upd y j (f j (nth j y n0)))) ->
  exists x', forM (ext_list i) body x = Ok x' /\ length x' = d /\
    (forall j, ext P ptr i j -> nth j x' n0 = f j (nth j x n0)) /\ (forall j, ~ ext P ptr i j -> nth j x' n0 = nth j x n0).
Proof.
  intros Hi Lx Hb.
  destruct (forM_upd_each (ext_list i) body f (fun x => length x = d) (ext_list_NoDup i Hi)) with (x := x) as (y & He & Hl & _ & H1 & H2).
  - intros j z Hj Lz dd Hlt. apply in_ext_list in Hj. rewrite Hb by assumption. rewrite (nth_indep z dd n0 Hlt). split; [reflexivity|]. rewrite upd_length; exact Lz.
  - exact Lx.
  - apply Forall_forall. intros j Hj. apply in_ext_list in Hj. rewrite Lx. exact (ext_lt i j Hi Hj).
  - exists y. split; [exact He|]. split; [congruence|]. split; intros j Hj; rewrite <- in_ext_list in Hj; auto.
Qed.

Lemma vr_zupdate_inv (y0 y1 z z' : vec K) i : i < n -> length y0 = d -> length y1 = d -> length z = d ->
  vr_zupdate B B1 B2 y0 y1 i z = Ok z' -> length z' = d /\
  (forall j, ext P ptr i j -> in_range_d j = true /\ nth j z' n0 = wavg y0 y1 j) /\ (forall j, ~ ext P ptr i j -> nth j z' n0 = nth j z n0).
Proof.
  intros Hi L0 L1 Lz E. unfold vr_zupdate in E. rewrite block_loop_flat in E by exact Hi.
  assert (Hg : forall l (z z' : vec K), (forall j, In j l -> j < d) -> length z = d ->
    forM l (fun bj z => h1 <- get (rblocks (k_ptr B1)) bj ;; d1 <- get (k_d B1) h1 ;; h2 <- get (rblocks (k_ptr B2)) bj ;; d2 <- get (k_d B2) h2 ;;
      a <- get y0 bj ;; b <- get y1 bj ;; set z bj (ndiv K (nadd K (nmul K (ndiv K n1 d1) a) (nmul K (ndiv K n1 d2) b)) (nadd K (ndiv K n1 d1) (ndiv K n1 d2)))) z = Ok z' ->
    forM l (fun j z => if in_range_d j then Ok (upd z j (wavg y0 y1 j)) else Err IndexError) z = Ok z').
  { induction l as [|j l IH]; intros z1 z2 Hl L E1; cbn [forM] in *; [exact E1|]. rewrite zupdate_body in E1 by (auto; apply Hl; left; reflexivity).
    destruct (in_range_d j); [|exact E1]. cbn [bind] in *. apply IH; auto; [intros; apply Hl; right; assumption|]. rewrite upd_length; exact L. }
  apply Hg in E; [|intros j Hj; apply in_ext_list in Hj; exact (ext_lt i j Hi Hj)|exact Lz].
  apply (forM_guard in_range_d (fun j z => Ok (upd z j (wavg y0 y1 j)))) in E as (E & G).
  destruct (ext_loop i (fun j z => Ok (upd z j (wavg y0 y1 j))) (fun j _ => wavg y0 y1 j) z Hi Lz) as (z1 & E1 & L & V1 & V2); [reflexivity|].
  assert (z1 = z') by (apply Ok_inj; eapply eq_trans; [symmetry; exact E1|exact E]). subst z1. split; [exact L|]. split; [|exact V2]. intros j Hj. split; [apply G, in_ext_list, Hj|auto].
Qed.
Lemma vr_zupdate_ok (y0 y1 z : vec K) i : i < n -> length y0 = d -> length y1 = d -> length z = d ->
  (forall j, j < d -> in_range_d j = true) -> exists z', vr_zupdate B B1 B2 y0 y1 i z = Ok z'.
Proof.
  intros Hi L0 L1 Lz Hr. unfold vr_zupdate. rewrite block_loop_flat by exact Hi.
  edestruct (ext_loop i (fun bj z => h1 <- get (rblocks (k_ptr B1)) bj ;; d1 <- get (k_d B1) h1 ;; h2 <- get (rblocks (k_ptr B2)) bj ;; d2 <- get (k_d B2) h2 ;;
      let da := ndiv K n1 d1 in let db := ndiv K n1 d2 in
      a <- get y0 bj ;; b <- get y1 bj ;; set z bj (ndiv K (nadd K (nmul K da a) (nmul K db b)) (nadd K da db))) (fun j _ => wavg y0 y1 j) z Hi Lz) as (z1 & E1 & _).
  - intros j y Hj Ly. cbv zeta. rewrite zupdate_body by (auto; exact (ext_lt i j Hi Hj)). rewrite Hr by exact (ext_lt i j Hi Hj). reflexivity.
  - exists z1. exact E1.
Qed.
Lemma vr_xupdate_ok step (z y avg tmp x : vec K) i : i < n -> length z = d -> length y = d -> length avg = d -> length tmp = d -> length x = d ->
  exists x', vr_xupdate P B step z y avg tmp i x = Ok x' /\ length x' = d /\
   (forall j, ext P ptr i j -> nth j x' n0 = nsub K (nsub K (nmul K (nofZ K 2) (nth j z n0)) (nth j y n0))
      (nmul K (nmul K step (nlit 1 2)) (nadd K (nth j tmp n0) (nmul K (nth (nth j (rblocks ptr) 0) (k_d B) n0) (nadd K (nth j avg n0) (nmul K (p_alpha P) (nth j z n0))))))) /\
   (forall j, ~ ext P ptr i j -> nth j x' n0 = nth j x n0).
Proof.
  intros Hi Lz Ly La Lt Lx. unfold vr_xupdate. rewrite block_loop_flat by exact Hi.
  eapply (ext_loop i _ (fun j _ => nsub K (nsub K (nmul K (nofZ K 2) (nth j z n0)) (nth j y n0))
      (nmul K (nmul K step (nlit 1 2)) (nadd K (nth j tmp n0) (nmul K (nth (nth j (rblocks ptr) 0) (k_d B) n0) (nadd K (nth j avg n0) (nmul K (p_alpha P) (nth j z n0)))))))); auto.
  intros j x' Hj Lx'. pose proof (ext_lt i j Hi Hj) as Hjd. destruct Hj as (h & Hh & Hj). destruct (ext_block P HP ptr Hptr i j h Hi Hh Hj) as (-> & _).
  pose proof (bw_in P HP ptr Hptr B EB i h Hi Hh).
  rewrite (get_ok (k_d B) h n0) by assumption. cbn [bind]. rewrite (get_ok avg j n0), (get_ok z j n0) by lia. cbn [bind].
  rewrite (get_ok y j n0), (get_ok tmp j n0) by lia. cbn [bind]. rewrite set_ok by lia. reflexivity.
Qed.
Lemma vr_yupdate_ok (z x y : vec K) i : i < n -> length z = d -> length x = d -> length y = d ->
  exists y', vr_yupdate B z x i y = Ok y' /\ length y' = d /\
   (forall j, ext P ptr i j -> nth j y' n0 = nadd K (nth j y n0) (nsub K (nth j x n0) (nth j z n0))) /\
   (forall j, ~ ext P ptr i j -> nth j y' n0 = nth j y n0).
Proof.
  intros Hi Lz Lx Ly. unfold vr_yupdate. rewrite block_loop_flat by exact Hi.
  eapply (ext_loop i _ (fun j yb => nadd K yb (nsub K (nth j x n0) (nth j z n0)))); auto.
  intros j y' Hj Ly'. pose proof (ext_lt i j Hi Hj) as Hjd.
  rewrite (get_ok x j n0), (get_ok z j n0) by lia. cbn [bind]. rewrite (get_ok y' j n0) by lia. cbn [bind]. rewrite set_ok by lia. reflexivity.
Qed.
End OneB.

Definition vr_len (s : vr_state K) : Prop :=
  length (vr_y0 s) = d /\ length (vr_y1 s) = d /\ length (vr_x1 s) = d /\ length (vr_x2 s) = d /\ length (vr_z s) = d /\
  length (vr_mem s) = n /\ length (vr_avg s) = d /\ length (vr_tmp s) = d.
Lemma vr_init_len (x0 : vec K) : length x0 = d -> vr_len (vr_init P x0).
Proof. intros L. unfold vr_len, vr_init, vzeros; cbn. rewrite !repeat_length. repeat split; auto. Qed.

Definition xval (ptr : list nat) (B : blocks K) (step diff : K) (i : nat) (s : vr_state K) (y : vec K) (j : nat) : K :=
  nsub K (nsub K (nmul K (nofZ K 2) (nth j (vr_z s) n0)) (nth j y n0))
      (nmul K (nmul K step (nlit 1 2)) (nadd K (tmp_val P i diff (vr_tmp s) j) (nmul K (nth (nth j (rblocks ptr) 0) (k_d B) n0) (nadd K (nth j (vr_avg s) n0) (nmul K (p_alpha P) (nth j (vr_z s) n0)))))).

Lemma vr_sample_inv prox1 prox2 step i s s' : prox_len B1 prox1 -> prox_len B2 prox2 -> i < n -> vr_len s ->
  vr_sample P B1 B2 prox1 prox2 step i s = Ok s' -> vr_len s' /\
  exists p x1a x2a, row_dot P (vr_z s) i = Ok p /\
  let g := p_fd P p (nth i (p_b P) n0) in let diff := nsub K g (nth i (vr_mem s) n0) in
  length x1a = d /\ length x2a = d /\
  (forall j, ext P ptr1 i j -> nth j x1a n0 = xval ptr1 B1 step diff i s (vr_y0 s) j) /\
  (forall j, ~ ext P ptr1 i j -> nth j x1a n0 = nth j (vr_x1 s) n0) /\
  prox1 x1a i (k_bsi B1) (k_bsp B1) (k_d B1) step = Ok (vr_x1 s') /\
  (forall j, ext P ptr1 i j -> nth j (vr_y0 s') n0 = nadd K (nth j (vr_y0 s) n0) (nsub K (nth j (vr_x1 s') n0) (nth j (vr_z s) n0))) /\
  (forall j, ~ ext P ptr1 i j -> nth j (vr_y0 s') n0 = nth j (vr_y0 s) n0) /\
  (forall j, ext P ptr2 i j -> nth j x2a n0 = xval ptr2 B2 step diff i s (vr_y1 s) j) /\
  (forall j, ~ ext P ptr2 i j -> nth j x2a n0 = nth j (vr_x2 s) n0) /\
  prox2 x2a i (k_bsi B2) (k_bsp B2) (k_d B2) step = Ok (vr_x2 s') /\
  (forall j, ext P ptr2 i j -> nth j (vr_y1 s') n0 = nadd K (nth j (vr_y1 s) n0) (nsub K (nth j (vr_x2 s') n0) (nth j (vr_z s) n0))) /\
  (forall j, ~ ext P ptr2 i j -> nth j (vr_y1 s') n0 = nth j (vr_y1 s) n0) /\
  (forall j, ext P ptr1 i j \/ ext P ptr2 i j -> in_range_d j = true /\ nth j (vr_z s') n0 = wavg (vr_y0 s') (vr_y1 s') j) /\
  (forall j, ~ ext P ptr1 i j -> ~ ext P ptr2 i j -> nth j (vr_z s') n0 = nth j (vr_z s) n0) /\
  vr_mem s' = upd (vr_mem s) i g /\
  (forall c, nth c (vr_avg s') n0 = kfold P i c (fun a g => nadd K g (ndiv K (nmul K diff a) (nofnat n))) (nth c (vr_avg s) n0)) /\
  (forall c, nth c (vr_tmp s') n0 = if in_dec Nat.eq_dec c (prow P i) then n0 else nth c (vr_tmp s) n0).
Proof.
  intros Hp1 Hp2 Hi (L0 & L1 & L2 & L3 & L4 & L5 & L6 & L7) E.
  destruct (row_dot_ok P HP i (vr_z s) Hi L4) as (p & Ep & _). unfold vr_sample in E. rewrite Ep in E. cbn [bind] in E.
  destruct HP as (_ & _ & Lb). fold n in Lb. rewrite (get_ok (p_b P) i n0) in E by lia. cbn [bind] in E. rewrite (get_ok (vr_mem s) i n0) in E by lia. cbn [bind] in E.
  set (g := p_fd P p (nth i (p_b P) n0)) in *. set (diff := nsub K g (nth i (vr_mem s) n0)) in *.
  destruct (set_tmp_ok P HP i diff (vr_tmp s) Hi L7) as (tmp & Et & Lt & TV). fold d in Lt. rewrite Et in E. cbn [bind] in E.
  change (forall j, nth j tmp n0 = tmp_val P i diff (vr_tmp s) j) in TV.
  destruct (vr_xupdate_ok ptr1 Hptr1 B1 EB1 step (vr_z s) (vr_y0 s) (vr_avg s) tmp (vr_x1 s) i Hi L4 L0 L6 Lt L2) as (x1a & Ex1 & Lx1 & X1 & X1').
  rewrite Ex1 in E. cbn [bind] in E. apply bind_ok in E as (x1 & Eq1 & E).
  assert (Lx1p : length x1 = d) by (rewrite (Hp1 _ _ _ _ Eq1); exact Lx1).
  destruct (vr_yupdate_ok ptr1 Hptr1 B1 EB1 (vr_z s) x1 (vr_y0 s) i Hi L4 Lx1p L0) as (y0 & Ey0 & Ly0 & Y0 & Y0').
  rewrite Ey0 in E. cbn [bind] in E.
  destruct (vr_xupdate_ok ptr2 Hptr2 B2 EB2 step (vr_z s) (vr_y1 s) (vr_avg s) tmp (vr_x2 s) i Hi L4 L1 L6 Lt L3) as (x2a & Ex2 & Lx2 & X2 & X2').
  rewrite Ex2 in E. cbn [bind] in E. apply bind_ok in E as (x2 & Eq2 & E).
  assert (Lx2p : length x2 = d) by (rewrite (Hp2 _ _ _ _ Eq2); exact Lx2).
  destruct (vr_yupdate_ok ptr2 Hptr2 B2 EB2 (vr_z s) x2 (vr_y1 s) i Hi L4 Lx2p L1) as (y1 & Ey1 & Ly1 & Y1 & Y1').
  rewrite Ey1 in E. cbn [bind] in E.
  apply bind_ok in E as (za & Ez1 & E). apply bind_ok in E as (zb & Ez2 & E).
  apply (vr_zupdate_inv ptr1 Hptr1 B1 EB1) in Ez1 as (Lz1 & Z1 & Z1'); auto.
  apply (vr_zupdate_inv ptr2 Hptr2 B2 EB2) in Ez2 as (Lz2 & Z2 & Z2'); auto.
  destruct (saga_memory_ok P HP i diff (vr_avg s) tmp Hi L6 Lt) as (avg' & tmp' & Em & La' & Lt' & M1 & M2 & M3).
  rewrite Em in E. cbn [bind] in E. rewrite set_ok in E by lia. cbn [bind] in E. apply Ok_inj in E. subst s'. cbn [vr_y0 vr_y1 vr_x1 vr_x2 vr_z vr_mem vr_avg vr_tmp].
  split. { unfold vr_len; cbn. rewrite upd_length. repeat split; auto. }
  exists p, x1a, x2a. split; [exact Ep|]. cbv zeta. fold g. fold diff.
  split; [exact Lx1|]. split; [exact Lx2|].
  split; [intros j Hj; unfold xval; rewrite <- TV; auto|]. split; [exact X1'|]. split; [exact Eq1|]. split; [exact Y0|]. split; [exact Y0'|].
  split; [intros j Hj; unfold xval; rewrite <- TV; auto|]. split; [exact X2'|]. split; [exact Eq2|]. split; [exact Y1|]. split; [exact Y1'|].
  split. { intros j Hj. destruct (ext_dec P ptr2 i j) as [D|D]; [apply Z2, D|]. destruct Hj as [Hj|Hj]; [|contradiction].
    rewrite (Z2' j D). apply Z1, Hj. }
  split. { intros j N1 N2. rewrite (Z2' j N2). apply Z1', N1. }
  split; [reflexivity|]. split; [exact M1|]. intros c. destruct (in_dec Nat.eq_dec c (prow P i)) as [Hc|Hc]; [apply M2, Hc|]. rewrite (M3 c Hc), TV. apply kfold_out, Hc.
Qed.
(** never raises when the proximal operators do not and every feature has both reweighting entries *)
Lemma vr_sample_total prox1 prox2 step i s : prox_len B1 prox1 -> prox_len B2 prox2 ->
  (forall x i st, length x = d -> i < n -> exists x', prox1 x i (k_bsi B1) (k_bsp B1) (k_d B1) st = Ok x') ->
  (forall x i st, length x = d -> i < n -> exists x', prox2 x i (k_bsi B2) (k_bsp B2) (k_d B2) st = Ok x') ->
  (forall j, j < d -> in_range_d j = true) -> i < n -> vr_len s -> exists s', vr_sample P B1 B2 prox1 prox2 step i s = Ok s'.
Proof.
  intros Hp1 Hp2 T1 T2 Hr Hi (L0 & L1 & L2 & L3 & L4 & L5 & L6 & L7).
  destruct (row_dot_ok P HP i (vr_z s) Hi L4) as (p & Ep & _). unfold vr_sample. rewrite Ep. cbn [bind].
  destruct HP as (_ & _ & Lb). fold n in Lb. rewrite (get_ok (p_b P) i n0) by lia. cbn [bind]. rewrite (get_ok (vr_mem s) i n0) by lia. cbn [bind].
  set (g := p_fd P p (nth i (p_b P) n0)) in *. set (diff := nsub K g (nth i (vr_mem s) n0)) in *.
  destruct (set_tmp_ok P HP i diff (vr_tmp s) Hi L7) as (tmp & Et & Lt & _). fold d in Lt. rewrite Et. cbn [bind].
  destruct (vr_xupdate_ok ptr1 Hptr1 B1 EB1 step (vr_z s) (vr_y0 s) (vr_avg s) tmp (vr_x1 s) i Hi L4 L0 L6 Lt L2) as (x1a & Ex1 & Lx1 & _).
  rewrite Ex1. cbn [bind]. destruct (T1 x1a i step Lx1 Hi) as (x1 & Eq1). rewrite Eq1. cbn [bind].
  assert (Lx1p : length x1 = d) by (rewrite (Hp1 _ _ _ _ Eq1); exact Lx1).
  destruct (vr_yupdate_ok ptr1 Hptr1 B1 EB1 (vr_z s) x1 (vr_y0 s) i Hi L4 Lx1p L0) as (y0 & Ey0 & Ly0 & _). rewrite Ey0. cbn [bind].
  destruct (vr_xupdate_ok ptr2 Hptr2 B2 EB2 step (vr_z s) (vr_y1 s) (vr_avg s) tmp (vr_x2 s) i Hi L4 L1 L6 Lt L3) as (x2a & Ex2 & Lx2 & _).
  rewrite Ex2. cbn [bind]. destruct (T2 x2a i step Lx2 Hi) as (x2 & Eq2). rewrite Eq2. cbn [bind].
  assert (Lx2p : length x2 = d) by (rewrite (Hp2 _ _ _ _ Eq2); exact Lx2).
  destruct (vr_yupdate_ok ptr2 Hptr2 B2 EB2 (vr_z s) x2 (vr_y1 s) i Hi L4 Lx2p L1) as (y1 & Ey1 & Ly1 & _). rewrite Ey1. cbn [bind].
  destruct (vr_zupdate_ok ptr1 Hptr1 B1 EB1 y0 y1 (vr_z s) i Hi Ly0 Ly1 L4 Hr) as (za & Ez1). rewrite Ez1. cbn [bind].
  apply (vr_zupdate_inv ptr1 Hptr1 B1 EB1) in Ez1 as (Lz1 & _); auto.
  destruct (vr_zupdate_ok ptr2 Hptr2 B2 EB2 y0 y1 za i Hi Ly0 Ly1 Lz1 Hr) as (zb & Ez2). rewrite Ez2. cbn [bind].
  destruct (saga_memory_ok P HP i diff (vr_avg s) tmp Hi L6 Lt) as (avg' & tmp' & Em & La' & Lt' & _). rewrite Em. cbn [bind]. rewrite set_ok by lia. cbn [bind].
  eexists. reflexivity.
Qed.
Lemma vr_epoch_len prox1 prox2 step : prox_len B1 prox1 -> prox_len B2 prox2 -> forall hist, Forall (fun i => i < n) hist -> forall s s', vr_len s ->
  vr_epoch P B1 B2 prox1 prox2 step hist s = Ok s' -> vr_len s'.
Proof.
  intros H1 H2. unfold vr_epoch. induction hist as [|i l IH]; intros F s s' L E; cbn [forM] in E; [congruence|].
  inversion F; subst. apply bind_ok in E as (s1 & E1 & E2). apply (vr_sample_inv prox1 prox2 step i) in E1 as (L1 & _); auto. eapply IH; eauto.
Qed.
Lemma vr_epoch_total prox1 prox2 step : prox_len B1 prox1 -> prox_len B2 prox2 ->
  (forall x i st, length x = d -> i < n -> exists x', prox1 x i (k_bsi B1) (k_bsp B1) (k_d B1) st = Ok x') ->
  (forall x i st, length x = d -> i < n -> exists x', prox2 x i (k_bsi B2) (k_bsp B2) (k_d B2) st = Ok x') ->
  (forall j, j < d -> in_range_d j = true) -> forall hist, Forall (fun i => i < n) hist -> forall s, vr_len s ->
  exists s', vr_epoch P B1 B2 prox1 prox2 step hist s = Ok s' /\ vr_len s'.
Proof.
  intros H1 H2 T1 T2 Hr. unfold vr_epoch. induction hist as [|i l IH]; intros F s L; cbn [forM]; [eauto|].
  inversion F; subst. destruct (vr_sample_total prox1 prox2 step i s H1 H2 T1 T2 Hr H3 L) as (s1 & E1). rewrite E1. cbn [bind].
  apply (vr_sample_inv prox1 prox2 step i) in E1 as (L1 & _); auto.
Qed.
Lemma vr_epoch_app prox1 prox2 step a b s s' : vr_epoch P B1 B2 prox1 prox2 step (a ++ b) s = Ok s' <->
  exists s1, vr_epoch P B1 B2 prox1 prox2 step a s = Ok s1 /\ vr_epoch P B1 B2 prox1 prox2 step b s1 = Ok s'.
Proof.
  unfold vr_epoch. rewrite forM_app. destruct (forM a _ s) as [s1|e]; cbn [bind]; split.
  - intros E. exists s1. auto.
  - intros (s2 & E & E'). injection E as <-. exact E'.
  - discriminate.
  - intros (s2 & E & _). discriminate.
Qed.
(** z is the weighted average on every feature of a block of a visited sample *)
Lemma vr_z_avg prox1 prox2 step : prox_len B1 prox1 -> prox_len B2 prox2 -> forall hist, Forall (fun i => i < n) hist -> forall s s', vr_len s ->
  vr_epoch P B1 B2 prox1 prox2 step hist s = Ok s' -> forall j,
  ((exists i, In i hist /\ (ext P ptr1 i j \/ ext P ptr2 i j)) -> nth j (vr_z s') n0 = wavg (vr_y0 s') (vr_y1 s') j) /\
  ((forall i, In i hist -> ~ ext P ptr1 i j /\ ~ ext P ptr2 i j) -> nth j (vr_z s') n0 = nth j (vr_z s) n0 /\ nth j (vr_y0 s') n0 = nth j (vr_y0 s) n0 /\ nth j (vr_y1 s') n0 = nth j (vr_y1 s) n0).
Proof.
  intros H1 H2. induction hist as [|i l IH] using rev_ind; intros F s s' L E j.
  - unfold vr_epoch in E. cbn [forM] in E. injection E as <-. split; [intros (i & [] & _)|auto].
  - apply Forall_app in F as (F1 & F2). inversion F2; subst. apply vr_epoch_app in E as (s1 & E1 & E2). unfold vr_epoch in E2. cbn [forM] in E2. apply bind_ok in E2 as (s2 & E2 & E3). injection E3 as <-.
    assert (L1 : vr_len s1) by exact (vr_epoch_len prox1 prox2 step H1 H2 l F1 s s1 L E1).
    apply (vr_sample_inv prox1 prox2 step i) in E2 as (L2 & p & x1a & x2a & _ & _ & _ & _ & _ & _ & _ & Y0 & _ & _ & _ & _ & Y1 & Z & Z' & _); auto.
    destruct (IH F1 s s1 L E1 j) as (I1 & I2). split.
    + intros (k & Hk & Hex). destruct (ext_dec P ptr1 i j) as [D1|D1]; [apply Z; left; exact D1|]. destruct (ext_dec P ptr2 i j) as [D2|D2]; [apply Z; right; exact D2|].
      rewrite (Z' j D1 D2). unfold wavg. rewrite (Y0 j D1), (Y1 j D2). apply I1. exists k. split; [|exact Hex]. apply in_app_iff in Hk as [Hk|[<-|[]]]; [exact Hk|].
      destruct Hex; contradiction.
    + intros Hn. destruct (Hn i) as (D1 & D2); [apply in_app_iff; right; left; reflexivity|].
      destruct I2 as (A & B & C). { intros k Hk. apply Hn. apply in_app_iff. left; exact Hk. }
      rewrite (Z' j D1 D2), (Y0 j D1), (Y1 j D2). auto.
Qed.
Lemma vr_mem_hist prox1 prox2 step : prox_len B1 prox1 -> prox_len B2 prox2 -> forall hist s0 s, vr_len s0 -> Forall (fun i => i < n) hist ->
  vr_epoch P B1 B2 prox1 prox2 step hist s0 = Ok s -> forall i, i < n ->
  (~ In i hist -> nth i (vr_mem s) n0 = nth i (vr_mem s0) n0) /\
  (forall h1 h2, hist = h1 ++ i :: h2 -> ~ In i h2 -> exists s1 p, vr_epoch P B1 B2 prox1 prox2 step h1 s0 = Ok s1 /\
      row_dot P (vr_z s1) i = Ok p /\ nth i (vr_mem s) n0 = p_fd P p (nth i (p_b P) n0)).
Proof.
  intros Hp1 Hp2 hist s0 s L F E i Hi.
  assert (St : forall s1 s2 k, vr_len s1 -> k < n -> vr_sample P B1 B2 prox1 prox2 step k s1 = Ok s2 ->
     (exists p, row_dot P (vr_z s1) k = Ok p /\ nth k (vr_mem s2) n0 = p_fd P p (nth k (p_b P) n0)) /\
     (i <> k -> nth i (vr_mem s2) n0 = nth i (vr_mem s1) n0)).
  { intros s1 s2 k L1 Hk E1. assert (Lm : length (vr_mem s1) = n) by apply L1.
    apply (vr_sample_inv prox1 prox2 step k) in E1 as (L2 & p & x1a & x2a & Ep & _ & _ & _ & _ & _ & _ & _ & _ & _ & _ & _ & _ & _ & _ & Em & _); auto.
    rewrite Em. split.
    - exists p. split; [exact Ep|]. apply nth_upd_eq. lia.
    - intros N. apply nth_upd_neq. congruence. }
  assert (Fr : forall l s1 s2, Forall (fun i => i < n) l -> vr_len s1 -> ~ In i l -> vr_epoch P B1 B2 prox1 prox2 step l s1 = Ok s2 -> nth i (vr_mem s2) n0 = nth i (vr_mem s1) n0).
  { unfold vr_epoch. induction l as [|k l IH]; intros s1 s2 Fl L1 N E1; cbn [forM] in E1; [congruence|].
    inversion Fl; subst. apply bind_ok in E1 as (s3 & E3 & E4). rewrite (IH s3 s2); auto.
    - eapply St; eauto. intros ->. apply N. left; reflexivity.
    - apply (vr_sample_inv prox1 prox2 step k) in E3 as (L3 & _); auto.
    - intros H. apply N. right; exact H. }
  split; [intros N; eapply Fr; eauto|].
  intros h1 h2 -> N. apply Forall_app in F as (F1 & F2). inversion F2; subst.
  apply vr_epoch_app in E as (s1 & E1 & E2). unfold vr_epoch in E2. cbn [forM] in E2. apply bind_ok in E2 as (s2 & E2 & E3).
  assert (L1 : vr_len s1) by exact (vr_epoch_len prox1 prox2 step Hp1 Hp2 h1 F1 s0 s1 L E1).
  destruct (St s1 s2 i L1 Hi E2) as ((p & Ep & Em) & _). exists s1, p. split; [exact E1|]. split; [exact Ep|].
  rewrite (Fr h2 s2 s); auto. apply (vr_sample_inv prox1 prox2 step i) in E2 as (L3 & _); auto.
Qed.
(** coverage: a feature of a block touched by some sample has a reweighting entry *)
Lemma touched_range ptr B j : partitions ptr d -> make_blocks P ptr = Ok B -> touched P ptr j -> nth j (rblocks ptr) 0 < length (k_d B).
Proof.
  intros Hq EB (i & Hi & h & c & Hh & Hj & Hc & Hr). rewrite (rblocks_in _ _ _ _ Hq Hh Hj). eapply bw_in; eauto.
  apply (pblocks_in P HP ptr Hq i h Hi). split; [exact Hh|]. exists c. auto.
Qed.
End K.

Local Open Scope R_scope.
Section R.
Variable P : problem RN.
Hypothesis HP : problem_wf P.
Let n := p_n P.
Let d := p_d P.
Variables ptr1 ptr2 : list nat.
Hypothesis Hptr1 : partitions ptr1 d.
Hypothesis Hptr2 : partitions ptr2 d.
Variables B1 B2 : blocks RN.
Hypothesis EB1 : make_blocks P ptr1 = Ok B1.
Hypothesis EB2 : make_blocks P ptr2 = Ok B2.
Definition vr_inv (s : vr_state RN) : Prop :=
  (forall j, (j < d)%nat -> nth j (vr_avg s) 0 = mean_row P (fun i => nth i (vr_mem s) 0) j) /\ vr_tmp s = zeros d.
Lemma vr_sample_minv prox1 prox2 step i s s' : prox_len B1 prox1 -> prox_len B2 prox2 -> (i < n)%nat -> vr_len P s -> vr_inv s ->
  vr_sample P B1 B2 prox1 prox2 step i s = Ok s' -> vr_inv s'.
Proof.
  intros Hp1 Hp2 Hi L (I1 & I2) E. assert (Lm : length (vr_mem s) = n) by apply L.
  apply (vr_sample_inv P HP ptr1 ptr2 Hptr1 Hptr2 B1 B2 EB1 EB2 prox1 prox2 step i) in E
    as (L2 & p & x1a & x2a & Ep & _ & _ & _ & _ & _ & _ & _ & _ & _ & _ & _ & _ & _ & _ & Em & M1 & M2); auto.
  set (g := p_fd P p _) in *. destruct L2 as (_ & _ & _ & _ & _ & _ & La & Lt). fold d in Lt. unfold vr_inv. rewrite Em. split.
  - intros j Hj. eapply eq_trans; [|symmetry; apply (mean_row_upd P (vr_mem s) g i j Hi Lm)]. specialize (I1 j Hj).
    eapply eq_trans; [exact (M1 j)|]. eapply eq_trans; [apply kfold_sum|]. rewrite nofnat_R. fold n. eapply eq_trans; [|apply f_equal2; [exact I1|reflexivity]]. reflexivity.
  - apply (list_ext (vr_tmp s') (zeros d) 0); [rewrite zeros_length; exact Lt|]. intros j Hj. rewrite nth_zeros. eapply eq_trans; [exact (M2 j)|].
    destruct (in_dec Nat.eq_dec j (prow P i)) as [Hin|Hin]; [reflexivity|]. rewrite I2. apply nth_zeros.
Qed.
Lemma vr_epoch_minv prox1 prox2 step : prox_len B1 prox1 -> prox_len B2 prox2 -> forall hist, Forall (fun i => (i < n)%nat) hist -> forall s s', vr_len P s -> vr_inv s ->
  vr_epoch P B1 B2 prox1 prox2 step hist s = Ok s' -> vr_inv s'.
Proof.
  intros Hp1 Hp2. unfold vr_epoch. induction hist as [|i idx IH]; intros F s s' L I E; cbn [forM] in E; [congruence|].
  inversion F; subst. apply bind_ok in E as (s1 & E1 & E2). eapply IH; [assumption| | |exact E2].
  - apply (vr_sample_inv P HP ptr1 ptr2 Hptr1 Hptr2 B1 B2 EB1 EB2 prox1 prox2 step i) in E1 as (L1 & _); auto.
  - eapply vr_sample_minv; eauto.
Qed.
Lemma vr_init_inv x0 : vr_inv (vr_init P x0).
Proof.
  split; cbn; [|apply vzeros_R]. intros j Hj. unfold mean_row. rewrite (Rsum_zero (fun i => nth i (vzeros (K:=RN) (p_n P)) 0 * ent P i j)).
  - fold d. rewrite (vzeros_R d), nth_zeros. lra.
  - intros i _. rewrite (vzeros_R (p_n P)), nth_zeros. ring.
Qed.
End R.
